(* Specifications for the lossless-coding properties, independent of the model's helpers. *)
From Verif Require Import Common.
From Coq Require Import QArith Qminmax.
Local Open Scope nat_scope.

(* no word is a prefix of a word at another position *)
Definition prefix_free_words {A} (ws : list (list A)) : Prop :=
  forall i j a b, i <> j -> nth_error ws i = Some a -> nth_error ws j = Some b -> ~ exists r, b = a ++ r.

(* the concatenation of the words selected by a sequence of indices *)
Definition message {A} (ws : list (list A)) (ix : list nat) : list A := concat (map (fun i => nth i ws []) ix).

(* different messages have different concatenations *)
Definition uniquely_decodable {A} (ws : list (list A)) : Prop :=
  forall ix jx, Forall (fun i => i < length ws) ix -> Forall (fun i => i < length ws) jx ->
    message ws ix = message ws jx -> ix = jx.

(* every infinite sequence over {0, ..., card-1} starts with some word *)
Definition covers_every_sequence (ws : list (list N)) (card : N) : Prop :=
  forall f : nat -> N, (forall i, (f i < card)%N) ->
    exists w, In w ws /\ forall i x, nth_error w i = Some x -> f i = x.

(* Kraft sum: sum of base^-l, a rational number *)
Definition kraft_sum (base : N) (lengths : list nat) : Q :=
  fold_right (fun l acc => (/ inject_Z (Z.of_N base ^ Z.of_nat l) + acc)%Q) 0%Q lengths.

(* expected codeword length: sum of p_i * |w_i| *)
Fixpoint expected_length (pmf : list Q) (ws : list (list N)) : Q :=
  match pmf, ws with
  | p :: pmf', w :: ws' => (p * inject_Z (Z.of_nat (length w)) + expected_length pmf' ws')%Q
  | _, _ => 0%Q
  end.

(* probability of a block of source symbols of a memoryless source *)
Definition block_prob (pmf : list Q) (t : list N) : Q :=
  fold_right (fun x acc => (nth (N.to_nat x) pmf 0 * acc)%Q) 1%Q t.
