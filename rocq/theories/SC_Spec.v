(** What successive cancellation is meant to compute. *)
From Coq Require Import Reals.
From Verif Require Import Common Vec_Model LinAlg_Model.
Local Open Scope nat_scope.

(** the mu-fold Kronecker power of [[1,0],[1,1]] *)
Definition polar_matrix (mu : nat) : mat := map (fun i => map (fun j => Nat.land i j =? j) (seq 0 (2 ^ mu))) (seq 0 (2 ^ mu)).
(** the probability that a bit with L-value x = ln (P(0) / P(1)) is b *)
Definition bit_prob (x : R) (b : bool) : R := (if b then / (1 + exp x) else exp x / (1 + exp x))%R.
(** the probability of the word v of independent bits *)
Definition word_prob (li : list R) (v : vec) : R := fold_right Rmult 1%R (map (fun xb => bit_prob (fst xb) (snd xb)) (combine li v)).
(** all bit sequences of length n *)
Fixpoint tails (n : nat) : list vec := match n with 0 => [[]] | S n => map (cons false) (tails n) ++ map (cons true) (tails n) end.
(** the total probability of the codewords whose input word starts with the given bits, whatever the later bits are *)
Definition evidence (mu : nat) (li : list R) (start : vec) : R :=
  fold_right Rplus 0%R (map (fun s => word_prob li (vecmat (2 ^ mu) (start ++ s) (polar_matrix mu))) (tails (2 ^ mu - length start))).
(** The erasure pattern behind a polar transform: the sum of two bits is unknown when one of them is, the second bit, once the sum is
    known, when both observations are missing.  Applied mu times, left half first. *)
Fixpoint polar_erased (mu : nat) (e : list bool) : list bool :=
  match mu with
  | 0 => e
  | S m => let l := firstn (2 ^ m) e in let r := skipn (2 ^ m) e in
      polar_erased m (map (fun lr => fst lr || snd lr) (combine l r)) ++ polar_erased m (map (fun lr => fst lr && snd lr) (combine l r))
  end.
(** the L-values of a word seen through an erasure channel: 0 where erased, otherwise of the sign of the bit, of any size *)
Definition seen (li : list R) (e : list bool) (v : vec) : Prop := length li = length v /\ length e = length v /\
  forall j, j < length v -> if nth j e false then nth j li 0%R = 0%R else if nth j v false then (nth j li 0 < 0)%R else (0 < nth j li 0)%R.
