(** Hypotheses of the theorems on Huffman, Fano and Tunstall codes in double precision. *)
From Coq Require Import Reals Permutation.
From Flocq Require Import Core.
From Verif Require Import Common Prefix_Model Float_Model FloatShannon_Spec.
Local Open Scope R_scope.

(* a double in [0, 1] that is zero or at least 2^-1000 *)
Definition double_prob (p : R) : Prop := binary64 p = p /\ (p = 0 \/ representable_range p).
(* a summation routine whose relative error on lists of probabilities is at most 1/8 (sequential and pairwise summation in
   double precision are far better) *)
Definition sum_like (npsum : list R -> R) : Prop :=
  forall l, Forall double_prob l -> (Z.of_nat (length l) <= 2 ^ 48)%Z -> Rabs (npsum l - rsum l) <= rsum l / 8.
(* a heap: pop returns one of the elements and the others *)
Definition heap_like {A} (pop : list A -> option (A * list A)) : Prop :=
  forall h, h <> [] -> exists x r, pop h = Some (x, r) /\ Permutation h (x :: r).
(* an integer multiple of 2^-53 *)
From Coq Require Import QArith.
Definition grid53 (q : Q) : Prop := exists z : Z, (q * inject_Z (2 ^ 53) == inject_Z z)%Q.
(* the probability of a sourceword as it is computed: multiplied up symbol by symbol, rounding each product *)
Definition computed_prob (pmf : list R) (w : list N) : R :=
  match w with [] => 1%R | s :: r => fold_left (fun a t => binary64 (a * nth (N.to_nat t) pmf 0%R)) r (nth (N.to_nat s) pmf 0%R) end.
