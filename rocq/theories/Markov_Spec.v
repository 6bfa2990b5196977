(* Markov chains: vocabulary of the properties. *)
Set Warnings "-notation-overridden,-ambiguous-paths".
From mathcomp Require Import all_ssreflect all_algebra.
From Verif Require Import Markov_Model.
Set Implicit Arguments.
Unset Strict Implicit.
Unset Printing Implicit Defensive.
Import Order.TTheory GRing.Theory Num.Theory.
Local Open Scope ring_scope.

Section Spec.
Variable F : realFieldType.
Implicit Type P : seq (seq F).

(* A square matrix with non-negative entries. *)
Definition nonneg_square P : Prop :=
  (forall i, (i < size P)%N -> size (nth [::] P i) = size P) /\
  (forall i j, (i < size P)%N -> (j < size P)%N -> 0 <= entry P i j).

(* ... whose rows sum to one. *)
Definition stochastic P : Prop :=
  nonneg_square P /\ forall i, (i < size P)%N -> \sum_(0 <= j < size P) entry P i j = 1.

(* Probability of going from i to j in exactly k steps (an entry of P^k). *)
Fixpoint step_prob P (k : nat) (i j : nat) : F :=
  if k is k'.+1 then \sum_(0 <= l < size P) entry P i l * step_prob P k' l j
  else (i == j)%:R.

(* j is accessible from i: positive probability in some number of steps *)
Definition leads_to P (i j : nat) : Prop := exists k, 0 < step_prob P k i j.

(* convergence of a sequence of field elements *)
Definition converges (u : nat -> F) (l : F) : Prop :=
  forall eps, 0 < eps -> exists K, forall k, (K <= k)%N -> `| u k - l | < eps.

End Spec.
