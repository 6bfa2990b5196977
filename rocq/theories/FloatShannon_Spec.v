(** What ShannonCode promises, independent of the model. *)
From Coq Require Import Reals.
From Flocq Require Import Core.
From Verif Require Import Common Float_Model.
Local Open Scope R_scope.

(* the length the documentation promises for a block of probability p: the least l >= 1 with 2^-l <= p *)
Definition ideal_length (l : nat) (p : R) : Prop :=
  (1 <= l)%nat /\ 1 <= p * 2 ^ l /\ forall m, (1 <= m < l)%nat -> p * 2 ^ m < 1.
(* a base-2 logarithm as C libraries provide it: exact order at powers of two, and error at most one unit in the last
   place for arguments of at least 2 *)
Definition log2_like (clog2 : R -> R) : Prop :=
  (forall x k, (k <= 1100)%nat -> 1 <= x -> x <= 2 ^ k -> clog2 x <= INR k) /\
  (forall x k, (k <= 1100)%nat -> 1 <= x -> 2 ^ k <= x -> INR k <= clog2 x) /\
  (forall x, 2 <= x -> Rabs (clog2 x - ln x / ln 2) <= / 2 ^ 52 * (ln x / ln 2)).
(* p does not lie within a relative distance 2^-40 below a power of two *)
Definition clear_of_powers (p : R) : Prop := forall m, (1 <= m)%nat -> p * 2 ^ m < 1 -> p * 2 ^ m <= 1 - / 2 ^ 40.
(* the probabilities for which overflow plays no role *)
Definition representable_range (p : R) : Prop := / 2 ^ 1000 <= p <= 1.
Definition rsum (l : list R) : R := fold_right Rplus 0 l.
