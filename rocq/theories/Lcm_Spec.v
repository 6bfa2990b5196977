(** Least common multiples of lists of binary polynomials. *)
From Coq Require Import NArith List.
From Verif Require Import BinPoly_Model Algebra_Spec.
Import ListNotations.
Local Open Scope N_scope.

(** [m] is a multiple of every member of [l], and divides every other such multiple *)
Definition is_lcm (l : list N) (m : N) : Prop :=
  (forall x, In x l -> ndvd x m) /\ forall c, (forall x, In x l -> ndvd x c) -> ndvd m c.
(** the members of [l], at different positions, have no common divisor but 1 *)
Definition pairwise_coprime (l : list N) : Prop := ForallOrdPairs (fun a b => forall d, ndvd d a -> ndvd d b -> d = 1) l.
