(* Bose distances, in elementary terms. *)
From Verif Require Import Common.
Local Open Scope nat_scope.

(* Let n = 2^mu - 1.  The exponents i and i * 2^t give conjugate powers of a primitive n-th root of unity, so d adds a
   new zero to the generator polynomial exactly when it is not congruent to i * 2^t for any smaller i >= 1. *)
Definition bose_distance (mu d : nat) : Prop :=
  forall i t, 1 <= i < d -> (i * 2 ^ t) mod (2 ^ mu - 1) <> d mod (2 ^ mu - 1).
