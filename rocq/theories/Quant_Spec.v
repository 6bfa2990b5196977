(* Specification of quantizers. *)
From Coq Require Import Reals.
From Verif Require Import Common.
Local Open Scope R_scope.

(* y_0 < t_0 < y_1 < t_1 < ... < y_n *)
Definition strictly_interleaved (y t : list R) : Prop :=
  length y = S (length t) /\ forall i, (i < length t)%nat -> nth i y 0 < nth i t 0 < nth (S i) y 0.
(* x_min <= y_0 <= t_0 <= y_1 <= ... <= y_n <= x_max *)
Definition interleaved_within (xmin xmax : R) (y t : list R) : Prop :=
  length y = S (length t) /\ xmin <= nth 0 y 0 /\ nth (length t) y 0 <= xmax /\ forall i, (i < length t)%nat -> nth i y 0 <= nth i t 0 <= nth (S i) y 0.
(* x lies in cell number k: from threshold k-1 (included) to threshold k (excluded) *)
Definition in_cell (t : list R) (k : nat) (x : R) : Prop :=
  (k <= length t)%nat /\ (forall i, (i < k)%nat -> nth i t 0 <= x) /\ (forall i, (k <= i < length t)%nat -> x < nth i t 0).
