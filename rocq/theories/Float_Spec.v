(** A C library whose log has a relative error of at most 2^-52 (one unit in the last place) on the integers that a double
    represents exactly. *)
From Coq Require Import Reals.
From Flocq Require Import Core.
From Verif Require Import Common Float_Model.
Local Open Scope R_scope.

Definition accurate (clog : R -> R) : Prop :=
  forall n : Z, (1 <= n < 2 ^ 53)%Z -> Rabs (clog (IZR n) - ln (IZR n)) <= / 2 ^ 52 * ln (IZR n).
Definition accurate2 (clog2 : R -> R) : Prop :=
  forall n : Z, (1 <= n < 2 ^ 53)%Z -> Rabs (clog2 (IZR n) - ln (IZR n) / ln 2) <= / 2 ^ 52 * (ln (IZR n) / ln 2).
(** sizes for which the widths are guaranteed *)
Definition moderate (n : N) : Prop := (n <= 2 ^ 44)%N.
