(** What is assumed of the C library, and polar coordinates. *)
From Coq Require Import Reals.
From Coquelicot Require Import Complex.
From Verif Require Import Common FloatPhase_Model.
Local Open Scope R_scope.

(** z has modulus rho and argument t (in radians) *)
Definition polar (z : C) (rho t : R) : Prop := z = (rho * cos t, rho * sin t).
(** cos and sin with an absolute error of 2^-52, atan2 within 2^-51 of an argument in [-pi, pi] of the number (either end is
    allowed for negative reals), hypot with a relative error of 2^-52 down to the smallest double, complex products with a
    relative error of 2^-51 of their modulus *)
Record accurate_library (L : library) : Prop := {
  acc_cos : forall x, Rabs (lib_cos L x - cos x) <= / 2 ^ 52;
  acc_sin : forall x, Rabs (lib_sin L x - sin x) <= / 2 ^ 52;
  acc_atan2 : forall x y, (x, y) <> (0, 0) ->
    exists rho t, 0 < rho /\ - PI <= t <= PI /\ polar (x, y) rho t /\ Rabs (lib_atan2 L y x - t) <= / 2 ^ 51;
  acc_hypot : forall x y, Rabs (lib_hypot L x y - Cmod (x, y)) <= / 2 ^ 52 * Cmod (x, y) + / 2 ^ 1074;
  acc_mul : forall z w, Cmod (Cminus (lib_mul L z w) (Cmult z w)) <= / 2 ^ 51 * (Cmod z * Cmod w) + / 2 ^ 1072 }.
