Set Warnings "-ambiguous-paths".
(** Specification vocabulary for the special functions. *)
From Coq Require Import Reals.
From Coquelicot Require Import Coquelicot.
Local Open Scope R_scope.

(** [integral_from g x v]: the integral of [g] from [x] to infinity exists and is [v]. *)
Definition integral_from (g : R -> R) (x v : R) : Prop :=
  is_RInt_gen g (at_point x) (Rbar_locally p_infty) v.
(** [integral_to g x v]: the integral of [g] from minus infinity to [x]. *)
Definition integral_to (g : R -> R) (x v : R) : Prop :=
  is_RInt_gen g (Rbar_locally m_infty) (at_point x) v.

(** The standard normal density. *)
Definition normal_pdf (u : R) : R := / sqrt (2 * PI) * exp (- u ^ 2 / 2).

(** [inv_cdf] is the inverse of the standard normal cumulative distribution function. *)
Definition is_inv_cdf (inv_cdf : R -> R) : Prop :=
  forall p, 0 < p < 1 -> integral_to normal_pdf (inv_cdf p) p.

(** The modified Bessel function of the first kind, of integer order. *)
Definition bessel_I (n : nat) (z : R) : R :=
  Series (fun k => (z / 2) ^ (2 * k + n) / (INR (fact k) * INR (fact (k + n)))).

(** Marcum's function as the documentation defines it. *)
Definition marcum_integrand (m : nat) (a u : R) : R :=
  / a ^ (m - 1) * (u ^ m * exp (- (u ^ 2 + a ^ 2) / 2) * bessel_I (m - 1) (a * u)).
Definition is_marcum (m : nat) (a x q : R) : Prop := integral_from (marcum_integrand m a) x q.
(** ... and its limit for a = 0: the chi distribution with 2m degrees of freedom. *)
Definition is_chi_tail (m : nat) (x q : R) : Prop :=
  integral_from (fun u => u ^ (2 * m - 1) * exp (- u ^ 2 / 2) / (2 ^ (m - 1) * INR (fact (m - 1)))) x q.
(** The value of Marcum's function for any a >= 0. *)
Definition marcum_value (m : nat) (a x q : R) : Prop :=
  (0 < a /\ is_marcum m a x q) \/ (a = 0 /\ is_chi_tail m x q).
