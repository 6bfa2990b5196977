Set Warnings "-ambiguous-paths".
(** Specification vocabulary for pulses: improper Riemann integrals over the
    whole line (Coquelicot's [is_RInt_gen] with both bounds going to infinity
    independently), Fourier pairs, autocorrelation, Nyquist criterion. *)
From Coq Require Import List ZArith Reals.
From Coquelicot Require Import Coquelicot.
Import ListNotations.
Local Open Scope R_scope.

(** [integral g v]: the integral of [g] over the real line exists and is [v]. *)
Definition integral (g : R -> R) (v : R) : Prop :=
  is_RInt_gen g (Rbar_locally m_infty) (Rbar_locally p_infty) v.

(** [S] is the Fourier transform of the real signal [p]:
    S(f) = int p(t) e^{-j 2 pi f t} dt. *)
Definition fourier_transform (p : R -> R) (S : R -> R * R) : Prop :=
  forall f : R,
    integral (fun t => p t * cos (2 * PI * f * t)) (fst (S f)) /\
    integral (fun t => - (p t * sin (2 * PI * f * t))) (snd (S f)).

(** [p] at [t] is the inverse Fourier transform of [S]:
    p(t) = int S(f) e^{j 2 pi f t} df, a real number. *)
Definition inverse_fourier_at (S : R -> R * R) (t v : R) : Prop :=
  integral (fun f => fst (S f) * cos (2 * PI * f * t) - snd (S f) * sin (2 * PI * f * t)) v /\
  integral (fun f => fst (S f) * sin (2 * PI * f * t) + snd (S f) * cos (2 * PI * f * t)) 0.
Definition inverse_fourier (S : R -> R * R) (p : R -> R) : Prop :=
  forall t : R, inverse_fourier_at S t (p t).

(** R(tau) = int p(t + tau) p(t) dt. *)
Definition is_autocorrelation (p A : R -> R) : Prop :=
  forall tau : R, integral (fun t => p (t + tau) * p t) (A tau).

(** E = int p(t)^2 dt. *)
Definition is_energy (p : R -> R) (E : R) : Prop := integral (fun t => p t ^ 2) E.

(** Nyquist's criterion for zero intersymbol interference, in time. *)
Definition nyquist (p : R -> R) : Prop :=
  p 0 = 1 /\ forall k : Z, k <> 0%Z -> p (IZR k) = 0.

(** ... and in frequency: the translates of the spectrum by all integers add up
    to 1; the sum over |k| <= n is 1 for all large n. *)
Definition Zsum (g : Z -> R) (n : nat) : R :=
  fold_right Rplus 0 (map (fun i => g (Z.of_nat i - Z.of_nat n)%Z) (seq 0 (2 * n + 1))).
Definition translates_sum_to_one (S : R -> R) : Prop :=
  forall f : R, exists n0 : nat, forall n : nat, (n0 <= n)%nat ->
    Zsum (fun k => S (f - IZR k)) n = 1.
