(** Specification of the Fourier transform of a sampled waveform. *)
From Coq Require Import Reals.
From Coquelicot Require Import Complex.
From Verif Require Import Common Corr_Model Corr_Spec Array_Model Array_Spec.
Local Open Scope R_scope.

(** the line a[p, :, q] with [len] samples as a waveform: zero outside *)
Definition waveform (a : array C) (len : nat) (p q : list nat) (m : nat) : C :=
  if (m <? len)%nat then get (RtoC 0) a (p ++ m :: q) else RtoC 0.
(** Riemann sum, with step [dt] and [n] samples x(m dt), of the integral of x(t) exp(-j 2 pi f t) dt *)
Definition fourier_sum (n : nat) (dt : R) (x : nat -> C) (f : R) : C :=
  Cmult (Csum n (fun m => Cmult (x m) (cexp (- (2 * PI * f * (INR m * dt)))))) (RtoC dt).
(** the number of points of the transform: nfft if it is given and not 0, else the number of samples *)
Definition points (nfft : option Z) (len n : nat) : Prop :=
  (0 < n)%nat /\ (nfft = Some (Z.of_nat n) \/ (nfft = None \/ nfft = Some 0%Z) /\ n = len).
