(** C88: the spectrum of a square-root pulse of any base pulse. *)
Set Warnings "-ambiguous-paths".
From Coq Require Import Reals Lra Psatz.
From Coquelicot Require Import Coquelicot.
From Verif Require Import Pulse_Model Pulse_Tol.
Local Open Scope R_scope.

(** Whatever the base pulse, the spectrum of its root is the principal square root of the base spectrum: its square is the base
    spectrum, its real part is not negative, and its imaginary part has the sign of that of the base spectrum.  The energy
    spectral density is the modulus of the base spectrum; energy and autocorrelation come from the base waveform. *)
Theorem C88_root_spectrum : forall (base : pulse) (wf : R -> R) (f : R),
  let z := spectrum base f in let r := spectrum (root_pulse base wf) f in
  fst r ^ 2 - snd r ^ 2 = fst z /\ 2 * (fst r * snd r) = snd z /\ 0 <= fst r /\ (0 <= snd z -> 0 <= snd r) /\ (snd z < 0 -> snd r <= 0) /\
  energy_spectral_density (root_pulse base wf) f = cabs z /\
  energy (root_pulse base wf) = waveform base 0 /\ forall tau, autocorrelation (root_pulse base wf) tau = waveform base tau.
Proof.
  intros base wf f. cbv zeta. cbn [root_pulse spectrum energy_spectral_density energy autocorrelation]. set (z := spectrum base f).
  assert (N : cabs z ^ 2 = fst z ^ 2 + snd z ^ 2) by apply cabs_sq. assert (C0 : 0 <= cabs z) by apply sqrt_pos.
  assert (A : 0 <= (cabs z + fst z) / 2 /\ 0 <= (cabs z - fst z) / 2) by (split; nra). destruct A as [A B].
  rewrite cabs_sq. unfold csqrt. cbn [fst snd]. set (s := if Rlt_dec (snd z) 0 then -1 else 1). assert (S2 : s ^ 2 = 1) by (unfold s; destruct Rlt_dec; ring).
  assert (Pa : sqrt ((cabs z + fst z) / 2) ^ 2 = (cabs z + fst z) / 2) by (cbn; rewrite Rmult_1_r; now apply sqrt_sqrt).
  assert (Pb : sqrt ((cabs z - fst z) / 2) ^ 2 = (cabs z - fst z) / 2) by (cbn; rewrite Rmult_1_r; now apply sqrt_sqrt).
  pose proof (sqrt_pos ((cabs z + fst z) / 2)) as Qa. pose proof (sqrt_pos ((cabs z - fst z) / 2)) as Qb.
  assert (PQ : sqrt ((cabs z + fst z) / 2) * sqrt ((cabs z - fst z) / 2) = Rabs (snd z) / 2).
  { rewrite <- sqrt_mult by assumption. replace ((cabs z + fst z) / 2 * ((cabs z - fst z) / 2)) with (Rsqr (Rabs (snd z) / 2)).
    - rewrite sqrt_Rsqr; [reflexivity|]. pose proof (Rabs_pos (snd z)). lra.
    - unfold Rsqr. replace (Rabs (snd z) / 2 * (Rabs (snd z) / 2)) with (Rsqr (Rabs (snd z)) / 4) by (unfold Rsqr; field). rewrite <- Rsqr_abs. unfold Rsqr. cbn [pow] in N. rewrite !Rmult_1_r in N. nra. }
  set (a := sqrt ((cabs z + fst z) / 2)) in *. set (b := sqrt ((cabs z - fst z) / 2)) in *.
  replace ((s * b) ^ 2) with (b ^ 2) by (replace ((s * b) ^ 2) with (s ^ 2 * b ^ 2) by ring; rewrite S2; ring).
  split; [rewrite Pa, Pb; field|]. split; [|split; [exact Qa|split; [|split; [|split; [rewrite Pa, Pb; field|split; reflexivity]]]]].
  - replace (2 * (a * (s * b))) with (2 * s * (a * b)) by ring. rewrite PQ. unfold s, Rabs. destruct Rlt_dec, Rcase_abs; try lra.
  - intros H. unfold s. destruct Rlt_dec; lra.
  - intros H. unfold s. destruct Rlt_dec; lra.
Qed.
(** a complex base spectrum: i has the root (1 + i) / sqrt 2 *)
Theorem C88_root_spectrum_met : forall base wf f, spectrum base f = (0, 2) -> spectrum (root_pulse base wf) f = (1, 1).
Proof.
  intros base wf f E. cbn [root_pulse spectrum]. rewrite E. unfold csqrt, cabs. cbn [fst snd]. replace (0 ^ 2 + 2 ^ 2) with (Rsqr 2) by (unfold Rsqr; ring). rewrite sqrt_Rsqr by lra.
  replace ((2 + 0) / 2) with 1 by field. replace ((2 - 0) / 2) with 1 by field. rewrite sqrt_1. destruct Rlt_dec; [lra|]. f_equal. ring.
Qed.
