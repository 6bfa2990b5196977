(** C85-C90: pulses. *)
Set Warnings "-ambiguous-paths".
From Coq Require Import List ZArith Reals Lra Lia Psatz.
From Coquelicot Require Import Coquelicot.
From Verif Require Import Pulse_Model Pulse_Spec Pulse_Int Pulse_Basic Pulse_RC Pulse_RC2
  Pulse_Beau Pulse_RootBeau Pulse_Gauss Pulse_Gauss2 Pulse_Tol.
Import ListNotations.
Local Open Scope R_scope.

(** ** C85: rectangular and Manchester pulses *)

(** The waveform is 1 on [0, w) and 0 elsewhere. *)
Theorem C85_rectangular_waveform (w t : R) : 0 < w ->
  (0 <= t < w -> waveform (RectangularPulse w) t = 1) /\
  (t < 0 \/ w <= t -> waveform (RectangularPulse w) t = 0).
Proof.
  intros Hw. rewrite rect_wf. split; intros H.
  - apply rect_shift_in; lra.
  - apply rect_shift_out; lra.
Qed.

Lemma energy_of_auto (p A : R -> R) : is_autocorrelation p A -> is_energy p (A 0).
Proof.
  intros H. apply integral_ext with (2 := H 0). intros t. rewrite Rplus_0_r. ring.
Qed.
Lemma sin2cos2 (x : R) : cos x ^ 2 + sin x ^ 2 = 1.
Proof. rewrite <- (sin2_cos2 x). unfold Rsqr. ring. Qed.

(** Spectrum, autocorrelation, energy and energy spectral density are those of
    the waveform, for every width. *)
Theorem C85_rectangular (w : R) : 0 < w ->
  let p := RectangularPulse w in
  fourier_transform (waveform p) (spectrum p) /\
  is_autocorrelation (waveform p) (autocorrelation p) /\
  is_energy (waveform p) (energy p) /\
  (forall f, energy_spectral_density p f = fst (spectrum p f) ^ 2 + snd (spectrum p f) ^ 2).
Proof.
  intros Hw p. split; [|split; [|split]].
  - apply rect_fourier; exact Hw.
  - apply rect_autocorr; exact Hw.
  - pose proof (energy_of_auto _ _ (rect_autocorr w Hw)) as E.
    replace (autocorrelation (RectangularPulse w) 0) with w in E; [exact E|].
    cbn [autocorrelation RectangularPulse]. rewrite tri_scaled by exact Hw.
    rewrite Rabs_R0. destruct Rlt_dec; lra.
  - intros f. unfold p. cbn [energy_spectral_density spectrum RectangularPulse cscale cexp fst snd].
    set (x := -2 * PI * w / 2 * f). pose proof (sin2cos2 x) as S.
    replace ((w * sinc (w * f) * cos x) ^ 2 + (w * sinc (w * f) * sin x) ^ 2)
      with (w ^ 2 * sinc (w * f) ^ 2 * (cos x ^ 2 + sin x ^ 2)) by ring.
    rewrite S. ring.
Qed.
Example C85_rectangular_case : 0 < 1/2 /\ waveform (RectangularPulse (1/2)) (1/4) = 1.
Proof. split; [lra|]. apply (C85_rectangular_waveform (1/2) (1/4)); lra. Qed.

Theorem C85_manchester_waveform (t : R) :
  (0 <= t < 1/2 -> waveform ManchesterPulse t = -1) /\
  (1/2 <= t < 1 -> waveform ManchesterPulse t = 1) /\
  (t < 0 \/ 1 <= t -> waveform ManchesterPulse t = 0).
Proof.
  rewrite manchester_wf. split; [|split]; intros H.
  - rewrite rect_shift_in, rect_shift_out by lra. ring.
  - rewrite rect_shift_out, rect_shift_in by lra. ring.
  - rewrite !rect_shift_out by lra. ring.
Qed.

Theorem C85_manchester :
  let p := ManchesterPulse in
  fourier_transform (waveform p) (spectrum p) /\
  is_autocorrelation (waveform p) (autocorrelation p) /\
  is_energy (waveform p) (energy p) /\
  (forall f, energy_spectral_density p f = fst (spectrum p f) ^ 2 + snd (spectrum p f) ^ 2).
Proof.
  intros p. split; [|split; [|split]].
  - apply manchester_fourier.
  - apply manchester_autocorr.
  - pose proof (energy_of_auto _ _ manchester_autocorr) as E.
    replace (autocorrelation ManchesterPulse 0) with 1 in E; [exact E|].
    cbn [autocorrelation ManchesterPulse].
    rewrite (tri_in (2 * 0)), (tri_out (2 * (0 - 1/2))), (tri_out (2 * (0 + 1/2))).
    + rewrite Rmult_0_r, Rabs_R0. ring.
    + rewrite Rabs_right; lra.
    + rewrite Rabs_left; lra.
    + rewrite Rmult_0_r, Rabs_R0. lra.
  - intros f. unfold p. cbn [energy_spectral_density spectrum ManchesterPulse cscale cexp fst snd].
    set (x := -2 * PI * (f / 2 + 1 / 4)). pose proof (sin2cos2 x) as S.
    set (c := sinc (f / 2) * sin (2 * PI * f / 4)).
    replace ((c * cos x) ^ 2 + (c * sin x) ^ 2) with (c ^ 2 * (cos x ^ 2 + sin x ^ 2)) by ring.
    rewrite S. unfold c. ring.
Qed.

(** ** C86: sinc, raised-cosine and Beaulieu pulses *)

(** The constructors accept exactly the roll-off factors in [0, 1]. *)
Theorem C86_constructors (a : R) :
  (0 <= a <= 1 -> RaisedCosinePulse a = Some (rc_pulse a) /\ BeaulieuPulse a = Some (beaulieu_pulse a)) /\
  (a < 0 \/ 1 < a -> RaisedCosinePulse a = None /\ BeaulieuPulse a = None).
Proof.
  unfold RaisedCosinePulse, BeaulieuPulse.
  split; intros H; split; destruct Rle_dec; try lra; try reflexivity; destruct Rle_dec; try lra; reflexivity.
Qed.

Lemma rc_zero_wf (t : R) : raised_cosine t 0 = sinc t.
Proof.
  unfold raised_cosine. rewrite Rmult_0_l, Rplus_0_l.
  replace (0 - 1/2) with (- (1/2)) by ring. rewrite sinc_even, sinc_half.
  field. pose proof PI_RGT_0. lra.
Qed.

Lemma inverse_ext (S S' : R -> R * R) (t v : R) :
  (forall f, S f = S' f) -> inverse_fourier_at S t v -> inverse_fourier_at S' t v.
Proof.
  intros E [H1 H2]. split; [eapply integral_ext; [|exact H1]|eapply integral_ext; [|exact H2]];
    intros f; cbv beta; rewrite E; reflexivity.
Qed.
Lemma inverse_eq (S : R -> R * R) (t v v' : R) :
  v = v' -> inverse_fourier_at S t v -> inverse_fourier_at S t v'.
Proof. intros ->; auto. Qed.
Lemma inverse_unique (S : R -> R * R) (t v v' : R) :
  inverse_fourier_at S t v -> inverse_fourier_at S t v' -> v = v'.
Proof. intros [H _] [H' _]. eapply integral_unique; eassumption. Qed.

(** The waveform is the inverse Fourier transform of the spectrum. *)
Theorem C86_sinc_waveform : inverse_fourier (spectrum SincPulse) (waveform SincPulse).
Proof. intros t. apply low_pass_inverse. Qed.

Theorem C86_raised_cosine_waveform (a : R) (p : pulse) :
  RaisedCosinePulse a = Some p -> inverse_fourier (spectrum p) (waveform p).
Proof.
  intros E. unfold RaisedCosinePulse in E.
  destruct Rle_dec as [H0|]; [|discriminate]. destruct Rle_dec as [H1|]; [|discriminate].
  injection E as <-. intros t. cbn [spectrum waveform rc_pulse].
  destruct (Req_EM_T a 0) as [->|N].
  - rewrite rc_zero_wf. eapply inverse_ext; [|apply low_pass_inverse].
    intros f. unfold rc_spectrum. destruct Req_EM_T; [reflexivity|lra].
  - assert (Ha : 0 < a <= 1) by lra.
    apply inverse_even with ((1 + a) / 2).
    + lra.
    + apply rc_even; exact Ha.
    + intros f Hf. apply rc_high; [exact Ha|]. rewrite Rabs_right; lra.
    + rewrite <- rc_closed by lra. apply rc_half; exact Ha.
    + apply rc_odd_ex; exact Ha.
Qed.

Theorem C86_beaulieu_waveform (a : R) (p : pulse) :
  BeaulieuPulse a = Some p -> inverse_fourier (spectrum p) (waveform p).
Proof.
  intros E. unfold BeaulieuPulse in E.
  destruct Rle_dec as [H0|]; [|discriminate]. destruct Rle_dec as [H1|]; [|discriminate].
  injection E as <-. intros t. cbn [spectrum waveform beaulieu_pulse].
  destruct (Req_EM_T a 0) as [->|N].
  - unfold beaulieu_waveform. destruct Req_EM_T; [|lra].
    eapply inverse_ext; [|apply low_pass_inverse].
    intros f. unfold beaulieu_spectrum. destruct Req_EM_T; [reflexivity|lra].
  - assert (Ha : 0 < a <= 1) by lra.
    apply inverse_even with ((1 + a) / 2).
    + lra.
    + apply bl_even; exact Ha.
    + intros f Hf. apply bl_out; [exact Ha|]. rewrite Rabs_right; lra.
    + apply bl_half; exact Ha.
    + apply bl_odd_ex; exact Ha.
Qed.

(** The energy spectral density is |spectrum|^2, the energy is its integral
    (Parseval), the autocorrelation its inverse Fourier transform. *)
Theorem C86_sinc_energy :
  let p := SincPulse in
  (forall f, energy_spectral_density p f = fst (spectrum p f) ^ 2 + snd (spectrum p f) ^ 2) /\
  integral (energy_spectral_density p) (energy p) /\
  (forall tau, inverse_fourier_at (fun f => (energy_spectral_density p f, 0)) tau (autocorrelation p tau)).
Proof.
  intros p. split; [|split].
  - intros f. cbn [energy_spectral_density spectrum p SincPulse fst snd]. rewrite rect_sq. ring.
  - destruct (low_pass_inverse 0) as [H _]. cbn [fst snd] in H. rewrite sinc_0 in H.
    eapply integral_ext; [|exact H]. intros f. cbv beta. rewrite !Rmult_0_r, cos_0. simpl. ring.
  - intros tau. apply low_pass_inverse.
Qed.

Lemma energy_from_inverse (S : R -> R) (v : R) :
  inverse_fourier_at (fun f => (S f, 0)) 0 v -> integral S v.
Proof.
  intros [H _]. cbn [fst snd] in H. eapply integral_ext; [|exact H].
  intros f. cbv beta. rewrite !Rmult_0_r, cos_0. ring.
Qed.

Lemma rc_sq_inverse (a tau : R) : 0 < a <= 1 ->
  inverse_fourier_at (fun f => (cabs (rc_spectrum a f, 0) ^ 2, 0)) tau (rc_auto_exact a tau).
Proof.
  intros Ha.
  apply inverse_ext with (fun f => (rc_spectrum a f ^ 2, 0)).
  { intros f. rewrite cabs_sq. cbn [fst snd]. f_equal. ring. }
  apply inverse_even with ((1 + a) / 2).
  - lra.
  - intros f. rewrite rc_even by exact Ha. reflexivity.
  - intros f Hf. rewrite rc_high by (exact Ha || (rewrite Rabs_right; lra)). ring.
  - eapply RI_eq; [|apply rc_half_sq; exact Ha].
    unfold rc_auto_exact. pose proof (rc_closed a tau ltac:(lra)) as C.
    set (x := (1 - a) / 2 * sinc (2 * ((1 - a) / 2) * tau)) in *. lra.
  - apply rc_odd_ex_sq; exact Ha.
Qed.

(** For the raised-cosine pulse the autocorrelation is exact except where
    [np.isclose] replaces the formula near |tau| = 1/alpha; there it is within
    1e-4, and exact again at the singular point itself. *)
Theorem C86_raised_cosine_energy (a : R) (p : pulse) :
  RaisedCosinePulse a = Some p ->
  (forall f, energy_spectral_density p f = fst (spectrum p f) ^ 2 + snd (spectrum p f) ^ 2) /\
  integral (energy_spectral_density p) (energy p) /\
  (forall tau, exists v,
     inverse_fourier_at (fun f => (energy_spectral_density p f, 0)) tau v /\
     Rabs (autocorrelation p tau - v) <= 1 / 10000 /\
     (a = 0 \/ ~ isclose (Rabs tau) (1 / a) \/ Rabs tau = 1 / a -> autocorrelation p tau = v)).
Proof.
  intros E. unfold RaisedCosinePulse in E.
  destruct Rle_dec as [H0|]; [|discriminate]. destruct Rle_dec as [H1|]; [|discriminate].
  injection E as <-. cbn [spectrum energy_spectral_density energy autocorrelation rc_pulse].
  split; [|split].
  - intros f. apply cabs_sq.
  - destruct (Req_EM_T a 0) as [->|N].
    + replace (1 - 0 / 4) with 1 by field.
      destruct (low_pass_inverse 0) as [H _]. cbn [fst snd] in H. rewrite sinc_0 in H.
      eapply integral_ext; [|exact H]. intros f. cbv beta. rewrite !Rmult_0_r, cos_0, cabs_sq.
      cbn [fst snd]. unfold rc_spectrum. destruct Req_EM_T; [|lra]. rewrite rect_sq. ring.
    + assert (Ha : 0 < a <= 1) by lra.
      replace (1 - a / 4) with (rc_auto_exact a 0).
      * apply energy_from_inverse. apply rc_sq_inverse. exact Ha.
      * unfold rc_auto_exact. rewrite (rc_term_regular a 0) by (rewrite Rmult_0_r; lra).
        unfold raised_cosine. rewrite !Rmult_0_r, sinc_0, cos_0, Rplus_0_l.
        replace (0 - 1/2) with (- (1/2)) by ring. rewrite sinc_even, sinc_half.
        field. pose proof PI_RGT_0. lra.
  - intros tau. destruct (Req_EM_T a 0) as [->|N].
    + exists (sinc tau). unfold rc_autocorrelation. destruct Req_EM_T; [|lra]. split; [|split].
      * eapply inverse_ext; [|apply low_pass_inverse].
        intros f. rewrite cabs_sq. cbn [fst snd]. unfold rc_spectrum. destruct Req_EM_T; [|lra].
        rewrite rect_sq. f_equal. ring.
      * rewrite Rminus_eq_0, Rabs_R0. lra.
      * reflexivity.
    + assert (Ha : 0 < a <= 1) by lra. destruct (rc_auto_close a tau Ha) as [C1 C2].
      exists (rc_auto_exact a tau). split; [apply rc_sq_inverse; exact Ha|]. split; [exact C1|].
      intros [Z|Z]; [contradiction|auto].
Qed.

Theorem C86_beaulieu_energy (a : R) (p : pulse) :
  BeaulieuPulse a = Some p ->
  (forall f, energy_spectral_density p f = fst (spectrum p f) ^ 2 + snd (spectrum p f) ^ 2) /\
  integral (energy_spectral_density p) (energy p) /\
  (forall tau, inverse_fourier_at (fun f => (energy_spectral_density p f, 0)) tau (autocorrelation p tau)).
Proof.
  intros E. unfold BeaulieuPulse in E.
  destruct Rle_dec as [H0|]; [|discriminate]. destruct Rle_dec as [H1|]; [|discriminate].
  injection E as <-. cbn [spectrum energy_spectral_density energy autocorrelation beaulieu_pulse].
  assert (A : forall tau, inverse_fourier_at (fun f => (cabs (beaulieu_spectrum a f, 0) ^ 2, 0)) tau
                            (beaulieu_autocorrelation a tau)).
  { intros tau. apply inverse_ext with (fun f => (beaulieu_spectrum a f ^ 2, 0)).
    { intros f. rewrite cabs_sq. cbn [fst snd]. f_equal. ring. }
    destruct (Req_EM_T a 0) as [->|N].
    - unfold beaulieu_autocorrelation. destruct Req_EM_T; [|lra].
      eapply inverse_ext; [|apply low_pass_inverse].
      intros f. unfold beaulieu_spectrum. destruct Req_EM_T; [|lra]. rewrite rect_sq. reflexivity.
    - assert (Ha : 0 < a <= 1) by lra.
      apply inverse_even with ((1 + a) / 2).
      + lra.
      + intros f. rewrite bl_even by exact Ha. reflexivity.
      + intros f Hf. rewrite bl_out by (exact Ha || (rewrite Rabs_right; lra)). ring.
      + apply bl_half_sq; exact Ha.
      + apply bl_odd_ex_sq; exact Ha. }
  split; [|split; [|exact A]].
  - intros f. apply cabs_sq.
  - replace (1 - a / (4 * ln 2)) with (beaulieu_autocorrelation a 0).
    + apply energy_from_inverse. apply A.
    + unfold beaulieu_autocorrelation. pose proof ln2_pos. destruct Req_EM_T as [->|N].
      * rewrite sinc_0. field. lra.
      * cbv zeta. rewrite !Rmult_0_r, sinc_0, cos_0, sin_0. field. lra.
Qed.
Example C86_case : exists p q, RaisedCosinePulse (1/4) = Some p /\ BeaulieuPulse (1/4) = Some q.
Proof.
  exists (rc_pulse (1/4)), (beaulieu_pulse (1/4)). apply (C86_constructors (1/4)). lra.
Qed.

(** ** C87: Nyquist pulses *)
Theorem C87_sinc : nyquist (waveform SincPulse) /\ translates_sum_to_one (fun f => fst (spectrum SincPulse f)).
Proof.
  split; [apply sinc_nyquist|]. cbn [spectrum SincPulse fst]. apply translates.
  - intros x Hx. apply rect_out. unfold Rabs in Hx. destruct Rcase_abs; lra.
  - intros r Hr. rewrite (rect_in r), (rect_out (r - 1)), (rect_out (r + 1)) by lra. ring.
Qed.
Lemma rect_translates : translates_sum_to_one rect.
Proof. apply C87_sinc. Qed.
Lemma translates_ext (S S' : R -> R) :
  (forall f, S f = S' f) -> translates_sum_to_one S -> translates_sum_to_one S'.
Proof.
  intros E H f. destruct (H f) as [n0 Hn]. exists n0. intros n Hle.
  rewrite <- (Hn n Hle). unfold Zsum. f_equal. apply map_ext. intros i. symmetry. apply E.
Qed.

Theorem C87_raised_cosine (a : R) (p : pulse) :
  RaisedCosinePulse a = Some p ->
  nyquist (waveform p) /\ translates_sum_to_one (fun f => fst (spectrum p f)).
Proof.
  intros E. unfold RaisedCosinePulse in E.
  destruct Rle_dec as [H0|]; [|discriminate]. destruct Rle_dec as [H1|]; [|discriminate].
  injection E as <-. cbn [spectrum waveform rc_pulse fst].
  split.
  - split.
    + unfold raised_cosine. rewrite Rmult_0_r, sinc_0, Rplus_0_l.
      replace (0 - 1/2) with (- (1/2)) by ring. rewrite sinc_even, sinc_half.
      field. pose proof PI_RGT_0. lra.
    + intros k Hk. unfold raised_cosine. rewrite sinc_Z by exact Hk. ring.
  - destruct (Req_EM_T a 0) as [->|N].
    + eapply translates_ext; [|apply rect_translates]. intros f. unfold rc_spectrum.
      destruct Req_EM_T; [reflexivity|lra].
    + assert (Ha : 0 < a <= 1) by lra. apply translates_even.
      * apply rc_even; exact Ha.
      * intros x Hx. apply rc_high; [exact Ha|]. rewrite Rabs_right; lra.
      * intros r Hr. destruct (Rlt_or_le r ((1 - a) / 2)) as [L|L].
        -- rewrite (rc_low a Ha r) by (rewrite Rabs_right; lra).
           rewrite (rc_high a Ha (1 - r)) by (rewrite Rabs_right; lra). ring.
        -- rewrite (rc_mid a Ha r) by (rewrite Rabs_right; lra). rewrite (Rabs_right r) by lra.
           destruct (Req_EM_T r ((1 - a) / 2)) as [->|Nr].
           { rewrite (rc_high a Ha) by (rewrite Rabs_right; lra).
             replace (PI * ((1 - a) / 2 - (1 - a) / 2) / a) with 0 by (field; exact N).
             rewrite cos_0. field. }
           rewrite (rc_mid a Ha (1 - r)) by (rewrite Rabs_right; lra).
           rewrite (Rabs_right (1 - r)) by lra.
           replace (PI * (1 - r - (1 - a) / 2) / a) with (PI - PI * (r - (1 - a) / 2) / a) by (field; exact N).
           rewrite cos_minus, cos_PI, sin_PI. field.
Qed.

Theorem C87_beaulieu (a : R) (p : pulse) :
  BeaulieuPulse a = Some p ->
  nyquist (waveform p) /\ translates_sum_to_one (fun f => fst (spectrum p f)).
Proof.
  intros E. unfold BeaulieuPulse in E.
  destruct Rle_dec as [H0|]; [|discriminate]. destruct Rle_dec as [H1|]; [|discriminate].
  injection E as <-. cbn [spectrum waveform beaulieu_pulse fst].
  split.
  - destruct (Req_EM_T a 0) as [->|N].
    + unfold beaulieu_waveform. destruct Req_EM_T; [|lra].
      split; [apply sinc_0|apply sinc_Z].
    + assert (B : 2 * ln 2 / a <> 0).
      { pose proof ln2_pos. assert (0 < 2 * ln 2 / a) by (apply Rdiv_lt_0_compat; lra). lra. }
      unfold beaulieu_waveform. destruct Req_EM_T; [lra|]. cbv zeta. split.
      * rewrite !Rmult_0_r, sinc_0, cos_0, sin_0. field. pose proof ln2_pos. repeat split; lra.
      * intros k Hk. rewrite sinc_Z by exact Hk. unfold Rdiv. ring.
  - destruct (Req_EM_T a 0) as [->|N].
    + eapply translates_ext; [|apply rect_translates]. intros f. unfold beaulieu_spectrum.
      destruct Req_EM_T; [reflexivity|lra].
    + assert (Ha : 0 < a <= 1) by lra. apply translates_even.
      * apply bl_even; exact Ha.
      * intros x Hx. apply bl_out; [exact Ha|]. rewrite Rabs_right; lra.
      * intros r Hr. destruct (Rlt_or_le r ((1 - a) / 2)) as [L|L].
        -- rewrite (bl_low a Ha r) by (rewrite Rabs_right; lra).
           rewrite (bl_out a Ha (1 - r)) by (rewrite Rabs_right; lra). ring.
        -- destruct (Req_EM_T r (1/2)) as [->|Nr].
           { replace (1 - 1/2) with (1/2) by field.
             rewrite (bl_hi a Ha (1/2)) by (rewrite Rabs_right; lra). rewrite (Rabs_right (1/2)) by lra.
             pose proof (bl_half2 a Ha) as B2.
             replace (- (2 * ln 2 / a) * ((1 + a) / 2 - 1/2))
               with (2 * ln 2 / a * (1/2) + - (2 * ln 2 / a) * ((1 + a) / 2)) by ring.
             rewrite B2. field. }
           rewrite (bl_mid a Ha r) by (rewrite Rabs_right; lra). rewrite (Rabs_right r) by lra.
           destruct (Req_EM_T r ((1 - a) / 2)) as [->|Nr2].
           { rewrite (bl_out a Ha) by (rewrite Rabs_right; lra).
             rewrite Rminus_eq_0, Rmult_0_r, exp_0. ring. }
           rewrite (bl_hi a Ha (1 - r)) by (rewrite Rabs_right; lra).
           rewrite (Rabs_right (1 - r)) by lra.
           replace ((1 + a) / 2 - (1 - r)) with (r - (1 - a) / 2) by field. ring.
Qed.

(** ** C88: square-root pulses *)

(** The spectrum of the root is the non-negative real square root of the
    spectrum of the base pulse; its square is the energy spectral density of
    the root; and the waveform of the root is the inverse Fourier transform of
    its spectrum (exactly outside the [np.isclose] windows and at the singular
    points, within 1e-4 everywhere). *)
Theorem C88_root_raised_cosine (a : R) (p : pulse) :
  RaisedCosinePulse a = Some p ->
  let r := rc_root a in
  (forall f, 0 <= fst (spectrum r f) /\ fst (spectrum r f) ^ 2 = fst (spectrum p f) /\
             snd (spectrum r f) = 0 /\ energy_spectral_density r f = fst (spectrum p f)) /\
  (forall t, exists v,
     inverse_fourier_at (spectrum r) t v /\
     Rabs (waveform r t - v) <= 1 / 10000 /\
     (a = 0 \/ ((~ isclose t 0 \/ t = 0) /\
                (~ isclose (Rabs t) (1 / (4 * a)) \/ Rabs t = 1 / (4 * a))) -> waveform r t = v)) /\
  integral (energy_spectral_density r) (energy r) /\
  inverse_fourier (fun f => (energy_spectral_density r f, 0)) (autocorrelation r) /\
  nyquist (autocorrelation r).
Proof.
  intros E r. pose proof (C86_raised_cosine_waveform a p E) as W.
  pose proof (C87_raised_cosine a p E) as [Ny _].
  unfold RaisedCosinePulse in E.
  destruct Rle_dec as [H0|]; [|discriminate]. destruct Rle_dec as [H1|]; [|discriminate].
  injection E as <-. unfold r, rc_root.
  cbn [spectrum waveform energy autocorrelation energy_spectral_density rc_pulse root_pulse].
  assert (Pos : forall f, 0 <= rc_spectrum a f).
  { intros f. destruct (Req_EM_T a 0) as [->|N].
    - unfold rc_spectrum. destruct Req_EM_T; [|lra]. destruct (rect_01 f); lra.
    - apply rc_range. lra. }
  assert (Esd : forall f, cabs (csqrt (rc_spectrum a f, 0)) ^ 2 = rc_spectrum a f).
  { intros f. rewrite csqrt_real, cabs_sq by apply Pos. cbn [fst snd].
    pose proof (sqrt_sqrt _ (Pos f)). lra. }
  split; [|split; [|split; [|split]]].
  - intros f. rewrite Esd, csqrt_real by apply Pos. cbn [fst snd].
    split; [apply sqrt_pos|]. split; [pose proof (sqrt_sqrt _ (Pos f)); lra|]. split; reflexivity.
  - intros t. destruct (Req_EM_T a 0) as [->|N].
    + exists (sinc t). unfold rrc_waveform. destruct Req_EM_T; [|lra]. split; [|split].
      * eapply inverse_ext; [|apply low_pass_inverse].
        intros f. cbv beta. rewrite csqrt_real by apply Pos. unfold rc_spectrum. destruct Req_EM_T; [|lra].
        destruct (rect_01 f) as [->| ->]; [rewrite sqrt_0|rewrite sqrt_1]; reflexivity.
      * rewrite Rminus_eq_0, Rabs_R0. lra.
      * reflexivity.
    + assert (Ha : 0 < a <= 1) by lra. destruct (rrc_close a t Ha) as [C1 C2].
      exists (rrc_exact a t). split; [|split; [exact C1|]].
      * apply inverse_ext with (fun f => (sqrt (rc_spectrum a f), 0)).
        { intros f. rewrite csqrt_real by apply Pos. reflexivity. }
        apply inverse_even with ((1 + a) / 2).
        -- lra.
        -- intros f. rewrite rc_even by exact Ha. reflexivity.
        -- intros f Hf. rewrite rc_high by (exact Ha || (rewrite Rabs_right; lra)). apply sqrt_0.
        -- eapply RI_eq; [|apply rc_half_sqrt; exact Ha]. unfold rrc_exact. field.
        -- apply rc_odd_ex_sqrt; exact Ha.
      * intros [Z|[Z1 Z2]]; [contradiction|auto].
  - apply energy_from_inverse. eapply inverse_ext; [|apply W]. intros f. cbn [spectrum rc_pulse]. rewrite Esd. reflexivity.
  - intros t. eapply inverse_ext; [|apply W]. intros f. cbn [spectrum rc_pulse]. rewrite Esd. reflexivity.
  - exact Ny.
Qed.

(** [SincPulse.root] is the pulse itself: the spectrum is its own square root. *)
Theorem C88_root_sinc :
  (forall f, 0 <= fst (spectrum sinc_root f) /\
             fst (spectrum sinc_root f) ^ 2 = fst (spectrum SincPulse f) /\
             snd (spectrum sinc_root f) = 0) /\
  inverse_fourier (spectrum sinc_root) (waveform sinc_root) /\ nyquist (autocorrelation sinc_root).
Proof.
  split; [|split].
  - intros f. cbn [spectrum sinc_root SincPulse fst snd]. rewrite rect_sq.
    destruct (rect_01 f); lra.
  - apply C86_sinc_waveform.
  - apply sinc_nyquist.
Qed.

(** [BeaulieuPulse.root]: the outer band is integrated numerically.  If the
    quadrature rule (256-point Gauss-Legendre in the code) approximates the
    integral over [-1, 1] of the integrand below within [eps], the waveform is
    within [eps] of the inverse Fourier transform of the square-root spectrum. *)
Definition quad (rule : list (R * R)) (g : R -> R) : R :=
  fold_right Rplus 0 (map (fun xw => snd xw * g (fst xw)) rule).
Definition outer_integrand (a t x : R) : R :=
  let v := (x + 1) * (sqrt (a / 2) / 2) in
  sqrt (a / 2) / 2 *
  (cos (2 * PI * t * ((1 + a) / 2 - v ^ 2)) * (4 * v * sqrt (1 - exp (- 2 * (ln 2 / a) * v ^ 2)))).

Theorem C88_root_beaulieu (rule : list (R * R)) (a : R) (p : pulse) :
  BeaulieuPulse a = Some p ->
  let r := beaulieu_root rule a in
  (forall f, 0 <= fst (spectrum r f) /\ fst (spectrum r f) ^ 2 = fst (spectrum p f) /\
             snd (spectrum r f) = 0 /\ energy_spectral_density r f = fst (spectrum p f)) /\
  (forall t eps,
     (a <> 0 -> forall I, is_RInt (outer_integrand a t) (-1) 1 I ->
                Rabs (quad rule (outer_integrand a t) - I) <= eps) ->
     0 <= eps ->
     exists v, inverse_fourier_at (spectrum r) t v /\ Rabs (waveform r t - v) <= eps) /\
  integral (energy_spectral_density r) (energy r) /\
  inverse_fourier (fun f => (energy_spectral_density r f, 0)) (autocorrelation r) /\
  nyquist (autocorrelation r).
Proof.
  intros E r. pose proof (C86_beaulieu_waveform a p E) as W.
  pose proof (C87_beaulieu a p E) as [Ny _].
  unfold BeaulieuPulse in E.
  destruct Rle_dec as [H0|]; [|discriminate]. destruct Rle_dec as [H1|]; [|discriminate].
  injection E as <-. unfold r, beaulieu_root.
  cbn [spectrum waveform energy autocorrelation energy_spectral_density beaulieu_pulse root_pulse].
  assert (Pos : forall f, 0 <= beaulieu_spectrum a f).
  { intros f. destruct (Req_EM_T a 0) as [->|N].
    - unfold beaulieu_spectrum. destruct Req_EM_T; [|lra]. destruct (rect_01 f); lra.
    - apply bl_range. lra. }
  assert (Esd : forall f, cabs (csqrt (beaulieu_spectrum a f, 0)) ^ 2 = beaulieu_spectrum a f).
  { intros f. rewrite csqrt_real, cabs_sq by apply Pos. cbn [fst snd].
    pose proof (sqrt_sqrt _ (Pos f)). lra. }
  split; [|split; [|split; [|split]]].
  - intros f. rewrite Esd, csqrt_real by apply Pos. cbn [fst snd].
    split; [apply sqrt_pos|]. split; [pose proof (sqrt_sqrt _ (Pos f)); lra|]. split; reflexivity.
  - intros t eps Hq He. destruct (Req_EM_T a 0) as [->|N].
    + exists (sinc t). unfold rb_waveform. destruct Req_EM_T; [|lra]. split.
      * eapply inverse_ext; [|apply low_pass_inverse].
        intros f. cbv beta. rewrite csqrt_real by apply Pos. unfold beaulieu_spectrum. destruct Req_EM_T; [|lra].
        destruct (rect_01 f) as [->| ->]; [rewrite sqrt_0|rewrite sqrt_1]; reflexivity.
      * rewrite Rminus_eq_0, Rabs_R0. exact He.
    + assert (Ha : 0 < a <= 1) by lra.
      destruct (outer_subst a Ha t) as [I [HI1 HI2]].
      specialize (Hq N I HI2).
      exists ((1 - a) * sinc ((1 - a) * t) + 2 * rb_mid a t + I). split.
      * apply inverse_ext with (fun f => (sqrt (beaulieu_spectrum a f), 0)).
        { intros f. rewrite csqrt_real by apply Pos. reflexivity. }
        apply inverse_even with ((1 + a) / 2).
        -- lra.
        -- intros f. rewrite bl_even by exact Ha. reflexivity.
        -- intros f Hf. rewrite bl_out by (exact Ha || (rewrite Rabs_right; lra)). apply sqrt_0.
        -- apply rb_half_sqrt; assumption.
        -- apply rb_odd_ex; exact Ha.
      * unfold rb_waveform. destruct Req_EM_T as [|_]; [contradiction|]. cbv zeta.
        match goal with |- Rabs (_ + _ + ?q - _) <= _ =>
          assert (Q : q = quad rule (outer_integrand a t)) end.
        { unfold quad, rb_quadrature. rewrite map_map. f_equal. apply map_ext. intros [x w].
          cbn [fst snd]. unfold outer_integrand. cbv zeta.
          match goal with |- cos ?c * _ = _ => set (C := cos c) end.
          match goal with |- context [sqrt (1 - ?e)] => set (Sq := sqrt (1 - e)) end.
          ring. }
        rewrite Q. unfold rb_mid.
        match goal with |- Rabs ?x <= _ =>
          replace x with (quad rule (outer_integrand a t) - I) by (unfold Rdiv; ring) end.
        exact Hq.
  - apply energy_from_inverse. eapply inverse_ext; [|apply W]. intros f. cbn [spectrum beaulieu_pulse]. rewrite Esd. reflexivity.
  - intros t. eapply inverse_ext; [|apply W]. intros f. cbn [spectrum beaulieu_pulse]. rewrite Esd. reflexivity.
  - exact Ny.
Qed.

(** ** C89: Gaussian pulse *)
Theorem C89_constructor (B : R) :
  (0 < B -> GaussianPulse B = Some (gaussian_pulse B)) /\ (B <= 0 -> GaussianPulse B = None).
Proof. unfold GaussianPulse. split; intros H; destruct Rlt_dec; try lra; reflexivity. Qed.

Lemma b_bar_pos (B : R) : 0 < B -> 0 < b_bar B.
Proof. intros H. unfold b_bar. apply Rdiv_lt_0_compat; [exact H|]. apply sqrt_lt_R0, ln2_pos. Qed.

Lemma sqrt2PI : sqrt (2 * PI) = sqrt 2 * sqrt PI.
Proof. apply sqrt_mult; [lra|left; apply PI_RGT_0]. Qed.

Theorem C89_gaussian (B : R) (p : pulse) :
  GaussianPulse B = Some p ->
  fourier_transform (waveform p) (spectrum p) /\
  is_autocorrelation (waveform p) (autocorrelation p) /\
  is_energy (waveform p) (energy p) /\
  (forall f, energy_spectral_density p f = fst (spectrum p f) ^ 2 + snd (spectrum p f) ^ 2).
Proof.
  intros E. unfold GaussianPulse in E. destruct Rlt_dec as [HB|]; [|discriminate]. injection E as <-.
  pose proof (b_bar_pos B HB) as Hb. set (b := b_bar B) in *.
  pose proof PI_RGT_0 as HP. pose proof sqrt2_pos as H2. pose proof sq2 as Q2.
  pose proof sqrtPI_pos as HS. pose proof sqrtPI_sq as QS.
  set (k := sqrt 2 * PI * b).
  assert (Hk : 0 < k) by (unfold k; apply Rmult_lt_0_compat; [apply Rmult_lt_0_compat|]; lra).
  assert (Ek : k * k = 2 * PI * PI * b * b) by (unfold k; nra).
  assert (Wf : forall t, exp (- (1/2) * (2 * PI * b * t) ^ 2) = ge (k * t + 0)).
  { intros t. unfold ge. f_equal.
    replace (- (k * t + 0) ^ 2) with (- (k * k * t ^ 2)) by ring. rewrite Ek. field. }
  assert (Ft : fourier_transform (waveform (gaussian_pulse B)) (spectrum (gaussian_pulse B))).
  { intros f. cbn [waveform spectrum gaussian_pulse fst snd]. fold b.
    set (z := PI * f / k).
    assert (Ez : forall t, 2 * z * (k * t + 0) = 2 * PI * f * t) by (intros t; unfold z; field; lra).
    split.
    - eapply integral_eq; [|eapply integral_ext; [|apply (integral_lin _ k 0 _ Hk (gauss_cos z))]].
      + rewrite sqrt2PI.
        replace (- z ^ 2) with (- (1/2) * (f / b) ^ 2).
        2:{ unfold z.
            replace (- (PI * f / k) ^ 2) with (- (PI * f) ^ 2 / (k * k)) by (field; lra).
            rewrite Ek. field. split; lra. }
        unfold k. rewrite <- QS at 2. field. repeat split; lra.
      + intros t. cbv beta. rewrite <- Wf, Ez. reflexivity.
    - eapply integral_eq; [|eapply integral_ext; [|apply (integral_scal _ (-1) _ (integral_lin _ k 0 _ Hk (gauss_sin z)))]].
      + field. lra.
      + intros t. cbv beta. rewrite <- Wf, Ez. ring. }
  assert (Ac : is_autocorrelation (waveform (gaussian_pulse B)) (autocorrelation (gaussian_pulse B))).
  { intros tau. cbn [waveform autocorrelation gaussian_pulse]. fold b.
    set (m := 2 * PI * b). assert (Hm : 0 < m) by (unfold m; apply Rmult_lt_0_compat; lra).
    pose proof (gauss_cos 0) as G0.
    eapply integral_eq; [|eapply integral_ext;
      [|apply (integral_scal _ (exp (- (PI * b * tau) ^ 2)) _ (integral_lin _ m (m * tau / 2) _ Hm G0))]].
    - replace (- 0 ^ 2) with 0 by ring. rewrite exp_0. unfold m.
      replace (2 * sqrt PI * b) with (2 * b * sqrt PI) by ring.
      set (X := exp (- (PI * b * tau) ^ 2)). clearbody X.
      replace (2 * PI * b) with (2 * (sqrt PI * sqrt PI) * b) by (rewrite QS; reflexivity).
      field. split; lra.
    - intros t. cbv beta. rewrite Rmult_0_r, Rmult_0_l, cos_0, Rmult_1_r.
      unfold ge. rewrite <- !exp_plus. f_equal. fold m.
      replace (PI * b) with (m / 2) by (unfold m; field). field. }
  split; [exact Ft|]. split; [exact Ac|]. split.
  - pose proof (energy_of_auto _ _ Ac) as En. cbn [autocorrelation energy gaussian_pulse] in *. fold b in En. fold b.
    replace (- (PI * b * 0) ^ 2) with 0 in En by ring. rewrite exp_0, Rmult_1_r in En. exact En.
  - intros f. cbn [spectrum energy_spectral_density gaussian_pulse fst snd]. fold b.
    replace (- (f / b) ^ 2) with (- (1/2) * (f / b) ^ 2 + - (1/2) * (f / b) ^ 2) by (field; lra).
    rewrite exp_plus, sqrt2PI. set (e := exp (- (1/2) * (f / b) ^ 2)).
    replace ((1 / (sqrt 2 * sqrt PI * b) * e) ^ 2 + 0 ^ 2)
      with (1 / ((sqrt 2 * sqrt 2) * (sqrt PI * sqrt PI) * b ^ 2) * (e * e))
      by (field; repeat split; lra).
    rewrite Q2, QS. reflexivity.
Qed.

(** The parameter is the half-power bandwidth: the energy spectral density
    falls to one half of its value at zero exactly at |f| = B. *)
Theorem C89_half_power (B : R) (p : pulse) : GaussianPulse B = Some p ->
  forall f, energy_spectral_density p f = energy_spectral_density p 0 / 2 <-> Rabs f = B.
Proof.
  intros E. unfold GaussianPulse in E. destruct Rlt_dec as [HB|]; [|discriminate]. injection E as <-.
  pose proof (b_bar_pos B HB) as Hb. pose proof PI_RGT_0 as HP. pose proof ln2_pos as Hl.
  intros f. cbn [energy_spectral_density gaussian_pulse].
  replace (- (0 / b_bar B) ^ 2) with 0 by (field; lra). rewrite exp_0.
  assert (K : 0 < 1 / (2 * PI * b_bar B ^ 2)).
  { apply Rdiv_lt_0_compat; [lra|]. apply Rmult_lt_0_compat; [lra|]. apply pow_lt; exact Hb. }
  assert (L : (f / b_bar B) ^ 2 = f ^ 2 * ln 2 / B ^ 2).
  { unfold b_bar. assert (Q : sqrt (ln 2) * sqrt (ln 2) = ln 2) by (apply sqrt_sqrt; lra).
    pose proof (sqrt_lt_R0 _ Hl).
    replace ((f / (B / sqrt (ln 2))) ^ 2) with (f ^ 2 * (sqrt (ln 2) * sqrt (ln 2)) / B ^ 2) by (field; split; lra).
    rewrite Q. reflexivity. }
  rewrite L.
  assert (HH : exp (- ln 2) = 1/2) by (rewrite exp_Ropp, exp_ln by lra; lra).
  assert (PB : 0 < B ^ 2) by (apply pow_lt; exact HB).
  split.
  - intros H. assert (X : exp (- (f ^ 2 * ln 2 / B ^ 2)) = exp (- ln 2)).
    { rewrite HH. apply Rmult_eq_reg_l with (1 / (2 * PI * b_bar B ^ 2)); [|lra]. lra. }
    apply exp_inv in X.
    assert (Y : f ^ 2 = B ^ 2).
    { apply Rmult_eq_reg_r with (ln 2 / B ^ 2); [|apply Rgt_not_eq, Rdiv_lt_0_compat; lra].
      replace (B ^ 2 * (ln 2 / B ^ 2)) with (ln 2) by (field; lra).
      replace (f ^ 2 * (ln 2 / B ^ 2)) with (f ^ 2 * ln 2 / B ^ 2) by (field; lra). lra. }
    rewrite <- (Rabs_right B) by lra. apply Rsqr_eq_abs_0. unfold Rsqr. lra.
  - intros <-. replace (f ^ 2 * ln 2 / Rabs f ^ 2) with (ln 2).
    + rewrite HH. field. split; [|lra]. lra.
    + assert (Z : Rabs f ^ 2 = f ^ 2) by (rewrite pow2_abs; reflexivity). rewrite Z in *. field.
      intros ->. rewrite Rabs_R0 in HB. lra.
Qed.
Example C89_case : exists p, GaussianPulse (1/2) = Some p.
Proof. exists (gaussian_pulse (1/2)). apply (C89_constructor (1/2)). lra. Qed.

(** ** C90: taps *)

(** With an explicit span (a, b), the taps are the (b - a) sps + 1 samples of the
    waveform at a, a + 1/sps, ..., b. *)
Theorem C90_taps (p : pulse) (sps a b : Z) : (0 < sps)%Z -> (a <= b)%Z ->
  exists l, taps p sps (Some (a, b)) = Some l /\
    Z.of_nat (length l) = ((b - a) * sps + 1)%Z /\
    (forall i, (i < length l)%nat -> nth i l 0 = waveform p (IZR a + INR i / IZR sps)).
Proof.
  intros Hs Hab. eexists. split; [reflexivity|]. split.
  - apply (taps_length p sps a b); [exact Hab|lia|reflexivity].
  - intros i Hi. apply (taps_nth p sps a b); [exact Hs|reflexivity|exact Hi].
Qed.

(** Without a span: the six pulses (and the square-root pulses) of infinite
    support raise, the two of finite support use [0, 1], and then no sample of
    the support is missed as long as the width is at most 1. *)
Theorem C90_taps_default (sps : Z) (w B a : R) (rule : list (R * R)) :
  taps (RectangularPulse w) sps None = taps (RectangularPulse w) sps (Some (0, 1)%Z) /\
  taps ManchesterPulse sps None = taps ManchesterPulse sps (Some (0, 1)%Z) /\
  taps SincPulse sps None = None /\ taps (rc_pulse a) sps None = None /\
  taps (beaulieu_pulse a) sps None = None /\ taps (gaussian_pulse B) sps None = None /\
  taps (rc_root a) sps None = None /\ taps (beaulieu_root rule a) sps None = None.
Proof. repeat split. Qed.

Theorem C90_default_span_covers (w t : R) : 0 < w <= 1 ->
  (waveform (RectangularPulse w) t <> 0 -> 0 <= t <= 1) /\
  (waveform ManchesterPulse t <> 0 -> 0 <= t <= 1).
Proof.
  intros Hw. split; intros H.
  - destruct (Rlt_or_le t 0) as [L|L]; [exfalso; apply H; apply C85_rectangular_waveform; lra|].
    destruct (Rlt_or_le 1 t) as [L2|L2]; [exfalso; apply H; apply C85_rectangular_waveform; lra|lra].
  - destruct (Rlt_or_le t 0) as [L|L]; [exfalso; apply H; apply C85_manchester_waveform; lra|].
    destruct (Rlt_or_le 1 t) as [L2|L2]; [exfalso; apply H; apply C85_manchester_waveform; lra|lra].
Qed.

(** ... but the constructor does not enforce the documented 0 < w <= 1, and for
    a wider pulse the default span cuts the waveform off. *)
Theorem C90_default_span_cuts (w : R) : 1 < w ->
  exists t, 1 < t /\ waveform (RectangularPulse w) t = 1.
Proof.
  intros Hw. exists ((1 + w) / 2). split; [lra|]. apply C85_rectangular_waveform; lra.
Qed.

(** For a Nyquist pulse, the taps at multiples of the symbol period are 0 except
    at time 0, where the tap is 1. *)
Theorem C90_nyquist_taps (p : pulse) (sps a b : Z) (l : list R) (k : nat) :
  nyquist (waveform p) -> (0 < sps)%Z -> taps p sps (Some (a, b)) = Some l ->
  (k * Z.to_nat sps < length l)%nat ->
  nth (k * Z.to_nat sps) l 0 = if (a + Z.of_nat k =? 0)%Z then 1 else 0.
Proof.
  intros [N0 N1] Hs Ht Hk. rewrite (taps_nth p sps a b l _ Hs Ht Hk).
  assert (E : IZR a + INR (k * Z.to_nat sps) / IZR sps = IZR (a + Z.of_nat k)).
  { rewrite mult_INR, plus_IZR, !INR_IZR_INZ, Z2Nat.id by lia. field. apply not_0_IZR. lia. }
  rewrite E. destruct (Z.eqb_spec (a + Z.of_nat k) 0) as [->|N]; [exact N0|apply N1; exact N].
Qed.
Example C90_case : nyquist (waveform (rc_pulse (1/4))) /\ (0 < 8)%Z.
Proof.
  split; [|lia].
  apply (C87_raised_cosine (1/4)). apply (C86_constructors (1/4)). lra.
Qed.
