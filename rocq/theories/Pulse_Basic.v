(** Proofs for the rectangular, Manchester and sinc pulses, and for [taps]. *)
Set Warnings "-ambiguous-paths".
From Coq Require Import List ZArith Reals Lra Lia Psatz.
From Coquelicot Require Import Coquelicot.
From Verif Require Import Pulse_Model Pulse_Spec Pulse_Int.
Import ListNotations.
Local Open Scope R_scope.

Lemma integral_plus (g h : R -> R) (u v : R) :
  integral g u -> integral h v -> integral (fun x => g x + h x) (u + v).
Proof.
  intros H1 H2. apply integral_intro. intros eps He.
  destruct (integral_elim _ _ H1 (eps / 2)) as [M1 K1]; [lra|].
  destruct (integral_elim _ _ H2 (eps / 2)) as [M2 K2]; [lra|].
  exists (Rmax M1 M2). intros a b Ha Hb.
  pose proof (Rmax_l M1 M2); pose proof (Rmax_r M1 M2).
  destruct (K1 a b) as [x [Ix Ex]]; try lra.
  destruct (K2 a b) as [y [Iy Ey]]; try lra.
  exists (x + y). split; [apply RI_plus; assumption|].
  replace (x + y - (u + v)) with ((x - u) + (y - v)) by ring.
  pose proof (Rabs_triang (x - u) (y - v)). lra.
Qed.
Lemma integral_scal (g : R -> R) (k u : R) :
  integral g u -> integral (fun x => k * g x) (k * u).
Proof.
  intros H1. apply integral_intro. intros eps He.
  assert (Hk : 0 < Rabs k + 1) by (pose proof (Rabs_pos k); lra).
  destruct (integral_elim _ _ H1 (eps / (Rabs k + 1))) as [M1 K1].
  { apply Rdiv_lt_0_compat; lra. }
  exists M1. intros a b Ha Hb.
  destruct (K1 a b) as [x [Ix Ex]]; try lra.
  exists (k * x). split; [apply RI_scal; assumption|].
  replace (k * x - k * u) with (k * (x - u)) by ring. rewrite Rabs_mult.
  apply Rle_lt_trans with ((Rabs k + 1) * Rabs (x - u)).
  - pose proof (Rabs_pos (x - u)). nra.
  - apply Rmult_lt_compat_l with (r := Rabs k + 1) in Ex; [|exact Hk].
    replace ((Rabs k + 1) * (eps / (Rabs k + 1))) with eps in Ex by (field; lra). exact Ex.
Qed.
Lemma integral_minus (g h : R -> R) (u v : R) :
  integral g u -> integral h v -> integral (fun x => g x - h x) (u - v).
Proof.
  intros H1 H2. apply integral_ext with (fun x => g x + (-1) * h x); [intros; ring|].
  replace (u - v) with (u + (-1) * v) by ring.
  apply integral_plus; [exact H1|]. apply integral_scal. exact H2.
Qed.
Lemma integral_eq (g : R -> R) (u v : R) : u = v -> integral g u -> integral g v.
Proof. intros ->; auto. Qed.

(** ** The indicator of [a, a + w) *)
Lemma rect_in (x : R) : - (1/2) <= x < 1/2 -> rect x = 1.
Proof. intros H. unfold rect. destruct Rle_dec, Rlt_dec; lra. Qed.
Lemma rect_out (x : R) : x < - (1/2) \/ 1/2 <= x -> rect x = 0.
Proof. intros H. unfold rect. destruct Rle_dec, Rlt_dec; lra. Qed.
Lemma rect_shift_in (a w t : R) : 0 < w -> a <= t < a + w -> rect ((t - a - w / 2) / w) = 1.
Proof.
  intros Hw Ht. apply rect_in. split.
  - apply Rmult_le_reg_r with w; [exact Hw|]. unfold Rdiv at 2. rewrite Rmult_assoc, Rinv_l by lra. lra.
  - apply Rmult_lt_reg_r with w; [exact Hw|]. unfold Rdiv at 1. rewrite Rmult_assoc, Rinv_l by lra. lra.
Qed.
Lemma rect_shift_out (a w t : R) : 0 < w -> t < a \/ a + w <= t -> rect ((t - a - w / 2) / w) = 0.
Proof.
  intros Hw Ht. apply rect_out. destruct Ht as [Ht|Ht]; [left|right].
  - apply Rmult_lt_reg_r with w; [exact Hw|]. unfold Rdiv at 1. rewrite Rmult_assoc, Rinv_l by lra. lra.
  - apply Rmult_le_reg_r with w; [exact Hw|]. unfold Rdiv at 2. rewrite Rmult_assoc, Rinv_l by lra. lra.
Qed.

Lemma tri_in (x : R) : Rabs x < 1 -> tri x = 1 - Rabs x.
Proof.
  intros H. apply Rabs_def2 in H as H'. unfold tri. destruct Rle_dec, Rlt_dec; lra.
Qed.
Lemma tri_out (x : R) : 1 <= Rabs x -> tri x = 0.
Proof.
  intros H. unfold tri. destruct Rle_dec, Rlt_dec; try lra.
  assert (Rabs x <= 1) by (apply Rabs_le; lra).
  replace (1 - Rabs x) with 0 by lra. ring.
Qed.
Lemma tri_scaled (d w : R) : 0 < w ->
  w * tri (d / w) = if Rlt_dec (Rabs d) w then w - Rabs d else 0.
Proof.
  intros Hw.
  assert (E : Rabs (d / w) = Rabs d / w).
  { unfold Rdiv. rewrite Rabs_mult, (Rabs_right (/ w)); [reflexivity|].
    apply Rle_ge, Rlt_le, Rinv_0_lt_compat, Hw. }
  assert (K : Rabs d / w * w = Rabs d) by (field; lra).
  destruct Rlt_dec as [L|L].
  - rewrite tri_in; rewrite E; [field; lra|].
    apply Rmult_lt_reg_r with w; lra.
  - rewrite tri_out; [ring|]. rewrite E. apply Rmult_le_reg_r with w; lra.
Qed.

(** Overlap of two windows of the same width. *)
Lemma overlap (a b w : R) : 0 < w ->
  integral (fun t => rect ((t - a - w / 2) / w) * rect ((t - b - w / 2) / w))
           (w * tri ((a - b) / w)).
Proof.
  intros Hw. rewrite tri_scaled by exact Hw.
  destruct Rlt_dec as [L|L].
  - set (lo := Rmax a b). set (hi := Rmin a b + w).
    assert (Hl : hi - lo = w - Rabs (a - b)).
    { unfold hi, lo, Rmin, Rmax, Rabs. destruct Rle_dec, Rcase_abs; lra. }
    assert (Hd : a <= lo /\ b <= lo /\ hi <= a + w /\ hi <= b + w /\ lo < hi).
    { unfold hi, lo. pose proof (Rmax_l a b); pose proof (Rmax_r a b).
      pose proof (Rmin_l a b); pose proof (Rmin_r a b).
      repeat split; try lra. unfold hi, lo in Hl. lra. }
    apply integral_compact with lo hi; [lra| |].
    + intros x Hx.
      assert (x < a \/ x < b \/ a + w <= x \/ b + w <= x) as C.
      { unfold lo, hi, Rmax, Rmin in Hx. destruct (Rle_dec a b); lra. }
      destruct C as [C|[C|[C|C]]].
      * rewrite (rect_shift_out a) by auto. ring.
      * rewrite (rect_shift_out b) by auto. ring.
      * rewrite (rect_shift_out a) by auto. ring.
      * rewrite (rect_shift_out b) by auto. ring.
    + eapply RI_eq; [|apply (RI_ext_le (fun _ => 1)); [lra| |apply RI_const]].
      * rewrite Hl. ring.
      * intros x Hx. rewrite !rect_shift_in by lra. ring.
  - apply integral_compact with 0 0; [lra| |].
    + intros x _.
      assert (x < a \/ x < b \/ a + w <= x \/ b + w <= x) as C.
      { unfold Rabs in L. destruct Rcase_abs; lra. }
      destruct C as [C|[C|[C|C]]].
      * rewrite (rect_shift_out a) by auto. ring.
      * rewrite (rect_shift_out b) by auto. ring.
      * rewrite (rect_shift_out a) by auto. ring.
      * rewrite (rect_shift_out b) by auto. ring.
    + apply is_RInt_zero_on. intros x Hx. rewrite Rmin_left, Rmax_left in Hx; lra.
Qed.

(** Fourier integrals of a window. *)
Lemma window_cos (a w f : R) : 0 < w ->
  integral (fun t => rect ((t - a - w / 2) / w) * cos (2 * PI * f * t))
           (w * sinc (w * f) * cos (PI * f * (2 * a + w))).
Proof.
  intros Hw. apply integral_compact with a (a + w); [lra| |].
  - intros x Hx. rewrite rect_shift_out by lra. ring.
  - eapply RI_eq; [|apply (RI_ext_le (fun t => cos (2 * PI * f * t + 0))); [lra| |apply RI_cos]].
    + replace (a + w - a) with w by ring. rewrite (Rmult_comm f w).
      do 2 f_equal. ring.
    + intros x Hx. rewrite rect_shift_in by lra. rewrite Rplus_0_r. ring.
Qed.
Lemma window_sin (a w f : R) : 0 < w ->
  integral (fun t => rect ((t - a - w / 2) / w) * sin (2 * PI * f * t))
           (w * sinc (w * f) * sin (PI * f * (2 * a + w))).
Proof.
  intros Hw. apply integral_compact with a (a + w); [lra| |].
  - intros x Hx. rewrite rect_shift_out by lra. ring.
  - eapply RI_eq; [|apply (RI_ext_le (fun t => sin (2 * PI * f * t + 0))); [lra| |apply RI_sin]].
    + replace (a + w - a) with w by ring. rewrite (Rmult_comm f w).
      do 2 f_equal. ring.
    + intros x Hx. rewrite rect_shift_in by lra. rewrite Rplus_0_r. ring.
Qed.

(** ** RectangularPulse *)
Lemma rect_wf (w t : R) : waveform (RectangularPulse w) t = rect ((t - 0 - w / 2) / w).
Proof. simpl. do 2 f_equal. ring. Qed.

Lemma rect_fourier (w : R) : 0 < w ->
  fourier_transform (waveform (RectangularPulse w)) (spectrum (RectangularPulse w)).
Proof.
  intros Hw f. split.
  - eapply integral_eq; [|eapply integral_ext; [|apply (window_cos 0 w f Hw)]].
    + simpl. replace (-2 * PI * w / 2 * f) with (- (PI * f * (2 * 0 + w))) by field.
      rewrite cos_neg. reflexivity.
    + intros t. cbv beta. rewrite <- rect_wf. reflexivity.
  - eapply integral_eq; [|eapply integral_ext; [|apply (integral_scal _ (-1) _ (window_sin 0 w f Hw))]].
    + simpl. replace (-2 * PI * w / 2 * f) with (- (PI * f * (2 * 0 + w))) by field.
      rewrite sin_neg. ring.
    + intros t. cbv beta. rewrite <- rect_wf. ring.
Qed.

Lemma rect_autocorr (w : R) : 0 < w ->
  is_autocorrelation (waveform (RectangularPulse w)) (autocorrelation (RectangularPulse w)).
Proof.
  intros Hw tau.
  eapply integral_eq; [|eapply integral_ext; [|apply (overlap (- tau) 0 w Hw)]].
  - rewrite tri_scaled by exact Hw. cbn [autocorrelation RectangularPulse].
    rewrite tri_scaled by exact Hw.
    replace (- tau - 0) with (- tau) by ring. rewrite Rabs_Ropp. reflexivity.
  - intros t. simpl. f_equal; do 2 f_equal; ring.
Qed.

(** ** ManchesterPulse *)
Lemma manchester_wf (t : R) :
  waveform ManchesterPulse t
  = - rect ((t - 0 - (1/2) / 2) / (1/2)) + rect ((t - 1/2 - (1/2) / 2) / (1/2)).
Proof. simpl. f_equal; [f_equal|]; f_equal; field. Qed.

Lemma manchester_fourier :
  fourier_transform (waveform ManchesterPulse) (spectrum ManchesterPulse).
Proof.
  intros f.
  assert (H : 0 < 1/2) by lra.
  assert (E0 : PI * f * (2 * 0 + 1/2) = PI * f / 2) by field.
  assert (E1 : PI * f * (2 * (1/2) + 1/2) = PI * f + PI * f / 2) by field.
  assert (E2 : -2 * PI * (f / 2 + 1 / 4) = - (PI / 2 + PI * f)) by field.
  assert (E3 : 2 * PI * f / 4 = PI * f / 2) by field.
  assert (E4 : 1/2 * f = f / 2) by field.
  assert (Ec : cos (PI * f + PI * f / 2) - cos (PI * f / 2) = - 2 * sin (PI * f) * sin (PI * f / 2)).
  { replace (PI * f / 2) with (PI * f - PI * f / 2) at 2 by field.
    rewrite cos_plus, cos_minus. ring. }
  assert (Es : sin (PI * f + PI * f / 2) - sin (PI * f / 2) = 2 * cos (PI * f) * sin (PI * f / 2)).
  { replace (PI * f / 2) with (PI * f - PI * f / 2) at 2 by field.
    rewrite sin_plus, sin_minus. ring. }
  split.
  - eapply integral_eq; [|eapply integral_ext;
      [|apply (integral_minus _ _ _ _ (window_cos (1/2) (1/2) f H) (window_cos 0 (1/2) f H))]].
    + rewrite E0, E1, E4. cbn [spectrum ManchesterPulse cscale cexp fst snd].
      rewrite E2, E3, cos_neg.
      replace (cos (PI / 2 + PI * f)) with (- sin (PI * f))
        by (rewrite cos_plus, cos_PI2, sin_PI2; ring).
      rewrite <- Rmult_minus_distr_l, Ec. field.
    + intros t. cbv beta. rewrite manchester_wf. ring.
  - eapply integral_eq; [|eapply integral_ext;
      [|apply (integral_minus _ _ _ _ (window_sin 0 (1/2) f H) (window_sin (1/2) (1/2) f H))]].
    + rewrite E0, E1, E4. cbn [spectrum ManchesterPulse cscale cexp fst snd].
      rewrite E2, E3, sin_neg.
      replace (sin (PI / 2 + PI * f)) with (cos (PI * f))
        by (rewrite sin_plus, cos_PI2, sin_PI2; ring).
      rewrite <- Rmult_minus_distr_l.
      replace (sin (PI * f / 2) - sin (PI * f + PI * f / 2))
        with (- (sin (PI * f + PI * f / 2) - sin (PI * f / 2))) by ring.
      rewrite Es. field.
    + intros t. cbv beta. rewrite manchester_wf. ring.
Qed.

Lemma tri_abs (x y : R) : Rabs x = Rabs y -> tri x = tri y.
Proof.
  intros E. destruct (Rlt_dec (Rabs x) 1).
  - rewrite !tri_in by lra. lra.
  - rewrite !tri_out by lra. reflexivity.
Qed.

Lemma manchester_autocorr :
  is_autocorrelation (waveform ManchesterPulse) (autocorrelation ManchesterPulse).
Proof.
  intros tau. assert (H : 0 < 1/2) by lra.
  pose proof (overlap (- tau) 0 (1/2) H) as I1.
  pose proof (overlap (- tau) (1/2) (1/2) H) as I2.
  pose proof (overlap (1/2 - tau) 0 (1/2) H) as I3.
  pose proof (overlap (1/2 - tau) (1/2) (1/2) H) as I4.
  pose proof (integral_plus _ _ _ _ (integral_minus _ _ _ _ (integral_minus _ _ _ _ I1 I2) I3) I4) as I.
  eapply integral_eq; [|eapply integral_ext; [|exact I]].
  - cbn [autocorrelation ManchesterPulse].
    rewrite (tri_abs ((- tau - 0) / (1/2)) (2 * tau)).
    2:{ rewrite <- (Rabs_Ropp (2 * tau)). f_equal. field. }
    rewrite (tri_abs ((- tau - 1/2) / (1/2)) (2 * (tau + 1/2))).
    2:{ rewrite <- (Rabs_Ropp (2 * (tau + 1/2))). f_equal. field. }
    rewrite (tri_abs ((1/2 - tau - 0) / (1/2)) (2 * (tau - 1/2))).
    2:{ rewrite <- (Rabs_Ropp (2 * (tau - 1/2))). f_equal. field. }
    rewrite (tri_abs ((1/2 - tau - 1/2) / (1/2)) (2 * tau)).
    2:{ rewrite <- (Rabs_Ropp (2 * tau)). f_equal. field. }
    field.
  - intros t. cbv beta. rewrite !manchester_wf.
    replace (t + tau - 0) with (t - - tau) by ring.
    replace (t + tau - 1/2) with (t - (1/2 - tau)) by ring. ring.
Qed.

(** ** The ideal low-pass spectrum *)
Lemma low_pass_inverse (t : R) : inverse_fourier_at (fun f => (rect f, 0)) t (sinc t).
Proof.
  split.
  - apply integral_compact with (- (1/2)) (1/2); [lra| |].
    + intros x Hx. cbn [fst snd]. rewrite rect_out by lra. ring.
    + eapply RI_eq; [|apply (RI_ext_le (fun f => cos (2 * PI * t * f + 0))); [lra| |apply RI_cos]].
      * replace (1/2 - - (1/2)) with 1 by lra. replace (- (1/2) + 1/2) with 0 by lra.
        rewrite Rmult_0_r, Rplus_0_r, cos_0, !Rmult_1_r. ring.
      * intros x Hx. cbn [fst snd]. rewrite rect_in by lra.
        replace (2 * PI * t * x + 0) with (2 * PI * x * t) by ring. ring.
  - apply integral_compact with (- (1/2)) (1/2); [lra| |].
    + intros x Hx. cbn [fst snd]. rewrite rect_out by lra. ring.
    + eapply RI_eq; [|apply (RI_ext_le (fun f => sin (2 * PI * t * f + 0))); [lra| |apply RI_sin]].
      * replace (- (1/2) + 1/2) with 0 by lra.
        rewrite Rmult_0_r, Rplus_0_r, sin_0. ring.
      * intros x Hx. cbn [fst snd]. rewrite rect_in by lra.
        replace (2 * PI * t * x + 0) with (2 * PI * x * t) by ring. ring.
Qed.

Lemma rect_sq (f : R) : rect f ^ 2 = rect f.
Proof. unfold rect. destruct Rle_dec, Rlt_dec; ring. Qed.
Lemma rect_01 (f : R) : rect f = 0 \/ rect f = 1.
Proof. unfold rect. destruct Rle_dec, Rlt_dec; lra. Qed.

(** sin(pi k) = 0. *)
Lemma sin_PI_Z (k : Z) : sin (PI * IZR k) = 0.
Proof.
  rewrite Rmult_comm. apply sin_eq_0_1. exists k. reflexivity.
Qed.
Lemma sinc_Z (k : Z) : k <> 0%Z -> sinc (IZR k) = 0.
Proof.
  intros Hk. rewrite sinc_nz by (apply not_0_IZR; exact Hk). rewrite sin_PI_Z. unfold Rdiv. ring.
Qed.
Lemma sinc_nyquist : nyquist sinc.
Proof. split; [apply sinc_0|apply sinc_Z]. Qed.

(** ** taps *)
Lemma taps_length (p : pulse) (sps a b : Z) l :
  (a <= b)%Z -> (0 <= sps)%Z -> taps p sps (Some (a, b)) = Some l ->
  Z.of_nat (length l) = ((b - a) * sps + 1)%Z.
Proof.
  intros Hab Hs E. unfold taps in E. simpl in E. injection E as <-.
  rewrite map_length. unfold arange. rewrite map_length, seq_length. rewrite Z2Nat.id; nia.
Qed.
Lemma taps_nth (p : pulse) (sps a b : Z) l (i : nat) :
  (0 < sps)%Z -> taps p sps (Some (a, b)) = Some l -> (i < length l)%nat ->
  nth i l 0 = waveform p (IZR a + INR i / IZR sps).
Proof.
  intros Hs E Hi. unfold taps in E. simpl in E. injection E as <-.
  rewrite map_length in Hi. unfold arange in Hi. rewrite map_length, seq_length in Hi.
  unfold arange. rewrite map_map.
  rewrite nth_indep with (d' := waveform p (IZR (a * sps + Z.of_nat 0) / IZR sps))
    by (rewrite map_length, seq_length; exact Hi).
  rewrite (map_nth (fun x => waveform p (IZR (a * sps + Z.of_nat x) / IZR sps)) _ 0%nat).
  rewrite seq_nth by exact Hi. f_equal.
  rewrite plus_IZR, mult_IZR, <- INR_IZR_INZ. simpl.
  field. apply not_0_IZR. lia.
Qed.
