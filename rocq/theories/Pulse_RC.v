(** Proofs for the raised-cosine pulse and its square root. *)
Set Warnings "-ambiguous-paths".
From Coq Require Import List ZArith Reals Lra Lia Psatz.
From Coquelicot Require Import Coquelicot.
From Verif Require Import Pulse_Model Pulse_Spec Pulse_Int Pulse_Basic.
Import ListNotations.
Local Open Scope R_scope.

(** A real even spectrum that vanishes beyond [B]. *)
Lemma inverse_even (S : R -> R) (B t v : R) :
  0 <= B -> (forall f, S (- f) = S f) -> (forall f, B < f -> S f = 0) ->
  is_RInt (fun f => S f * cos (2 * PI * t * f)) 0 B (v / 2) ->
  (exists w : R, is_RInt (fun f => S f * sin (2 * PI * t * f)) 0 B w) ->
  inverse_fourier_at (fun f => (S f, 0)) t v.
Proof.
  intros HB He Hz Hc [w Hs]. split; cbn [fst snd].
  - apply integral_ext with (fun f => S f * cos (2 * PI * t * f)).
    { intros x. replace (2 * PI * x * t) with (2 * PI * t * x) by ring. ring. }
    replace v with (2 * (v / 2)) by field.
    apply integral_even_band with B; auto.
    + intros x. rewrite He. replace (2 * PI * t * - x) with (- (2 * PI * t * x)) by ring.
      rewrite cos_neg. reflexivity.
    + intros x Hx. rewrite Hz by exact Hx. ring.
  - apply integral_ext with (fun f => S f * sin (2 * PI * t * f)).
    { intros x. replace (2 * PI * x * t) with (2 * PI * t * x) by ring. ring. }
    apply integral_odd_band with B w; auto.
    + intros x. rewrite He. replace (2 * PI * t * - x) with (- (2 * PI * t * x)) by ring.
      rewrite sin_neg. ring.
    + intros x Hx. rewrite Hz by exact Hx. ring.
Qed.

(** Continuous functions are integrable. *)
Lemma RI_exists (g : R -> R) (a b : R) :
  (forall x, ex_derive g x) -> exists w : R, is_RInt g a b w.
Proof.
  intros H.
  assert (E : ex_RInt (V := R_CompleteNormedModule) g a b).
  { apply (ex_RInt_continuous (V := R_CompleteNormedModule)). intros z _.
    apply (ex_derive_continuous (V := R_NormedModule)). apply H. }
  exact E.
Qed.

(** ** Bands *)
Lemma band_low (f1 t : R) :
  is_RInt (fun f => cos (2 * PI * t * f)) 0 f1 (f1 * sinc (2 * f1 * t)).
Proof.
  apply (RI_ext (fun f => cos (2 * PI * t * f + 0))).
  { intros x _. rewrite Rplus_0_r. reflexivity. }
  eapply RI_eq; [|apply RI_cos].
  rewrite Rminus_0_r, Rplus_0_l, Rplus_0_r.
  destruct (Req_EM_T f1 0) as [->|N1]; [ring|].
  destruct (Req_EM_T t 0) as [->|N2].
  { rewrite !Rmult_0_r, !Rmult_0_l, !sinc_0, cos_0. ring. }
  pose proof PI_RGT_0.
  rewrite !sinc_nz by nra.
  replace (PI * (2 * f1 * t)) with (2 * (PI * t * f1)) by ring. rewrite sin_2a.
  replace (PI * (t * f1)) with (PI * t * f1) by ring.
  field. repeat split; lra.
Qed.

(** int_{f1}^{f2} cos(2 pi m (f - f1) / a) cos(2 pi t f) df *)
Definition band_val (a m t : R) : R :=
  a / 2 * (sinc (a * t + m) * cos (PI * (t + m)) + sinc (a * t - m) * cos (PI * (t - m))).

Lemma band_cos (a m t : R) : a <> 0 ->
  is_RInt (fun f => cos (2 * PI * m * (f - (1 - a) / 2) / a) * cos (2 * PI * t * f))
          ((1 - a) / 2) ((1 + a) / 2) (band_val a m t).
Proof.
  intros Ha.
  set (c := 2 * PI * m * ((1 - a) / 2) / a).
  apply (RI_ext (fun f => 1/2 * cos (2 * PI * (t + m / a) * f + - c)
                        + 1/2 * cos (2 * PI * (t - m / a) * f + c))).
  { intros x _.
    replace (2 * PI * (t + m / a) * x + - c)
      with (2 * PI * t * x + 2 * PI * m * (x - (1 - a) / 2) / a) by (unfold c; field; exact Ha).
    replace (2 * PI * (t - m / a) * x + c)
      with (2 * PI * t * x - 2 * PI * m * (x - (1 - a) / 2) / a) by (unfold c; field; exact Ha).
    rewrite cos_plus, cos_minus. field. }
  eapply RI_eq; [|apply RI_plus; apply RI_scal; apply RI_cos].
  replace ((1 + a) / 2 - (1 - a) / 2) with a by field.
  replace ((1 - a) / 2 + (1 + a) / 2) with 1 by field.
  replace ((t + m / a) * a) with (a * t + m) by (field; exact Ha).
  replace ((t - m / a) * a) with (a * t - m) by (field; exact Ha).
  replace (PI * (t + m / a) * 1 + - c) with (PI * (t + m)) by (unfold c; field; exact Ha).
  replace (PI * (t - m / a) * 1 + c) with (PI * (t - m)) by (unfold c; field; exact Ha).
  unfold band_val. field.
Qed.

(** ** The spectrum *)
Section RC.
Variable a : R.
Hypothesis Ha : 0 < a <= 1.
Let f1 := (1 - a) / 2.
Let f2 := (1 + a) / 2.

Lemma rc_low (f : R) : Rabs f < f1 -> rc_spectrum a f = 1.
Proof.
  intros H. unfold rc_spectrum. destruct Req_EM_T; [lra|]. fold f1 f2.
  destruct Rlt_dec; [reflexivity|contradiction].
Qed.
Lemma rc_mid (f : R) : f1 <= Rabs f < f2 ->
  rc_spectrum a f = 1/2 * (1 + cos (PI * (Rabs f - f1) / a)).
Proof.
  intros H. unfold rc_spectrum. destruct Req_EM_T; [lra|]. fold f1 f2. cbv zeta.
  destruct Rlt_dec; [lra|]. destruct Rlt_dec; [reflexivity|lra].
Qed.
Lemma rc_high (f : R) : f2 <= Rabs f -> rc_spectrum a f = 0.
Proof.
  intros H. unfold rc_spectrum. destruct Req_EM_T; [lra|]. fold f1 f2. cbv zeta.
  unfold f1, f2 in *.
  destruct Rlt_dec; [lra|]. destruct Rlt_dec; [lra|reflexivity].
Qed.
Lemma rc_even (f : R) : rc_spectrum a (- f) = rc_spectrum a f.
Proof. unfold rc_spectrum. destruct Req_EM_T; [lra|]. rewrite Rabs_Ropp. reflexivity. Qed.
Lemma rc_range (f : R) : 0 <= rc_spectrum a f <= 1.
Proof.
  destruct (Rlt_or_le (Rabs f) f1) as [L|L]; [rewrite rc_low by exact L; lra|].
  destruct (Rlt_or_le (Rabs f) f2) as [L2|L2]; [|rewrite rc_high by exact L2; lra].
  rewrite rc_mid by lra. pose proof (COS_bound (PI * (Rabs f - f1) / a)). lra.
Qed.
Lemma rc_f12 : 0 <= f1 /\ f1 < f2 /\ f2 <= 1 /\ 0 < f2.
Proof. unfold f1, f2. lra. Qed.

(** Integrals of a function of the spectrum: value [g 1] below [f1]. *)
Lemma rc_split (h low mid : R -> R) (u v : R) :
  (forall f, 0 < f < f1 -> h f = low f) ->
  (forall f, f1 < f < f2 -> h f = mid f) ->
  is_RInt low 0 f1 u -> is_RInt mid f1 f2 v -> is_RInt h 0 f2 (u + v).
Proof.
  intros H1 H2 I1 I2. pose proof rc_f12 as F.
  apply RI_chasles with f1.
  - apply RI_ext_le with low; [lra| |exact I1]. intros x Hx. symmetry. auto.
  - apply RI_ext_le with mid; [lra| |exact I2]. intros x Hx. symmetry. auto.
Qed.

(** The three half-band integrals. *)
Lemma rc_half (t : R) :
  is_RInt (fun f => rc_spectrum a f * cos (2 * PI * t * f)) 0 f2
    (f1 * sinc (2 * f1 * t) + 1/2 * (band_val a 0 t + band_val a (1/2) t)).
Proof.
  assert (Na : a <> 0) by lra. pose proof rc_f12 as F.
  apply rc_split with
    (low := fun f => cos (2 * PI * t * f))
    (mid := fun f => 1/2 * (cos (2 * PI * 0 * (f - (1 - a) / 2) / a) * cos (2 * PI * t * f)
                          + cos (2 * PI * (1/2) * (f - (1 - a) / 2) / a) * cos (2 * PI * t * f))).
  - intros f Hf. rewrite rc_low; [ring|]. rewrite Rabs_right; lra.
  - intros f Hf. rewrite rc_mid; rewrite Rabs_right by lra; [|lra].
    fold f1.
    replace (2 * PI * 0 * (f - f1) / a) with 0 by (field; exact Na).
    replace (2 * PI * (1/2) * (f - f1) / a) with (PI * (f - f1) / a) by (field; exact Na).
    rewrite cos_0. ring.
  - apply band_low.
  - apply RI_scal. apply RI_plus; apply band_cos; exact Na.
Qed.

Lemma rc_half_sq (t : R) :
  is_RInt (fun f => rc_spectrum a f ^ 2 * cos (2 * PI * t * f)) 0 f2
    (f1 * sinc (2 * f1 * t) + (1/2 * (band_val a 0 t + band_val a (1/2) t)
                              - 1/8 * (band_val a 0 t - band_val a 1 t))).
Proof.
  assert (Na : a <> 0) by lra. pose proof rc_f12 as F.
  apply rc_split with
    (low := fun f => cos (2 * PI * t * f))
    (mid := fun f => 1/2 * (cos (2 * PI * 0 * (f - (1 - a) / 2) / a) * cos (2 * PI * t * f)
                          + cos (2 * PI * (1/2) * (f - (1 - a) / 2) / a) * cos (2 * PI * t * f))
                   - 1/8 * (cos (2 * PI * 0 * (f - (1 - a) / 2) / a) * cos (2 * PI * t * f)
                          - cos (2 * PI * 1 * (f - (1 - a) / 2) / a) * cos (2 * PI * t * f))).
  - intros f Hf. rewrite rc_low; [ring|]. rewrite Rabs_right; lra.
  - intros f Hf. rewrite rc_mid; rewrite Rabs_right by lra; [|lra].
    fold f1. set (x := PI * (f - f1) / a).
    replace (2 * PI * 0 * (f - f1) / a) with 0 by (field; exact Na).
    replace (2 * PI * (1/2) * (f - f1) / a) with x by (unfold x; field; exact Na).
    replace (2 * PI * 1 * (f - f1) / a) with (2 * x) by (unfold x; field; exact Na).
    rewrite cos_0, cos_2a_cos. field.
  - apply band_low.
  - apply RI_minus; apply RI_scal; [apply RI_plus|apply RI_minus]; apply band_cos; exact Na.
Qed.

Lemma rc_half_sqrt (t : R) :
  is_RInt (fun f => sqrt (rc_spectrum a f) * cos (2 * PI * t * f)) 0 f2
    (f1 * sinc (2 * f1 * t) + band_val a (1/4) t).
Proof.
  assert (Na : a <> 0) by lra. pose proof rc_f12 as F.
  apply rc_split with
    (low := fun f => cos (2 * PI * t * f))
    (mid := fun f => cos (2 * PI * (1/4) * (f - (1 - a) / 2) / a) * cos (2 * PI * t * f)).
  - intros f Hf. rewrite rc_low; [rewrite sqrt_1; ring|]. rewrite Rabs_right; lra.
  - intros f Hf. rewrite rc_mid; rewrite Rabs_right by lra; [|lra].
    fold f1. set (x := PI * (f - f1) / a).
    replace (2 * PI * (1/4) * (f - f1) / a) with (x / 2) by (unfold x; field; exact Na).
    f_equal.
    replace x with (2 * (x / 2)) at 1 by field. rewrite cos_2a_cos.
    replace (1/2 * (1 + (2 * cos (x / 2) * cos (x / 2) - 1))) with (cos (x / 2) * cos (x / 2)) by field.
    apply sqrt_square. apply cos_ge_0.
    + pose proof PI_RGT_0. assert (0 <= x); [|lra]. unfold x.
      apply Rmult_le_pos; [apply Rmult_le_pos; lra|]. apply Rlt_le, Rinv_0_lt_compat; lra.
    + assert (x <= PI); [|lra]. unfold x.
      apply Rmult_le_reg_r with a; [lra|]. unfold Rdiv. rewrite Rmult_assoc, Rinv_l, Rmult_1_r by exact Na.
      apply Rmult_le_compat_l; [apply Rlt_le, PI_RGT_0|]. unfold f1, f2 in *. lra.
  - apply band_low.
  - apply band_cos; exact Na.
Qed.

(** The odd parts are integrable. *)
Lemma rc_odd_ex (t : R) :
  exists w : R, is_RInt (fun f => rc_spectrum a f * sin (2 * PI * t * f)) 0 f2 w.
Proof.
  assert (Na : a <> 0) by lra. pose proof rc_f12 as F.
  destruct (RI_exists (fun f => sin (2 * PI * t * f)) 0 f1) as [u Hu].
  { intros x. auto_derive. exact I. }
  destruct (RI_exists (fun f => 1/2 * (1 + cos (PI * (f - f1) / a)) * sin (2 * PI * t * f)) f1 f2) as [v Hv].
  { intros x. auto_derive. exact I. }
  exists (u + v). eapply rc_split; [| |exact Hu|exact Hv].
  - intros f Hf. rewrite rc_low; [ring|]. rewrite Rabs_right; lra.
  - intros f Hf. rewrite rc_mid; rewrite Rabs_right by lra; [reflexivity|lra].
Qed.
Lemma rc_odd_ex_sq (t : R) :
  exists w : R, is_RInt (fun f => rc_spectrum a f ^ 2 * sin (2 * PI * t * f)) 0 f2 w.
Proof.
  assert (Na : a <> 0) by lra. pose proof rc_f12 as F.
  destruct (RI_exists (fun f => sin (2 * PI * t * f)) 0 f1) as [u Hu].
  { intros x. auto_derive. exact I. }
  destruct (RI_exists (fun f => (1/2 * (1 + cos (PI * (f - f1) / a))) ^ 2 * sin (2 * PI * t * f)) f1 f2) as [v Hv].
  { intros x. auto_derive. exact I. }
  exists (u + v). eapply rc_split; [| |exact Hu|exact Hv].
  - intros f Hf. rewrite rc_low; [ring|]. rewrite Rabs_right; lra.
  - intros f Hf. rewrite rc_mid; rewrite Rabs_right by lra; [reflexivity|lra].
Qed.
Lemma rc_odd_ex_sqrt (t : R) :
  exists w : R, is_RInt (fun f => sqrt (rc_spectrum a f) * sin (2 * PI * t * f)) 0 f2 w.
Proof.
  assert (Na : a <> 0) by lra. pose proof rc_f12 as F.
  destruct (RI_exists (fun f => sin (2 * PI * t * f)) 0 f1) as [u Hu].
  { intros x. auto_derive. exact I. }
  destruct (RI_exists (fun f => cos (PI * (f - f1) / a / 2) * sin (2 * PI * t * f)) f1 f2) as [v Hv].
  { intros x. auto_derive. exact I. }
  exists (u + v). eapply rc_split; [| |exact Hu|exact Hv].
  - intros f Hf. rewrite rc_low; [rewrite sqrt_1; ring|]. rewrite Rabs_right; lra.
  - intros f Hf. rewrite rc_mid; rewrite Rabs_right by lra; [|lra].
    fold f1. set (x := PI * (f - f1) / a).
    f_equal.
    replace x with (2 * (x / 2)) at 1 by field. rewrite cos_2a_cos.
    replace (1/2 * (1 + (2 * cos (x / 2) * cos (x / 2) - 1))) with (cos (x / 2) * cos (x / 2)) by field.
    apply sqrt_square. apply cos_ge_0.
    + pose proof PI_RGT_0. assert (0 <= x); [|lra]. unfold x.
      apply Rmult_le_pos; [apply Rmult_le_pos; lra|]. apply Rlt_le, Rinv_0_lt_compat; lra.
    + assert (x <= PI); [|lra]. unfold x.
      apply Rmult_le_reg_r with a; [lra|]. unfold Rdiv. rewrite Rmult_assoc, Rinv_l, Rmult_1_r by exact Na.
      apply Rmult_le_compat_l; [apply Rlt_le, PI_RGT_0|]. unfold f1, f2 in *. lra.
Qed.
End RC.
