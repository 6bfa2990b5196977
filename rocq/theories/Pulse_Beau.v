(** Proofs for the Beaulieu pulse and its square root. *)
Set Warnings "-ambiguous-paths".
From Coq Require Import List ZArith Reals Lra Lia Psatz.
From Coquelicot Require Import Coquelicot.
From Verif Require Import Pulse_Model Pulse_Spec Pulse_Int Pulse_Basic Pulse_RC Pulse_RC2.
Import ListNotations.
Local Open Scope R_scope.

Definition expcos_prim (k c w f : R) : R :=
  exp (k * f + c) * (k * cos (w * f) + w * sin (w * f)) / (k ^ 2 + w ^ 2).
Lemma RI_expcos (k c w a b : R) : k <> 0 ->
  is_RInt (fun f => exp (k * f + c) * cos (w * f)) a b
    (expcos_prim k c w b - expcos_prim k c w a).
Proof.
  intros Hk. apply (RI_derive (expcos_prim k c w)).
  - intros x. unfold expcos_prim. auto_derive; [exact I|]. field. nra.
  - intros x. apply (ex_derive_continuous (V := R_NormedModule)). auto_derive. exact I.
Qed.

Lemma ln2_pos : 0 < ln 2.
Proof. rewrite <- ln_1. apply ln_increasing; lra. Qed.

Section BEAU.
Variable a : R.
Hypothesis Ha : 0 < a <= 1.
Let f1 := (1 - a) / 2.
Let f2 := (1 + a) / 2.
Let b := 2 * ln 2 / a.

Lemma bl_f : 0 <= f1 /\ f1 < 1/2 /\ 1/2 < f2 /\ f2 <= 1.
Proof. unfold f1, f2. lra. Qed.
Lemma bl_b : 0 < b.
Proof. unfold b. apply Rdiv_lt_0_compat; pose proof ln2_pos; lra. Qed.

Lemma bl_low (f : R) : Rabs f < f1 -> beaulieu_spectrum a f = 1.
Proof.
  intros H. unfold beaulieu_spectrum. destruct Req_EM_T; [lra|]. fold f1 f2 b. cbv zeta.
  destruct Rlt_dec; [reflexivity|contradiction].
Qed.
Lemma bl_mid (f : R) : f1 <= Rabs f < 1/2 -> beaulieu_spectrum a f = exp (- b * (Rabs f - f1)).
Proof.
  intros H. unfold beaulieu_spectrum. destruct Req_EM_T; [lra|]. fold f1 f2 b. cbv zeta.
  destruct Rlt_dec; [lra|]. destruct Rlt_dec; [reflexivity|lra].
Qed.
Lemma bl_hi (f : R) : 1/2 <= Rabs f < f2 -> beaulieu_spectrum a f = 1 - exp (- b * (f2 - Rabs f)).
Proof.
  intros H. pose proof bl_f. unfold beaulieu_spectrum. destruct Req_EM_T; [lra|]. fold f1 f2 b. cbv zeta.
  destruct Rlt_dec; [lra|]. destruct Rlt_dec; [lra|]. destruct Rlt_dec; [reflexivity|lra].
Qed.
Lemma bl_out (f : R) : f2 <= Rabs f -> beaulieu_spectrum a f = 0.
Proof.
  intros H. pose proof bl_f. unfold beaulieu_spectrum. destruct Req_EM_T; [lra|]. fold f1 f2 b. cbv zeta.
  destruct Rlt_dec; [lra|]. destruct Rlt_dec; [lra|]. destruct Rlt_dec; [lra|reflexivity].
Qed.
Lemma bl_even (f : R) : beaulieu_spectrum a (- f) = beaulieu_spectrum a f.
Proof. unfold beaulieu_spectrum. destruct Req_EM_T; [lra|]. rewrite Rabs_Ropp. reflexivity. Qed.
Lemma exp_le1 (x : R) : x <= 0 -> exp x <= 1.
Proof.
  intros H. rewrite <- exp_0. destruct (Req_EM_T x 0) as [->|N]; [lra|].
  left. apply exp_increasing. lra.
Qed.
Lemma bl_range (f : R) : 0 <= beaulieu_spectrum a f <= 1.
Proof.
  pose proof bl_f as F. pose proof bl_b as B.
  destruct (Rlt_or_le (Rabs f) f1) as [L|L]; [rewrite bl_low by exact L; lra|].
  destruct (Rlt_or_le (Rabs f) (1/2)) as [L2|L2].
  - rewrite bl_mid by lra. split; [left; apply exp_pos|apply exp_le1; nra].
  - destruct (Rlt_or_le (Rabs f) f2) as [L3|L3]; [|rewrite bl_out by exact L3; lra].
    rewrite bl_hi by lra.
    assert (exp (- b * (f2 - Rabs f)) <= 1) by (apply exp_le1; nra).
    pose proof (exp_pos (- b * (f2 - Rabs f))). lra.
Qed.

(** exp(- b (1/2 - f1)) = exp(- b (f2 - 1/2)) = 1/2. *)
Lemma bl_half1 : exp (- b * (1/2) + b * f1) = 1/2.
Proof.
  replace (- b * (1/2) + b * f1) with (- ln 2) by (unfold b, f1; field; lra).
  rewrite exp_Ropp, exp_ln by lra. lra.
Qed.
Lemma bl_half2 : exp (b * (1/2) + - b * f2) = 1/2.
Proof.
  replace (b * (1/2) + - b * f2) with (- ln 2) by (unfold b, f2; field; lra).
  rewrite exp_Ropp, exp_ln by lra. lra.
Qed.

Lemma bl_split (h g1 g2 g3 : R -> R) (u v w : R) :
  (forall f, 0 < f < f1 -> h f = g1 f) ->
  (forall f, f1 < f < 1/2 -> h f = g2 f) ->
  (forall f, 1/2 < f < f2 -> h f = g3 f) ->
  is_RInt g1 0 f1 u -> is_RInt g2 f1 (1/2) v -> is_RInt g3 (1/2) f2 w ->
  is_RInt h 0 f2 (u + (v + w)).
Proof.
  intros H1 H2 H3 I1 I2 I3. pose proof bl_f as F.
  apply RI_chasles with f1; [|apply RI_chasles with (1/2)].
  - apply RI_ext_le with g1; [lra| |exact I1]. intros x Hx. symmetry. auto.
  - apply RI_ext_le with g2; [lra| |exact I2]. intros x Hx. symmetry. auto.
  - apply RI_ext_le with g3; [lra| |exact I3]. intros x Hx. symmetry. auto.
Qed.

Lemma cos_band (x y t : R) :
  is_RInt (fun f => cos (2 * PI * t * f)) x y (y * sinc (2 * y * t) - x * sinc (2 * x * t)).
Proof.
  replace (y * sinc (2 * y * t) - x * sinc (2 * x * t))
    with (- (x * sinc (2 * x * t)) + y * sinc (2 * y * t)) by ring.
  apply RI_chasles with 0; [apply RI_swap|]; apply band_low.
Qed.

Lemma sinc_two (x t : R) : 2 * PI * t * (x * sinc (2 * x * t)) = sin (2 * PI * t * x).
Proof.
  pose proof (sinc_mul (2 * x * t)) as S.
  replace (2 * PI * t * x) with (PI * (2 * x * t)) by ring. rewrite <- S. ring.
Qed.

Lemma bl_half (t : R) :
  is_RInt (fun f => beaulieu_spectrum a f * cos (2 * PI * t * f)) 0 f2 (beaulieu_waveform a t / 2).
Proof.
  pose proof bl_f as F. pose proof bl_b as B. pose proof PI_RGT_0 as HP.
  set (w := 2 * PI * t).
  eapply RI_eq.
  2:{ eapply bl_split with
        (g1 := fun f => cos (w * f))
        (g2 := fun f => exp (- b * f + b * f1) * cos (w * f))
        (g3 := fun f => cos (w * f) - exp (b * f + - b * f2) * cos (w * f)).
      - intros f Hf. rewrite bl_low; [ring|]. rewrite Rabs_right; lra.
      - intros f Hf. rewrite bl_mid; rewrite Rabs_right by lra; [|lra].
        do 2 f_equal. ring.
      - intros f Hf. rewrite bl_hi; rewrite Rabs_right by lra; [|lra].
        replace (- b * (f2 - f)) with (b * f + - b * f2) by ring. ring.
      - apply band_low.
      - apply RI_expcos. lra.
      - apply RI_minus; [apply cos_band|apply RI_expcos; lra]. }
  unfold expcos_prim.
  rewrite bl_half1, bl_half2.
  replace (- b * f1 + b * f1) with 0 by ring. replace (b * f2 + - b * f2) with 0 by ring.
  rewrite exp_0.
  unfold beaulieu_waveform. destruct Req_EM_T as [|_]; [lra|]. cbv zeta. fold b.
  replace ((- b) ^ 2) with (b ^ 2) by ring. fold w.
  replace (2 * (1/2) * t) with t by field.
  assert (D : b ^ 2 + w ^ 2 <> 0) by nra.
  replace (w * (1/2)) with (PI * t) by (unfold w; field).
  replace (w * f1) with (PI * t - PI * a * t) by (unfold w, f1; field).
  replace (w * f2) with (PI * t + PI * a * t) by (unfold w, f2; field).
  replace (f2 * sinc (2 * f2 * t)) with (sinc t * cos (PI * a * t) - f1 * sinc (2 * f1 * t)).
  2:{ destruct (Req_EM_T t 0) as [->|N].
      - rewrite !Rmult_0_r, sinc_0, cos_0. unfold f1, f2. field.
      - pose proof (sinc_two f1 t) as S1. pose proof (sinc_two f2 t) as S2.
        fold w in S1, S2.
        replace (w * f1) with (PI * t - PI * a * t) in S1 by (unfold w, f1; field).
        replace (w * f2) with (PI * t + PI * a * t) in S2 by (unfold w, f2; field).
        rewrite sin_minus in S1. rewrite sin_plus in S2.
        assert (Nw : w <> 0) by (unfold w; nra).
        apply Rmult_eq_reg_l with w; [|exact Nw].
        rewrite S2, Rmult_minus_distr_l, S1.
        replace (w * (sinc t * cos (PI * a * t))) with (2 * (PI * t * sinc t) * cos (PI * a * t)) by (unfold w; ring).
        rewrite sinc_mul. ring. }
  rewrite !cos_plus, !cos_minus, !sin_plus, !sin_minus.
  rewrite <- (sinc_mul t).
  replace (PI * t) with (w / 2) by (unfold w; field).
  replace (4 * b * PI * t) with (2 * b * w) by (unfold w; ring).
  field. nra.
Qed.

Lemma bl_half_sq (t : R) :
  is_RInt (fun f => beaulieu_spectrum a f ^ 2 * cos (2 * PI * t * f)) 0 f2
    (beaulieu_autocorrelation a t / 2).
Proof.
  pose proof bl_f as F. pose proof bl_b as B. pose proof PI_RGT_0 as HP.
  set (w := 2 * PI * t).
  eapply RI_eq.
  2:{ eapply bl_split with
        (g1 := fun f => cos (w * f))
        (g2 := fun f => exp (- (2 * b) * f + 2 * b * f1) * cos (w * f))
        (g3 := fun f => cos (w * f) - 2 * (exp (b * f + - b * f2) * cos (w * f))
                      + exp (2 * b * f + - (2 * b) * f2) * cos (w * f)).
      - intros f Hf. rewrite bl_low; [ring|]. rewrite Rabs_right; lra.
      - intros f Hf. rewrite bl_mid; rewrite Rabs_right by lra; [|lra].
        replace (- (2 * b) * f + 2 * b * f1) with (- b * (f - f1) + - b * (f - f1)) by ring.
        rewrite exp_plus. ring.
      - intros f Hf. rewrite bl_hi; rewrite Rabs_right by lra; [|lra].
        replace (2 * b * f + - (2 * b) * f2) with (- b * (f2 - f) + - b * (f2 - f)) by ring.
        rewrite (exp_plus (- b * (f2 - f))).
        replace (- b * (f2 - f)) with (b * f + - b * f2) by ring. ring.
      - apply band_low.
      - apply RI_expcos. lra.
      - apply RI_plus; [apply RI_minus; [apply cos_band|apply RI_scal; apply RI_expcos; lra]
                       |apply RI_expcos; lra]. }
  unfold expcos_prim.
  rewrite bl_half2.
  assert (Q1 : exp (- (2 * b) * (1/2) + 2 * b * f1) = 1/4).
  { replace (- (2 * b) * (1/2) + 2 * b * f1)
      with ((- b * (1/2) + b * f1) + (- b * (1/2) + b * f1)) by ring.
    rewrite exp_plus, bl_half1. field. }
  assert (Q2 : exp (2 * b * (1/2) + - (2 * b) * f2) = 1/4).
  { replace (2 * b * (1/2) + - (2 * b) * f2)
      with ((b * (1/2) + - b * f2) + (b * (1/2) + - b * f2)) by ring.
    rewrite exp_plus, bl_half2. field. }
  rewrite Q1, Q2.
  replace (- (2 * b) * f1 + 2 * b * f1) with 0 by ring. replace (b * f2 + - b * f2) with 0 by ring.
  replace (2 * b * f2 + - (2 * b) * f2) with 0 by ring.
  rewrite exp_0.
  unfold beaulieu_autocorrelation. destruct Req_EM_T as [|_]; [lra|]. cbv zeta. fold b f1 f2.
  replace (2 * (1/2) * t) with t by field.
  assert (E3 : f1 * sinc (2 * f1 * t) + f2 * sinc (2 * f2 * t) = sinc t * cos (PI * a * t)).
  { destruct (Req_EM_T t 0) as [->|N].
      - rewrite !Rmult_0_r, sinc_0, cos_0. unfold f1, f2. field.
      - pose proof (sinc_two f1 t) as S1. pose proof (sinc_two f2 t) as S2.
        fold w in S1, S2.
        replace (w * f1) with (PI * t - PI * a * t) in S1 by (unfold w, f1; field).
        replace (w * f2) with (PI * t + PI * a * t) in S2 by (unfold w, f2; field).
        rewrite sin_minus in S1. rewrite sin_plus in S2.
        assert (Nw : w <> 0) by (unfold w; nra).
        apply Rmult_eq_reg_l with w; [|exact Nw].
        rewrite Rmult_plus_distr_l, S2, S1.
        replace (w * (sinc t * cos (PI * a * t))) with (2 * (PI * t * sinc t) * cos (PI * a * t)) by (unfold w; ring).
        rewrite sinc_mul. ring. }
  replace (f2 * sinc (2 * f2 * t)) with (sinc t * cos (PI * a * t) - f1 * sinc (2 * f1 * t)) by lra.
  replace (w * (1/2)) with (PI * t) by (unfold w; field).
  replace (2 * PI * f1 * t) with (w * f1) by (unfold w; ring).
  replace (2 * PI * f2 * t) with (w * f2) by (unfold w; ring).
  set (C0 := cos (PI * t)). set (S0 := sin (PI * t)).
  set (C1 := cos (w * f1)). set (S1 := sin (w * f1)).
  set (C2 := cos (w * f2)). set (S2 := sin (w * f2)).
  fold w.
  replace (4 * PI * t) with (2 * w) by (unfold w; ring).
  replace (8 * PI * t) with (4 * w) by (unfold w; ring).
  assert (D1 : b ^ 2 + w ^ 2 <> 0) by nra.
  assert (D2 : 4 * b ^ 2 + w ^ 2 <> 0) by nra.
  replace ((- (2 * b)) ^ 2 + w ^ 2) with (4 * b ^ 2 + w ^ 2) by ring.
  replace ((2 * b) ^ 2 + w ^ 2) with (4 * b ^ 2 + w ^ 2) by ring.
  field. split; assumption.
Qed.

Lemma bl_odd_ex (t : R) :
  exists w : R, is_RInt (fun f => beaulieu_spectrum a f * sin (2 * PI * t * f)) 0 f2 w.
Proof.
  pose proof bl_f as F.
  destruct (RI_exists (fun f => sin (2 * PI * t * f)) 0 f1) as [u Hu].
  { intros x. auto_derive. exact I. }
  destruct (RI_exists (fun f => exp (- b * (f - f1)) * sin (2 * PI * t * f)) f1 (1/2)) as [v Hv].
  { intros x. auto_derive. exact I. }
  destruct (RI_exists (fun f => (1 - exp (- b * (f2 - f))) * sin (2 * PI * t * f)) (1/2) f2) as [w Hw].
  { intros x. auto_derive. exact I. }
  exists (u + (v + w)). eapply bl_split; [| | |exact Hu|exact Hv|exact Hw].
  - intros f Hf. rewrite bl_low; [ring|]. rewrite Rabs_right; lra.
  - intros f Hf. rewrite bl_mid; rewrite Rabs_right by lra; [reflexivity|lra].
  - intros f Hf. rewrite bl_hi; rewrite Rabs_right by lra; [reflexivity|lra].
Qed.
Lemma bl_odd_ex_sq (t : R) :
  exists w : R, is_RInt (fun f => beaulieu_spectrum a f ^ 2 * sin (2 * PI * t * f)) 0 f2 w.
Proof.
  pose proof bl_f as F.
  destruct (RI_exists (fun f => sin (2 * PI * t * f)) 0 f1) as [u Hu].
  { intros x. auto_derive. exact I. }
  destruct (RI_exists (fun f => exp (- b * (f - f1)) ^ 2 * sin (2 * PI * t * f)) f1 (1/2)) as [v Hv].
  { intros x. auto_derive. exact I. }
  destruct (RI_exists (fun f => (1 - exp (- b * (f2 - f))) ^ 2 * sin (2 * PI * t * f)) (1/2) f2) as [w Hw].
  { intros x. auto_derive. exact I. }
  exists (u + (v + w)). eapply bl_split; [| | |exact Hu|exact Hv|exact Hw].
  - intros f Hf. rewrite bl_low; [ring|]. rewrite Rabs_right; lra.
  - intros f Hf. rewrite bl_mid; rewrite Rabs_right by lra; [reflexivity|lra].
  - intros f Hf. rewrite bl_hi; rewrite Rabs_right by lra; [reflexivity|lra].
Qed.
End BEAU.
