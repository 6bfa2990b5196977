(** Closed forms of the raised-cosine integrals. *)
Set Warnings "-ambiguous-paths".
From Coq Require Import List ZArith Reals Lra Lia Psatz.
From Coquelicot Require Import Coquelicot.
From Verif Require Import Pulse_Model Pulse_Spec Pulse_Int Pulse_Basic Pulse_RC.
Import ListNotations.
Local Open Scope R_scope.

Lemma sinc_scaled (k t : R) : t <> 0 -> k * sinc (k * t) = sin (PI * k * t) / (PI * t).
Proof.
  intros Ht. pose proof (sinc_mul (k * t)) as S. pose proof PI_RGT_0.
  replace (PI * k * t) with (PI * (k * t)) by ring. rewrite <- S. field. lra.
Qed.

Lemma low_plus_flat (a t : R) :
  (1 - a) * sinc ((1 - a) * t) + a * sinc (a * t) * cos (PI * t) = sinc t * cos (PI * a * t).
Proof.
  destruct (Req_EM_T t 0) as [->|N].
  - rewrite !Rmult_0_r, sinc_0, cos_0. ring.
  - rewrite sinc_scaled, (sinc_scaled a), (sinc_nz t) by exact N.
    replace (PI * (1 - a) * t) with (PI * t - PI * a * t) by ring. rewrite sin_minus.
    field. pose proof PI_RGT_0. split; lra.
Qed.

Lemma cos_half_plus (t : R) : cos (PI * (t + 1/2)) = - sin (PI * t).
Proof.
  replace (PI * (t + 1/2)) with (PI * t + PI / 2) by field.
  rewrite cos_plus, cos_PI2, sin_PI2. ring.
Qed.
Lemma cos_half_minus (t : R) : cos (PI * (t - 1/2)) = sin (PI * t).
Proof.
  replace (PI * (t - 1/2)) with (PI * t - PI / 2) by field.
  rewrite cos_minus, cos_PI2, sin_PI2. ring.
Qed.
Lemma sin_half_plus (t : R) : sin (PI * (t + 1/2)) = cos (PI * t).
Proof.
  replace (PI * (t + 1/2)) with (PI * t + PI / 2) by field.
  rewrite sin_plus, cos_PI2, sin_PI2. ring.
Qed.
Lemma sin_half_minus (t : R) : sin (PI * (t - 1/2)) = - cos (PI * t).
Proof.
  replace (PI * (t - 1/2)) with (PI * t - PI / 2) by field.
  rewrite sin_minus, cos_PI2, sin_PI2. ring.
Qed.
Lemma sinc_1 : sinc 1 = 0.
Proof. apply (sinc_Z 1). lia. Qed.
Lemma sinc_m1 : sinc (-1) = 0.
Proof. apply (sinc_Z (-1)). lia. Qed.

Lemma rc_closed (a t : R) : 0 < a ->
  (1 - a) / 2 * sinc (2 * ((1 - a) / 2) * t) + 1/2 * (band_val a 0 t + band_val a (1/2) t)
  = raised_cosine t a / 2.
Proof.
  intros Ha. pose proof PI_RGT_0 as HP. unfold band_val, raised_cosine.
  rewrite !Rplus_0_r, !Rminus_0_r, cos_half_plus, cos_half_minus.
  replace (2 * ((1 - a) / 2) * t) with ((1 - a) * t) by field.
  pose proof (low_plus_flat a t) as L.
  assert (K : sinc t * cos (PI * a * t)
              + a / 2 * sin (PI * t) * (sinc (a * t - 1/2) - sinc (a * t + 1/2))
              = PI / 4 * sinc t * (sinc (a * t + 1/2) + sinc (a * t - 1/2))).
  { destruct (Req_EM_T (a * t - 1/2) 0) as [E|N1].
    - assert (E' : a * t = 1/2) by lra.
      replace (a * t + 1/2) with 1 by lra. rewrite E, sinc_0, sinc_1.
      replace (PI * a * t) with (PI / 2) by (rewrite Rmult_assoc, E'; field).
      rewrite cos_PI2. rewrite <- (sinc_mul t).
      replace (a / 2 * (PI * t * sinc t) * (1 - 0)) with (PI / 2 * sinc t * (a * t)) by field.
      rewrite E'. field.
    - destruct (Req_EM_T (a * t + 1/2) 0) as [E|N2].
      + assert (E' : a * t = - (1/2)) by lra.
        replace (a * t - 1/2) with (-1) by lra. rewrite E, sinc_0, sinc_m1.
        replace (PI * a * t) with (- (PI / 2)) by (rewrite Rmult_assoc, E'; field).
        rewrite cos_neg, cos_PI2. rewrite <- (sinc_mul t).
        replace (a / 2 * (PI * t * sinc t) * (0 - 1)) with (- (PI / 2 * sinc t * (a * t))) by field.
        rewrite E'. field.
      + rewrite (sinc_nz (a * t - 1/2)), (sinc_nz (a * t + 1/2)) by assumption.
        rewrite sin_half_plus, sin_half_minus. rewrite <- (sinc_mul t).
        replace (PI * (a * t)) with (PI * a * t) by ring.
        field. repeat split; lra. }
  replace ((1 - a) / 2 * sinc ((1 - a) * t)
    + 1/2 * (a / 2 * (sinc (a * t) * cos (PI * t) + sinc (a * t) * cos (PI * t))
             + a / 2 * (sinc (a * t + 1/2) * - sin (PI * t) + sinc (a * t - 1/2) * sin (PI * t))))
    with (1/2 * (((1 - a) * sinc ((1 - a) * t) + a * sinc (a * t) * cos (PI * t))
                 + a / 2 * sin (PI * t) * (sinc (a * t - 1/2) - sinc (a * t + 1/2)))) by field.
  rewrite L, K. field.
Qed.

(** ** The autocorrelation term *)
Lemma rc_term_regular (a t : R) :
  a * t <> 1 -> a * t <> -1 ->
  (band_val a 0 t - band_val a 1 t) = a * (sinc (a * t) * cos (PI * t) / (1 - (a * t) ^ 2)).
Proof.
  intros N1 N2. pose proof PI_RGT_0 as HP. unfold band_val.
  rewrite !Rplus_0_r, !Rminus_0_r.
  replace (PI * (t + 1)) with (PI * t + PI) by ring.
  replace (PI * (t - 1)) with (PI * t - PI) by ring.
  rewrite cos_plus, cos_minus, cos_PI, sin_PI.
  set (u := a * t) in *.
  assert (Hs : sinc (u + 1) + sinc (u - 1) = - 2 * u ^ 2 * sinc u / (u ^ 2 - 1)).
  { rewrite !sinc_nz by lra.
    replace (PI * (u + 1)) with (PI * u + PI) by ring.
    replace (PI * (u - 1)) with (PI * u - PI) by ring.
    rewrite sin_plus, sin_minus, cos_PI, sin_PI.
    rewrite <- (sinc_mul u). field.
    repeat split; nra. }
  replace (a / 2 * (sinc u * cos (PI * t) + sinc u * cos (PI * t))
    - a / 2 * (sinc (u + 1) * (cos (PI * t) * -1 - sin (PI * t) * 0)
               + sinc (u - 1) * (cos (PI * t) * -1 + sin (PI * t) * 0)))
    with (a * cos (PI * t) * (sinc u + 1/2 * (sinc (u + 1) + sinc (u - 1)))) by field.
  rewrite Hs. field. split; nra.
Qed.
Lemma rc_term_singular (a t : R) : 0 < a -> Rabs t = 1 / a ->
  (band_val a 0 t - band_val a 1 t) = a * (cos (PI / a) / 2).
Proof.
  intros Ha Ht. pose proof PI_RGT_0 as HP. unfold band_val.
  rewrite !Rplus_0_r, !Rminus_0_r.
  replace (PI * (t + 1)) with (PI * t + PI) by ring.
  replace (PI * (t - 1)) with (PI * t - PI) by ring.
  rewrite cos_plus, cos_minus, cos_PI, sin_PI.
  assert (P1 : 0 < 1 / a) by (apply Rdiv_lt_0_compat; lra).
  unfold Rabs in Ht. destruct Rcase_abs as [Hn|Hn].
  - assert (Et : t = - (1 / a)) by lra. rewrite Et.
    replace (a * - (1 / a)) with (-1) by (field; lra).
    replace (-1 + 1) with 0 by ring. replace (-1 - 1) with (-2) by ring.
    rewrite sinc_m1, sinc_0, (sinc_Z (-2)) by lia.
    replace (PI * - (1 / a)) with (- (PI / a)) by (field; lra). rewrite cos_neg. field.
  - rewrite Ht.
    replace (a * (1 / a)) with 1 by (field; lra).
    replace (1 + 1) with 2 by ring. rewrite (Rminus_eq_0 1).
    rewrite sinc_1, sinc_0, (sinc_Z 2) by lia.
    replace (PI * (1 / a)) with (PI / a) by (field; lra). field.
Qed.

(** ** The root-raised-cosine waveform *)
Lemma band_quarter_pair (a t : R) :
  sin (PI * (a * t + 1/4)) * cos (PI * (t + 1/4))
  = 1/2 * (cos (PI * (1 + a) * t) - sin (PI * (1 - a) * t)) /\
  sin (PI * (a * t - 1/4)) * cos (PI * (t - 1/4))
  = 1/2 * (- cos (PI * (1 + a) * t) - sin (PI * (1 - a) * t)).
Proof.
  assert (A : forall x y, sin x * cos y = 1/2 * (sin (x + y) + sin (x - y))).
  { intros x y. rewrite sin_plus, sin_minus. field. }
  split; rewrite A; f_equal.
  - replace (PI * (a * t + 1/4) + PI * (t + 1/4)) with (PI / 2 + PI * (1 + a) * t) by field.
    replace (PI * (a * t + 1/4) - PI * (t + 1/4)) with (- (PI * (1 - a) * t)) by field.
    rewrite sin_neg, (sin_plus (PI / 2)), sin_PI2, cos_PI2. ring.
  - replace (PI * (a * t - 1/4) + PI * (t - 1/4)) with (- (PI / 2 - PI * (1 + a) * t)) by field.
    replace (PI * (a * t - 1/4) - PI * (t - 1/4)) with (- (PI * (1 - a) * t)) by field.
    rewrite !sin_neg, sin_shift. ring.
Qed.

Lemma rrc_regular (a t : R) : t <> 0 -> a * t <> 1/4 -> a * t <> - (1/4) ->
  2 * ((1 - a) / 2 * sinc (2 * ((1 - a) / 2) * t) + band_val a (1/4) t)
  = (sin (2 * PI * ((1 - a) / 2) * t) + 4 * a * t * cos (2 * PI * ((1 + a) / 2) * t))
    / (PI * t * (1 - (4 * a * t) ^ 2)).
Proof.
  intros N0 N1 N2. pose proof PI_RGT_0 as HP. unfold band_val.
  replace (2 * ((1 - a) / 2) * t) with ((1 - a) * t) by field.
  replace (2 * ((1 - a) / 2 * sinc ((1 - a) * t)
     + a / 2 * (sinc (a * t + 1/4) * cos (PI * (t + 1/4)) + sinc (a * t - 1/4) * cos (PI * (t - 1/4)))))
    with ((1 - a) * sinc ((1 - a) * t)
     + a * (sinc (a * t + 1/4) * cos (PI * (t + 1/4)) + sinc (a * t - 1/4) * cos (PI * (t - 1/4)))) by field.
  rewrite sinc_scaled by exact N0.
  rewrite (sinc_nz (a * t + 1/4)), (sinc_nz (a * t - 1/4)) by lra.
  destruct (band_quarter_pair a t) as [E1 E2].
  replace (sin (PI * (a * t + 1/4)) / (PI * (a * t + 1/4)) * cos (PI * (t + 1/4)))
    with (sin (PI * (a * t + 1/4)) * cos (PI * (t + 1/4)) / (PI * (a * t + 1/4))) by (unfold Rdiv; ring).
  replace (sin (PI * (a * t - 1/4)) / (PI * (a * t - 1/4)) * cos (PI * (t - 1/4)))
    with (sin (PI * (a * t - 1/4)) * cos (PI * (t - 1/4)) / (PI * (a * t - 1/4))) by (unfold Rdiv; ring).
  rewrite E1, E2.
  replace (2 * PI * ((1 - a) / 2) * t) with (PI * (1 - a) * t) by field.
  replace (2 * PI * ((1 + a) / 2) * t) with (PI * (1 + a) * t) by field.
  set (s := sin (PI * (1 - a) * t)). set (c := cos (PI * (1 + a) * t)).
  set (u := a * t) in *.
  replace (4 * a * t) with (4 * u) by (unfold u; ring).
  assert (Eu : a = u / t) by (unfold u; field; exact N0).
  rewrite Eu. field. repeat split; try nra; try assumption.
  all: try (intro Z; nra).
Qed.

Lemma sinc_half : sinc (1/2) = 2 / PI.
Proof.
  rewrite sinc_nz by lra. replace (PI * (1/2)) with (PI / 2) by field. rewrite sin_PI2.
  field. pose proof PI_RGT_0. lra.
Qed.
Lemma sq2 : sqrt 2 * sqrt 2 = 2.
Proof. apply sqrt_sqrt. lra. Qed.
Lemma sqrt2_pos : 0 < sqrt 2.
Proof. apply sqrt_lt_R0. lra. Qed.

Lemma rrc_zero (a : R) :
  2 * ((1 - a) / 2 * sinc (2 * ((1 - a) / 2) * 0) + band_val a (1/4) 0) = 1 + a * (4 / PI - 1).
Proof.
  pose proof PI_RGT_0 as HP. unfold band_val.
  rewrite !Rmult_0_r, sinc_0, !Rplus_0_l.
  replace (0 - 1/4) with (- (1/4)) by ring. rewrite sinc_even.
  replace (PI * - (1/4)) with (- (PI / 4)) by field. replace (PI * (1/4)) with (PI / 4) by field.
  rewrite cos_neg, sinc_nz by lra. replace (PI * (1/4)) with (PI / 4) by field.
  rewrite sin_PI4, cos_PI4. pose proof sq2. pose proof sqrt2_pos.
  assert (E : 1 / sqrt 2 * (1 / sqrt 2) = 1/2) by (field_simplify; [rewrite <- Rsqr_pow2; unfold Rsqr; rewrite sq2; field|lra]).
  replace (1 / sqrt 2 / (PI / 4) * (1 / sqrt 2)) with ((1 / sqrt 2 * (1 / sqrt 2)) * (4 / PI)) by (field; split; lra).
  rewrite E. field. lra.
Qed.

Lemma rrc_singular (a t : R) : 0 < a -> Rabs t = 1 / (4 * a) ->
  2 * ((1 - a) / 2 * sinc (2 * ((1 - a) / 2) * t) + band_val a (1/4) t)
  = a / sqrt 2 * ((1 + 2 / PI) * sin (PI / (4 * a)) + (1 - 2 / PI) * cos (PI / (4 * a))).
Proof.
  intros Ha Ht. pose proof PI_RGT_0 as HP. pose proof sq2. pose proof sqrt2_pos.
  assert (P1 : 0 < 1 / (4 * a)) by (apply Rdiv_lt_0_compat; lra).
  assert (G : forall t, t = 1 / (4 * a) ->
    2 * ((1 - a) / 2 * sinc (2 * ((1 - a) / 2) * t) + band_val a (1/4) t)
  = a / sqrt 2 * ((1 + 2 / PI) * sin (PI / (4 * a)) + (1 - 2 / PI) * cos (PI / (4 * a)))).
  { clear t Ht. intros t Ht.
    assert (N : t <> 0) by lra.
    assert (Eu : a * t = 1/4) by (rewrite Ht; field; lra).
    unfold band_val. rewrite Eu.
    replace (2 * ((1 - a) / 2) * t) with ((1 - a) * t) by field.
    replace (1/4 + 1/4) with (1/2) by field. replace (1/4 - 1/4) with 0 by ring.
    rewrite sinc_0, sinc_half.
    replace (2 * ((1 - a) / 2 * sinc ((1 - a) * t)
       + a / 2 * (2 / PI * cos (PI * (t + 1/4)) + 1 * cos (PI * (t - 1/4)))))
      with ((1 - a) * sinc ((1 - a) * t) + a * (2 / PI * cos (PI * (t + 1/4)) + cos (PI * (t - 1/4))))
      by (field; lra).
    rewrite sinc_scaled by exact N.
    replace (PI * (1 - a) * t) with (PI * t - PI * (a * t)) by ring. rewrite Eu.
    replace (PI * (t + 1/4)) with (PI * t + PI / 4) by field.
    replace (PI * (t - 1/4)) with (PI * t - PI / 4) by field.
    replace (PI * (1/4)) with (PI / 4) by field.
    rewrite sin_minus, cos_plus, cos_minus, sin_PI4, cos_PI4.
    replace (PI * t) with (PI / (4 * a)) by (rewrite Ht; field; lra).
    set (s := sin (PI / (4 * a))). set (c := cos (PI / (4 * a))).
    replace (PI / (4 * a)) with (PI * t) by (rewrite Ht; field; lra).
    replace (a / sqrt 2) with (1 / sqrt 2 * a) by (field; lra).
    rewrite Ht. field. repeat split; lra. }
  unfold Rabs in Ht. destruct Rcase_abs as [Hn|Hn]; [|apply G; exact Ht].
  rewrite <- (G (- t)) by exact Ht.
  f_equal. f_equal.
  - f_equal. replace (2 * ((1 - a) / 2) * - t) with (- (2 * ((1 - a) / 2) * t)) by ring.
    rewrite sinc_even. reflexivity.
  - unfold band_val. f_equal.
    replace (a * - t + 1/4) with (- (a * t - 1/4)) by ring.
    replace (a * - t - 1/4) with (- (a * t + 1/4)) by ring.
    replace (PI * (- t + 1/4)) with (- (PI * (t - 1/4))) by ring.
    replace (PI * (- t - 1/4)) with (- (PI * (t + 1/4))) by ring.
    rewrite !sinc_even, !cos_neg. ring.
Qed.
