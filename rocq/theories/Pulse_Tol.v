(** Lipschitz bounds for the windows where [np.isclose] replaces the formula by
    its limit value; complex square roots; sums over integer translates. *)
Set Warnings "-ambiguous-paths".
From Coq Require Import List ZArith Reals Lra Lia Psatz.
From Coquelicot Require Import Coquelicot.
From Verif Require Import Pulse_Model Pulse_Spec Pulse_Int Pulse_Basic Pulse_RC Pulse_RC2 Pulse_Beau.
Import ListNotations.
Local Open Scope R_scope.

Lemma cos_lip (x y : R) : Rabs (cos x - cos y) <= Rabs (x - y).
Proof.
  destruct (MVT_gen cos y x (fun z => - sin z)) as [c [_ E]].
  - intros z _. auto_derive; [exact I|]. ring.
  - intros z _. apply derivable_continuous_pt. apply derivable_pt_cos.
  - rewrite E, Rabs_mult, Rabs_Ropp.
    assert (Rabs (sin c) <= 1) by (apply Rabs_le; apply SIN_bound).
    pose proof (Rabs_pos (sin c)). pose proof (Rabs_pos (x - y)). nra.
Qed.
Lemma sin_lip (x y : R) : Rabs (sin x - sin y) <= Rabs (x - y).
Proof.
  rewrite <- (cos_shift x), <- (cos_shift y).
  eapply Rle_trans; [apply cos_lip|].
  replace (PI / 2 - x - (PI / 2 - y)) with (- (x - y)) by ring. rewrite Rabs_Ropp. lra.
Qed.

Lemma RI_lip (D : R -> R) (lo hi K t t' u u' : R) :
  0 <= lo -> lo <= hi -> hi <= 1 -> (forall f, lo <= f <= hi -> Rabs (D f) <= K) ->
  is_RInt (fun f => D f * cos (2 * PI * t * f)) lo hi u ->
  is_RInt (fun f => D f * cos (2 * PI * t' * f)) lo hi u' ->
  Rabs (u - u') <= (hi - lo) * (K * (2 * PI * Rabs (t - t'))).
Proof.
  intros H0 H1 H2 HD Hu Hu'. pose proof PI_RGT_0 as HP.
  pose proof (RI_minus _ _ _ _ _ _ Hu Hu') as Hd.
  rewrite <- (is_RInt_unique _ _ _ _ Hd).
  apply abs_RInt_le_const; [exact H1|exists (u - u'); exact Hd|].
  intros f Hf.
  replace (D f * cos (2 * PI * t * f) - D f * cos (2 * PI * t' * f))
    with (D f * (cos (2 * PI * t * f) - cos (2 * PI * t' * f))) by ring.
  rewrite Rabs_mult.
  assert (C : Rabs (cos (2 * PI * t * f) - cos (2 * PI * t' * f)) <= 2 * PI * Rabs (t - t')).
  { eapply Rle_trans; [apply cos_lip|].
    replace (2 * PI * t * f - 2 * PI * t' * f) with (2 * PI * (t - t') * f) by ring.
    rewrite !Rabs_mult, (Rabs_right 2), (Rabs_right PI), (Rabs_right f) by lra.
    pose proof (Rabs_pos (t - t')).
    rewrite <- (Rmult_1_r (2 * PI * Rabs (t - t'))) at 2.
    apply Rmult_le_compat_l; [|lra]. apply Rmult_le_pos; [lra|exact H]. }
  specialize (HD f Hf).
  apply Rmult_le_compat; auto using Rabs_pos.
Qed.

Lemma band_lip (a m t t' : R) : 0 < a <= 1 ->
  Rabs (band_val a m t - band_val a m t') <= a * (2 * PI * Rabs (t - t')).
Proof.
  intros Ha. assert (Na : a <> 0) by lra.
  pose proof (RI_lip (fun f => cos (2 * PI * m * (f - (1 - a) / 2) / a))
     ((1 - a) / 2) ((1 + a) / 2) 1 t t' _ _ ltac:(lra) ltac:(lra) ltac:(lra)
     ltac:(intros; apply Rabs_le; apply COS_bound) (band_cos a m t Na) (band_cos a m t' Na)) as L.
  replace ((1 + a) / 2 - (1 - a) / 2) with a in L by field. lra.
Qed.
Lemma low_lip (a t t' : R) : 0 < a <= 1 ->
  Rabs ((1 - a) / 2 * sinc (2 * ((1 - a) / 2) * t) - (1 - a) / 2 * sinc (2 * ((1 - a) / 2) * t'))
  <= (1 - a) / 2 * (2 * PI * Rabs (t - t')).
Proof.
  intros Ha.
  pose proof (RI_lip (fun f => 1) 0 ((1 - a) / 2) 1 t t'
    ((1 - a) / 2 * sinc (2 * ((1 - a) / 2) * t)) ((1 - a) / 2 * sinc (2 * ((1 - a) / 2) * t'))) as L.
  rewrite Rminus_0_r, Rmult_1_l in L. apply L; try lra.
  - intros; rewrite Rabs_R1; lra.
  - apply (RI_ext (fun f => cos (2 * PI * t * f))); [intros; ring|apply band_low].
  - apply (RI_ext (fun f => cos (2 * PI * t' * f))); [intros; ring|apply band_low].
Qed.

(** PI between 3 and 4. *)
Lemma PI_gt3 : 3 < PI.
Proof. pose proof PI2_3_2. lra. Qed.

(** ** The exact value of the root-raised-cosine waveform *)
Definition rrc_exact (a t : R) : R :=
  2 * ((1 - a) / 2 * sinc (2 * ((1 - a) / 2) * t) + band_val a (1/4) t).
Lemma band_val_even (a m t : R) : band_val a m (- t) = band_val a m t.
Proof.
  unfold band_val. f_equal.
  replace (a * - t + m) with (- (a * t - m)) by ring.
  replace (a * - t - m) with (- (a * t + m)) by ring.
  replace (PI * (- t + m)) with (- (PI * (t - m))) by ring.
  replace (PI * (- t - m)) with (- (PI * (t + m))) by ring.
  rewrite !sinc_even, !cos_neg. ring.
Qed.
Lemma rrc_exact_abs (a t : R) : rrc_exact a (Rabs t) = rrc_exact a t.
Proof.
  unfold Rabs. destruct Rcase_abs; [|reflexivity]. unfold rrc_exact.
  rewrite band_val_even.
  replace (2 * ((1 - a) / 2) * - t) with (- (2 * ((1 - a) / 2) * t)) by ring.
  rewrite sinc_even. reflexivity.
Qed.

Lemma rrc_near_zero (a t : R) : 0 < a <= 1 -> isclose t 0 ->
  Rabs (rrc_exact a 0 - rrc_exact a t) <= 1 / 10000.
Proof.
  intros Ha Hc. unfold isclose in Hc. rewrite Rabs_R0, Rmult_0_r, Rplus_0_r, Rminus_0_r in Hc.
  pose proof (low_lip a 0 t Ha) as L1. pose proof (band_lip a (1/4) 0 t Ha) as L2.
  unfold rrc_exact.
  set (x := (1 - a) / 2 * sinc (2 * ((1 - a) / 2) * 0)) in *.
  set (x' := (1 - a) / 2 * sinc (2 * ((1 - a) / 2) * t)) in *.
  set (y := band_val a (1/4) 0) in *. set (y' := band_val a (1/4) t) in *.
  rewrite Rminus_0_l, Rabs_Ropp in *.
  pose proof PI_RGT_0. pose proof PI_4.
  assert (B : 2 * PI * Rabs t <= 8 / 100000000).
  { pose proof (Rabs_pos t). nra. }
  replace (2 * (x + y) - 2 * (x' + y')) with (2 * ((x - x') + (y - y'))) by ring.
  rewrite Rabs_mult, (Rabs_right 2) by lra.
  pose proof (Rabs_triang (x - x') (y - y')). 
  assert (0 <= 2 * PI * Rabs t) by (pose proof (Rabs_pos t); nra).
  nra.
Qed.

Lemma rrc_near_singular (a t : R) : 0 < a <= 1 -> isclose (Rabs t) (1 / (4 * a)) ->
  Rabs (rrc_exact a (1 / (4 * a)) - rrc_exact a t) <= 1 / 10000.
Proof.
  intros Ha Hc. rewrite <- (rrc_exact_abs a t).
  set (s := Rabs t) in *. set (t0 := 1 / (4 * a)) in *.
  assert (Ht0 : a * t0 = 1/4) by (unfold t0; field; lra).
  assert (P0 : 0 < t0) by nra.
  unfold isclose in Hc. rewrite (Rabs_right t0) in Hc by lra.
  set (d := Rabs (t0 - s)).
  assert (Hd : d <= 1 / 100000000 + 1 / 100000 * t0).
  { unfold d. rewrite Rabs_minus_sym. exact Hc. }
  assert (Pd : 0 <= d) by apply Rabs_pos.
  assert (Had : a * d <= 251 / 100000000) by nra.
  assert (Hs : t0 - d <= s <= t0 + d).
  { unfold d. unfold Rabs. destruct Rcase_abs; lra. }
  assert (Has : 1 / 4 - 251 / 100000000 <= a * s) by nra.
  assert (Ps : 0 < s) by nra.
  pose proof PI_gt3 as P3. pose proof PI_4 as P4. pose proof PI_RGT_0 as PP.
  pose proof (band_lip a (1/4) t0 s Ha) as L2. fold d in L2.
  unfold rrc_exact.
  replace (2 * ((1 - a) / 2) * t0) with ((1 - a) * t0) by field.
  replace (2 * ((1 - a) / 2) * s) with ((1 - a) * s) by field.
  set (y := band_val a (1/4) t0) in *. set (y' := band_val a (1/4) s) in *.
  replace (2 * ((1 - a) / 2 * sinc ((1 - a) * t0) + y) - 2 * ((1 - a) / 2 * sinc ((1 - a) * s) + y'))
    with (((1 - a) * sinc ((1 - a) * t0) - (1 - a) * sinc ((1 - a) * s)) + 2 * (y - y')) by field.
  rewrite !sinc_scaled by lra.
  set (S0 := sin (PI * (1 - a) * t0)). set (S1 := sin (PI * (1 - a) * s)).
  assert (HS : Rabs (S0 - S1) <= PI * (1 - a) * d).
  { unfold S0, S1. eapply Rle_trans; [apply sin_lip|].
    replace (PI * (1 - a) * t0 - PI * (1 - a) * s) with (PI * (1 - a) * (t0 - s)) by ring.
    rewrite Rabs_mult, (Rabs_right (PI * (1 - a))) by (apply Rle_ge; nra). unfold d. lra. }
  assert (HS1 : Rabs S1 <= 1) by (apply Rabs_le; apply SIN_bound).
  (* S0/(PI t0) - S1/(PI s) = (S0 - S1)/(PI t0) + S1 (s - t0)/(PI t0 s) *)
  assert (I0 : / t0 = 4 * a) by (unfold t0; field; lra).
  assert (Is : / s <= 4001 / 1000 * a).
  { apply Rmult_le_reg_r with s; [exact Ps|]. rewrite Rinv_l by lra. nra. }
  assert (Ips : 0 < / s) by (apply Rinv_0_lt_compat; exact Ps).
  assert (Ipi : / PI <= 1/3).
  { apply Rmult_le_reg_r with PI; [exact PP|]. rewrite Rinv_l by lra. lra. }
  assert (Ipp : 0 < / PI) by (apply Rinv_0_lt_compat; exact PP).
  assert (E : S0 / (PI * t0) - S1 / (PI * s)
              = (S0 - S1) * (/ PI * (4 * a)) + S1 * (s - t0) * (/ PI * (4 * a) * / s)).
  { rewrite <- I0. field. repeat split; lra. }
  rewrite E.
  assert (B1 : Rabs ((S0 - S1) * (/ PI * (4 * a))) <= 4 * (a * d)).
  { rewrite Rabs_mult, (Rabs_right (/ PI * (4 * a))) by (apply Rle_ge; apply Rmult_le_pos; lra).
    apply Rle_trans with (PI * (1 - a) * d * (/ PI * (4 * a))).
    - apply Rmult_le_compat_r; [apply Rmult_le_pos; lra|exact HS].
    - replace (PI * (1 - a) * d * (/ PI * (4 * a))) with ((1 - a) * (4 * (a * d))) by (field; lra).
      assert (0 <= a * d) by nra. nra. }
  assert (B2 : Rabs (S1 * (s - t0) * (/ PI * (4 * a) * / s)) <= 6 * (a * d)).
  { rewrite !Rabs_mult. rewrite (Rabs_right (/ PI)), (Rabs_right (/ s)) by lra.
    rewrite (Rabs_right 4), (Rabs_right a) by lra.
    replace (Rabs (s - t0)) with d by (unfold d; apply Rabs_minus_sym).
    assert (X1 : Rabs S1 * d <= d) by (pose proof (Rabs_pos S1); nra).
    assert (X2 : / PI * (4 * a) * / s <= 1/3 * (4 * a) * (4001 / 1000 * a)).
    { apply Rmult_le_compat; [apply Rmult_le_pos; lra|lra| |exact Is].
      apply Rmult_le_compat_r; lra. }
    assert (X3 : 0 <= / PI * (4 * a) * / s) by (apply Rmult_le_pos; [apply Rmult_le_pos|]; lra).
    assert (X4 : 0 <= Rabs S1 * d) by (apply Rmult_le_pos; [apply Rabs_pos|exact Pd]).
    apply Rle_trans with (d * (1/3 * (4 * a) * (4001 / 1000 * a))).
    - apply Rmult_le_compat; assumption.
    - assert (0 <= a * d) by nra.
      replace (d * (1/3 * (4 * a) * (4001 / 1000 * a))) with (16004/3000 * a * (a * d)) by field. nra. }
  assert (B3 : Rabs (S1 * (s - t0) * (/ PI * (4 * a) * / s) + 2 * (y - y')) <= 6 * (a * d) + 16 * (a * d)).
  { eapply Rle_trans; [apply Rabs_triang|]. apply Rplus_le_compat; [exact B2|].
    rewrite Rabs_mult, (Rabs_right 2) by lra.
    assert (0 <= a * d) by nra.
    apply Rle_trans with (2 * (a * (2 * PI * d))); [lra|]. nra. }
  pose proof (Rabs_triang ((S0 - S1) * (/ PI * (4 * a)))
     (S1 * (s - t0) * (/ PI * (4 * a) * / s) + 2 * (y - y'))) as T.
  rewrite Rplus_assoc. lra.
Qed.

(** ** The raised-cosine autocorrelation term *)
Lemma rc_term_lip (a t t' : R) : 0 < a <= 1 ->
  Rabs ((band_val a 0 t - band_val a 1 t) - (band_val a 0 t' - band_val a 1 t'))
  <= 2 * (a * (2 * PI * Rabs (t - t'))).
Proof.
  intros Ha. pose proof (band_lip a 0 t t' Ha). pose proof (band_lip a 1 t t' Ha).
  replace ((band_val a 0 t - band_val a 1 t) - (band_val a 0 t' - band_val a 1 t'))
    with ((band_val a 0 t - band_val a 0 t') + - (band_val a 1 t - band_val a 1 t')) by ring.
  pose proof (Rabs_triang (band_val a 0 t - band_val a 0 t') (- (band_val a 1 t - band_val a 1 t'))).
  rewrite Rabs_Ropp in *. lra.
Qed.
Definition rc_auto_exact (a t : R) : R :=
  raised_cosine t a - 1/4 * (band_val a 0 t - band_val a 1 t).
Lemma rc_auto_close (a t : R) : 0 < a <= 1 ->
  Rabs (rc_autocorrelation a t - rc_auto_exact a t) <= 1 / 10000 /\
  (~ isclose (Rabs t) (1 / a) \/ Rabs t = 1 / a -> rc_autocorrelation a t = rc_auto_exact a t).
Proof.
  intros Ha. unfold rc_autocorrelation, rc_auto_exact.
  destruct Req_EM_T as [|_]; [lra|]. cbv zeta.
  assert (P1 : 0 < 1 / a) by (apply Rdiv_lt_0_compat; lra).
  destruct (isclose_dec (Rabs t) (1 / a)) as [C|C].
  - (* compare with the singular point of the same sign *)
    set (t0 := if Rlt_dec t 0 then - (1 / a) else 1 / a).
    assert (A0 : Rabs t0 = 1 / a).
    { unfold t0. destruct Rlt_dec; [rewrite Rabs_Ropp|]; apply Rabs_right; lra. }
    assert (D0 : Rabs (t0 - t) = Rabs (Rabs t - 1 / a)).
    { unfold t0. destruct Rlt_dec.
      - rewrite (Rabs_left t) by lra. f_equal. ring.
      - rewrite (Rabs_right t) by lra. apply Rabs_minus_sym. }
    pose proof (rc_term_singular a t0 ltac:(lra) A0) as S.
    pose proof (rc_term_lip a t0 t Ha) as L. rewrite D0 in L.
    pose proof C as C0. unfold isclose in C. rewrite (Rabs_right (1 / a)) in C by lra.
    assert (B : a * Rabs (Rabs t - 1 / a) <= 2 / 100000).
    { assert (a * (1 / a) = 1) by (field; lra).
      pose proof (Rabs_pos (Rabs t - 1 / a)). nra. }
    split.
    + replace (raised_cosine t a - a / 4 * (cos (PI / a) / 2)
               - (raised_cosine t a - 1/4 * (band_val a 0 t - band_val a 1 t)))
        with (- (1/4 * ((band_val a 0 t0 - band_val a 1 t0) - (band_val a 0 t - band_val a 1 t))))
        by (rewrite S; field).
      rewrite Rabs_Ropp, Rabs_mult, (Rabs_right (1/4)) by lra.
      pose proof PI_4. pose proof PI_RGT_0. pose proof (Rabs_pos (Rabs t - 1 / a)).
      assert (0 <= a * Rabs (Rabs t - 1 / a)) by nra. nra.
    + intros [N|E]; [contradiction|].
      rewrite (rc_term_singular a t) by (lra || exact E). field.
  - assert (N1 : a * t <> 1 /\ a * t <> -1).
    { split; intros E; apply C; unfold isclose.
      - assert (E1 : t = 1 / a) by (rewrite <- E; field; lra).
        rewrite E1, (Rabs_right (1 / a)), Rminus_eq_0, Rabs_R0 by lra. lra.
      - assert (E1 : t = - (1 / a)) by (replace (1 / a) with (- (a * t) / a) by (rewrite E; field; lra); field; lra).
        rewrite E1, Rabs_Ropp, (Rabs_right (1 / a)), Rminus_eq_0, Rabs_R0 by lra. lra. }
    rewrite (rc_term_regular a t) by tauto.
    replace (1/4 * (a * (sinc (a * t) * cos (PI * t) / (1 - (a * t) ^ 2))))
      with (a / 4 * (sinc (a * t) * cos (PI * t) / (1 - (a * t) ^ 2)))
      by (unfold Rdiv; ring).
    split; [rewrite Rminus_eq_0, Rabs_R0; lra|reflexivity].
Qed.

Lemma rrc_close (a t : R) : 0 < a <= 1 ->
  Rabs (rrc_waveform a t - rrc_exact a t) <= 1 / 10000 /\
  ((~ isclose t 0 \/ t = 0) -> (~ isclose (Rabs t) (1 / (4 * a)) \/ Rabs t = 1 / (4 * a)) ->
   rrc_waveform a t = rrc_exact a t).
Proof.
  intros Ha. unfold rrc_waveform. destruct Req_EM_T as [|_]; [lra|]. cbv zeta.
  assert (P1 : 0 < 1 / (4 * a)) by (apply Rdiv_lt_0_compat; lra).
  assert (A1 : Rabs (1 / (4 * a)) = 1 / (4 * a)) by (apply Rabs_right; lra).
  destruct (isclose_dec (Rabs t) (1 / (4 * a))) as [C|C].
  - pose proof (rrc_singular a (1 / (4 * a)) ltac:(lra) A1) as S.
    fold (rrc_exact a (1 / (4 * a))) in S. rewrite <- S.
    split; [apply rrc_near_singular; assumption|].
    intros _ [N|E]; [contradiction|]. rewrite <- E. apply rrc_exact_abs.
  - destruct (isclose_dec t 0) as [Z|Z].
    + pose proof (rrc_zero a) as S. fold (rrc_exact a 0) in S. rewrite <- S.
      split; [apply rrc_near_zero; assumption|].
      intros [N|E] _; [contradiction|]. rewrite E. reflexivity.
    + assert (N0 : t <> 0).
      { intros ->. apply Z. unfold isclose. rewrite Rminus_eq_0, !Rabs_R0. lra. }
      assert (N1 : a * t <> 1/4 /\ a * t <> - (1/4)).
      { split; intros E; apply C; unfold isclose.
        - assert (E1 : t = 1 / (4 * a)).
          { apply Rmult_eq_reg_l with a; [|lra]. rewrite E. field. lra. }
          rewrite E1, !A1, Rminus_eq_0, Rabs_R0. lra.
        - assert (E1 : t = - (1 / (4 * a))).
          { apply Rmult_eq_reg_l with a; [|lra]. rewrite E. field. lra. }
          rewrite E1, Rabs_Ropp, !A1, Rminus_eq_0, Rabs_R0. lra. }
      unfold rrc_exact. rewrite (rrc_regular a t) by tauto.
      split; [rewrite Rminus_eq_0, Rabs_R0; lra|reflexivity].
Qed.

(** ** Complex helpers on non-negative reals *)
Lemma cabs_real (x : R) : cabs (x, 0) = Rabs x.
Proof.
  unfold cabs. cbn [fst snd]. replace (x ^ 2 + 0 ^ 2) with (Rsqr x) by (unfold Rsqr; ring).
  apply sqrt_Rsqr_abs.
Qed.
Lemma cabs_sq (z : R * R) : cabs z ^ 2 = fst z ^ 2 + snd z ^ 2.
Proof.
  unfold cabs. replace (sqrt (fst z ^ 2 + snd z ^ 2) ^ 2)
    with (sqrt (fst z ^ 2 + snd z ^ 2) * sqrt (fst z ^ 2 + snd z ^ 2)) by ring.
  apply sqrt_sqrt. nra.
Qed.
Lemma csqrt_real (x : R) : 0 <= x -> csqrt (x, 0) = (sqrt x, 0).
Proof.
  intros H. unfold csqrt. rewrite cabs_real. cbn [fst snd]. rewrite Rabs_right by lra.
  replace ((x + x) / 2) with x by field. replace ((x - x) / 2) with 0 by field.
  rewrite sqrt_0. f_equal. ring.
Qed.

(** ** Sums over translates *)
Lemma Zsum_three (g : Z -> R) (k0 : Z) (n : nat) :
  (Z.abs k0 + 1 <= Z.of_nat n)%Z ->
  (forall k, (k < k0 - 1 \/ k0 + 1 < k)%Z -> g k = 0) ->
  Zsum g n = g (k0 - 1)%Z + g k0 + g (k0 + 1)%Z.
Proof.
  intros Hn Hz. unfold Zsum.
  set (i0 := Z.to_nat (k0 - 1 + Z.of_nat n)).
  set (r := (2 * n + 1 - i0 - 3)%nat).
  assert (E : (2 * n + 1)%nat = (i0 + (3 + r))%nat) by (unfold r, i0; lia).
  rewrite E, seq_app, map_app, fold_right_app.
  assert (Z1 : forall l acc, (forall i, In i l -> g (Z.of_nat i - Z.of_nat n)%Z = 0) ->
     fold_right Rplus acc (map (fun i => g (Z.of_nat i - Z.of_nat n)%Z) l) = acc).
  { induction l as [|i l IH]; intros acc H; simpl; [reflexivity|].
    rewrite IH by (intros j Hj; apply H; right; exact Hj). rewrite H by (left; reflexivity). ring. }
  rewrite Z1.
  2:{ intros i Hi. apply in_seq in Hi. apply Hz. left. unfold i0 in Hi. lia. }
  rewrite seq_app, map_app, fold_right_app.
  rewrite (Z1 (seq (0 + i0 + 3) r)).
  2:{ intros i Hi. apply in_seq in Hi. apply Hz. right. unfold i0 in Hi. lia. }
  cbn [seq map fold_right].
  replace (Z.of_nat (0 + i0) - Z.of_nat n)%Z with (k0 - 1)%Z by (unfold i0; lia).
  replace (Z.of_nat (S (0 + i0)) - Z.of_nat n)%Z with k0 by (unfold i0; lia).
  replace (Z.of_nat (S (S (0 + i0))) - Z.of_nat n)%Z with (k0 + 1)%Z by (unfold i0; lia).
  ring.
Qed.

Lemma translates (S : R -> R) :
  (forall x, 3/2 <= Rabs x -> S x = 0) ->
  (forall r, - (1/2) <= r < 1/2 -> S (r - 1) + S r + S (r + 1) = 1) ->
  translates_sum_to_one S.
Proof.
  intros Hz Hs f.
  set (k0 := (up (f - 1/2))%Z).
  destruct (archimed (f - 1/2)) as [A1 A2]. fold k0 in A1, A2.
  (* k0 - 1 <= f - 1/2 < k0, so f - k0 in [-1/2, 1/2) *)
  assert (Hr : - (1/2) <= f - IZR k0 < 1/2) by lra.
  exists (Z.to_nat (Z.abs k0 + 1)). intros n Hn.
  rewrite (Zsum_three _ k0); [|lia|].
  - rewrite minus_IZR, plus_IZR.
    replace (f - (IZR k0 - 1)) with ((f - IZR k0) + 1) by ring.
    replace (f - (IZR k0 + 1)) with ((f - IZR k0) - 1) by ring.
    pose proof (Hs _ Hr). lra.
  - intros k Hk. apply Hz.
    destruct Hk as [Hk|Hk].
    + assert (IZR k <= IZR k0 - 2) by (rewrite <- minus_IZR; apply IZR_le; lia).
      rewrite Rabs_right; lra.
    + assert (IZR k0 + 2 <= IZR k) by (rewrite <- plus_IZR; apply IZR_le; lia).
      rewrite Rabs_left; lra.
Qed.

(** Even spectra with S r + S (1 - r) = 1. *)
Lemma translates_even (S : R -> R) :
  (forall x, S (- x) = S x) -> (forall x, 1 <= x -> S x = 0) ->
  (forall r, 0 <= r <= 1/2 -> S r + S (1 - r) = 1) ->
  translates_sum_to_one S.
Proof.
  intros He Hz Hs. apply translates.
  - intros x Hx. unfold Rabs in Hx. destruct Rcase_abs; [rewrite <- He|]; apply Hz; lra.
  - intros r Hr. destruct (Rle_or_lt 0 r) as [P|P].
    + rewrite (Hz (r + 1)) by lra. rewrite <- (He (r - 1)).
      replace (- (r - 1)) with (1 - r) by ring. pose proof (Hs r). lra.
    + rewrite <- (He (r - 1)), (Hz (- (r - 1))) by lra. rewrite <- (He r).
      replace (r + 1) with (1 - - r) by ring. pose proof (Hs (- r)). lra.
Qed.
