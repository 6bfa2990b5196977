(** C117: amplitude constellations and uniform quantizers in double precision. *)
From Coq Require Import Reals Lra.
From Flocq Require Import Core.
From Verif Require Import Common Float_Model FloatShannon_Proof FloatFano_Proof FloatViterbi_Spec FloatViterbi_Proof Quant_Model Quant_Spec Quant_Proof Const_Model Const_Proof FloatConst_Model FloatConst_Proof Props_Quantizer.
Local Open Scope R_scope.

(* ---- PAM ---- *)
(* a received value whose distance to point i is below half a spacing, by a margin of M 2^-50 spacings, is decided as i *)
Theorem C117_pam_decides : forall conv M delta x i, (1 <= M)%nat -> INR M <= 2 ^ 48 -> 0 < delta -> (i < M)%nat ->
  Rabs (x - nth i (pam_points M delta) 0) <= (1 / 2 - INR M / 2 ^ 50) * delta -> float_pam_closest conv M delta x = i.
Proof. intros conv M d x i H1 HM D Hi H. rewrite pam_nth in H by exact Hi. now apply pam_sure. Qed.
(* every decision is nearest up to the same margin *)
Theorem C117_pam_nearest : forall conv M delta x, (1 <= M)%nat -> INR M <= 2 ^ 48 -> 0 < delta -> Rabs x <= 2 ^ 61 * delta ->
  (float_pam_closest conv M delta x < M)%nat /\
  forall j, (j < M)%nat -> Rabs (x - nth (float_pam_closest conv M delta x) (pam_points M delta) 0) <= Rabs (x - nth j (pam_points M delta) 0) + INR M / 2 ^ 50 * delta.
Proof.
  intros conv M d x H1 HM D Hx. assert (B : (float_pam_closest conv M d x < M)%nat) by (apply clip_bound; exact H1). split; [exact B|].
  intros j Hj. rewrite !pam_nth by auto. now apply pam_nearly.
Qed.
Theorem C117_pam_monotone : forall conv M delta x y, (1 <= M)%nat -> INR M <= 2 ^ 48 -> 0 < delta -> Rabs x <= 2 ^ 61 * delta -> Rabs y <= 2 ^ 61 * delta ->
  x <= y -> (float_pam_closest conv M delta x <= float_pam_closest conv M delta y)%nat.
Proof. intros. now apply pam_mono. Qed.
(* the stored points are the documented ones up to 14 M ulps of the spacing; the two ends are exactly opposite; they increase *)
Lemma fourteen M d : (1 <= M)%nat -> 0 < d -> 14 * U * (INR M - 1) * d <= INR M / 2 ^ 49 * d.
Proof.
  intros H D. apply Rmult_le_compat_r; [lra|]. replace (INR M / 2 ^ 49) with (16 * U * INR M).
  - pose proof U_pos. apply le_INR in H. cbn in H. assert (0 <= U * INR M) by (apply Rmult_le_pos; lra). lra.
  - unfold U, Rdiv. change 53%nat with (4 + 49)%nat. rewrite inv_pow_add. replace (/ 2 ^ 4) with (/ 16) by (f_equal; lra). lra.
Qed.
Theorem C117_pam_points : forall M delta, (1 <= M)%nat -> INR M <= 2 ^ 48 -> / 2 ^ 900 <= delta ->
  length (float_pam_points M delta) = M /\
  (forall i, (i < M)%nat -> Rabs (nth i (float_pam_points M delta) 0 - nth i (pam_points M delta) 0) <= INR M / 2 ^ 49 * delta) /\
  nth (M - 1) (float_pam_points M delta) 0 = - nth 0 (float_pam_points M delta) 0 /\
  (INR M <= 2 ^ 46 -> forall i, (S i < M)%nat -> nth i (float_pam_points M delta) 0 < nth (S i) (float_pam_points M delta) 0).
Proof.
  intros M d H1 HM Hd. pose proof (inv_pow_pos 900). assert (D : 0 < d) by lra. split; [apply float_points_length|].
  assert (N : forall i, (i < M)%nat -> Rabs (nth i (float_pam_points M d) 0 - nth i (pam_points M d) 0) <= INR M / 2 ^ 49 * d).
  { intros i Hi. rewrite pam_nth by exact Hi. eapply Rle_trans; [apply pam_points_near; assumption|]. now apply fourteen. }
  split; [exact N|]. split; [now apply pam_ends|]. intros H46 i Hi. pose proof (N i ltac:(lia)) as A. pose proof (N (S i) Hi) as B.
  rewrite pam_nth in A by lia. rewrite pam_nth in B by lia. rewrite S_INR in B. apply Rabs_le_inv in A, B.
  assert (K : INR M / 2 ^ 49 * d <= 1 / 8 * d). { apply Rmult_le_compat_r; [lra|]. apply Rmult_le_reg_r with (2 ^ 49); [lra|]. unfold Rdiv. rewrite Rmult_assoc, Rinv_l by lra. lra. }
  rewrite Rmult_minus_distr_r in A. rewrite Rmult_minus_distr_r, Rmult_plus_distr_r in B. lra.
Qed.
(* noiseless transmission: the stored points are decided as themselves, also with errors of up to 15/32 of the spacing *)
Theorem C117_pam_roundtrip : forall conv M delta i, (1 <= M)%nat -> INR M <= 2 ^ 42 -> / 2 ^ 900 <= delta -> (i < M)%nat ->
  forall noise, Rabs noise <= 15 / 32 * delta -> float_pam_closest conv M delta (nth i (float_pam_points M delta) 0 + noise) = i.
Proof.
  intros conv M d i H1 HM Hd Hi w Hw. pose proof (inv_pow_pos 900). assert (D : 0 < d) by lra. apply C117_pam_decides; try assumption; [lra|].
  destruct (C117_pam_points M d H1 ltac:(lra) Hd) as (_ & N & _). specialize (N i Hi). apply Rabs_le_inv in N, Hw.
  assert (K : INR M / 2 ^ 49 <= 1 / 128 /\ INR M / 2 ^ 50 <= 1 / 128) by (split; (apply Rmult_le_reg_r with (2 ^ 50); [lra|]); unfold Rdiv; rewrite ?Rmult_assoc; lra).
  destruct K as [K1 K2]. apply Rmult_le_compat_r with (r := d) in K1; [|lra]. apply Rmult_le_compat_r with (r := d) in K2; [|lra].
  rewrite Rmult_minus_distr_r. apply Rabs_le. lra.
Qed.
(* the range hypothesis is needed: the conversion to int happens before the clipping, so that on x86-64 a huge positive value
   is decided as the smallest point *)
Theorem C117_pam_overflow_refuted : forall M delta x, (2 <= M)%nat -> INR M <= 2 ^ 48 -> 0 < delta -> 2 ^ 64 * delta <= x ->
  float_pam_closest conv_x86 M delta x = 0%nat /\ ~ Rabs (x - nth 0 (pam_points M delta) 0) <= Rabs (x - nth (M - 1) (pam_points M delta) 0) + delta / 2.
Proof.
  intros M d x H2 HM D Hx. pose proof (le_INR _ _ H2) as H2'. cbn in H2'. assert (Q : 2 ^ 64 <= x / d) by (apply Rmult_le_reg_r with d; [lra|]; unfold Rdiv; rewrite Rmult_assoc, Rinv_l by lra; lra).
  split.
  - unfold float_pam_closest. rewrite half_exact by exact HM. assert (L : IZR (2 ^ 64) <= binary64 (binary64 (x / d) + (INR M - 1) / 2)).
    { replace (IZR (2 ^ 64)) with (2 ^ 64) by lra. rewrite <- (binary64_pow 64). apply binary64_mono. assert (2 ^ 64 <= binary64 (x / d)) by (rewrite <- (binary64_pow 64); now apply binary64_mono). lra. }
    apply npround_mono in L. assert (E : npround (IZR (2 ^ 64)) = (2 ^ 64)%Z) by (apply npround_unique; rewrite Rminus_diag_eq, Rabs_R0; [lra|reflexivity]). rewrite E in L.
    unfold astype_int, conv_x86. destruct (Z.leb_spec (- 2 ^ 63) (npround (binary64 (binary64 (x / d) + (INR M - 1) / 2)))); [|lia].
    destruct (Z.ltb_spec (npround (binary64 (binary64 (x / d) + (INR M - 1) / 2))) (2 ^ 63)); [lia|]. cbn [andb]. unfold clip. lia.
  - rewrite !pam_nth by lia. rewrite minus_INR by lia. cbn [INR]. assert (M2 : INR M * d <= 2 ^ 48 * d) by (apply Rmult_le_compat_r; lra). assert (M3 : 2 * d <= INR M * d) by (apply Rmult_le_compat_r; lra).
    rewrite !Rabs_right; lra.
Qed.

(* ---- rectangular QAM with phase offset 0 ---- *)
Theorem C117_qam_decides : forall Mi Mq di dq w i q, (1 <= Mi)%nat -> (1 <= Mq)%nat -> INR Mi <= 2 ^ 48 -> INR Mq <= 2 ^ 48 -> / 2 ^ 900 <= di -> / 2 ^ 900 <= dq ->
  (i < Mi)%nat -> (q < Mq)%nat ->
  Rabs (fst w - nth i (pam_points Mi di) 0) <= (1 / 2 - INR Mi / 2 ^ 48) * di -> Rabs (snd w - nth q (pam_points Mq dq) 0) <= (1 / 2 - INR Mq / 2 ^ 48) * dq ->
  float_qam_closest Mi Mq di dq w = (Mq * i + q)%nat.
Proof.
  intros Mi Mq di dq w i q H1 H2 B1 B2 D1 D2 Hi Hq Ei Eq. rewrite pam_nth in Ei, Eq by assumption. unfold float_qam_closest.
  rewrite (qam_sure Mi di H1 B1 D1 (fst w) i Hi Ei), (qam_sure Mq dq H2 B2 D2 (snd w) q Hq Eq). reflexivity.
Qed.
(* each axis is nearest up to the margin for every received value: QAM clips before it converts *)
Theorem C117_qam_nearest : forall Mi Mq di dq w, (1 <= Mi)%nat -> (1 <= Mq)%nat -> INR Mi <= 2 ^ 48 -> INR Mq <= 2 ^ 48 -> / 2 ^ 900 <= di -> / 2 ^ 900 <= dq ->
  exists i q, (i < Mi)%nat /\ (q < Mq)%nat /\ float_qam_closest Mi Mq di dq w = (Mq * i + q)%nat /\
    (forall j, (j < Mi)%nat -> Rabs (fst w - nth i (pam_points Mi di) 0) <= Rabs (fst w - nth j (pam_points Mi di) 0) + INR Mi / 2 ^ 48 * di) /\
    (forall j, (j < Mq)%nat -> Rabs (snd w - nth q (pam_points Mq dq) 0) <= Rabs (snd w - nth j (pam_points Mq dq) 0) + INR Mq / 2 ^ 48 * dq).
Proof.
  intros Mi Mq di dq w H1 H2 B1 B2 D1 D2. exists (float_qam_axis Mi di (fst w)), (float_qam_axis Mq dq (snd w)).
  assert (X1 : (float_qam_axis Mi di (fst w) < Mi)%nat) by (apply clip_bound; exact H1). assert (X2 : (float_qam_axis Mq dq (snd w) < Mq)%nat) by (apply clip_bound; exact H2).
  repeat split; try assumption; intros j Hj; rewrite !pam_nth by assumption; now apply qam_nearly.
Qed.
Theorem C117_qam_monotone : forall M delta x y, (1 <= M)%nat -> INR M <= 2 ^ 48 -> / 2 ^ 900 <= delta -> x <= y -> (float_qam_axis M delta x <= float_qam_axis M delta y)%nat.
Proof. intros M d x y H1 HM Hd H. now apply qam_mono. Qed.
Theorem C117_qam_roundtrip : forall Mi Mq di dq i q, (1 <= Mi)%nat -> (1 <= Mq)%nat -> INR Mi <= 2 ^ 42 -> INR Mq <= 2 ^ 42 -> / 2 ^ 900 <= di -> / 2 ^ 900 <= dq ->
  (i < Mi)%nat -> (q < Mq)%nat -> forall nx ny, Rabs nx <= 15 / 32 * di -> Rabs ny <= 15 / 32 * dq ->
  let p := nth (Mq * i + q) (float_qam_points Mi Mq di dq) (0, 0) in
  float_qam_closest Mi Mq di dq (fst p + nx, snd p + ny) = (Mq * i + q)%nat.
Proof.
  intros Mi Mq di dq i q H1 H2 B1 B2 D1 D2 Hi Hq nx ny Wx Wy. cbv zeta.
  assert (P : nth (Mq * i + q) (float_qam_points Mi Mq di dq) (0, 0) = (nth i (float_pam_points Mi di) 0, nth q (float_pam_points Mq dq) 0)).
  { pose proof (concat_nth (0, 0) Mi Mq (fun a b => (nth a (float_pam_points Mi di) 0, nth b (float_pam_points Mq dq) 0)) i q Hi Hq) as E. rewrite <- E. f_equal. unfold float_qam_points. f_equal.
    assert (G : forall (l : list R), l = map (fun a => nth a l 0) (seq 0 (length l))).
    { intros l. induction l as [|x l IH]; [reflexivity|]. cbn [length seq map nth]. f_equal. rewrite <- seq_shift, map_map. exact IH. }
    rewrite (G (float_pam_points Mi di)) at 1. rewrite map_map, float_points_length. apply map_ext. intros a.
    rewrite (G (float_pam_points Mq dq)) at 1. rewrite map_map, float_points_length. reflexivity. }
  rewrite P. cbn [fst snd]. pose proof (inv_pow_pos 900).
  assert (K : forall M d k w, (1 <= M)%nat -> INR M <= 2 ^ 42 -> / 2 ^ 900 <= d -> (k < M)%nat -> Rabs w <= 15 / 32 * d ->
    Rabs (nth k (float_pam_points M d) 0 + w - nth k (pam_points M d) 0) <= (1 / 2 - INR M / 2 ^ 48) * d).
  { intros M d k w M1 MB Dd Hk Hw. destruct (C117_pam_points M d M1 ltac:(lra) Dd) as (_ & N & _). specialize (N k Hk). apply Rabs_le_inv in N, Hw.
    assert (K : INR M / 2 ^ 49 <= 1 / 64 /\ INR M / 2 ^ 48 <= 1 / 64) by (split; (apply Rmult_le_reg_r with (2 ^ 50); [lra|]); unfold Rdiv; rewrite ?Rmult_assoc; lra).
    destruct K as [K1 K2]. apply Rmult_le_compat_r with (r := d) in K1; [|lra]. apply Rmult_le_compat_r with (r := d) in K2; [|lra].
    rewrite Rmult_minus_distr_r. apply Rabs_le. lra. }
  apply C117_qam_decides; try assumption; try lra; cbn [fst snd]; apply K; assumption.
Qed.

(* ---- ASK with phase offset 0 ---- *)
Theorem C117_ask : forall conv M A, (1 <= M)%nat -> INR M <= 2 ^ 48 -> / 2 ^ 900 <= A ->
  (forall x i, (i < M)%nat -> Rabs (x - INR i * A) <= (1 / 2 - INR M / 2 ^ 50) * A -> float_ask_closest conv M A x = i) /\
  (forall x j, Rabs x <= 2 ^ 61 * A -> (j < M)%nat -> Rabs (x - INR (float_ask_closest conv M A x) * A) <= Rabs (x - INR j * A) + INR M / 2 ^ 50 * A) /\
  (forall x y, Rabs x <= 2 ^ 61 * A -> Rabs y <= 2 ^ 61 * A -> x <= y -> (float_ask_closest conv M A x <= float_ask_closest conv M A y)%nat) /\
  (forall i, (i < M)%nat -> float_ask_closest conv M A (nth i (float_ask_points M A) 0) = i).
Proof.
  intros conv M A H1 HM HA. pose proof (inv_pow_pos 900). assert (A0 : 0 < A) by lra. repeat split; intros; [now apply ask_sure|now apply ask_nearly|now apply ask_mono|].
  apply ask_sure; try assumption. eapply Rle_trans; [now apply ask_point_near|]. apply Rmult_le_compat_r; [lra|]. rewrite margin. destruct (small_U M HM). lra.
Qed.
Theorem C117_ask_overflow_refuted : forall M A x, (2 <= M)%nat -> 0 < A -> 2 ^ 64 * A <= x -> float_ask_closest conv_x86 M A x = 0%nat.
Proof.
  intros M A x H2 A0 Hx. unfold float_ask_closest. assert (Q : 2 ^ 64 <= x / A) by (apply Rmult_le_reg_r with A; [lra|]; unfold Rdiv; rewrite Rmult_assoc, Rinv_l by lra; lra).
  assert (L : IZR (2 ^ 64) <= binary64 (x / A)) by (replace (IZR (2 ^ 64)) with (2 ^ 64) by lra; rewrite <- (binary64_pow 64); now apply binary64_mono).
  apply npround_mono in L. assert (E : npround (IZR (2 ^ 64)) = (2 ^ 64)%Z) by (apply npround_unique; rewrite Rminus_diag_eq, Rabs_R0; [lra|reflexivity]). rewrite E in L.
  unfold astype_int, conv_x86. destruct (Z.leb_spec (- 2 ^ 63) (npround (binary64 (x / A)))); [|lia]. destruct (Z.ltb_spec (npround (binary64 (x / A))) (2 ^ 63)); [lia|]. cbn [andb]. unfold clip. lia.
Qed.

(* ---- uniform quantizers ---- *)
(* the rounded arrays are those of a scalar quantizer, and close to the documented ones *)
Theorem C117_uniform_accepted : forall L step offset, (2 <= L)%nat -> INR L + Rabs offset <= 2 ^ 48 -> / 2 ^ 900 <= step ->
  exists q q0, float_uniform_quantizer L step offset = Some q /\ UniformQuantizer L step offset = Some q0 /\ ScalarQuantizer (levels q) (thresholds q) = Some q /\
    length (levels q) = L /\ length (thresholds q) = (L - 1)%nat /\
    (forall i, (i < L)%nat -> Rabs (nth i (levels q) 0 - nth i (levels q0) 0) <= (INR L + Rabs offset) / 2 ^ 50 * step) /\
    (forall i, (i < L - 1)%nat -> Rabs (nth i (thresholds q) 0 - nth i (thresholds q0) 0) <= (INR L + Rabs offset) / 2 ^ 50 * step).
Proof.
  intros L s o H2 HB Hs. destruct (float_accepted L s o H2 HB Hs) as (q & Hq & Fq). destruct (scalar_fields _ _ _ Hq) as [E1 E2]. pose proof (inv_pow_pos 900).
  destruct (proj2 (proj1 (C56_uniform_accepts L s o)) ltac:(split; [lia|lra])) as [q0 H0]. destruct (uniform_cases _ _ _ _ H0) as (_ & _ & E3 & E4).
  exists q, q0. rewrite E1, E2, E3, E4. repeat split; try assumption.
  - apply float_levels_length.
  - now apply float_thresholds_length.
  - intros i Hi. rewrite (uniform_levels_nth L s o i Hi). exact (level_close L s o H2 HB Hs i Hi).
  - intros i Hi. rewrite (uniform_thresholds_nth L s o i) by lia.
    replace ((INR i - (INR L - 1) / 2 + o) * s + s / 2) with ((centre L o i + 1 / 2) * s) by (unfold centre; field). exact (threshold_close L s o H2 HB Hs i Hi).
Qed.
Lemma float_scalar L s o q : (2 <= L)%nat -> INR L + Rabs o <= 2 ^ 48 -> / 2 ^ 900 <= s -> float_uniform_quantizer L s o = Some q ->
  ScalarQuantizer (float_uniform_levels L s o) (float_uniform_thresholds L s o) = Some q.
Proof. intros H2 HB Hs F. destruct (float_accepted L s o H2 HB Hs) as (q' & Hq & Fq). rewrite F in Fq. injection Fq as <-. exact Hq. Qed.
(* hence one cell per input, a monotone staircase, levels as fixed points and idempotence hold exactly *)
Theorem C117_uniform_quantizes : forall L step offset q, (2 <= L)%nat -> INR L + Rabs offset <= 2 ^ 48 -> / 2 ^ 900 <= step -> float_uniform_quantizer L step offset = Some q ->
  (forall x, in_cell (thresholds q) (digitize q x) x /\ (digitize q x < L)%nat /\ quantize q x = nth (digitize q x) (levels q) 0) /\
  (forall x y, x <= y -> (digitize q x <= digitize q y)%nat /\ quantize q x <= quantize q y) /\
  (forall i, (i < L)%nat -> digitize q (nth i (levels q) 0) = i) /\
  (forall x, quantize q (quantize q x) = quantize q x).
Proof.
  intros L s o q H2 HB Hs F. pose proof (float_scalar L s o q H2 HB Hs F) as Hq. destruct (scalar_fields _ _ _ Hq) as [E1 E2].
  split; [|split; [|split]].
  - intros x. destruct (C56_digitize _ _ _ x Hq) as (C & D & _ & E). rewrite <- E1, <- E2 in *. rewrite E1, float_levels_length in D. auto.
  - intros x y H. exact (C56_monotone _ _ _ x y Hq H).
  - intros i Hi. rewrite E1. apply (C56_fixed _ _ _ i Hq). now rewrite float_levels_length.
  - intros x. apply (C56_idempotent _ _ _ x Hq).
Qed.
(* nearest level and granular error, up to rounding *)
Theorem C117_uniform_nearest : forall L step offset q x, (2 <= L)%nat -> INR L + Rabs offset <= 2 ^ 48 -> / 2 ^ 900 <= step -> float_uniform_quantizer L step offset = Some q ->
  forall v, In v (levels q) -> Rabs (x - quantize q x) <= Rabs (x - v) + (INR L + Rabs offset) / 2 ^ 48 * step.
Proof.
  intros L s o q x H2 HB Hs F v Hv. pose proof (float_scalar L s o q H2 HB Hs F) as Hq. destruct (scalar_fields _ _ _ Hq) as [E1 _].
  apply (In_nth _ _ 0) in Hv as (j & Hj & <-). rewrite E1, float_levels_length in Hj. pose proof (float_nearest L s o H2 HB Hs q x j Hq Hj).
  replace ((INR L + Rabs o) / 2 ^ 48 * s) with (4 * ((INR L + Rabs o) / 2 ^ 50) * s) by field. exact H.
Qed.
Theorem C117_uniform_error : forall L step offset q x, (2 <= L)%nat -> INR L + Rabs offset <= 2 ^ 48 -> / 2 ^ 900 <= step -> float_uniform_quantizer L step offset = Some q ->
  (offset - INR L / 2) * step <= x <= (offset + INR L / 2) * step -> Rabs (x - quantize q x) <= step / 2 + (INR L + Rabs offset) / 2 ^ 49 * step.
Proof.
  intros L s o q x H2 HB Hs F Hx. pose proof (float_scalar L s o q H2 HB Hs F) as Hq. pose proof (float_error L s o H2 HB Hs q x Hq) as K.
  replace ((INR L + Rabs o) / 2 ^ 49 * s) with (2 * ((INR L + Rabs o) / 2 ^ 50) * s) by field. apply K. unfold centre. rewrite minus_INR by lia. cbn [INR].
  replace (0 - (INR L - 1) / 2 + o - 1 / 2) with (o - INR L / 2) by field. replace (INR L - 1 - (INR L - 1) / 2 + o + 1 / 2) with (o + INR L / 2) by field. exact Hx.
Qed.
(* away from the documented thresholds the output index is the documented one *)
Theorem C117_uniform_agrees : forall L step offset q q0 x, (2 <= L)%nat -> INR L + Rabs offset <= 2 ^ 48 -> / 2 ^ 900 <= step ->
  float_uniform_quantizer L step offset = Some q -> UniformQuantizer L step offset = Some q0 ->
  (forall t, In t (thresholds q0) -> (INR L + Rabs offset) / 2 ^ 50 * step < Rabs (x - t)) -> digitize q x = digitize q0 x.
Proof. intros L s o q q0 x H2 HB Hs F H0 D. exact (float_agrees L s o H2 HB Hs q q0 x (float_scalar L s o q H2 HB Hs F) H0 D). Qed.
(* with an offset that is a multiple of 1/2 a level is one rounded product *)
Lemma half_levels L s o h i : INR L <= 2 ^ 48 -> (i < L)%nat -> (-1 <= h <= 0)%Z -> o = IZR h / 2 ->
  nth i (float_uniform_levels L s o) 0 = binary64 (IZR (2 * Z.of_nat i - (Z.of_nat L - 1) + h) / 2 * s).
Proof.
  intros HL Hi Hh Ho. assert (ZL : (Z.of_nat L <= 2 ^ 48)%Z) by (apply le_IZR; rewrite <- INR_IZR_INZ; replace (IZR (2 ^ 48)) with (2 ^ 48) by lra; exact HL).
  unfold float_uniform_levels. rewrite nth_map_seq by exact Hi. rewrite half_exact by exact HL.
  replace (INR i - (INR L - 1) / 2) with (IZR (2 * Z.of_nat i - (Z.of_nat L - 1)) / 2) by (rewrite minus_IZR, mult_IZR, minus_IZR, <- !INR_IZR_INZ; field).
  rewrite b64_half by lia. rewrite Ho. replace (IZR (2 * Z.of_nat i - (Z.of_nat L - 1)) / 2 + IZR h / 2) with (IZR (2 * Z.of_nat i - (Z.of_nat L - 1) + h) / 2) by (rewrite plus_IZR; field).
  rewrite b64_half by lia. reflexivity.
Qed.
(* with offset 0 the levels are exactly antisymmetric *)
Theorem C117_uniform_symmetric : forall L step q, (2 <= L)%nat -> INR L <= 2 ^ 48 -> / 2 ^ 900 <= step -> float_uniform_quantizer L step 0 = Some q ->
  forall i, (i < L)%nat -> nth (L - 1 - i) (levels q) 0 = - nth i (levels q) 0.
Proof.
  intros L s q H2 HL Hs F. assert (HB : INR L + Rabs 0 <= 2 ^ 48) by (rewrite Rabs_R0; lra). pose proof (float_scalar L s 0 q H2 HB Hs F) as Hq. destruct (scalar_fields _ _ _ Hq) as [E1 E2].
  intros i Hi. rewrite E1, !(half_levels L s 0 0%Z) by (first [lia|lra]). rewrite <- b64_opp. f_equal.
  replace (2 * Z.of_nat (L - 1 - i) - (Z.of_nat L - 1) + 0)%Z with (- (2 * Z.of_nat i - (Z.of_nat L - 1) + 0))%Z by lia. rewrite opp_IZR. field.
Qed.
(* a mid-tread quantizer has the level 0 and a mid-riser quantizer the threshold 0, exactly, for every number of levels *)
Theorem C117_uniform_mid : forall L step, (2 <= L)%nat -> INR L + 1 <= 2 ^ 48 -> / 2 ^ 900 <= step ->
  (exists q, float_mid_tread L step = Some q /\ nth (L / 2) (levels q) 0 = 0 /\ (Nat.odd L = true -> float_uniform_quantizer L step 0 = Some q)) /\
  (exists q, float_mid_riser L step = Some q /\ nth ((L - 1) / 2) (thresholds q) 0 = 0 /\ (Nat.even L = true -> float_uniform_quantizer L step 0 = Some q)).
Proof.
  intros L s H2 HL Hs. pose proof (inv_pow_pos 900) as P.
  assert (B0 : INR L + Rabs 0 <= 2 ^ 48) by (rewrite Rabs_R0; lra). assert (B1 : INR L + Rabs (- (1 / 2)) <= 2 ^ 48) by (rewrite Rabs_left1; lra).
  destruct (float_accepted L s 0 H2 B0 Hs) as (q0 & Q0 & F0). destruct (float_accepted L s (- (1 / 2)) H2 B1 Hs) as (q1 & Q1 & F1).
  destruct (scalar_fields _ _ _ Q0) as [E0 T0]. destruct (scalar_fields _ _ _ Q1) as [E1 T1].
  assert (Hk : exists k, (L = 2 * k \/ L = 2 * k + 1)%nat) by (exists (L / 2)%nat; pose proof (Nat.div_mod L 2 ltac:(lia)); pose proof (Nat.mod_upper_bound L 2 ltac:(lia)); lia).
  destruct Hk as [k [Hk|Hk]].
  - assert (Ev : Nat.even L = true) by (apply Nat.even_spec; exists k; exact Hk). assert (Od : Nat.odd L = false) by (unfold Nat.odd; now rewrite Ev).
    assert (D1 : (L / 2)%nat = k) by (rewrite Hk, Nat.mul_comm; now apply Nat.div_mul).
    assert (D2 : ((L - 1) / 2)%nat = (k - 1)%nat) by (symmetry; apply (Nat.div_unique _ 2 _ 1); lia).
    split.
    + exists q1. unfold float_mid_tread. rewrite Od, D1, E1, (half_levels L s (- (1 / 2)) (-1)%Z) by (first [lia|lra]). split; [exact F1|]. split; [|discriminate].
      replace (2 * Z.of_nat k - (Z.of_nat L - 1) + -1)%Z with 0%Z by lia. replace (0 / 2 * s) with 0 by field. apply b64_0.
    + exists q0. unfold float_mid_riser. rewrite Ev, D2, T0, float_thresholds_nth by first [lia|exact B0|exact Hs]. split; [exact F0|]. split; [|intros _; exact F0].
      rewrite <- (float_levels_nth L s 0) by first [lia|exact B0|exact Hs]. rewrite (half_levels L s 0 0%Z) by (first [lia|lra]).
      replace (2 * Z.of_nat (k - 1) - (Z.of_nat L - 1) + 0)%Z with (-1)%Z by lia. replace (-1 / 2 * s) with (- (s / 2)) by field. rewrite b64_opp.
      replace (- binary64 (s / 2) + binary64 (s / 2)) with 0 by ring. apply b64_0.
  - assert (Od : Nat.odd L = true) by (apply Nat.odd_spec; exists k; exact Hk). assert (Ev : Nat.even L = false) by (rewrite <- Nat.negb_odd, Od; reflexivity).
    assert (D1 : (L / 2)%nat = k) by (symmetry; apply (Nat.div_unique _ 2 _ 1); lia).
    assert (D2 : ((L - 1) / 2)%nat = k) by (rewrite Hk; replace (2 * k + 1 - 1)%nat with (k * 2)%nat by lia; now apply Nat.div_mul).
    split.
    + exists q0. unfold float_mid_tread. rewrite Od, D1, E0, (half_levels L s 0 0%Z) by (first [lia|lra]). split; [exact F0|]. split; [|intros _; exact F0].
      replace (2 * Z.of_nat k - (Z.of_nat L - 1) + 0)%Z with 0%Z by lia. replace (0 / 2 * s) with 0 by field. apply b64_0.
    + exists q1. unfold float_mid_riser. rewrite Ev, D2, T1, float_thresholds_nth by first [lia|exact B1|exact Hs]. split; [exact F1|]. split; [|discriminate].
      rewrite <- (float_levels_nth L s (- (1 / 2))) by first [lia|exact B1|exact Hs]. rewrite (half_levels L s (- (1 / 2)) (-1)%Z) by (first [lia|lra]).
      replace (2 * Z.of_nat k - (Z.of_nat L - 1) + -1)%Z with (-1)%Z by lia. replace (-1 / 2 * s) with (- (s / 2)) by field. rewrite b64_opp.
      replace (- binary64 (s / 2) + binary64 (s / 2)) with 0 by ring. apply b64_0.
Qed.

(* the hypotheses are met, with numbers that are not dyadic multiples of each other *)
Theorem C117_met : float_pam_closest conv_x86 4 (1 / 10) (4 / 100) = 2%nat /\ float_qam_closest 4 2 2 (1 / 3) (-3 - 1 / 4, 1 / 6)%R = 1%nat /\
  (exists q, float_mid_tread 5 (1 / 10) = Some q /\ nth 2 (levels q) 0 = 0) /\ float_pam_closest conv_x86 4 2 (2 ^ 65) = 0%nat.
Proof.
  assert (T : / 2 ^ 900 <= 1 / 10) by (pose proof (pow_small 10 900 ltac:(lia)); assert (/ 2 ^ 10 = / 1024) by (f_equal; lra); lra).
  repeat split.
  - apply C117_pam_decides; [lia|cbn; lra|lra|lia|]. rewrite pam_nth by lia. cbn [INR]. apply Rabs_le. lra.
  - apply (C117_qam_decides 4 2 2 (1 / 3) (-3 - 1 / 4, 1 / 6)%R 0 1); try lia; try lra; cbn [fst snd]; try (rewrite pam_nth by lia); cbn [INR]; try (apply Rabs_le); lra.
  - destruct (C117_uniform_mid 5 (1 / 10) ltac:(lia)) as [(q & F & Z0 & _) _]; [cbn; lra|exact T|]. exists q. split; assumption.
  - apply C117_pam_overflow_refuted; [lia|cbn; lra|lra|lra].
Qed.
Print Assumptions C117_pam_decides. Print Assumptions C117_qam_nearest. Print Assumptions C117_uniform_quantizes.
