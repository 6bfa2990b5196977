(** Error analysis of amplitude constellations and uniform quantizers in double precision. *)
From Coq Require Import Reals Lra.
From Flocq Require Import Core Relative.
From Verif Require Import Common Float_Model FloatShannon_Proof FloatFano_Proof FloatViterbi_Spec FloatViterbi_Proof Quant_Model Quant_Spec Quant_Proof Const_Model Const_Proof FloatConst_Model.
Local Open Scope R_scope.

Lemma U_pos : 0 < U. Proof. rewrite U_val. lra. Qed.
Lemma inv_pow_add a b : / 2 ^ (a + b) = / 2 ^ a * / 2 ^ b.
Proof. rewrite pow_add, Rinv_mult; reflexivity. Qed.
(* one rounding *)
Lemma b64_near x : Rabs (binary64 x - x) <= U * Rabs x + / 2 ^ 1075.
Proof.
  destruct (error_N_FLT radix2 (-1074) 53 ltac:(lia) (fun x => negb (Z.even x)) x) as (eps & eta & He & Ht & _ & E).
  change (round radix2 (FLT_exp (-1074) 53) (Znearest (fun x => negb (Z.even x))) x) with (binary64 x) in E. rewrite E.
  replace (x * (1 + eps) + eta - x) with (x * eps + eta) by ring. eapply Rle_trans; [apply Rabs_triang|]. rewrite Rabs_mult.
  apply Rplus_le_compat.
  - rewrite (Rmult_comm U). apply Rmult_le_compat_l; [apply Rabs_pos|]. eapply Rle_trans; [exact He|]. right. change (bpow radix2 (- (53) + 1)) with (bpow radix2 (- Z.of_nat 52)). rewrite bpow_neg.
    unfold U. change 53%nat with (52 + 1)%nat. rewrite inv_pow_add. replace (/ 2 ^ 1) with (/ 2) by (f_equal; lra). ring.
  - eapply Rle_trans; [exact Ht|]. right. change (bpow radix2 (-1074)) with (bpow radix2 (- Z.of_nat 1074)). rewrite bpow_neg.
    change 1075%nat with (1074 + 1)%nat. rewrite inv_pow_add. replace (/ 2 ^ 1) with (/ 2) by (f_equal; lra). ring.
Qed.
Lemma tiny_U : / 2 ^ 1075 <= U / 1024.
Proof.
  change 1075%nat with (53 + (10 + 1012))%nat. rewrite !inv_pow_add. fold U. replace (/ 2 ^ 10) with (/ 1024) by (f_equal; lra).
  pose proof (inv_pow_pos 1012) as P. pose proof (pow_small 0 1012 ltac:(lia)) as Q. change (/ 2 ^ 0) with (/ 1) in Q. rewrite Rinv_1 in Q. pose proof U_pos. nra.
Qed.
Lemma b64_unit x : Rabs (binary64 x - x) <= U * (Rabs x + / 1024).
Proof. pose proof (b64_near x). pose proof tiny_U. lra. Qed.
(* the same in units of d, when d is not tiny *)
Lemma b64_scaled d x : / 2 ^ 900 <= d -> Rabs (binary64 x / d - x / d) <= U * (Rabs (x / d) + / 1024).
Proof.
  intros Hd. pose proof (inv_pow_pos 900). assert (D : 0 < d) by lra.
  replace (binary64 x / d - x / d) with ((binary64 x - x) / d) by (field; lra). unfold Rdiv at 1 2. rewrite !Rabs_mult, (Rabs_right (/ d)) by (left; apply Rinv_0_lt_compat; lra).
  apply Rmult_le_reg_r with d; [lra|]. rewrite Rmult_assoc, Rinv_l, Rmult_1_r by lra.
  replace (U * (Rabs x * / d + / 1024) * d) with (U * Rabs x + U * d / 1024) by (field; lra).
  pose proof (b64_near x). assert (T : / 2 ^ 1075 <= U * d / 1024); [|lra].
  replace (/ 2 ^ 1075) with (U * / 2 ^ 900 / 1024 * / 2 ^ 112).
  2:{ change 1075%nat with (53 + (900 + (112 + 10)))%nat. rewrite !inv_pow_add. unfold U. replace (/ 2 ^ 10) with (/ 1024) by (f_equal; lra). field; repeat split; apply pow_nonzero; lra. }
  pose proof (inv_pow_pos 112) as P. pose proof (pow_small 0 112 ltac:(lia)) as Q. change (/ 2 ^ 0) with (/ 1) in Q. rewrite Rinv_1 in Q. pose proof U_pos.
  assert (0 <= U * / 2 ^ 900 / 1024) by (assert (0 < U * / 2 ^ 900) by (apply Rmult_lt_0_compat; lra); lra). assert (U * / 2 ^ 900 <= U * d) by (apply Rmult_le_compat_l; lra). nra.
Qed.
(* halves of small integers are exact *)
Lemma b64_half k : (Z.abs k < 2 ^ 53)%Z -> binary64 (IZR k / 2) = IZR k / 2.
Proof.
  intros H. apply round_generic; [apply valid_rnd_N|]. apply generic_format_FLT. exists (Float radix2 k (-1)); cbn [Fnum Fexp]; [unfold F2R; cbn; lra|exact H|lia].
Qed.
Lemma b64_opp x : binary64 (- x) = - binary64 x.
Proof. apply round_NE_opp. Qed.

(* ---- rounding to the nearest integer ---- *)
Lemma npround_unique x z : Rabs (x - IZR z) < 1 / 2 -> npround x = z.
Proof.
  intros H. pose proof (npround_near x) as N. assert (A : Rabs (IZR (npround x) - IZR z) < 1).
  { replace (IZR (npround x) - IZR z) with ((x - IZR z) - (x - IZR (npround x))) by ring. unfold Rminus at 1. eapply Rle_lt_trans; [apply Rabs_triang|]. rewrite Rabs_Ropp. lra. }
  rewrite <- minus_IZR, <- abs_IZR in A. apply lt_IZR in A. lia.
Qed.
Lemma npround_mono x y : x <= y -> (npround x <= npround y)%Z.
Proof.
  intros H. destruct (Z_le_gt_dec (npround x) (npround y)) as [|G]; [assumption|exfalso].
  pose proof (npround_near x) as Nx. pose proof (npround_near y) as Ny. apply Rabs_le_inv in Nx, Ny.
  assert (G1 : (npround y + 1 <= npround x)%Z) by lia. pose proof (IZR_le _ _ G1) as G2. rewrite plus_IZR in G2. assert (E : x = y) by lra. subst. lia.
Qed.
Lemma npround_bound x B : Rabs x <= IZR B -> (Z.abs (npround x) <= B)%Z.
Proof.
  intros H. pose proof (npround_near x) as N. apply Rabs_le_inv in N. apply Rabs_le_inv in H.
  assert (npround x < B + 1)%Z by (apply lt_IZR; rewrite plus_IZR; lra). assert (- B - 1 < npround x)%Z by (apply lt_IZR; rewrite minus_IZR, opp_IZR; lra). lia.
Qed.
Lemma clip_id M j : (j < M)%nat -> clip M (Z.of_nat j) = j.
Proof. unfold clip. lia. Qed.
Lemma clip_mono M x y : (x <= y)%Z -> (clip M x <= clip M y)%nat.
Proof. unfold clip. lia. Qed.
Lemma astype_id conv z : (Z.abs z <= 2 ^ 62)%Z -> astype_int conv z = z.
Proof. intros H. unfold astype_int. destruct (Z.leb_spec (- 2 ^ 63) z); [|lia]. destruct (Z.ltb_spec z (2 ^ 63)); [reflexivity|lia]. Qed.

(* a number within e of the exact value decides nearly optimally, and exactly away from the boundaries *)
Lemma near_decision M s t e : Rabs (s - t) <= e -> forall j, (j < M)%nat -> Rabs (t - INR (clip M (npround s))) <= Rabs (t - INR j) + 2 * e.
Proof.
  intros H j Hj. pose proof (round_clip_nearest M s j Hj) as N. set (c := INR (clip M (npround s))) in *.
  apply Rabs_le_inv in H. revert N. unfold Rabs. repeat destruct (Rcase_abs _); lra.
Qed.
Lemma sure_decision M s t e j : Rabs (s - t) <= e -> (j < M)%nat -> Rabs (t - INR j) < 1 / 2 - e -> npround s = Z.of_nat j.
Proof. intros H Hj T. apply npround_unique. rewrite <- INR_IZR_INZ. apply Rabs_le_inv in H. apply Rabs_def2 in T. apply Rabs_def1; lra. Qed.

(* ---- PAM decisions ---- *)
Lemma small_U M : INR M <= 2 ^ 48 -> 0 <= U * INR M <= / 32.
Proof.
  intros H. pose proof U_pos as P. pose proof (pos_INR M) as Q. split; [apply Rmult_le_pos; lra|].
  apply Rle_trans with (U * 2 ^ 48); [apply Rmult_le_compat_l; lra|]. rewrite U_val. lra.
Qed.
Lemma half_exact M : INR M <= 2 ^ 48 -> binary64 ((INR M - 1) / 2) = (INR M - 1) / 2.
Proof.
  intros H. rewrite INR_IZR_INZ in *. rewrite <- minus_IZR. apply b64_half.
  assert (Z.of_nat M <= 2 ^ 48)%Z by (apply le_IZR; replace (IZR (2 ^ 48)) with (2 ^ 48) by lra; exact H). lia.
Qed.
(* the decision variable: error while |x| is at most M deltas *)
Lemma pam_variable M x : (1 <= M)%nat -> INR M <= 2 ^ 48 -> Rabs x <= INR M ->
  Rabs (binary64 (binary64 x + binary64 ((INR M - 1) / 2)) - (x + (INR M - 1) / 2)) <= 3 * U * INR M.
Proof.
  intros H1 HM Hx. rewrite half_exact by auto. apply le_INR in H1. cbn in H1. destruct (small_U M HM) as [_ S]. pose proof U_pos as P.
  pose proof (b64_unit x) as E1. assert (UX : U * Rabs x <= U * INR M) by (apply Rmult_le_compat_l; lra).
  assert (UM : U <= U * INR M) by (rewrite <- (Rmult_1_r U) at 1; apply Rmult_le_compat_l; lra).
  set (n := binary64 x) in *. pose proof (b64_unit (n + (INR M - 1) / 2)) as E2.
  rewrite Rmult_plus_distr_l in E1, E2.
  apply Rabs_le_inv in Hx. assert (A1 := Rabs_le_inv _ _ (Rle_trans _ _ _ E1 (Rplus_le_compat_r _ _ _ UX))).
  assert (B : Rabs (n + (INR M - 1) / 2) <= 3 / 2 * INR M) by (apply Rabs_le; lra).
  assert (UB : U * Rabs (n + (INR M - 1) / 2) <= U * (3 / 2 * INR M)) by (apply Rmult_le_compat_l; lra).
  apply Rabs_le_inv in E2. apply Rabs_le. lra.
Qed.
Lemma conv_range M x : (1 <= M)%nat -> INR M <= 2 ^ 48 -> Rabs x <= 2 ^ 61 -> (Z.abs (npround (binary64 (binary64 x + binary64 ((INR M - 1) / 2)))) <= 2 ^ 62)%Z.
Proof.
  intros H1 HM Hx. rewrite half_exact by auto. apply le_INR in H1. cbn in H1. apply npround_bound. replace (IZR (2 ^ 62)) with (2 ^ 62) by lra.
  apply Rabs_le_inv in Hx. pose proof (binary64_mono _ _ (proj1 Hx)) as L. pose proof (binary64_mono _ _ (proj2 Hx)) as R. rewrite b64_opp in L. rewrite binary64_pow in L, R.
  apply Rabs_le. rewrite <- (binary64_pow 62), <- b64_opp. split; apply binary64_mono; lra.
Qed.
Lemma pam_exact_index M d x j : 0 < d -> x / d + (INR M - 1) / 2 - INR j = (x - (INR j - (INR M - 1) / 2) * d) / d.
Proof. intros H. field. lra. Qed.
Lemma div_abs x d e : 0 < d -> Rabs x <= e * d -> Rabs (x / d) <= e.
Proof.
  intros H E. unfold Rdiv. rewrite Rabs_mult, (Rabs_right (/ d)) by (left; apply Rinv_0_lt_compat; lra).
  apply Rmult_le_reg_r with d; [lra|]. rewrite Rmult_assoc, Rinv_l by lra. lra.
Qed.
Lemma mul_abs x d e : 0 < d -> Rabs (x / d) <= e -> Rabs x <= e * d.
Proof. intros H E. replace x with (x / d * d) by (field; lra). rewrite Rabs_mult, (Rabs_right d) by lra. apply Rmult_le_compat_r; lra. Qed.
Lemma margin M : INR M / 2 ^ 50 = 8 * U * INR M.
Proof. unfold U, Rdiv. change 53%nat with (3 + 50)%nat. rewrite inv_pow_add. replace (/ 2 ^ 3) with (/ 8) by (f_equal; lra). lra. Qed.

Lemma S_INR_le i M : (i < M)%nat -> INR i + 1 <= INR M.
Proof. intros H. rewrite <- S_INR. apply le_INR. lia. Qed.
Section PAM.
Context (conv : Z -> Z) (M : nat) (d : R) (H1 : (1 <= M)%nat) (HM : INR M <= 2 ^ 48) (D0 : 0 < d).
Let s (x : R) : R := binary64 (binary64 (x / d) + binary64 ((INR M - 1) / 2)).
Lemma pam_closest_s x : Rabs x <= 2 ^ 61 * d -> float_pam_closest conv M d x = clip M (npround (s x)).
Proof. intros H. unfold float_pam_closest. fold (s x). rewrite astype_id; [reflexivity|]. apply conv_range; auto. apply div_abs; auto. Qed.
Lemma s_mono x y : x <= y -> s x <= s y.
Proof. intros H. unfold s. apply binary64_mono, Rplus_le_compat_r, binary64_mono, Rmult_le_compat_r; [left; apply Rinv_0_lt_compat; lra|exact H]. Qed.
Lemma pam_mono x y : Rabs x <= 2 ^ 61 * d -> Rabs y <= 2 ^ 61 * d -> x <= y -> (float_pam_closest conv M d x <= float_pam_closest conv M d y)%nat.
Proof. intros Hx Hy H. rewrite !pam_closest_s by auto. apply clip_mono, npround_mono, s_mono, H. Qed.
Lemma big_decision x : INR M < x / d -> clip M (npround (s x)) = (M - 1)%nat.
Proof.
  intros H. assert (L : INR M <= s x).
  { unfold s. rewrite half_exact by auto. apply le_INR in H1. cbn in H1. assert (B : binary64 (INR M) = INR M).
    { apply binary64_nat. assert (Z.of_nat M <= 2 ^ 48)%Z by (apply le_IZR; rewrite <- INR_IZR_INZ; replace (IZR (2 ^ 48)) with (2 ^ 48) by lra; exact HM). lia. }
    rewrite <- B at 1. apply binary64_mono. assert (INR M <= binary64 (x / d)) by (rewrite <- B; apply binary64_mono; lra). lra. }
  apply npround_mono in L. assert (E : npround (INR M) = Z.of_nat M) by (apply npround_unique; rewrite <- INR_IZR_INZ, Rminus_diag_eq, Rabs_R0; [lra|reflexivity]). rewrite E in L. unfold clip. lia.
Qed.
Lemma low_decision x : x / d < - INR M -> clip M (npround (s x)) = 0%nat.
Proof.
  intros H. assert (L : s x <= 0).
  { unfold s. rewrite half_exact by auto. pose proof H1 as H1'. apply le_INR in H1'. cbn in H1'. assert (B : binary64 (INR M) = INR M).
    { apply binary64_nat. assert (Z.of_nat M <= 2 ^ 48)%Z by (apply le_IZR; rewrite <- INR_IZR_INZ; replace (IZR (2 ^ 48)) with (2 ^ 48) by lra; exact HM). lia. }
    rewrite <- b64_0. apply binary64_mono. assert (binary64 (x / d) <= - INR M) by (rewrite <- B, <- b64_opp; apply binary64_mono; lra). lra. }
  apply npround_mono in L. assert (E : npround 0 = 0%Z) by (apply npround_unique; rewrite Rminus_diag_eq, Rabs_R0; [lra|reflexivity]). rewrite E in L. unfold clip. lia.
Qed.
Lemma s_near x : Rabs (x / d) <= INR M -> Rabs (s x - (x / d + (INR M - 1) / 2)) <= 3 * U * INR M.
Proof. intros H. apply pam_variable; auto. Qed.
Lemma pam_nearly x j : Rabs x <= 2 ^ 61 * d -> (j < M)%nat ->
  Rabs (x - (INR (float_pam_closest conv M d x) - (INR M - 1) / 2) * d) <= Rabs (x - (INR j - (INR M - 1) / 2) * d) + INR M / 2 ^ 50 * d.
Proof.
  intros Hx Hj. rewrite pam_closest_s by auto. set (c := clip M _). rewrite margin.
  pose proof U_pos as P. pose proof (pos_INR M) as Q. assert (UM : 0 <= U * INR M) by (apply Rmult_le_pos; lra).
  assert (K : Rabs (x / d + (INR M - 1) / 2 - INR c) <= Rabs (x / d + (INR M - 1) / 2 - INR j) + 2 * (3 * U * INR M)).
  { apply lt_INR in Hj as Hj'. pose proof (pos_INR j). destruct (Rle_dec (Rabs (x / d)) (INR M)) as [L|G].
    - apply near_decision; [apply s_near; exact L|exact Hj].
    - assert (G2 : INR M < x / d \/ x / d < - INR M) by (unfold Rabs in G; destruct (Rcase_abs _); [right|left]; lra).
      destruct G2 as [G2|G2].
      + unfold c. rewrite big_decision by auto. assert (J : INR j <= INR (M - 1)) by (apply le_INR; lia). assert (J2 : INR (M - 1) <= INR M) by (apply le_INR; lia).
        apply le_INR in H1 as H1'. cbn in H1'. rewrite !Rabs_right; lra.
      + unfold c. rewrite low_decision by auto. cbn [INR]. apply le_INR in H1 as H1'. cbn in H1'. rewrite !Rabs_left1; lra. }
  rewrite !pam_exact_index in K by auto. unfold Rdiv at 1 3 in K. rewrite !Rabs_mult, !(Rabs_right (/ d)) in K by (left; apply Rinv_0_lt_compat; lra).
  apply Rmult_le_compat_r with (r := d) in K; [|lra]. rewrite Rmult_plus_distr_r, !Rmult_assoc, Rinv_l, !Rmult_1_r in K by lra.
  assert (U * (INR M * d) >= 0) by (rewrite <- Rmult_assoc; apply Rle_ge, Rmult_le_pos; lra). lra.
Qed.
Lemma pam_sure x i : (i < M)%nat -> Rabs (x - (INR i - (INR M - 1) / 2) * d) <= (1 / 2 - INR M / 2 ^ 50) * d -> float_pam_closest conv M d x = i.
Proof.
  intros Hi H. rewrite margin in H. apply lt_INR in Hi as Hi'. pose proof (pos_INR i). apply le_INR in H1 as H1'. cbn in H1'. destruct (small_U M HM) as [S0 S1].
  assert (T : Rabs (x / d + (INR M - 1) / 2 - INR i) <= 1 / 2 - 8 * U * INR M) by (rewrite pam_exact_index by auto; apply div_abs; auto).
  apply S_INR_le in Hi as Hi2.
  assert (X : Rabs (x / d) <= INR M) by (apply Rabs_le_inv in T; apply Rabs_le; lra).
  rewrite pam_closest_s.
  - rewrite (sure_decision M (s x) (x / d + (INR M - 1) / 2) (3 * U * INR M) i); [apply clip_id; exact Hi|apply s_near; exact X|exact Hi|].
    pose proof U_pos. assert (U * 1 <= U * INR M) by (apply Rmult_le_compat_l; lra). lra.
  - apply mul_abs; [exact D0|]. assert (2 ^ 48 <= 2 ^ 61) by lra. lra.
Qed.
End PAM.

(* ---- PAM points ---- *)
Section Points.
Context (M : nat) (d : R) (H2 : (2 <= M)%nat) (HM : INR M <= 2 ^ 48) (Hd : / 2 ^ 900 <= d).
Let m := INR M - 1.
Let D0 : 0 < d. Proof. pose proof (inv_pow_pos 900). lra. Qed.
Let m1 : 1 <= m. Proof. unfold m. apply le_INR in H2. cbn in H2. lra. Qed.
Let um : 0 < U * m <= / 32.
Proof. pose proof U_pos as P. destruct (small_U M HM). split; [apply Rmult_lt_0_compat; lra|]. unfold m in *. rewrite Rmult_minus_distr_l. lra. Qed.
Let u1 : U <= U * m.
Proof. rewrite <- (Rmult_1_r U) at 1. apply Rmult_le_compat_l; [left; apply U_pos|apply m1]. Qed.
Let peak := binary64 (binary64 (m * d) / 2).
Lemma peak_near : Rabs (peak / d - m / 2) <= 3 / 2 * (U * m).
Proof.
  pose proof (b64_scaled d (m * d) Hd) as E1. replace (m * d / d) with m in E1 by (field; lra). rewrite (Rabs_right m) in E1 by lra.
  set (a := binary64 (m * d) / d) in *. pose proof (b64_scaled d (binary64 (m * d) / 2) Hd) as E2. fold peak in E2.
  replace (binary64 (m * d) / 2 / d) with (a / 2) in E2 by (unfold a; field; lra).
  rewrite Rmult_plus_distr_l in E1. apply Rabs_le_inv in E1. assert (A : 0 <= a <= 5 / 4 * m) by lra. rewrite (Rabs_right (a / 2)) in E2 by lra.
  assert (B : U * (a / 2) <= U * (5 / 8 * m)) by (apply Rmult_le_compat_l; [left; apply U_pos|lra]). rewrite Rmult_plus_distr_l in E2. apply Rabs_le_inv in E2. apply Rabs_le.
  pose proof U_pos. lra.
Qed.
Let dl := binary64 (peak - - peak).
Let step := binary64 (dl / INR (M - 1)).
Lemma step_near : Rabs (step / d - 1) <= 8 * U.
Proof.
  pose proof peak_near as E0. apply Rabs_le_inv in E0. set (p := peak / d) in *.
  pose proof (b64_scaled d (peak - - peak) Hd) as E1. fold dl in E1. replace ((peak - - peak) / d) with (2 * p) in E1 by (unfold p; field; lra).
  assert (A : 0 <= 2 * p <= 9 / 8 * m) by lra. rewrite (Rabs_right (2 * p)), Rmult_plus_distr_l in E1 by lra.
  assert (B : U * (2 * p) <= U * (9 / 8 * m)) by (apply Rmult_le_compat_l; [left; apply U_pos|lra]). apply Rabs_le_inv in E1. set (e := dl / d) in *. pose proof U_pos as P.
  assert (E : - (5 * (U * m)) <= e - m <= 5 * (U * m)) by lra.
  pose proof (b64_scaled d (dl / INR (M - 1)) Hd) as E2. fold step in E2. rewrite minus_INR in E2 by lia. cbn [INR] in E2. fold m in E2.
  replace (dl / m / d) with (e / m) in E2 by (unfold e; field; lra).
  assert (F : - (5 * U) <= e / m - 1 <= 5 * U).
  { split; apply Rmult_le_reg_r with m; try lra; unfold Rdiv; rewrite Rmult_minus_distr_r, Rmult_assoc, Rinv_l by lra; lra. }
  assert (Us : U <= / 32) by lra. assert (G : Rabs (e / m) <= 1 + 5 * U) by (apply Rabs_le; lra).
  assert (K : U * (Rabs (e / m) + / 1024) <= U * 2) by (apply Rmult_le_compat_l; lra). apply Rabs_le_inv in E2. apply Rabs_le. lra.
Qed.
Lemma points_nth i : (i < M)%nat -> nth i (float_pam_points M d) 0 = if Nat.eqb i (M - 1) then peak else binary64 (binary64 (INR i * step) + - peak).
Proof.
  intros Hi. unfold float_pam_points, float_linspace. cbv zeta. fold m peak dl step. destruct (Nat.leb_spec M 1); [lia|]. rewrite nth_map_seq by exact Hi.
  destruct (Nat.eqb i (M - 1)); [reflexivity|]. destruct (Req_EM_T step 0) as [E|_]; [exfalso|reflexivity].
  pose proof step_near as N. rewrite E in N. unfold Rdiv in N. rewrite Rmult_0_l in N. pose proof U_pos. rewrite Rminus_0_l, Rabs_Ropp, Rabs_R1 in N. rewrite U_val in N. lra.
Qed.
Lemma points_near i : (i < M)%nat -> Rabs (nth i (float_pam_points M d) 0 / d - (INR i - m / 2)) <= 14 * (U * m).
Proof.
  intros Hi. rewrite points_nth by exact Hi. pose proof peak_near as E0. apply Rabs_le_inv in E0. set (p := peak / d) in *. pose proof U_pos as P.
  destruct (Nat.eqb_spec i (M - 1)) as [->|N].
  - rewrite minus_INR by lia. cbn [INR]. fold m. fold p. apply Rabs_le. lra.
  - assert (I : 0 <= INR i <= m) by (split; [apply pos_INR|unfold m; pose proof (S_INR_le i M Hi); lra]).
    pose proof step_near as E1. apply Rabs_le_inv in E1. set (s := step / d) in *.
    assert (A : - (8 * (U * m)) <= INR i * s - INR i <= 8 * (U * m)).
    { assert (X : INR i * U <= U * m) by (rewrite (Rmult_comm (INR i)); apply Rmult_le_compat_l; lra).
      assert (X0 : INR i * (s - 1) <= INR i * (8 * U)) by (apply Rmult_le_compat_l; lra). assert (X1 : INR i * (- (8 * U)) <= INR i * (s - 1)) by (apply Rmult_le_compat_l; lra). lra. }
    pose proof (b64_scaled d (INR i * step) Hd) as E2. replace (INR i * step / d) with (INR i * s) in E2 by (unfold s; field; lra).
    assert (B : Rabs (INR i * s) <= 5 / 4 * m) by (apply Rabs_le; lra). assert (B2 : U * (Rabs (INR i * s) + / 1024) <= U * (21 / 16 * m)) by (apply Rmult_le_compat_l; lra).
    apply Rabs_le_inv in E2. set (q := binary64 (INR i * step) / d) in *. assert (Q : - (10 * (U * m)) <= q - INR i <= 10 * (U * m)) by lra.
    pose proof (b64_scaled d (binary64 (INR i * step) + - peak) Hd) as E3. replace ((binary64 (INR i * step) + - peak) / d) with (q - p) in E3 by (unfold q, p; field; lra).
    assert (C : Rabs (q - p) <= m) by (apply Rabs_le; lra). assert (C2 : U * (Rabs (q - p) + / 1024) <= U * (5 / 4 * m)) by (apply Rmult_le_compat_l; lra).
    apply Rabs_le_inv in E3. apply Rabs_le. lra.
Qed.
End Points.
Lemma float_points_length M d : length (float_pam_points M d) = M.
Proof. unfold float_pam_points, float_linspace. cbv zeta. destruct (Nat.leb M 1); now rewrite map_length, seq_length. Qed.
(* in the units of the documentation, for every order *)
Lemma pam_points_near M d i : (1 <= M)%nat -> INR M <= 2 ^ 48 -> / 2 ^ 900 <= d -> (i < M)%nat ->
  Rabs (nth i (float_pam_points M d) 0 - (INR i - (INR M - 1) / 2) * d) <= 14 * U * (INR M - 1) * d.
Proof.
  intros H1 HM Hd Hi. pose proof (inv_pow_pos 900) as P. destruct (Nat.eq_dec M 1) as [->|N].
  - assert (i = 0)%nat by lia. subst. unfold float_pam_points, float_linspace. cbn [Nat.leb seq map nth INR]. cbv zeta.
    replace ((1 - 1) * d) with 0 by ring. rewrite !b64_0. replace (0 / 2) with 0 by field. rewrite b64_0. replace (- 0) with 0 by ring. rewrite Rmult_0_l, b64_0, Rplus_0_r, b64_0.
    replace (0 - (0 - (1 - 1) / 2) * d) with 0 by field. rewrite Rabs_R0. lra.
  - replace (nth i (float_pam_points M d) 0 - (INR i - (INR M - 1) / 2) * d) with ((nth i (float_pam_points M d) 0 / d - (INR i - (INR M - 1) / 2)) * d) by (field; lra).
    rewrite Rabs_mult, (Rabs_right d) by lra. apply Rmult_le_compat_r; [lra|]. rewrite Rmult_assoc. apply (points_near M d ltac:(lia) HM Hd i Hi).
Qed.
Lemma pam_ends M d : (1 <= M)%nat -> INR M <= 2 ^ 48 -> / 2 ^ 900 <= d -> nth (M - 1) (float_pam_points M d) 0 = - nth 0 (float_pam_points M d) 0.
Proof.
  intros H1 HM Hd. destruct (Nat.eq_dec M 1) as [->|N].
  - pose proof (pam_points_near 1 d 0 ltac:(lia) HM Hd ltac:(lia)) as E. cbn [INR] in E. replace (14 * U * (1 - 1) * d) with 0 in E by ring. replace (0 - (1 - 1) / 2) with 0 in E by field.
    cbn [Nat.sub]. revert E. unfold Rabs. destruct (Rcase_abs _); lra.
  - rewrite !points_nth by (auto; lia). rewrite Nat.eqb_refl. destruct (Nat.eqb_spec 0 (M - 1)); [lia|]. cbn [INR]. rewrite Rmult_0_l, b64_0, Rplus_0_l, b64_opp, b64_idem. ring.
Qed.

(* ---- one axis of QAM ---- *)
Section QAM.
Context (M : nat) (d : R) (H1 : (1 <= M)%nat) (HM : INR M <= 2 ^ 48) (Hd : / 2 ^ 900 <= d).
Let D0 : 0 < d. Proof. pose proof (inv_pow_pos 900). lra. Qed.
Let a := binary64 (d / 2).
Let a_near : Rabs (a / d - 1 / 2) <= U.
Proof.
  pose proof (b64_scaled d (d / 2) Hd) as E. fold a in E. replace (d / 2 / d) with (1 / 2) in E by (field; lra). rewrite (Rabs_right (1 / 2)) in E by lra.
  eapply Rle_trans; [exact E|]. rewrite <- (Rmult_1_r U) at 2. apply Rmult_le_compat_l; [left; apply U_pos|lra].
Qed.
Let Usmall : U <= / 1024. Proof. rewrite U_val. lra. Qed.
Let a_pos : 0 < a.
Proof. pose proof (Rabs_le_inv _ _ a_near) as E. replace a with (a / d * d) by (field; lra). apply Rmult_lt_0_compat; lra. Qed.
Let m1 : 1 <= INR M. Proof. apply le_INR in H1. exact H1. Qed.
Let v2 (x : R) : R := binary64 (binary64 (binary64 (binary64 (x / a) + INR M) - 1) / 2).
Lemma qam_s x : float_qam_axis M d x = clip M (npround (v2 x)). Proof. reflexivity. Qed.
Lemma v2_mono x y : x <= y -> v2 x <= v2 y.
Proof.
  intros H. unfold v2. assert (x / a <= y / a) by (apply Rmult_le_compat_r; [left; apply Rinv_0_lt_compat, a_pos|exact H]).
  apply binary64_mono. apply Rmult_le_compat_r; [lra|]. apply binary64_mono. apply Rplus_le_compat_r. apply binary64_mono. apply Rplus_le_compat_r. apply binary64_mono. assumption.
Qed.
Lemma qam_mono x y : x <= y -> (float_qam_axis M d x <= float_qam_axis M d y)%nat.
Proof. intros H. rewrite !qam_s. apply clip_mono, npround_mono, v2_mono, H. Qed.
Let natexact : forall k, (k <= 2 * M)%nat -> binary64 (INR k) = INR k.
Proof.
  intros k Hk. apply binary64_nat. assert (Z.of_nat M <= 2 ^ 48)%Z by (apply le_IZR; rewrite <- INR_IZR_INZ; replace (IZR (2 ^ 48)) with (2 ^ 48) by lra; exact HM). lia.
Qed.
Lemma ratio x : x / a * (a / d) = x / d. Proof. field. split; [lra|pose proof a_pos; lra]. Qed.
Lemma qam_big x : INR M < x / d -> clip M (npround (v2 x)) = (M - 1)%nat.
Proof.
  intros H. pose proof (Rabs_le_inv _ _ a_near) as Ea. assert (W : INR M <= x / a).
  { rewrite <- ratio in H. destruct (Rle_dec (INR M) (x / a)); [assumption|exfalso]. assert (x / a * (a / d) <= INR M * (a / d)) by (apply Rmult_le_compat_r; lra). assert (INR M * (a / d) <= INR M * 1) by (apply Rmult_le_compat_l; lra). lra. }
  assert (R1 : INR M <= binary64 (x / a)) by (rewrite <- (natexact M) at 1 by lia; apply binary64_mono, W).
  assert (R2 : INR (2 * M) <= binary64 (binary64 (x / a) + INR M)) by (rewrite <- (natexact (2 * M)) by lia; apply binary64_mono; rewrite mult_INR; cbn [INR]; lra).
  assert (R3 : INR (2 * M - 1) <= binary64 (binary64 (binary64 (x / a) + INR M) - 1)) by (rewrite <- (natexact (2 * M - 1)) by lia; apply binary64_mono; rewrite minus_INR by lia; cbn [INR]; lra).
  assert (R4 : INR (M - 1) <= v2 x). { unfold v2. rewrite <- (natexact (M - 1)) by lia. apply binary64_mono. rewrite minus_INR in R3 |- * by lia. rewrite mult_INR in R3. cbn [INR] in R3 |- *. lra. }
  apply npround_mono in R4. assert (E : npround (INR (M - 1)) = Z.of_nat (M - 1)) by (apply npround_unique; rewrite <- INR_IZR_INZ, Rminus_diag_eq, Rabs_R0; [lra|reflexivity]). rewrite E in R4. unfold clip. lia.
Qed.
Lemma qam_low x : x / d < - INR M -> clip M (npround (v2 x)) = 0%nat.
Proof.
  intros H. pose proof (Rabs_le_inv _ _ a_near) as Ea. assert (W : x / a <= - INR M).
  { rewrite <- ratio in H. destruct (Rle_dec (x / a) (- INR M)); [assumption|exfalso]. assert (- INR M * (a / d) <= x / a * (a / d)) by (apply Rmult_le_compat_r; lra). assert (INR M * (a / d) <= INR M * 1) by (apply Rmult_le_compat_l; lra). lra. }
  assert (R1 : binary64 (x / a) <= - INR M) by (rewrite <- (natexact M) by lia; rewrite <- b64_opp; apply binary64_mono, W).
  assert (R2 : binary64 (binary64 (x / a) + INR M) <= 0) by (rewrite <- b64_0; apply binary64_mono; lra).
  assert (R3 : binary64 (binary64 (binary64 (x / a) + INR M) - 1) <= 0) by (rewrite <- b64_0; apply binary64_mono; lra).
  assert (R4 : v2 x <= 0) by (unfold v2; rewrite <- b64_0; apply binary64_mono; lra).
  apply npround_mono in R4. assert (E : npround 0 = 0%Z) by (apply npround_unique; rewrite Rminus_diag_eq, Rabs_R0; [lra|reflexivity]). rewrite E in R4. unfold clip. lia.
Qed.
Lemma v2_near x : Rabs (x / d) <= INR M -> Rabs (v2 x - (x / d + (INR M - 1) / 2)) <= 10 * U * INR M.
Proof.
  intros H. pose proof (Rabs_le_inv _ _ a_near) as Ea. pose proof (ratio x) as Er. set (w := x / a) in *. set (v := x / d) in *. set (r := a / d) in *. apply Rabs_le_inv in H.
  pose proof U_pos as P. destruct (small_U M HM) as [S0 S1]. assert (UM : U <= U * INR M) by (rewrite <- (Rmult_1_r U) at 1; apply Rmult_le_compat_l; lra).
  assert (W : Rabs w <= 9 / 4 * INR M).
  { apply Rmult_le_reg_r with r; [lra|]. rewrite <- (Rabs_right r) at 1 by lra. rewrite <- Rabs_mult, Er. assert (INR M * (15 / 32) <= INR M * r) by (apply Rmult_le_compat_l; lra). apply Rabs_le. lra. }
  assert (E0 : Rabs (w * (1 / 2 - r)) <= 9 / 4 * (U * INR M)).
  { rewrite Rabs_mult. replace (9 / 4 * (U * INR M)) with ((9 / 4 * INR M) * U) by ring. apply Rmult_le_compat; try apply Rabs_pos; [exact W|]. apply Rabs_le. lra. }
  rewrite Rmult_minus_distr_l, Er in E0. apply Rabs_le_inv in E0.
  pose proof (b64_unit w) as E1. assert (X1 : U * (Rabs w + / 1024) <= U * (5 / 2 * INR M)) by (apply Rmult_le_compat_l; lra). apply Rabs_le_inv in W.
  unfold v2. fold w. set (b := binary64 w) in *. apply Rabs_le_inv in E1.
  pose proof (b64_unit (b + INR M)) as E2. assert (W2 : Rabs (b + INR M) <= 27 / 8 * INR M) by (apply Rabs_le; lra). assert (X2 : U * (Rabs (b + INR M) + / 1024) <= U * (7 / 2 * INR M)) by (apply Rmult_le_compat_l; lra).
  set (c := binary64 (b + INR M)) in *. apply Rabs_le_inv in W2. apply Rabs_le_inv in E2.
  assert (W3 : Rabs (c - 1) <= 9 / 2 * INR M) by (apply Rabs_le; lra).
  assert (W3' : Rabs (c - 1) <= 7 / 2 * INR M). { apply Rabs_le. lra. }
  pose proof (b64_unit (c - 1)) as E3. assert (X3 : U * (Rabs (c - 1) + / 1024) <= U * (29 / 8 * INR M)) by (apply Rmult_le_compat_l; lra).
  set (f := binary64 (c - 1)) in *. apply Rabs_le_inv in W3'. apply Rabs_le_inv in E3.
  assert (W4 : Rabs (f / 2) <= 15 / 8 * INR M) by (apply Rabs_le; lra). pose proof (b64_unit (f / 2)) as E4. assert (X4 : U * (Rabs (f / 2) + / 1024) <= U * (2 * INR M)) by (apply Rmult_le_compat_l; lra).
  apply Rabs_le_inv in E4. apply Rabs_le. lra.
Qed.
Lemma margin2 : INR M / 2 ^ 48 = 32 * U * INR M.
Proof. unfold U, Rdiv. change 53%nat with (5 + 48)%nat. rewrite inv_pow_add. replace (/ 2 ^ 5) with (/ 32) by (f_equal; lra). lra. Qed.
Lemma qam_nearly x j : (j < M)%nat ->
  Rabs (x - (INR (float_qam_axis M d x) - (INR M - 1) / 2) * d) <= Rabs (x - (INR j - (INR M - 1) / 2) * d) + INR M / 2 ^ 48 * d.
Proof.
  intros Hj. rewrite qam_s. set (c := clip M _). rewrite margin2.
  pose proof U_pos as P. pose proof (pos_INR M) as Q. assert (UM : 0 <= U * INR M) by (apply Rmult_le_pos; lra).
  assert (K : Rabs (x / d + (INR M - 1) / 2 - INR c) <= Rabs (x / d + (INR M - 1) / 2 - INR j) + 2 * (10 * U * INR M)).
  { apply lt_INR in Hj as Hj'. pose proof (pos_INR j). destruct (Rle_dec (Rabs (x / d)) (INR M)) as [L|G].
    - apply near_decision; [apply v2_near; exact L|exact Hj].
    - assert (G2 : INR M < x / d \/ x / d < - INR M) by (unfold Rabs in G; destruct (Rcase_abs _); [right|left]; lra).
      destruct G2 as [G2|G2].
      + unfold c. rewrite qam_big by auto. assert (J : INR j <= INR (M - 1)) by (apply le_INR; lia). assert (J2 : INR (M - 1) <= INR M) by (apply le_INR; lia).
        rewrite !Rabs_right; lra.
      + unfold c. rewrite qam_low by auto. cbn [INR]. rewrite !Rabs_left1; lra. }
  rewrite !pam_exact_index in K by auto. unfold Rdiv at 1 3 in K. rewrite !Rabs_mult, !(Rabs_right (/ d)) in K by (left; apply Rinv_0_lt_compat; lra).
  apply Rmult_le_compat_r with (r := d) in K; [|lra]. rewrite Rmult_plus_distr_r, !Rmult_assoc, Rinv_l, !Rmult_1_r in K by lra.
  assert (U * (INR M * d) >= 0) by (rewrite <- Rmult_assoc; apply Rle_ge, Rmult_le_pos; lra). lra.
Qed.
Lemma qam_sure x i : (i < M)%nat -> Rabs (x - (INR i - (INR M - 1) / 2) * d) <= (1 / 2 - INR M / 2 ^ 48) * d -> float_qam_axis M d x = i.
Proof.
  intros Hi H. rewrite margin2 in H. pose proof (pos_INR i). destruct (small_U M HM) as [S0 S1].
  assert (T : Rabs (x / d + (INR M - 1) / 2 - INR i) <= 1 / 2 - 32 * U * INR M) by (rewrite pam_exact_index by auto; apply div_abs; auto).
  apply S_INR_le in Hi as Hi2.
  assert (X : Rabs (x / d) <= INR M) by (apply Rabs_le_inv in T; apply Rabs_le; lra).
  rewrite qam_s, (sure_decision M (v2 x) (x / d + (INR M - 1) / 2) (10 * U * INR M) i); [apply clip_id; exact Hi|apply v2_near; exact X|exact Hi|].
  pose proof U_pos. assert (U * 1 <= U * INR M) by (apply Rmult_le_compat_l; lra). lra.
Qed.
End QAM.

(* ---- ASK ---- *)
Section ASK.
Context (conv : Z -> Z) (M : nat) (A : R) (H1 : (1 <= M)%nat) (HM : INR M <= 2 ^ 48) (A0 : 0 < A).
Let s (x : R) : R := binary64 (x / A).
Lemma ask_s x : Rabs x <= 2 ^ 61 * A -> float_ask_closest conv M A x = clip M (npround (s x)).
Proof.
  intros H. unfold float_ask_closest. fold (s x). rewrite astype_id; [reflexivity|]. apply npround_bound. replace (IZR (2 ^ 62)) with (2 ^ 62) by lra.
  apply div_abs in H; [|exact A0]. apply Rabs_le_inv in H. apply Rabs_le. unfold s. rewrite <- (binary64_pow 62), <- b64_opp. split; apply binary64_mono; lra.
Qed.
Lemma ask_mono x y : Rabs x <= 2 ^ 61 * A -> Rabs y <= 2 ^ 61 * A -> x <= y -> (float_ask_closest conv M A x <= float_ask_closest conv M A y)%nat.
Proof. intros Hx Hy H. rewrite !ask_s by auto. apply clip_mono, npround_mono. unfold s. apply binary64_mono, Rmult_le_compat_r; [left; apply Rinv_0_lt_compat; lra|exact H]. Qed.
Lemma ask_near x : Rabs (x / A) <= INR M -> Rabs (s x - x / A) <= 2 * U * INR M.
Proof.
  intros H. unfold s. eapply Rle_trans; [apply b64_unit|]. replace (2 * U * INR M) with (U * (2 * INR M)) by ring. apply Rmult_le_compat_l; [left; apply U_pos|]. apply le_INR in H1. cbn in H1. lra.
Qed.
Lemma ask_index x j : x / A - INR j = (x - INR j * A) / A. Proof. field. lra. Qed.
Lemma ask_nearly x j : Rabs x <= 2 ^ 61 * A -> (j < M)%nat -> Rabs (x - INR (float_ask_closest conv M A x) * A) <= Rabs (x - INR j * A) + INR M / 2 ^ 50 * A.
Proof.
  intros Hx Hj. rewrite ask_s by auto. set (c := clip M _). rewrite margin. pose proof U_pos as P. pose proof (pos_INR M) as Q. assert (UM : 0 <= U * INR M) by (apply Rmult_le_pos; lra).
  assert (BM : binary64 (INR M) = INR M).
  { apply binary64_nat. assert (Z.of_nat M <= 2 ^ 48)%Z by (apply le_IZR; rewrite <- INR_IZR_INZ; replace (IZR (2 ^ 48)) with (2 ^ 48) by lra; exact HM). lia. }
  assert (K : Rabs (x / A - INR c) <= Rabs (x / A - INR j) + 2 * (2 * U * INR M)).
  { pose proof (S_INR_le j M Hj) as Hj'. pose proof (pos_INR j). destruct (Rle_dec (Rabs (x / A)) (INR M)) as [L|G].
    - apply near_decision; [apply ask_near; exact L|exact Hj].
    - assert (G2 : INR M < x / A \/ x / A < - INR M) by (unfold Rabs in G; destruct (Rcase_abs _); [right|left]; lra). destruct G2 as [G2|G2].
      + assert (E : c = (M - 1)%nat).
        { assert (L : INR M <= s x) by (unfold s; rewrite <- BM; apply binary64_mono; lra). apply npround_mono in L.
          assert (E : npround (INR M) = Z.of_nat M) by (apply npround_unique; rewrite <- INR_IZR_INZ, Rminus_diag_eq, Rabs_R0; [lra|reflexivity]). rewrite E in L. unfold c, clip. lia. }
        rewrite E, minus_INR by lia. cbn [INR]. rewrite !Rabs_right; lra.
      + assert (E : c = 0%nat).
        { assert (L : s x <= 0) by (unfold s; rewrite <- b64_0; apply binary64_mono; lra). apply npround_mono in L.
          assert (E : npround 0 = 0%Z) by (apply npround_unique; rewrite Rminus_diag_eq, Rabs_R0; [lra|reflexivity]). rewrite E in L. unfold c, clip. lia. }
        rewrite E. cbn [INR]. rewrite !Rabs_left1; lra. }
  rewrite !ask_index in K. unfold Rdiv at 1 2 in K. rewrite !Rabs_mult, !(Rabs_right (/ A)) in K by (left; apply Rinv_0_lt_compat; lra).
  apply Rmult_le_compat_r with (r := A) in K; [|lra]. rewrite Rmult_plus_distr_r, !Rmult_assoc, Rinv_l, !Rmult_1_r in K by lra.
  assert (U * (INR M * A) >= 0) by (rewrite <- Rmult_assoc; apply Rle_ge, Rmult_le_pos; lra). lra.
Qed.
Lemma ask_sure x i : (i < M)%nat -> Rabs (x - INR i * A) <= (1 / 2 - INR M / 2 ^ 50) * A -> float_ask_closest conv M A x = i.
Proof.
  intros Hi H. rewrite margin in H. pose proof (pos_INR i). destruct (small_U M HM) as [S0 S1]. pose proof (S_INR_le i M Hi) as Hi2.
  assert (T : Rabs (x / A - INR i) <= 1 / 2 - 8 * U * INR M) by (rewrite ask_index; apply div_abs; auto).
  assert (X : Rabs (x / A) <= INR M) by (apply Rabs_le_inv in T; apply Rabs_le; lra).
  rewrite ask_s.
  - rewrite (sure_decision M (s x) (x / A) (2 * U * INR M) i); [apply clip_id; exact Hi|apply ask_near; exact X|exact Hi|].
    pose proof U_pos. assert (U * 1 <= U * INR M) by (apply Rmult_le_compat_l; lra). lra.
  - apply mul_abs; [exact A0|]. assert (2 ^ 48 <= 2 ^ 61) by lra. lra.
Qed.
End ASK.
Lemma ask_point_near M A i : INR M <= 2 ^ 48 -> / 2 ^ 900 <= A -> (i < M)%nat -> Rabs (nth i (float_ask_points M A) 0 - INR i * A) <= U * INR M * A.
Proof.
  intros HM HA Hi. pose proof (inv_pow_pos 900) as P. unfold float_ask_points. rewrite nth_map_seq by exact Hi. rewrite (Rmult_comm A).
  replace (binary64 (INR i * A) - INR i * A) with ((binary64 (INR i * A) / A - INR i * A / A) * A) by (field; lra). rewrite Rabs_mult, (Rabs_right A) by lra. apply Rmult_le_compat_r; [lra|].
  eapply Rle_trans; [apply b64_scaled; exact HA|]. apply Rmult_le_compat_l; [left; apply U_pos|]. replace (INR i * A / A) with (INR i) by (field; lra). pose proof (S_INR_le i M Hi). pose proof (pos_INR i). rewrite Rabs_right; lra.
Qed.

(* ---- uniform quantizers ---- *)
Section Uniform.
Context (L : nat) (step offset : R) (H2 : (2 <= L)%nat) (HB : INR L + Rabs offset <= 2 ^ 48) (Hs : / 2 ^ 900 <= step).
Let B := INR L + Rabs offset.
Let D0 : 0 < step. Proof. pose proof (inv_pow_pos 900). lra. Qed.
Let HL : INR L <= 2 ^ 48. Proof. pose proof (Rabs_pos offset). lra. Qed.
Let l2 : 2 <= INR L. Proof. apply le_INR in H2. exact H2. Qed.
Let b2 : 2 <= B. Proof. unfold B. pose proof (Rabs_pos offset). lra. Qed.
Let ub : U <= U * B / 2.
Proof. assert (U * 2 <= U * B) by (apply Rmult_le_compat_l; [left; apply U_pos|lra]). lra. Qed.
Let ubs : U * B <= / 32.
Proof. apply Rle_trans with (U * 2 ^ 48); [apply Rmult_le_compat_l; [left; apply U_pos|exact HB]|]. rewrite U_val. lra. Qed.
Definition centre (i : nat) : R := INR i - (INR L - 1) / 2 + offset.
Let lev (i : nat) : R := binary64 (binary64 (binary64 (INR i - binary64 ((INR L - 1) / 2)) + offset) * step).
Let thr (i : nat) : R := binary64 (lev i + binary64 (step / 2)).
Lemma float_levels_nth i : (i < L)%nat -> nth i (float_uniform_levels L step offset) 0 = lev i.
Proof. intros H. unfold float_uniform_levels. now rewrite nth_map_seq. Qed.
Lemma float_levels_length : length (float_uniform_levels L step offset) = L.
Proof. unfold float_uniform_levels. now rewrite map_length, seq_length. Qed.
Lemma float_thresholds_eq : float_uniform_thresholds L step offset = map thr (seq 0 (L - 1)).
Proof.
  unfold float_uniform_thresholds, float_uniform_levels. rewrite map_map. destruct L as [|l]; [lia|]. rewrite Nat.sub_succ, Nat.sub_0_r, seq_S, map_app. cbn [map]. rewrite removelast_last. reflexivity.
Qed.
Lemma float_thresholds_length : length (float_uniform_thresholds L step offset) = (L - 1)%nat.
Proof. now rewrite float_thresholds_eq, map_length, seq_length. Qed.
Lemma float_thresholds_nth i : (i < L - 1)%nat -> nth i (float_uniform_thresholds L step offset) 0 = thr i.
Proof. intros H. now rewrite float_thresholds_eq, nth_map_seq. Qed.
Let centre_bound i : (i < L)%nat -> Rabs (centre i) <= B - 1 / 2.
Proof.
  intros H. pose proof (S_INR_le i L H) as I. pose proof (pos_INR i). unfold centre, B. eapply Rle_trans; [apply Rabs_triang|].
  assert (Rabs (INR i - (INR L - 1) / 2) <= INR L - 1 / 2) by (apply Rabs_le; lra). lra.
Qed.
Lemma level_scaled i : (i < L)%nat -> Rabs (lev i / step - centre i) <= 3 * (U * B).
Proof.
  intros H. unfold lev. rewrite half_exact by exact HL.
  replace (INR i - (INR L - 1) / 2) with (IZR (2 * Z.of_nat i - (Z.of_nat L - 1)) / 2) by (rewrite minus_IZR, mult_IZR, minus_IZR, <- !INR_IZR_INZ; field).
  rewrite b64_half. 2:{ assert (Z.of_nat L <= 2 ^ 48)%Z by (apply le_IZR; rewrite <- INR_IZR_INZ; replace (IZR (2 ^ 48)) with (2 ^ 48) by lra; exact HL). lia. }
  replace (IZR (2 * Z.of_nat i - (Z.of_nat L - 1)) / 2 + offset) with (centre i) by (unfold centre; rewrite minus_IZR, mult_IZR, minus_IZR, <- !INR_IZR_INZ; field).
  pose proof (centre_bound i H) as C. pose proof (b64_unit (centre i)) as E1. pose proof U_pos as P.
  assert (X1 : U * (Rabs (centre i) + / 1024) <= U * B) by (apply Rmult_le_compat_l; lra). set (c := binary64 (centre i)) in *.
  pose proof (b64_scaled step (c * step) Hs) as E2. replace (c * step / step) with c in E2 by (field; lra).
  assert (E1' := Rabs_le_inv _ _ (Rle_trans _ _ _ E1 X1)). apply Rabs_le_inv in C.
  assert (C2 : Rabs c <= B) by (apply Rabs_le; lra). assert (X2 : U * (Rabs c + / 1024) <= U * (3 / 2 * B)) by (apply Rmult_le_compat_l; lra).
  apply Rabs_le_inv in E2. apply Rabs_le. lra.
Qed.
Lemma threshold_scaled i : (i < L - 1)%nat -> Rabs (thr i / step - (centre i + 1 / 2)) <= 6 * (U * B).
Proof.
  intros H. pose proof (level_scaled i ltac:(lia)) as E0. pose proof U_pos as P. pose proof (b64_scaled step (step / 2) Hs) as E1. replace (step / 2 / step) with (1 / 2) in E1 by (field; lra).
  rewrite (Rabs_right (1 / 2)) in E1 by lra. set (h := binary64 (step / 2)) in *. assert (X1 : U * (1 / 2 + / 1024) <= U * 1) by (apply Rmult_le_compat_l; lra).
  pose proof (b64_scaled step (lev i + h) Hs) as E2. change (binary64 (lev i + h)) with (thr i) in E2. rewrite Rdiv_plus_distr in E2.
  pose proof (centre_bound i ltac:(lia)) as C. apply Rabs_le_inv in C. apply Rabs_le_inv in E0. apply Rabs_le_inv in E1. set (y := lev i / step) in *. set (g := h / step) in *.
  assert (Y : Rabs (y + g) <= 9 / 8 * B) by (apply Rabs_le; lra). assert (X2 : U * (Rabs (y + g) + / 1024) <= U * (5 / 4 * B)) by (apply Rmult_le_compat_l; lra).
  apply Rabs_le_inv in E2. apply Rabs_le. lra.
Qed.
Lemma marginB : B / 2 ^ 50 = 8 * (U * B).
Proof. unfold U, Rdiv. change 53%nat with (3 + 50)%nat. rewrite inv_pow_add. replace (/ 2 ^ 3) with (/ 8) by (f_equal; lra). lra. Qed.
Lemma unscale x c e : Rabs (x / step - c) <= e -> Rabs (x - c * step) <= e * step.
Proof. intros H. replace (x - c * step) with ((x / step - c) * step) by (field; lra). rewrite Rabs_mult, (Rabs_right step) by lra. apply Rmult_le_compat_r; lra. Qed.
Lemma level_close i : (i < L)%nat -> Rabs (nth i (float_uniform_levels L step offset) 0 - centre i * step) <= B / 2 ^ 50 * step.
Proof. intros H. rewrite float_levels_nth by exact H. apply unscale. rewrite marginB. pose proof (level_scaled i H). pose proof U_pos. assert (0 <= U * B) by (apply Rmult_le_pos; lra). lra. Qed.
Lemma threshold_close i : (i < L - 1)%nat -> Rabs (nth i (float_uniform_thresholds L step offset) 0 - (centre i + 1 / 2) * step) <= B / 2 ^ 50 * step.
Proof. intros H. rewrite float_thresholds_nth by exact H. apply unscale. rewrite marginB. pose proof (threshold_scaled i H). pose proof U_pos. assert (0 <= U * B) by (apply Rmult_le_pos; lra). lra. Qed.
Lemma centre_S i : centre (S i) = centre i + 1.
Proof. unfold centre. rewrite S_INR. lra. Qed.
Lemma by_units x y : x / step < y / step -> x < y.
Proof. intros H. apply Rmult_lt_reg_r with (/ step); [apply Rinv_0_lt_compat; lra|exact H]. Qed.
Lemma float_interleaved : strictly_interleaved (float_uniform_levels L step offset) (float_uniform_thresholds L step offset).
Proof.
  split; [rewrite float_levels_length, float_thresholds_length; lia|]. rewrite float_thresholds_length. intros i Hi.
  rewrite float_thresholds_nth, !float_levels_nth by lia. pose proof (level_scaled i ltac:(lia)) as E1. pose proof (level_scaled (S i) ltac:(lia)) as E2. pose proof (threshold_scaled i Hi) as E3.
  rewrite centre_S in E2. apply Rabs_le_inv in E1, E2, E3. split; apply by_units; lra.
Qed.
Lemma float_accepted : exists q, ScalarQuantizer (float_uniform_levels L step offset) (float_uniform_thresholds L step offset) = Some q /\ float_uniform_quantizer L step offset = Some q.
Proof.
  destruct (proj2 (scalar_accepts _ _) float_interleaved) as [q Hq]. exists q. split; [exact Hq|]. unfold float_uniform_quantizer.
  destruct (Nat.leb_spec L 1); [lia|]. destruct (Rltb_spec 0 step); [|lra].
  destruct (scalar_fields _ _ _ Hq) as [E1 E2]. destruct q. cbn in E1, E2. now subst.
Qed.
(* nearest level, up to rounding; j any level *)
Lemma float_nearest q x j : ScalarQuantizer (float_uniform_levels L step offset) (float_uniform_thresholds L step offset) = Some q -> (j < L)%nat ->
  Rabs (x - quantize q x) <= Rabs (x - nth j (levels q) 0) + 4 * (B / 2 ^ 50) * step.
Proof.
  intros Hq Hj. destruct (scalar_fields _ _ _ Hq) as [E1 E2]. unfold quantize. set (k := digitize q x).
  assert (C : in_cell (thresholds q) k x) by (rewrite E2; unfold k, digitize; rewrite E2; apply filter_le_cell, (interleaved_nondecreasing (float_uniform_levels L step offset)), float_interleaved).
  rewrite E2 in C. destruct C as (C1 & C2 & C3). rewrite float_thresholds_length in C1, C3. rewrite E1.
  set (e := B / 2 ^ 50 * step). assert (e0 : 0 <= e) by (unfold e; apply Rmult_le_pos; [|lra]; rewrite marginB; pose proof U_pos; assert (0 <= U * B) by (apply Rmult_le_pos; lra); lra).
  replace (4 * (B / 2 ^ 50) * step) with (4 * e) by (unfold e; ring).
  pose proof (level_close k ltac:(lia)) as Yk. pose proof (level_close j Hj) as Yj. fold e in Yk, Yj. set (yk := nth k _ 0) in *. set (yj := nth j _ 0) in *. apply Rabs_le_inv in Yk, Yj.
  destruct (Nat.lt_trichotomy j k) as [G|[->|G]].
  - pose proof (threshold_close (k - 1) ltac:(lia)) as T. fold e in T. pose proof (C2 (k - 1)%nat ltac:(lia)) as X. apply Rabs_le_inv in T.
    replace (centre (k - 1)) with (centre k - 1) in T by (unfold centre; rewrite minus_INR by lia; cbn [INR]; lra).
    assert (J : centre j <= centre k - 1) by (unfold centre; pose proof (S_INR_le j k G); lra).
    assert (J2 : centre j * step <= (centre k - 1) * step) by (apply Rmult_le_compat_r; lra). rewrite Rmult_minus_distr_r in J2. rewrite Rmult_plus_distr_r, Rmult_minus_distr_r in T.
    unfold Rabs. destruct (Rcase_abs (x - yk)), (Rcase_abs (x - yj)); lra.
  - unfold yj, yk. lra.
  - pose proof (threshold_close k ltac:(lia)) as T. fold e in T. pose proof (C3 k ltac:(lia)) as X. apply Rabs_le_inv in T.
    assert (J : centre k + 1 <= centre j) by (unfold centre; pose proof (S_INR_le k j G); lra).
    assert (J2 : (centre k + 1) * step <= centre j * step) by (apply Rmult_le_compat_r; lra). rewrite Rmult_plus_distr_r in J2, T.
    unfold Rabs. destruct (Rcase_abs (x - yk)), (Rcase_abs (x - yj)); lra.
Qed.
(* granular error *)
Lemma float_error q x : ScalarQuantizer (float_uniform_levels L step offset) (float_uniform_thresholds L step offset) = Some q ->
  (centre 0 - 1 / 2) * step <= x <= (centre (L - 1) + 1 / 2) * step -> Rabs (x - quantize q x) <= step / 2 + 2 * (B / 2 ^ 50) * step.
Proof.
  intros Hq Hx. destruct (scalar_fields _ _ _ Hq) as [E1 E2]. unfold quantize. set (k := digitize q x).
  assert (C : in_cell (thresholds q) k x) by (rewrite E2; unfold k, digitize; rewrite E2; apply filter_le_cell, (interleaved_nondecreasing (float_uniform_levels L step offset)), float_interleaved).
  rewrite E2 in C. destruct C as (C1 & C2 & C3). rewrite float_thresholds_length in C1, C3. rewrite E1.
  set (e := B / 2 ^ 50 * step). assert (e0 : 0 <= e) by (unfold e; apply Rmult_le_pos; [|lra]; rewrite marginB; pose proof U_pos; assert (0 <= U * B) by (apply Rmult_le_pos; lra); lra).
  replace (2 * (B / 2 ^ 50) * step) with (2 * e) by (unfold e; ring).
  pose proof (level_close k ltac:(lia)) as Yk. fold e in Yk. set (yk := nth k _ 0) in *. apply Rabs_le_inv in Yk.
  assert (Lo : (centre k - 1 / 2) * step - e <= x).
  { destruct (Nat.eq_dec k 0) as [->|N]; [lra|]. pose proof (threshold_close (k - 1) ltac:(lia)) as T. fold e in T. pose proof (C2 (k - 1)%nat ltac:(lia)) as X. apply Rabs_le_inv in T.
    replace (centre (k - 1)) with (centre k - 1) in T by (unfold centre; rewrite minus_INR by lia; cbn [INR]; lra). replace (centre k - 1 + 1 / 2) with (centre k - 1 / 2) in T by lra. lra. }
  assert (Hi : x <= (centre k + 1 / 2) * step + e).
  { destruct (Nat.eq_dec k (L - 1)) as [->|N]; [lra|]. pose proof (threshold_close k ltac:(lia)) as T. fold e in T. pose proof (C3 k ltac:(lia)) as X. apply Rabs_le_inv in T. lra. }
  rewrite Rmult_minus_distr_r in Lo. rewrite Rmult_plus_distr_r in Hi. apply Rabs_le. lra.
Qed.
(* away from the exact thresholds the cell is the exact one *)
Lemma float_agrees q q0 x : ScalarQuantizer (float_uniform_levels L step offset) (float_uniform_thresholds L step offset) = Some q ->
  UniformQuantizer L step offset = Some q0 -> (forall t, In t (thresholds q0) -> B / 2 ^ 50 * step < Rabs (x - t)) -> digitize q x = digitize q0 x.
Proof.
  intros Hq H0 F. destruct (scalar_fields _ _ _ Hq) as [_ E2]. destruct (uniform_cases _ _ _ _ H0) as (_ & _ & _ & E4). unfold digitize. rewrite E2. rewrite E4 in *.
  assert (TE : uniform_thresholds L step offset = map (fun i => (centre i + 1 / 2) * step) (seq 0 (L - 1))).
  { unfold uniform_thresholds, uniform_levels. rewrite map_map. replace (seq 0 L) with (seq 0 (L - 1) ++ [L - 1]%nat) by (change [L - 1]%nat with [0 + (L - 1)]%nat; rewrite <- seq_S; f_equal; lia). rewrite map_app. cbn [map]. rewrite removelast_last. apply map_ext. intros i. unfold centre. field. }
  rewrite TE in *. rewrite float_thresholds_eq.
  assert (G : forall l, (forall i, In i l -> (i < L - 1)%nat) -> length (filter (fun t => Rleb t x) (map thr l)) = length (filter (fun t => Rleb t x) (map (fun i => (centre i + 1 / 2) * step) l))).
  { induction l as [|i l IH]; intros Hl; [reflexivity|]. cbn [map filter].
    pose proof (Hl i (or_introl eq_refl)) as Hi. pose proof (threshold_close i Hi) as T. rewrite float_thresholds_nth in T by exact Hi. apply Rabs_le_inv in T.
    assert (S : B / 2 ^ 50 * step < Rabs (x - (centre i + 1 / 2) * step)) by (apply F; rewrite in_map_iff; exists i; split; [reflexivity|apply in_seq; lia]).
    assert (Q : Rleb (thr i) x = Rleb ((centre i + 1 / 2) * step) x).
    { unfold Rleb. destruct (Rle_dec (thr i) x), (Rle_dec ((centre i + 1 / 2) * step) x); try reflexivity; exfalso; revert S; unfold Rabs; destruct (Rcase_abs _); lra. }
    rewrite Q. specialize (IH (fun j Hj => Hl j (or_intror Hj))). destruct (Rleb ((centre i + 1 / 2) * step) x); cbn [length]; [f_equal|]; exact IH. }
  apply G. intros i Hi. apply in_seq in Hi. lia.
Qed.
End Uniform.
