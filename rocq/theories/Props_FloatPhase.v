(** C119: phase constellations and the nearest-point search in double precision. *)
Set Warnings "-ambiguous-paths".
From Coq Require Import Reals Lra.
From Flocq Require Import Core.
From Coquelicot Require Import Complex.
From Verif Require Import Common Float_Model FloatFano_Proof FloatViterbi_Spec FloatViterbi_Proof FloatShannon_Proof FloatConst_Model FloatConst_Proof Corr_Model Corr_Proof Const_Model Const_Spec Const_Proof Const_Stats Chain_Spec FloatSoft_Model FloatSoft_Proof FloatPhase_Model FloatPhase_Spec FloatPhase_Proof FloatPhase_PSK FloatPhase_Search.
From Verif Require Pulse_Tol Props_FloatSoft.
Local Open Scope R_scope.

(* ================= the assumptions on the library *)
Lemma plain_error z w : Cmod (Cminus (plain_mul z w) (Cmult z w)) <= / 2 ^ 51 * (Cmod z * Cmod w) + / 2 ^ 1072.
Proof.
  pose proof U_small as [U0 U1]. set (m := Cmod z * Cmod w). assert (M0 : 0 <= m) by (apply Rmult_le_pos; apply Cmod_ge_0). set (t := / 2 ^ 1075). assert (T0 : 0 < t) by apply inv_pow_pos.
  assert (ET : / 2 ^ 1072 = 8 * t). { unfold t. change 1075%nat with (1072 + 3)%nat. rewrite inv_pow_add. replace (/ 2 ^ 3) with (/ 8) by (f_equal; lra). lra. }
  assert (Fmt : forall x, is_binary64 (binary64 x)) by (intros x; apply generic_format_round; [apply FLT_exp_valid; unfold Prec_gt_0; lia|apply valid_rnd_N]).
  assert (CS : forall a b c d, Rabs a ^ 2 + Rabs b ^ 2 = Cmod z ^ 2 -> Rabs c ^ 2 + Rabs d ^ 2 = Cmod w ^ 2 -> Rabs (a * c) + Rabs (b * d) <= m).
  { intros a b c d H1 H2. rewrite !Rabs_mult. apply Rsqr_incr_0_var; [|exact M0]. unfold Rsqr, m. replace (Cmod z * Cmod w * (Cmod z * Cmod w)) with (Cmod z ^ 2 * Cmod w ^ 2) by ring. rewrite <- H1, <- H2. pose proof (pow2_ge_0 (Rabs a * Rabs d - Rabs b * Rabs c)). lra. }
  assert (G : forall p q s, s = p + q -> Rabs p + Rabs q <= m -> Rabs (binary64 (binary64 p + binary64 q) - s) <= 5 / 2 * U * m + 3 * t).
  { intros p q s -> H. pose proof (b64_near p) as Hp. pose proof (b64_near q) as Hq. fold t in Hp, Hq. destruct (plus_error (binary64 p) (binary64 q) (Fmt p) (Fmt q)) as [_ E]. fold U in E.
    set (s := binary64 p + binary64 q) in *. assert (D : Rabs (s - (p + q)) <= U * m + 2 * t). { unfold s. replace (binary64 p + binary64 q - (p + q)) with ((binary64 p - p) + (binary64 q - q)) by ring. eapply Rle_trans; [apply Rabs_triang|]. nra. }
    assert (S : Rabs s <= m + (U * m + 2 * t)). { replace s with ((p + q) + (s - (p + q))) by ring. eapply Rle_trans; [apply Rabs_triang|]. pose proof (Rabs_triang p q). lra. }
    replace (binary64 s - (p + q)) with ((binary64 s - s) + (s - (p + q))) by ring. eapply Rle_trans; [apply Rabs_triang|].
    assert (U * Rabs s <= U * (m + (U * m + 2 * t))) by (apply Rmult_le_compat_l; lra). assert (UM : 0 <= U * m) by (apply Rmult_le_pos; lra). assert (U * (U * m) <= / 1000000 * (U * m)) by (apply Rmult_le_compat_r; lra). assert (U * t <= / 1000000 * t) by (apply Rmult_le_compat_r; lra). lra. }
  rewrite U_51, ET. apply Rle_trans with (3 / 2 * (5 / 2 * U * m + 3 * t)); [|assert (0 <= U * m) by (apply Rmult_le_pos; lra); lra].
  assert (0 <= U * m) by (apply Rmult_le_pos; lra). apply Cmod_box; [lra| |]; unfold Cminus, Cplus, Copp, Cmult, plain_mul; cbn [fst snd].
  - match goal with |- Rabs (?x + - ?y) <= _ => change (x + - y) with (x - y) end. unfold Rminus at 2. rewrite <- b64_opp. apply G; [ring|]. rewrite Rabs_Ropp. apply CS; rewrite !pow2_abs, Cmod2; reflexivity.
  - match goal with |- Rabs (?x + - ?y) <= _ => change (x + - y) with (x - y) end. apply G; [ring|]. apply CS; rewrite !pow2_abs, Cmod2; ring.
Qed.
Lemma PI_upper : PI <= 35 / 10.
Proof. destruct (PI_ineq 1) as [_ H]. unfold tg_alt, PI_tg in H. cbn in H. lra. Qed.
(* The textbook product and correctly rounded elementary functions meet them. *)
Theorem C119_rounded_library : accurate_library
  {| lib_cos := fun x => binary64 (cos x); lib_sin := fun x => binary64 (sin x); lib_atan2 := fun y x => binary64 (angle (x, y));
     lib_hypot := fun x y => binary64 (Cmod (x, y)); lib_mul := plain_mul |}.
Proof.
  pose proof U_small as [U0 U1]. assert (O : forall x, Rabs x <= 1 -> Rabs (binary64 x - x) <= / 2 ^ 52) by (intros x H; rewrite U_52; pose proof (b64_unit x); nra).
  split; cbn [lib_cos lib_sin lib_atan2 lib_hypot lib_mul].
  - intros x. apply O, Rabs_le. pose proof (COS_bound x). lra.
  - intros x. apply O, Rabs_le. pose proof (SIN_bound x). lra.
  - intros x y H. exists (Cmod (x, y)), (angle (x, y)). split; [apply Cmod_gt_0; exact H|]. split; [apply angle_bound|]. split; [apply angle_spec|]. rewrite U_51. pose proof (b64_unit (angle (x, y))) as B.
    pose proof (angle_bound (x, y)). pose proof Pulse_Tol.PI_gt3. pose proof PI_upper. assert (Rabs (angle (x, y)) <= PI) by (apply Rabs_le; lra). nra.
  - intros x y. pose proof (b64_near (Cmod (x, y))) as B. rewrite (Rabs_pos_eq (Cmod (x, y))) in B by apply Cmod_ge_0. rewrite U_52. pose proof (Cmod_ge_0 (x, y)).
    assert (/ 2 ^ 1075 <= / 2 ^ 1074) by (apply pow_small; lia). assert (0 <= U * Cmod (x, y)) by (apply Rmult_le_pos; lra). lra.
  - apply plain_error.
Qed.

(* ================= PSK *)
(* The stored points are the documented ones up to 2^-49 (from matrix.round(15)) plus (1 + |phi|) 2^-46 of the amplitude. *)
Theorem C119_psk_points : forall L M A phi i, accurate_library L -> (i < M)%nat -> INR M <= 2 ^ 48 -> 0 <= A ->
  length (float_psk_points L M A phi) = M /\
  Cmod (Cminus (nth i (float_psk_points L M A phi) (RtoC 0)) (nth i (psk_points M A phi) (RtoC 0))) <= / 2 ^ 49 + (1 + Rabs phi) / 2 ^ 46 * A.
Proof. intros L M A phi i HL Hi HM HA. split; [apply float_psk_length|now apply psk_point_near]. Qed.
(* A received number whose argument is nearer than half a sector to that of a point, up to (1 + |phi|) 2^-46 turns, is
   decided as that point. *)
Theorem C119_psk_decides : forall L M phi z rho i eps, accurate_library L -> (i < M)%nat -> INR M <= 2 ^ 48 -> 1 + Rabs phi <= 2 ^ 40 -> / 2 ^ 900 <= rho ->
  polar z rho (2 * PI * (INR i / INR M + phi + eps)) -> Rabs eps <= 1 / (2 * INR M) - (1 + Rabs phi) / 2 ^ 46 ->
  float_psk_closest L M phi z = i.
Proof.
  intros L M phi z rho i eps HL Hi HM HK Hr P He. assert (M1 : 1 <= INR M) by (pose proof (S_INR_le i M Hi); pose proof (pos_INR i); lra).
  destruct (psk_variable L HL M phi z rho _ ltac:(lia) HM HK Hr P) as [k Hk]. unfold float_psk_closest. cbv zeta. set (s := binary64 (INR M * _)) in *.
  assert (E : npround s = (Z.of_nat i + k * - Z.of_nat M)%Z).
  { apply npround_unique. rewrite plus_IZR, mult_IZR, opp_IZR, <- !INR_IZR_INZ. set (K := 1 + Rabs phi) in *.
    replace (s - (INR i + IZR k * - INR M)) with ((s - INR M * (INR i / INR M + phi + eps - phi - IZR k)) + INR M * eps) by (field; lra).
    eapply Rle_lt_trans; [apply Rabs_triang|]. rewrite (Rabs_mult (INR M)), (Rabs_pos_eq (INR M)) by lra. assert (INR M * Rabs eps <= INR M * (1 / (2 * INR M) - K / 2 ^ 46)) by (apply Rmult_le_compat_l; lra).
    replace (INR M * (1 / (2 * INR M) - K / 2 ^ 46)) with (1 / 2 - INR M * (K / 2 ^ 46)) in H by (field; lra).
    assert (INR M * (K / 2 ^ 47) < INR M * (K / 2 ^ 46)); [|lra]. apply Rmult_lt_compat_l; [lra|]. pose proof (Rabs_pos phi). apply Rmult_lt_compat_l; [unfold K; lra|lra]. }
  rewrite E. replace (Z.of_nat i + k * - Z.of_nat M)%Z with (Z.of_nat i + (- k) * Z.of_nat M)%Z by ring. rewrite Z.mod_add by lia. rewrite Z.mod_small by lia. apply Nat2Z.id.
Qed.
(* Every decision is a nearest point up to that margin. *)
Theorem C119_psk_nearest : forall L M phi z rho tau, accurate_library L -> (1 <= M)%nat -> INR M <= 2 ^ 48 -> 1 + Rabs phi <= 2 ^ 40 -> / 2 ^ 900 <= rho -> polar z rho tau ->
  let k := float_psk_closest L M phi z in
  (k < M)%nat /\ exists eps, polar z rho (2 * PI * (INR k / INR M + phi + eps)) /\ Rabs eps <= 1 / (2 * INR M) + (1 + Rabs phi) / 2 ^ 46.
Proof.
  intros L M phi z rho tau HL HM1 HM HK Hr P k. pose proof PI_RGT_0 as PP. assert (M1 : 1 <= INR M) by (apply (le_INR 1) in HM1; cbn in HM1; lra).
  assert (P' : polar z rho (2 * PI * (tau / (2 * PI)))) by (replace (2 * PI * (tau / (2 * PI))) with tau by (field; lra); exact P).
  destruct (psk_variable L HL M phi z rho _ HM1 HM HK Hr P') as [q Hq]. unfold k, float_psk_closest. cbv zeta. set (s := binary64 (INR M * _)) in *. set (n := npround s).
  pose proof (npround_near s) as Hn. fold n in Hn. pose proof (Z.mod_pos_bound n (Z.of_nat M) ltac:(lia)) as B. split; [lia|]. set (K := 1 + Rabs phi) in *.
  exists (tau / (2 * PI) - phi - IZR q - IZR n / INR M). split.
  - apply polar_cexp. apply polar_cexp in P'. rewrite P'. f_equal. pose proof (Z.div_mod n (Z.of_nat M) ltac:(lia)) as D. apply (f_equal IZR) in D. rewrite plus_IZR, mult_IZR, <- INR_IZR_INZ in D.
    rewrite (INR_IZR_INZ (Z.to_nat _)), Z2Nat.id by lia. set (a := (n / Z.of_nat M)%Z) in *. set (b := (n mod Z.of_nat M)%Z) in *.
    replace (2 * PI * (tau / (2 * PI))) with (2 * PI * (IZR b / INR M + phi + (tau / (2 * PI) - phi - IZR q - IZR n / INR M)) + 2 * PI * IZR (a + q)).
    + rewrite cexp_add, cexp_2kPI, Cmult_1_r. reflexivity.
    + rewrite plus_IZR, D. field. lra.
  - apply Rmult_le_reg_l with (INR M); [lra|]. rewrite <- (Rabs_pos_eq (INR M)) at 1 by lra. rewrite <- Rabs_mult.
    replace (INR M * (tau / (2 * PI) - phi - IZR q - IZR n / INR M)) with (- (s - INR M * (tau / (2 * PI) - phi - IZR q)) + (s - IZR n)) by (field; lra).
    eapply Rle_trans; [apply Rabs_triang|]. rewrite Rabs_Ropp. replace (INR M * (1 / (2 * INR M) + K / 2 ^ 46)) with (1 / 2 + INR M * (K / 2 ^ 46)) by (field; lra).
    assert (INR M * (K / 2 ^ 47) <= INR M * (K / 2 ^ 46)); [|lra]. apply Rmult_le_compat_l; [lra|]. pose proof (Rabs_pos phi). apply Rmult_le_compat_l; [unfold K; lra|lra].
Qed.
(* A stored point disturbed by less than 7/16 of the minimum distance 2 A sin(pi/M) is decided as itself. *)
Theorem C119_psk_roundtrip : forall L M A phi i noise, accurate_library L -> (2 <= M)%nat -> (i < M)%nat -> (1 + Rabs phi) * INR M <= 2 ^ 40 -> INR M / 2 ^ 44 <= A ->
  Cmod noise <= 7 / 8 * (A * sin (PI / INR M)) -> float_psk_closest L M phi (Cplus (nth i (float_psk_points L M A phi) (RtoC 0)) noise) = i.
Proof.
  intros L M A phi i w HL H2 Hi HK HA Hw. pose proof PI_RGT_0 as PP. pose proof (Rabs_pos phi) as P0. assert (M2 : 2 <= INR M) by (apply (le_INR 2) in H2; cbn in H2; lra). set (K := 1 + Rabs phi) in *. assert (K1 : 1 <= K) by (unfold K; lra).
  assert (MB : INR M <= 2 ^ 40) by nra. assert (KB : K <= 2 ^ 40) by nra. assert (A0 : 0 < A) by (assert (0 < INR M / 2 ^ 44) by (apply Rdiv_lt_0_compat; lra); lra).
  set (S := sin (PI / INR M)) in *. set (p := nth i (psk_points M A phi) (RtoC 0)). set (ph := nth i (float_psk_points L M A phi) (RtoC 0)) in *. set (im := / INR M). assert (Im : 0 < im) by (unfold im; apply Rinv_0_lt_compat; lra). assert (IM : im * INR M = 1) by (unfold im; apply Rinv_l; lra).
  assert (SS : 2 * im <= S).
  { pose proof (sin_concave (2 * im) (PI / 2)) as C. rewrite sin_PI2, Rmult_1_r in C. unfold S. replace (PI / INR M) with (2 * im * (PI / 2)) by (unfold im; field; lra). apply C; [split; [lra|nra]|lra]. }
  assert (E : Cmod (Cminus ph p) <= / 2 ^ 49 + K / 2 ^ 46 * A) by (apply psk_point_near; auto; lra).
  assert (EB : / 2 ^ 49 + K / 2 ^ 46 * A <= A * S / 16).
  { assert (A * (2 * im) <= A * S) by (apply Rmult_le_compat_l; lra). assert (X1 : / 2 ^ 49 <= A * im / 16). { assert (INR M / 2 ^ 44 * im <= A * im) by (apply Rmult_le_compat_r; lra). replace (INR M / 2 ^ 44 * im) with (im * INR M / 2 ^ 44) in H0 by (unfold Rdiv; ring). rewrite IM in H0. lra. }
    assert (X2 : K / 2 ^ 46 <= im / 16). { apply Rmult_le_reg_r with (INR M); [lra|]. replace (im / 16 * INR M) with (im * INR M / 16) by (unfold Rdiv; ring). rewrite IM. replace (K / 2 ^ 46 * INR M) with (K * INR M / 2 ^ 46) by (unfold Rdiv; ring). lra. }
    assert (K / 2 ^ 46 * A <= im / 16 * A) by (apply Rmult_le_compat_r; lra). lra. }
  set (z := Cplus ph w). set (t := 2 * PI * (INR i / INR M + phi)). assert (Ep : p = Cmult (RtoC A) (cexp t)).
  { unfold p, psk_points. rewrite nth_map_seq by exact Hi. unfold rotation, t. rewrite <- Cmult_assoc, <- cexp_add. f_equal. f_equal. field. lra. }
  set (alpha := 15 / 16 * (PI / INR M)). assert (PM : PI / INR M <= PI / 2) by (apply Rmult_le_compat_l; [lra|apply Rinv_le_contravar; lra]). assert (PM0 : 0 < PI / INR M) by (apply Rdiv_lt_0_compat; lra).
  assert (D : Cmod (Cminus z p) <= 15 / 16 * (A * S)).
  { replace (Cminus z p) with (Cplus (Cminus ph p) w) by (unfold z, Cminus; ring). eapply Rle_trans; [apply Cmod_triangle|]. lra. }
  assert (DS : 15 / 16 * (A * S) <= A * sin alpha). { pose proof (sin_concave (15 / 16) (PI / INR M) ltac:(lra) ltac:(lra)) as C. fold S alpha in C. assert (A * (15 / 16 * S) <= A * sin alpha) by (apply Rmult_le_compat_l; lra). lra. }
  rewrite Ep in D. destruct (arg_near z A t alpha A0) as (r & psi & Hr & Hpsi & Pz); [unfold alpha; lra|lra|].
  assert (S1 : S <= 1) by apply SIN_bound. assert (Rr : / 2 ^ 900 <= r).
  { rewrite <- (polar_mod z r _ ltac:(lra) Pz). assert (D' : Cmod (Cminus (Cmult (RtoC A) (cexp t)) z) <= 15 / 16 * A).
    { replace (Cminus (Cmult (RtoC A) (cexp t)) z) with (Copp (Cminus z (Cmult (RtoC A) (cexp t)))) by (unfold Cminus; ring). rewrite Cmod_opp. assert (A * S <= A * 1) by (apply Rmult_le_compat_l; lra). lra. }
    apply Cmod_near in D'. rewrite Cmod_mult, cexp_mod, Cmod_R, Rabs_pos_eq in D' by lra. pose proof (pow_small 47 900 ltac:(lia)). assert (2 / 2 ^ 44 <= INR M / 2 ^ 44) by (unfold Rdiv; apply Rmult_le_compat_r; lra). lra. }
  apply (C119_psk_decides L M phi z r i (psi / (2 * PI)) HL Hi ltac:(lra) KB Rr).
  - replace (2 * PI * (INR i / INR M + phi + psi / (2 * PI))) with (t + psi) by (unfold t; field; lra). exact Pz.
  - fold K. unfold Rdiv at 1. rewrite Rabs_mult, (Rabs_pos_eq (/ (2 * PI))) by (left; apply Rinv_0_lt_compat; lra).
    apply Rle_trans with (alpha * / (2 * PI)); [apply Rmult_le_compat_r; [left; apply Rinv_0_lt_compat; lra|exact Hpsi]|].
    replace (alpha * / (2 * PI)) with (15 / 32 * im) by (unfold alpha, im; field; lra). replace (1 / (2 * INR M)) with (im / 2) by (unfold im; field; lra).
    assert (K / 2 ^ 46 <= im / 32); [|lra]. apply Rmult_le_reg_r with (INR M); [lra|]. replace (im / 32 * INR M) with (im * INR M / 32) by (unfold Rdiv; ring). rewrite IM. replace (K / 2 ^ 46 * INR M) with (K * INR M / 2 ^ 46) by (unfold Rdiv; ring). lra.
Qed.
(* Small amplitudes are lost: with an amplitude of at most 2^-52 every stored point is 0, whatever the order. *)
Theorem C119_psk_tiny_refuted : forall L M A phi i, accurate_library L -> (i < M)%nat -> 0 <= A <= / 2 ^ 52 -> nth i (float_psk_points L M A phi) (RtoC 0) = RtoC 0.
Proof.
  intros L M A phi i HL Hi [A0 A1]. pose proof U_small as [U0 U1]. pose proof eta_small as [N0 N1]. unfold float_psk_points. rewrite nth_map_seq by exact Hi. cbv zeta. set (z1 := lib_mul L (RtoC A) _). set (z2 := lib_mul L z1 _).
  assert (G : forall z w, Cmod w <= 1 + 3 * U -> Cmod (lib_mul L z w) <= (1 + 8 * U) * Cmod z + / 2 ^ 1072).
  { intros z w H. pose proof (Cmod_near _ _ _ (acc_mul L HL z w)) as B. rewrite Cmod_mult, U_51 in B. pose proof (Cmod_ge_0 z) as Z0. assert (Cmod z * Cmod w <= Cmod z * (1 + 3 * U)) by (apply Rmult_le_compat_l; lra).
    assert (4 * U * (Cmod z * Cmod w) <= 4 * U * (Cmod z * (1 + 3 * U))) by (apply Rmult_le_compat_l; lra). assert (0 <= U * Cmod z) by (apply Rmult_le_pos; lra). nra. }
  pose proof (G (RtoC A) _ (fcexp_mod L HL (float_phase M i))) as B1. fold z1 in B1. rewrite Cmod_R, Rabs_pos_eq in B1 by lra. pose proof (G z1 _ (fcexp_mod L HL (binary64 (two_pi * phi)))) as B2. change (float_cexp L (binary64 (two_pi * phi))) with (float_rotation L phi) in B2. fold z2 in B2.
  rewrite U_52 in A1. assert (Z : Cmod z2 <= 3 * U) by nra.
  assert (R0 : forall x, Rabs x <= Cmod z2 -> round15 x = 0).
  { intros x Hx. unfold round15. assert (E : npround (binary64 (x * 10 ^ 15)) = 0%Z).
    { apply npround_unique. rewrite Rminus_0_r. pose proof (b64_unit (x * 10 ^ 15)) as B. assert (X : Rabs (x * 10 ^ 15) <= 4 / 10). { rewrite Rabs_mult, (Rabs_pos_eq (10 ^ 15)) by lra. apply Rle_trans with (3 * U * 10 ^ 15); [apply Rmult_le_compat_r; lra|]. rewrite U_val. lra. }
      replace (binary64 (x * 10 ^ 15)) with (x * 10 ^ 15 + (binary64 (x * 10 ^ 15) - x * 10 ^ 15)) by ring. eapply Rle_lt_trans; [apply Rabs_triang|]. nra. }
    rewrite E. unfold Rdiv. rewrite Rmult_0_l. apply b64_0. }
  rewrite !R0 by (first [apply Rabs_fst_le|apply Rabs_snd_le]). reflexivity.
Qed.

(* ================= the search over all points (base constellations, APSK) *)
(* Whatever the order in which np.sum adds, the decision is a nearest point up to a relative error of (N + 5) / 2^51. *)
Theorem C119_search : forall L npsum m r, accurate_library L -> any_order npsum -> m <> [] -> Forall double_complex r ->
  Forall (fun p => length p = length r /\ Forall double_complex p) m -> INR (length r) <= 2 ^ 48 ->
  let k := float_base_closest L npsum m r in
  (k < length m)%nat /\ forall j, (j < length m)%nat ->
  dist2 r (nth k m []) <= dist2 r (nth j m []) + (INR (length r) + 5) / 2 ^ 51 * (dist2 r (nth k m []) + dist2 r (nth j m [])) + INR (length r) / 2 ^ 1072.
Proof. intros L npsum m r HL HS. now apply search_near. Qed.
(* Points at least d apart: everything nearer than 15/32 d to a point is decided as that point. *)
Theorem C119_search_half : forall L npsum m r i d, accurate_library L -> any_order npsum -> (i < length m)%nat -> Forall double_complex r ->
  Forall (fun p => length p = length r /\ Forall double_complex p) m -> INR (length r) <= 2 ^ 40 -> / 2 ^ 400 <= d -> spaced m d ->
  dist2 r (nth i m []) <= (15 / 32 * d) ^ 2 -> float_base_closest L npsum m r = i.
Proof.
  intros L npsum m r i d HL HS Hi Fr Fm HN Hd Sp Ha. assert (NE : m <> []) by (intros ->; cbn in Hi; lia).
  destruct (C119_search L npsum m r HL HS NE Fr Fm ltac:(lra)) as [Hk H]. set (k := float_base_closest L npsum m r) in *. specialize (H i Hi).
  destruct (Nat.eq_dec k i) as [E|E]; [exact E|exfalso].
  rewrite Forall_forall in Fm. destruct (Fm _ (nth_In m [] Hi)) as [Li _]. destruct (Fm _ (nth_In m [] Hk)) as [Lk _].
  set (p := nth i m []) in *. set (q := nth k m []) in *.
  assert (D : d ^ 2 <= dist2 p q).
  { destruct (Nat.lt_ge_cases i k); [apply Sp; lia|]. rewrite dist2_sym. apply Sp. lia. }
  pose proof (dist2_weighted (15 / 32) p ltac:(lra) q r ltac:(congruence) ltac:(congruence)) as W.
  set (a := dist2 r p) in *. set (b := dist2 r q) in *. set (n := INR (length r)) in *. assert (N0 : 0 <= n) by apply pos_INR. set (D2 := d ^ 2) in *.
  assert (a <= 225 / 1024 * D2) by (unfold D2; lra). assert (B : 289 / 1024 * D2 <= b) by lra.
  assert (A0 : 0 <= a) by apply dist2_nonneg. assert (B0 : 0 <= b) by apply dist2_nonneg.
  assert (EE : (n + 5) / 2 ^ 51 <= / 1000) by lra. assert (E1 : (n + 5) / 2 ^ 51 * (b + a) <= / 1000 * (b + a)) by (apply Rmult_le_compat_r; lra).
  assert (T : / 2 ^ 800 <= D2).
  { unfold D2. replace (/ 2 ^ 800) with (/ 2 ^ 400 * / 2 ^ 400) by (rewrite <- inv_pow_add; reflexivity). pose proof (inv_pow_pos 400). replace (d ^ 2) with (d * d) by ring. nra. }
  assert (X : n / 2 ^ 1072 <= / 1000 * / 2 ^ 800).
  { replace (/ 2 ^ 1072) with (/ 2 ^ 272 * / 2 ^ 800) by (rewrite <- inv_pow_add; reflexivity). unfold Rdiv. change 1072%nat with (272 + 800)%nat. rewrite inv_pow_add, <- Rmult_assoc. apply Rmult_le_compat_r; [pose proof (inv_pow_pos 800); lra|].
    apply Rle_trans with (2 ^ 40 * / 2 ^ 60); [|lra]. apply Rmult_le_compat; [lra|pose proof (inv_pow_pos 272); lra|lra|apply pow_small; lia]. }
  pose proof (inv_pow_pos 800). lra.
Qed.
Lemma apsk_near L rings e : accurate_library L ->
  Forall (fun r => let '(M, A, phi) := r in INR M <= 2 ^ 48 /\ 0 <= A /\ / 2 ^ 49 + (1 + Rabs phi) / 2 ^ 46 * A <= e) rings ->
  length (float_apsk_points L rings) = length (apsk_points rings) /\
  forall i, (i < length (apsk_points rings))%nat -> Cmod (Cminus (nth i (float_apsk_points L rings) (RtoC 0)) (nth i (apsk_points rings) (RtoC 0))) <= e.
Proof.
  intros HL. unfold float_apsk_points, apsk_points. induction rings as [|[[M A] phi] rings IH]; intros F; [split; [reflexivity|cbn; lia]|].
  pose proof (Forall_inv F) as G0; pose proof (Forall_inv_tail F) as F'; cbv beta iota in G0; destruct G0 as (H1 & H2 & H3). destruct (IH F') as [IH1 IH2]. cbn [map concat]. rewrite !app_length, float_psk_length, psk_length. split; [now rewrite IH1|].
  intros i Hi. destruct (Nat.lt_ge_cases i M).
  - rewrite !app_nth1 by (rewrite ?float_psk_length, ?psk_length; assumption). eapply Rle_trans; [apply psk_point_near; auto|exact H3].
  - rewrite !app_nth2 by (rewrite ?float_psk_length, ?psk_length; assumption). rewrite float_psk_length, psk_length. apply IH2. lia.
Qed.
Lemma round15_format x : is_binary64 (round15 x).
Proof. apply generic_format_round; [apply FLT_exp_valid; unfold Prec_gt_0; lia|apply valid_rnd_N]. Qed.
Lemma apsk_double L rings : Forall double_complex (float_apsk_points L rings).
Proof.
  unfold float_apsk_points. apply Forall_forall. intros z Hz. apply in_concat in Hz. destruct Hz as (l & Hl & Hz). apply in_map_iff in Hl. destruct Hl as ([[M A] phi] & <- & _).
  unfold float_psk_points in Hz. apply in_map_iff in Hz. destruct Hz as (i & <- & _). split; apply round15_format.
Qed.
Lemma dist2_cmod a b : dist2 [a] [b] = Cmod (Cminus a b) ^ 2.
Proof. cbn [dist2]. ring. Qed.
Lemma nth_singles (l : list C) i : (i < length l)%nat -> nth i (map (fun z => [z]) l) [] = [nth i l (RtoC 0)].
Proof. intros H. rewrite nth_map_pt with (d := RtoC 0) by exact H. reflexivity. Qed.
(* Every APSK constellation whose documented points are at least d apart and whose rings are not too large for that
   distance: a received complex double within 7/16 d of a stored point is decided as that point. *)
Theorem C119_apsk : forall L npsum rings d w i, accurate_library L -> any_order npsum ->
  Forall (fun r => let '(M, A, phi) := r in INR M <= 2 ^ 48 /\ 0 <= A /\ / 2 ^ 49 + (1 + Rabs phi) / 2 ^ 46 * A <= d / 64) rings ->
  spaced (matrix (APSKConstellation rings)) d -> (i < list_sum (map (fun r => fst (fst r)) rings))%nat -> is_binary64 (fst w) -> is_binary64 (snd w) ->
  Cmod (Cminus w (nth i (float_apsk_points L rings) (RtoC 0))) <= 7 / 16 * d -> float_apsk_closest L npsum rings w = i.
Proof.
  intros L npsum rings d w i HL HS F Sp Hi W1 W2 Hw. destruct (apsk_near L rings (d / 64) HL F) as [Len Near]. rewrite <- apsk_length in Hi.
  assert (D0 : / 2 ^ 400 <= 31 / 32 * d).
  { destruct rings as [|[[M A] phi] rings]; [cbn in Hi; lia|]. pose proof (Forall_inv F) as G0; pose proof (Forall_inv_tail F) as F'; cbv beta iota in G0; destruct G0 as (H1 & H2 & H3). pose proof (Rabs_pos phi). pose proof (pow_small 49 400 ltac:(lia)).
    assert (0 <= (1 + Rabs phi) / 2 ^ 46 * A) by (apply Rmult_le_pos; [apply Rmult_le_pos; lra|lra]). assert (0 < / 2 ^ 49) by apply inv_pow_pos. lra. }
  set (P := apsk_points rings) in *. set (Q := float_apsk_points L rings) in *. unfold float_apsk_closest. fold Q.
  apply (C119_search_half L npsum (map (fun z => [z]) Q) [w] i (31 / 32 * d) HL HS).
  - rewrite map_length. now rewrite Len.
  - constructor; [split; assumption|constructor].
  - apply Forall_forall. intros p Hp. apply in_map_iff in Hp. destruct Hp as (z & <- & Hz). split; [reflexivity|]. constructor; [|constructor]. pose proof (apsk_double L rings) as G. rewrite Forall_forall in G. now apply G.
  - cbn. lra.
  - exact D0.
  - intros j k Hjk. rewrite map_length in Hjk. rewrite !nth_singles by lia. rewrite dist2_cmod. rewrite Len in Hjk.
    assert (S : d <= Cmod (Cminus (nth j P (RtoC 0)) (nth k P (RtoC 0)))).
    { specialize (Sp j k). cbn [matrix APSKConstellation] in Sp. fold P in Sp. rewrite map_length in Sp. specialize (Sp Hjk). rewrite !nth_singles, dist2_cmod in Sp by lia.
      apply Rsqr_incr_0_var; [|apply Cmod_ge_0]. unfold Rsqr. lra. }
    pose proof (Near j ltac:(lia)) as Nj. pose proof (Near k ltac:(lia)) as Nk. set (a := nth j P (RtoC 0)) in *. set (b := nth k P (RtoC 0)) in *. set (a' := nth j Q (RtoC 0)) in *. set (b' := nth k Q (RtoC 0)) in *.
    assert (T : Cmod (Cminus a b) <= Cmod (Cminus a' b') + d / 64 + d / 64).
    { replace (Cminus a b) with (Cplus (Cplus (Cminus a' b') (Copp (Cminus a' a))) (Cminus b' b)) by (unfold Cminus; ring).
      eapply Rle_trans; [apply Cmod_triangle|]. pose proof (Cmod_triangle (Cminus a' b') (Copp (Cminus a' a))) as Tr. rewrite Cmod_opp in Tr. lra. }
    apply pow_incr. pose proof (inv_pow_pos 400). lra.
  - rewrite nth_singles by (now rewrite Len). rewrite dist2_cmod. apply pow_incr. pose proof (Cmod_ge_0 (Cminus w (nth i Q (RtoC 0)))). pose proof (inv_pow_pos 400). lra.
Qed.

(* ================= the hypotheses are met *)
(* numpy's plain left-to-right sum (C118_left_to_right); PSK of order 4 and amplitude 1 turned by 1/8; APSK with a ring of
   two points of radius 1 and one point of radius 3; a received number in between. *)
Theorem C119_satisfiable : exists L npsum, accurate_library L /\ any_order npsum /\
  float_psk_closest L 4 (1 / 8) (Cplus (nth 3 (float_psk_points L 4 1 (1 / 8)) (RtoC 0)) (0, 1 / 2)) = 3%nat /\
  let rings := [(2%nat, 1, 0); (1%nat, 3, 0)] in let w := (binary64 (3 / 2), binary64 (1 / 4)) in
  Forall (fun r => let '(M, A, phi) := r in INR M <= 2 ^ 48 /\ 0 <= A /\ / 2 ^ 49 + (1 + Rabs phi) / 2 ^ 46 * A <= 2 / 64) rings /\
  spaced (matrix (APSKConstellation rings)) 2 /\ float_apsk_closest L npsum rings w = 0%nat.
Proof.
  pose (L := {| lib_cos := fun x => binary64 (cos x); lib_sin := fun x => binary64 (sin x); lib_atan2 := fun y x => binary64 (angle (x, y)); lib_hypot := fun x y => binary64 (Cmod (x, y)); lib_mul := plain_mul |}).
  exists L, (fun l => fold_left (fun a x => binary64 (a + x)) l 0). assert (HL : accurate_library L) by apply C119_rounded_library. split; [exact HL|]. split; [apply Props_FloatSoft.C118_left_to_right|].
  split.
  { assert (S4 : 4 / 7 <= sin (PI / 4)).
    { rewrite sin_PI4. pose proof Rlt_sqrt2_0. pose proof sqrt2_neq_0. assert (sqrt 2 * sqrt 2 = 2) by (apply sqrt_sqrt; lra). apply Rmult_le_reg_r with (sqrt 2); [lra|]. unfold Rdiv. rewrite Rmult_1_l, Rinv_l by lra. nra. }
    apply (C119_psk_roundtrip L 4 1 (1 / 8) 3 (0, 1 / 2) HL); [lia|lia| | |]; cbn [INR].
    - rewrite Rabs_pos_eq by lra. lra.
    - lra.
    - replace (1 + 1 + 1 + 1) with 4 by ring. apply Cmod_le; [lra|]. cbn [fst snd]. nra. }
  intros rings w.
  assert (F : Forall (fun r => let '(M, A, phi) := r in INR M <= 2 ^ 48 /\ 0 <= A /\ / 2 ^ 49 + (1 + Rabs phi) / 2 ^ 46 * A <= 2 / 64) rings).
  { unfold rings. repeat constructor; cbn [INR]; rewrite ?Rabs_R0; lra. }
  assert (P : apsk_points rings = [RtoC 1; RtoC (-1); RtoC 3]).
  { unfold apsk_points, rings, psk_points, rotation. cbn [map seq concat app INR]. rewrite !Rmult_0_r. replace (0 / (1 + 1)) with 0 by (unfold Rdiv; ring). replace (0 / 1) with 0 by (unfold Rdiv; ring). rewrite !cexp_0.
    replace (2 * PI * 1 / (1 + 1)) with PI by field. unfold cexp. rewrite cos_PI, sin_PI. unfold RtoC, Cmult. cbn [fst snd]. repeat f_equal; ring. }
  assert (S : spaced (matrix (APSKConstellation rings)) 2).
  { cbn [matrix APSKConstellation]. rewrite P. intros i j H. cbn [map length] in H. assert (E : (i = 0 /\ j = 1 \/ i = 0 /\ j = 2 \/ i = 1 /\ j = 2)%nat) by lia.
    destruct E as [[-> ->]|[[-> ->]|[-> ->]]]; cbn [map nth]; rewrite dist2_1; unfold RtoC; cbn [fst snd]; lra. }
  split; [exact F|]. split; [exact S|]. apply (C119_apsk L _ rings 2 w 0 HL); auto.
  - apply Props_FloatSoft.C118_left_to_right.
  - cbn. lia.
  - apply generic_format_round; [apply FLT_exp_valid; unfold Prec_gt_0; lia|apply valid_rnd_N].
  - apply generic_format_round; [apply FLT_exp_valid; unfold Prec_gt_0; lia|apply valid_rnd_N].
  - destruct (apsk_near L rings (2 / 64) HL F) as [_ N]. specialize (N 0%nat). rewrite P in N. specialize (N ltac:(cbn; lia)). cbn [nth] in N. set (q := nth 0 (float_apsk_points L rings) (RtoC 0)) in *.
    replace (Cminus w q) with (Cplus (Cminus w (RtoC 1)) (Copp (Cminus q (RtoC 1)))) by (unfold Cminus; ring). eapply Rle_trans; [apply Cmod_triangle|]. rewrite Cmod_opp.
    assert (Cmod (Cminus w (RtoC 1)) <= 6 / 10); [|lra]. pose proof U_small as [U0 U1]. pose proof (b64_unit (3 / 2)) as B1. pose proof (b64_unit (1 / 4)) as B2. rewrite (Rabs_pos_eq (3 / 2)) in B1 by lra. rewrite (Rabs_pos_eq (1 / 4)) in B2 by lra. apply Rabs_le_inv in B1. apply Rabs_le_inv in B2.
    apply Cmod_le; [lra|]. unfold w, RtoC, Cminus, Cplus, Copp. cbn [fst snd]. set (x := binary64 (3 / 2)) in *. set (y := binary64 (1 / 4)) in *. assert (149 / 100 <= x <= 151 / 100) by nra. assert (24 / 100 <= y <= 26 / 100) by nra. nra.
Qed.
