(** The nearest-point search in double precision. *)
Set Warnings "-ambiguous-paths".
From Coq Require Import Reals Lra Permutation.
From Flocq Require Import Core.
From Coquelicot Require Import Complex.
From Verif Require Import Common Float_Model FloatFano_Proof FloatViterbi_Spec FloatViterbi_Proof FloatShannon_Proof FloatConst_Model FloatConst_Proof BlockCode_Model Decoders_Proof SC_Model Corr_Model Const_Model Const_Spec Const_Proof FloatSoft_Model FloatSoft_Proof FloatPhase_Model FloatPhase_Spec FloatPhase_Proof.
Local Open Scope R_scope.

Lemma pow_small1 a n : 0 <= a <= 1 -> 0 <= a ^ n <= 1.
Proof. intros H. induction n as [|n IH]; cbn [pow]; [lra|nra]. Qed.
(* relative error of a sum of non-negative numbers in any order *)
Lemma rounded_relative l x : rounded_sum l x -> Forall is_binary64 l -> Forall (fun y => 0 <= y) l -> (1 - U) ^ length l * total l <= x <= (1 + U) ^ length l * total l.
Proof.
  pose proof U_small as [U0 U1]. induction 1 as [|x|l1 l2 l x1 x2 S1 IH1 S2 IH2 P]; intros F B.
  - unfold total. cbn. lra.
  - inversion B; subst. unfold total. cbn [fold_right length pow]. nra.
  - destruct (perm_split _ _ _ _ P F) as [F1 F2]. destruct (perm_split _ _ _ _ P B) as [B1 B2]. specialize (IH1 F1 B1). specialize (IH2 F2 B2).
    pose proof (Permutation_length P) as L. rewrite app_length in L. rewrite <- (total_perm _ _ P), total_app, <- L.
    assert (Z : forall l' y, rounded_sum l' y -> length l' = 0%nat -> y = 0).
    { clear. induction 1 as [|x|l1 l2 l x1 x2 S1 IH1 S2 IH2 P]; intros L; auto; [discriminate|].
      apply Permutation_length in P. rewrite app_length in P. rewrite IH1, IH2 by lia. rewrite Rplus_0_r. apply b64_0. }
    assert (T0 : forall l', length l' = 0%nat -> total l' = 0) by (intros [|? ?] ?; [reflexivity|discriminate]).
    pose proof (rounded_format _ _ S1 F1) as G1. pose proof (rounded_format _ _ S2 F2) as G2.
    destruct (Nat.eq_dec (length l1) 0) as [E1|E1]; [rewrite (Z _ _ S1 E1), (T0 _ E1), E1, !Rplus_0_l, Nat.add_0_l, (binary64_id _ G2); exact IH2|].
    destruct (Nat.eq_dec (length l2) 0) as [E2|E2]; [rewrite (Z _ _ S2 E2), (T0 _ E2), E2, !Rplus_0_r, Nat.add_0_r, (binary64_id _ G1); exact IH1|].
    assert (TP : forall l', Forall (fun y => 0 <= y) l' -> 0 <= total l') by (clear; induction 1; unfold total in *; cbn [fold_right]; lra).
    pose proof (TP _ B1) as T1. pose proof (TP _ B2) as T2. destruct (rounded_pos _ _ S1 F1 B1) as [X1 _]. destruct (rounded_pos _ _ S2 F2 B2) as [X2 _].
    destruct (plus_error x1 x2 G1 G2) as [_ E]. fold U in E. rewrite (Rabs_pos_eq (x1 + x2)) in E by lra. apply Rabs_le_inv in E.
    assert (Lo : forall a b, (1 <= b)%nat -> (1 - U) ^ (a + b) <= (1 - U) ^ a * (1 - U)).
    { intros a b Hb. replace (a + b)%nat with (a + 1 + (b - 1))%nat by lia. rewrite !pow_add, pow_1. assert (0 <= (1 - U) ^ a) by (apply pow_le; lra). assert ((1 - U) ^ (b - 1) <= 1) by (apply pow_small1; lra). assert (0 <= (1 - U) ^ a * (1 - U)) by (apply Rmult_le_pos; lra). nra. }
    assert (Hi : forall a b, (1 <= b)%nat -> (1 + U) ^ a * (1 + U) <= (1 + U) ^ (a + b)).
    { intros a b Hb. replace (a + b)%nat with (a + 1 + (b - 1))%nat by lia. rewrite !pow_add, pow_1. assert (0 <= (1 + U) ^ a) by (apply pow_le; lra). assert (1 <= (1 + U) ^ (b - 1)) by (apply pow_R1_Rle; lra). assert (0 <= (1 + U) ^ a * (1 + U)) by (apply Rmult_le_pos; lra). nra. }
    pose proof (Lo (length l1) (length l2) ltac:(lia)) as La. pose proof (Lo (length l2) (length l1) ltac:(lia)) as Lb. rewrite Nat.add_comm in Lb.
    pose proof (Hi (length l1) (length l2) ltac:(lia)) as Ha. pose proof (Hi (length l2) (length l1) ltac:(lia)) as Hb. rewrite Nat.add_comm in Hb.
    set (n := (length l1 + length l2)%nat) in *. destruct IH1 as [I1 J1]. destruct IH2 as [I2 J2].
    assert ((1 - U) ^ n * total l1 <= (1 - U) ^ length l1 * (1 - U) * total l1) by (apply Rmult_le_compat_r; lra). assert ((1 - U) ^ n * total l2 <= (1 - U) ^ length l2 * (1 - U) * total l2) by (apply Rmult_le_compat_r; lra).
    assert ((1 + U) ^ length l1 * (1 + U) * total l1 <= (1 + U) ^ n * total l1) by (apply Rmult_le_compat_r; lra). assert ((1 + U) ^ length l2 * (1 + U) * total l2 <= (1 + U) ^ n * total l2) by (apply Rmult_le_compat_r; lra).
    split; nra.
Qed.
Lemma pow_up n : INR n * U <= / 2 -> (1 + U) ^ n <= 1 + 2 * INR n * U.
Proof.
  pose proof U_small as [U0 U1]. induction n as [|n IH]; intros H; [cbn; lra|]. rewrite S_INR in *. pose proof (pos_INR n). assert (0 <= INR n * U) by (apply Rmult_le_pos; lra). specialize (IH ltac:(nra)). cbn [pow].
  assert ((1 + U) ^ n <= 1 + 2 * (INR n * U)) by lra. nra.
Qed.
Lemma pow_down n : 1 - INR n * U <= (1 - U) ^ n.
Proof.
  pose proof U_small as [U0 U1]. induction n as [|n IH]; [cbn; lra|]. rewrite S_INR. cbn [pow]. pose proof (pos_INR n). assert (0 <= (1 - U) ^ n <= 1) by (apply pow_small1; lra). nra.
Qed.
Lemma tiny_square : / 2 ^ 1074 * / 2 ^ 1074 * 8 <= U * / 2 ^ 1075.
Proof.
  unfold U. replace 8 with (/ (/ 8)) by field. replace (/ 8) with (/ 2 ^ 3) by (f_equal; lra). rewrite <- !inv_pow_add. assert (/ 2 ^ (1074 + 1074) <= / 2 ^ (53 + 1075) * / 2 ^ 3). { rewrite <- inv_pow_add. apply pow_small. lia. }
  pose proof (inv_pow_pos 3). apply Rmult_le_reg_r with (/ 2 ^ 3); [assumption|]. rewrite Rmult_assoc, Rinv_l by lra. lra.
Qed.
Section Lib.
Variables (L : library) (HL : accurate_library L).
Definition double_complex (z : C) : Prop := is_binary64 (fst z) /\ is_binary64 (snd z).
Lemma sub_mod a b : double_complex a -> double_complex b -> Rabs (Cmod (float_sub a b) - Cmod (Cminus a b)) <= U * Cmod (Cminus a b).
Proof.
  intros [A1 A2] [B1 B2]. pose proof U_small as [U0 U1]. set (d := Cminus a b).
  assert (E1 : Rabs (fst (float_sub a b) - fst d) <= U * Rabs (fst d)).
  { unfold float_sub, d, Cminus, Cplus, Copp. cbn [fst snd]. destruct (plus_error (fst a) (- fst b) A1 (opp_format _ B1)) as [_ E]. exact E. }
  assert (E2 : Rabs (snd (float_sub a b) - snd d) <= U * Rabs (snd d)).
  { unfold float_sub, d, Cminus, Cplus, Copp. cbn [fst snd]. destruct (plus_error (snd a) (- snd b) A2 (opp_format _ B2)) as [_ E]. exact E. }
  assert (D : Cmod (Cminus (float_sub a b) d) <= U * Cmod d).
  { apply Cmod_le; [apply Rmult_le_pos; [lra|apply Cmod_ge_0]|]. rewrite Rpow_mult_distr, Cmod2. apply pow_maj_Rabs with (n := 2%nat) in E1, E2. rewrite Rpow_mult_distr, pow2_abs in E1, E2. unfold Cminus, Cplus, Copp in *. cbn [fst snd] in *. unfold Rminus in *. lra. }
  apply Rabs_le. pose proof (Cmod_near _ _ _ D). assert (D' : Cmod (Cminus d (float_sub a b)) <= U * Cmod d). { replace (Cminus d (float_sub a b)) with (Copp (Cminus (float_sub a b) d)) by (unfold Cminus; ring). now rewrite Cmod_opp. }
  pose proof (Cmod_near _ _ _ D'). lra.
Qed.
Lemma square_near a b : double_complex a -> double_complex b -> let q := float_square L (float_sub a b) in
  is_binary64 q /\ 0 <= q /\ Rabs (q - Cmod (Cminus a b) ^ 2) <= 14 * U * Cmod (Cminus a b) ^ 2 + / 2 ^ 1074.
Proof.
  intros A B q. pose proof U_small as [U0 U1]. set (x := Cmod (Cminus a b)). assert (X : 0 <= x) by apply Cmod_ge_0. pose proof (sub_mod a b A B) as S. fold x in S.
  set (f := float_sub a b) in *. set (h := lib_hypot L (fst f) (snd f)). set (e := / 2 ^ 1074). assert (E0 : 0 < e) by apply inv_pow_pos.
  assert (Q : q = binary64 (h * h)) by reflexivity. split; [|split].
  - rewrite Q. apply generic_format_round; [apply FLT_exp_valid; unfold Prec_gt_0; lia|apply valid_rnd_N].
  - rewrite Q, <- b64_0. apply binary64_mono. apply Rle_0_sqr.
  - pose proof (acc_hypot L HL (fst f) (snd f)) as H. rewrite <- surjective_pairing, U_52 in H. fold h e in H. apply Rabs_le_inv in S. apply Rabs_le_inv in H.
    assert (UX : 0 <= U * x) by (apply Rmult_le_pos; lra). assert (UUX : U * (U * x) <= / 1000000 * (U * x)) by (apply Rmult_le_compat_r; lra).
    assert (D : Rabs (h - x) <= 4 * U * x + e) by (apply Rabs_le; nra). set (dl := 4 * U * x + e) in *.
    assert (D2 : Rabs (h * h - x ^ 2) <= dl * (2 * x + dl)).
    { replace (h * h - x ^ 2) with ((h - x) * (2 * x + (h - x))) by ring. rewrite Rabs_mult. apply Rmult_le_compat; auto using Rabs_pos. eapply Rle_trans; [apply Rabs_triang|]. rewrite (Rabs_pos_eq (2 * x)) by lra. lra. }
    assert (T8 : 8 * (e * e) <= U * / 2 ^ 1075) by (pose proof tiny_square; unfold e; lra). set (tt := / 2 ^ 1075) in *. assert (T0 : 0 < tt) by apply inv_pow_pos.
    assert (EE : e = 2 * tt). { unfold e, tt. change 1075%nat with (1074 + 1)%nat. rewrite inv_pow_add. replace (/ 2 ^ 1) with (/ 2) by (f_equal; lra). lra. }
    (* 4 x e <= U x^2 + 4 e^2 / U *)
    assert (CR : 3 * (x * e) <= U * x ^ 2 + 3 * (e * e) / U).
    { apply Rmult_le_reg_l with U; [lra|]. replace (U * (U * x ^ 2 + 3 * (e * e) / U)) with ((U * x) ^ 2 + 3 * (e * e)) by (field; lra). pose proof (pow2_ge_0 (U * x - 3 / 2 * e)). assert (0 <= e * e) by (apply Rmult_le_pos; lra). lra. }
    assert (EU : 8 * (e * e) / U <= tt). { apply Rmult_le_reg_r with U; [lra|]. unfold Rdiv. rewrite Rmult_assoc, Rinv_l by lra. lra. }
    assert (EE2 : e * e <= (e * e) / U). { unfold Rdiv. assert (1 <= / U). { rewrite <- Rinv_1. apply Rinv_le_contravar; lra. } assert (0 <= e * e) by nra. nra. }
    assert (X2 : 0 <= x ^ 2) by apply pow2_ge_0. assert (UX2 : 0 <= U * x ^ 2) by (apply Rmult_le_pos; lra).
    assert (D3 : dl * (2 * x + dl) <= 10 * U * x ^ 2 + tt / 2).
    { unfold dl. replace ((4 * U * x + e) * (2 * x + (4 * U * x + e))) with (8 * (U * x ^ 2) + 16 * U * (U * x ^ 2) + (2 + 8 * U) * (x * e) + e * e) by ring.
      assert (0 <= x * e) by (apply Rmult_le_pos; lra). assert (8 * U * (x * e) <= x * e) by nra. assert (16 * U * (U * x ^ 2) <= U * x ^ 2) by nra. unfold Rdiv in *. lra. }
    pose proof (b64_near (h * h)) as N. fold tt in N. rewrite Q. replace (binary64 (h * h) - x ^ 2) with ((binary64 (h * h) - h * h) + (h * h - x ^ 2)) by ring. eapply Rle_trans; [apply Rabs_triang|].
    assert (HH : Rabs (h * h) <= 2 * x ^ 2 + tt). { replace (h * h) with (x ^ 2 + (h * h - x ^ 2)) by ring. eapply Rle_trans; [apply Rabs_triang|]. rewrite (Rabs_pos_eq (x ^ 2)) by lra. nra. }
    assert (U * Rabs (h * h) <= U * (2 * x ^ 2 + tt)) by (apply Rmult_le_compat_l; lra). assert (U * tt <= / 1000000 * tt) by (apply Rmult_le_compat_r; lra). lra.
Qed.
(* the sum over the coordinates *)
Lemma squares_near : forall r p, length r = length p -> Forall double_complex r -> Forall double_complex p ->
  let l := map2 (fun a b => float_square L (float_sub a b)) r p in
  length l = length p /\ Forall is_binary64 l /\ Forall (fun y => 0 <= y) l /\ Rabs (total l - dist2 r p) <= 14 * U * dist2 r p + INR (length p) * / 2 ^ 1074.
Proof.
  induction r as [|a r IH]; intros [|b p] H Fr Fp; cbn [length] in H; try lia; cbn [map2].
  - cbn. split; [reflexivity|]. split; [constructor|]. split; [constructor|]. rewrite Rminus_0_r, Rabs_R0. lra.
  - inversion Fr; subst. inversion Fp; subst. destruct (IH p ltac:(lia) H3 H5) as (A1 & A2 & A3 & A4). destruct (square_near a b H2 H4) as (B1 & B2 & B3).
    cbv zeta. cbn [length]. split; [cbn; lia|]. split; [constructor; assumption|]. split; [constructor; assumption|]. unfold total in *. cbn [fold_right dist2]. rewrite S_INR. fold (total (map2 (fun a b => float_square L (float_sub a b)) r p)) in *.
    match goal with |- Rabs (?x + ?y - (?u + ?v)) <= _ => replace (x + y - (u + v)) with ((x - u) + (y - v)) by ring end. eapply Rle_trans; [apply Rabs_triang|]. lra.
Qed.
Variables (npsum : list R -> R) (HS : any_order npsum).
Lemma distance_near r p : length r = length p -> Forall double_complex r -> Forall double_complex p -> INR (length p) <= 2 ^ 48 ->
  Rabs (npsum (map2 (fun a b => float_square L (float_sub a b)) r p) - dist2 r p) <= (INR (length p) + 5) / 2 ^ 51 * dist2 r p + INR (length p) / 2 ^ 1073.
Proof.
  intros H Fr Fp HN. pose proof U_small as [U0 U1]. destruct (squares_near r p H Fr Fp) as (A1 & A2 & A3 & A4). set (l := map2 _ r p) in *.
  pose proof (rounded_relative l _ (HS l) A2 A3) as [B1 B2]. rewrite A1 in B1, B2. set (n := INR (length p)) in *. assert (N0 : 0 <= n) by apply pos_INR.
  assert (NU : n * U <= / 32). { apply Rle_trans with (2 ^ 48 * U); [apply Rmult_le_compat_r; lra|]. rewrite U_val. lra. }
  pose proof (pow_up (length p) ltac:(fold n; lra)) as P1. pose proof (pow_down (length p)) as P2. fold n in P1, P2. set (D := dist2 r p) in *. assert (D0 : 0 <= D) by apply dist2_nonneg.
  set (e := / 2 ^ 1074) in *. assert (E0 : 0 < e) by apply inv_pow_pos. assert (E73 : n / 2 ^ 1073 = 2 * (n * e)). { unfold e, Rdiv. change 1074%nat with (1073 + 1)%nat. rewrite inv_pow_add. replace (/ 2 ^ 1) with (/ 2) by (f_equal; lra). lra. }
  assert (E51 : (n + 5) / 2 ^ 51 = 4 * U * (n + 5)) by (unfold Rdiv; rewrite U_51; ring). rewrite E73, E51.
  assert (TP : 0 <= total l) by (clear - A3; induction A3; unfold total in *; cbn [fold_right]; lra). set (T := total l) in *.
  assert (NE : 0 <= n * e) by (apply Rmult_le_pos; lra). assert (UD : 0 <= U * D) by (apply Rmult_le_pos; lra). assert (NUD : 0 <= n * U * D) by (apply Rmult_le_pos; [apply Rmult_le_pos; lra|lra]).
  apply Rabs_le_inv in A4. assert (TU : T <= D + 14 * U * D + n * e) by lra.
  assert (X : Rabs (npsum l - T) <= 2 * (n * U) * T).
  { apply Rabs_le. assert ((1 + U) ^ length p * T <= (1 + 2 * n * U) * T) by (apply Rmult_le_compat_r; lra). assert ((1 - n * U) * T <= (1 - U) ^ length p * T) by (apply Rmult_le_compat_r; lra). assert (0 <= n * U * T) by (apply Rmult_le_pos; [apply Rmult_le_pos; lra|lra]). lra. }
  assert (Y : 2 * (n * U) * T <= 2 * (n * U) * (D + 14 * U * D + n * e)) by (apply Rmult_le_compat_l; [apply Rmult_le_pos; [lra|apply Rmult_le_pos; lra]|lra]).
  assert (Z1 : 2 * (n * U) * (14 * U * D) <= U * D) by (replace (2 * (n * U) * (14 * U * D)) with ((28 * (n * U)) * (U * D)) by ring; nra).
  assert (Z2 : 2 * (n * U) * (n * e) <= n * e) by nra.
  replace (npsum l - D) with ((npsum l - T) + (T - D)) by ring. eapply Rle_trans; [apply Rabs_triang|]. assert (Rabs (T - D) <= 14 * U * D + n * e) by (apply Rabs_le; lra). lra.
Qed.
Lemma leR_total x y : leR x y = true \/ leR y x = true.
Proof. rewrite !leR_iff. lra. Qed.
Lemma leR_trans x y z : leR x y = true -> leR y z = true -> leR x z = true.
Proof. rewrite !leR_iff. lra. Qed.
Lemma search_near m r : m <> [] -> Forall double_complex r -> Forall (fun p => length p = length r /\ Forall double_complex p) m -> INR (length r) <= 2 ^ 48 ->
  let k := float_base_closest L npsum m r in
  (k < length m)%nat /\ forall j, (j < length m)%nat ->
  dist2 r (nth k m []) <= dist2 r (nth j m []) + (INR (length r) + 5) / 2 ^ 51 * (dist2 r (nth k m []) + dist2 r (nth j m [])) + INR (length r) / 2 ^ 1072.
Proof.
  intros NE Fr Fm HN k. destruct (argmin_by_spec leR leR_total leR_trans (float_distances L npsum m r) 0) as (I1 & I2 & _).
  { unfold float_distances. destruct m; [congruence|discriminate]. }
  fold (float_base_closest L npsum m r) in I1, I2. fold k in I1, I2. unfold float_distances in I1, I2. rewrite map_length in I1, I2. split; [exact I1|]. intros j Hj. specialize (I2 j Hj). apply leR_iff in I2.
  assert (N : forall i, (i < length m)%nat -> nth i (map (fun p => npsum (map2 (fun a b => float_square L (float_sub a b)) r p)) m) 0 = npsum (map2 (fun a b => float_square L (float_sub a b)) r (nth i m []))).
  { intros i Hi. rewrite nth_indep with (d' := npsum (map2 (fun a b => float_square L (float_sub a b)) r [])) by (rewrite map_length; exact Hi). apply (map_nth (fun p => npsum (map2 (fun a b => float_square L (float_sub a b)) r p))). }
  rewrite !N in I2 by assumption. rewrite Forall_forall in Fm.
  assert (G : forall i, (i < length m)%nat -> Rabs (npsum (map2 (fun a b => float_square L (float_sub a b)) r (nth i m [])) - dist2 r (nth i m [])) <= (INR (length r) + 5) / 2 ^ 51 * dist2 r (nth i m []) + INR (length r) / 2 ^ 1073).
  { intros i Hi. destruct (Fm (nth i m []) (nth_In _ _ Hi)) as [Ln Fp]. rewrite <- Ln. apply distance_near; auto; rewrite ?Ln; auto. }
  pose proof (G k I1) as Gk. pose proof (G j Hj) as Gj. apply Rabs_le_inv in Gk, Gj.
  assert (E : INR (length r) / 2 ^ 1072 = 2 * (INR (length r) / 2 ^ 1073)). { unfold Rdiv. change 1073%nat with (1072 + 1)%nat. rewrite inv_pow_add. replace (/ 2 ^ 1) with (/ 2) by (f_equal; lra). lra. }
  rewrite E, Rmult_plus_distr_l. lra.
Qed.
End Lib.
Lemma dist2_weighted s p : 0 < s < 1 -> forall q r, length q = length p -> length r = length p -> dist2 p q <= dist2 r p / s + dist2 r q / (1 - s).
Proof.
  intros Hs. induction p as [|a p IH]; intros [|b q] [|c r] H1 H2; cbn [length] in *; try lia; cbn [dist2]; [unfold Rdiv; lra|]. specialize (IH q r ltac:(lia) ltac:(lia)). rewrite !Cmod2. unfold Cminus, Cplus, Copp. cbn [fst snd].
  assert (P : forall x y z : R, (x + - y) ^ 2 <= (z + - x) ^ 2 / s + (z + - y) ^ 2 / (1 - s)).
  { intros x y z. apply Rmult_le_reg_r with (s * (1 - s)); [apply Rmult_lt_0_compat; lra|]. replace (((z + - x) ^ 2 / s + (z + - y) ^ 2 / (1 - s)) * (s * (1 - s))) with ((z + - x) ^ 2 * (1 - s) + (z + - y) ^ 2 * s) by (field; lra).
    pose proof (pow2_ge_0 ((1 - s) * (z + - x) + s * (z + - y))). nra. }
  pose proof (P (fst a) (fst b) (fst c)). pose proof (P (snd a) (snd b) (snd c)). unfold Rdiv in *. lra.
Qed.
