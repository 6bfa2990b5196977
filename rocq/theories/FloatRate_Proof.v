(** Error bounds for rounded dot products and products in any order. *)
Set Warnings "-ambiguous-paths".
From Coq Require Import Reals Lra Permutation.
From Flocq Require Import Core.
From Coquelicot Require Import Complex.
From Verif Require Import Common Float_Model FloatFano_Proof FloatViterbi_Spec FloatViterbi_Proof FloatShannon_Proof FloatConst_Proof FloatSoft_Model FloatSoft_Proof FloatPhase_Proof FloatPhase_Search Info_Model FloatRate_Model FloatRate_Spec.
Local Open Scope R_scope.

Definition eta : R := / 2 ^ 1075.
Lemma eta_pos : 0 < eta.
Proof. apply inv_pow_pos. Qed.
Lemma b64_format x : is_binary64 (binary64 x).
Proof. apply generic_format_round; [apply FLT_exp_valid; unfold Prec_gt_0; lia|apply valid_rnd_N]. Qed.
Lemma b64_pos x : 0 <= x -> (1 - U) * x - eta <= binary64 x <= (1 + U) * x + eta.
Proof. intros H. pose proof (b64_near x) as B. rewrite (Rabs_pos_eq x H) in B. fold eta in B. apply Rabs_le_inv in B. lra. Qed.
Lemma b64_nonneg x : 0 <= x -> 0 <= binary64 x.
Proof. intros H. rewrite <- b64_0. now apply binary64_mono. Qed.
Definition pairs (l : list (R * R)) : R := total (map (fun ab => fst ab * snd ab) l).
Lemma pairs_app a b : pairs (a ++ b) = pairs a + pairs b.
Proof. unfold pairs. now rewrite map_app, total_app. Qed.
Lemma pairs_perm a b : Permutation a b -> pairs a = pairs b.
Proof. intros P. apply total_perm, Permutation_map, P. Qed.
Lemma total_nonneg l : Forall (fun y => 0 <= y) l -> 0 <= total l.
Proof. unfold total. induction 1; cbn [fold_right]; lra. Qed.
Lemma pairs_nonneg l : Forall (fun ab => 0 <= fst ab * snd ab) l -> 0 <= pairs l.
Proof. intros F. apply total_nonneg. apply Forall_map. exact F. Qed.
Lemma pow_ge1 n : 1 <= (1 + U) ^ n.
Proof. pose proof U_small as [U0 U1]. apply pow_R1_Rle. lra. Qed.
Lemma pow_le1 n : 0 <= (1 - U) ^ n <= 1.
Proof. pose proof U_small as [U0 U1]. apply pow_small1. lra. Qed.
Lemma dot_format l x : rounded_dot l x -> is_binary64 x.
Proof. intros H. destruct H; try apply b64_format. apply generic_format_0. Qed.
(* relative error (1 + U)^n and one smallest double per product *)
Lemma dot_bounds l x : rounded_dot l x -> Forall (fun ab => 0 <= fst ab * snd ab) l ->
  0 <= x /\ (1 - U) ^ length l * pairs l - INR (length l) * eta <= x <= (1 + U) ^ length l * (pairs l + INR (length l) * eta).
Proof.
  pose proof U_small as [U0 U1]. pose proof eta_pos as E0. induction 1 as [|a b|a b l l' x S IH P|l1 l2 l x1 x2 S1 IH1 S2 IH2 P]; intros F.
  - unfold pairs, total. cbn. lra.
  - pose proof (Forall_inv F) as Q. cbn [fst snd] in Q. split; [now apply b64_nonneg|]. pose proof (b64_pos (a * b) Q). unfold pairs, total. cbn. rewrite !Rmult_1_r, !Rplus_0_r. assert (0 <= U * eta) by (apply Rmult_le_pos; lra). lra.
  - pose proof (Permutation_Forall (Permutation_sym P) F) as F'. pose proof (Forall_inv F') as Q. pose proof (Forall_inv_tail F') as F2. cbn [fst snd] in Q. destruct (IH F2) as (X0 & X1 & X2).
    rewrite <- (pairs_perm _ _ P), <- (Permutation_length P). cbn [length]. rewrite S_INR. replace (pairs ((a, b) :: l)) with (a * b + pairs l) by reflexivity. set (n := length l) in *. cbn [pow].
    pose proof (pow_ge1 n) as G1. pose proof (pow_le1 n) as G2. pose proof (pairs_nonneg l F2) as T0. set (T := pairs l) in *. pose proof (pos_INR n) as N0.
    pose proof (b64_pos (x + a * b) ltac:(lra)) as [B1 B2]. split; [apply b64_nonneg; lra|]. split.
    + eapply Rle_trans; [|exact B1]. assert ((1 - U) * ((1 - U) ^ n * T - INR n * eta) <= (1 - U) * x) by (apply Rmult_le_compat_l; lra).
      assert ((1 - U) * ((1 - U) ^ n * (a * b)) <= (1 - U) * (1 * (a * b))) by (apply Rmult_le_compat_l; [lra|apply Rmult_le_compat_r; lra]). assert (0 <= INR n * eta) by (apply Rmult_le_pos; lra). assert (0 <= U * (INR n * eta)) by (apply Rmult_le_pos; lra). lra.
    + eapply Rle_trans; [exact B2|]. assert ((1 + U) * x <= (1 + U) * ((1 + U) ^ n * (T + INR n * eta))) by (apply Rmult_le_compat_l; lra).
      assert (E : 1 <= (1 + U) * (1 + U) ^ n) by nra. assert (1 * eta <= (1 + U) * (1 + U) ^ n * eta) by (apply Rmult_le_compat_r; lra). assert ((1 + U) * (1 * (a * b)) <= (1 + U) * ((1 + U) ^ n * (a * b))) by (apply Rmult_le_compat_l; [lra|apply Rmult_le_compat_r; lra]). lra.
  - pose proof (Permutation_Forall (Permutation_sym P) F) as F'. apply Forall_app in F' as [F1 F2]. destruct (IH1 F1) as (X0 & X1 & X2). destruct (IH2 F2) as (Y0 & Y1 & Y2).
    rewrite <- (pairs_perm _ _ P), pairs_app, <- (Permutation_length P), app_length, plus_INR, !pow_add. pose proof (pairs_nonneg l1 F1) as T1. pose proof (pairs_nonneg l2 F2) as T2.
    assert (Z : forall l' y, rounded_dot l' y -> length l' = 0%nat -> y = 0 /\ pairs l' = 0).
    { clear. intros l' y H. induction H as [|a b|a b l l' x S IH P|l1 l2 l x1 x2 S1 IH1 S2 IH2 P]; intros L; [split; reflexivity|discriminate| |].
      - rewrite <- (Permutation_length P) in L. discriminate.
      - rewrite <- (Permutation_length P), app_length in L. destruct (IH1 ltac:(lia)) as [-> E1]. destruct (IH2 ltac:(lia)) as [-> E2]. rewrite <- (pairs_perm _ _ P), pairs_app, E1, E2, Rplus_0_r. split; [apply b64_0|reflexivity]. }
    destruct (Nat.eq_dec (length l1) 0) as [L1|L1].
    { destruct (Z _ _ S1 L1) as [-> Q1]. rewrite Q1, L1. cbn [pow INR]. rewrite ?Rplus_0_l, ?Rmult_1_l. rewrite binary64_id by (eapply dot_format; eauto). lra. }
    destruct (Nat.eq_dec (length l2) 0) as [L2|L2].
    { destruct (Z _ _ S2 L2) as [-> Q2]. rewrite Q2, L2. cbn [pow INR]. rewrite ?Rplus_0_r, ?Rmult_1_r. rewrite binary64_id by (eapply dot_format; eauto). lra. }
    destruct (plus_error x1 x2 (dot_format _ _ S1) (dot_format _ _ S2)) as [_ E]. fold U in E. rewrite Rabs_pos_eq with (x := x1 + x2) in E by lra. apply Rabs_le_inv in E.
    set (n := length l1) in *. set (m := length l2) in *. pose proof (pow_ge1 n) as G1. pose proof (pow_le1 n) as G2. pose proof (pow_ge1 m) as H1. pose proof (pow_le1 m) as H2. pose proof (pos_INR n) as N0. pose proof (pos_INR m) as M0.
    assert (Nn : 0 <= INR n * eta) by (apply Rmult_le_pos; lra). assert (Nm : 0 <= INR m * eta) by (apply Rmult_le_pos; lra).
    assert (Pn : (1 - U) ^ n <= 1 - U). { destruct n as [|n']; [lia|]. cbn [pow]. pose proof (pow_le1 n'). nra. }
    assert (Pm : (1 - U) ^ m <= 1 - U). { destruct m as [|m']; [lia|]. cbn [pow]. pose proof (pow_le1 m'). nra. }
    assert (Qn : 1 + U <= (1 + U) ^ n). { destruct n as [|n']; [lia|]. cbn [pow]. pose proof (pow_ge1 n'). nra. }
    assert (Qm : 1 + U <= (1 + U) ^ m). { destruct m as [|m']; [lia|]. cbn [pow]. pose proof (pow_ge1 m'). nra. }
    split; [apply b64_nonneg; lra|]. split.
    + apply Rle_trans with ((1 - U) * (x1 + x2)); [|lra].
      assert ((1 - U) ^ n * (1 - U) ^ m * pairs l1 <= (1 - U) * ((1 - U) ^ n * pairs l1)). { replace ((1 - U) ^ n * (1 - U) ^ m * pairs l1) with ((1 - U) ^ m * ((1 - U) ^ n * pairs l1)) by ring. apply Rmult_le_compat_r; [apply Rmult_le_pos; lra|lra]. }
      assert ((1 - U) ^ n * (1 - U) ^ m * pairs l2 <= (1 - U) * ((1 - U) ^ m * pairs l2)). { replace ((1 - U) ^ n * (1 - U) ^ m * pairs l2) with ((1 - U) ^ n * ((1 - U) ^ m * pairs l2)) by ring. apply Rmult_le_compat_r; [apply Rmult_le_pos; lra|lra]. }
      assert ((1 - U) * ((1 - U) ^ n * pairs l1 - INR n * eta) <= (1 - U) * x1) by (apply Rmult_le_compat_l; lra). assert ((1 - U) * ((1 - U) ^ m * pairs l2 - INR m * eta) <= (1 - U) * x2) by (apply Rmult_le_compat_l; lra).
      assert (0 <= U * (INR n * eta)) by (apply Rmult_le_pos; lra). assert (0 <= U * (INR m * eta)) by (apply Rmult_le_pos; lra). lra.
    + apply Rle_trans with ((1 + U) * (x1 + x2)); [lra|].
      assert ((1 + U) * ((1 + U) ^ n * (pairs l1 + INR n * eta)) <= (1 + U) ^ n * (1 + U) ^ m * (pairs l1 + INR n * eta)). { replace ((1 + U) ^ n * (1 + U) ^ m * (pairs l1 + INR n * eta)) with ((1 + U) ^ m * ((1 + U) ^ n * (pairs l1 + INR n * eta))) by ring. apply Rmult_le_compat_r; [apply Rmult_le_pos; lra|lra]. }
      assert ((1 + U) * ((1 + U) ^ m * (pairs l2 + INR m * eta)) <= (1 + U) ^ n * (1 + U) ^ m * (pairs l2 + INR m * eta)). { replace ((1 + U) ^ n * (1 + U) ^ m * (pairs l2 + INR m * eta)) with ((1 + U) ^ n * ((1 + U) ^ m * (pairs l2 + INR m * eta))) by ring. apply Rmult_le_compat_r; [apply Rmult_le_pos; lra|lra]. }
      assert ((1 + U) * x1 <= (1 + U) * ((1 + U) ^ n * (pairs l1 + INR n * eta))) by (apply Rmult_le_compat_l; lra). assert ((1 + U) * x2 <= (1 + U) * ((1 + U) ^ m * (pairs l2 + INR m * eta))) by (apply Rmult_le_compat_l; lra). lra.
Qed.
Lemma dot_near l x : rounded_dot l x -> Forall (fun ab => 0 <= fst ab * snd ab) l -> INR (length l) <= 2 ^ 48 ->
  0 <= x /\ Rabs (x - pairs l) <= 2 * INR (length l) * U * pairs l + 2 * INR (length l) * eta.
Proof.
  intros H F HN. pose proof U_small as [U0 U1]. pose proof eta_pos as E0. destruct (dot_bounds l x H F) as (X0 & X1 & X2). split; [exact X0|]. pose proof (pairs_nonneg l F) as T0. set (n := INR (length l)) in *. assert (N0 : 0 <= n) by apply pos_INR.
  assert (NU : n * U <= / 32). { apply Rle_trans with (2 ^ 48 * U); [apply Rmult_le_compat_r; lra|]. rewrite U_val. lra. }
  pose proof (pow_up (length l) ltac:(fold n; lra)) as P1. pose proof (pow_down (length l)) as P2. fold n in P1, P2. set (T := pairs l) in *.
  assert ((1 + U) ^ length l * (T + n * eta) <= (1 + 2 * n * U) * (T + n * eta)) by (apply Rmult_le_compat_r; [assert (0 <= n * eta) by (apply Rmult_le_pos; lra); lra|lra]).
  assert ((1 - n * U) * T <= (1 - U) ^ length l * T) by (apply Rmult_le_compat_r; lra). assert (NE : 0 <= n * eta) by (apply Rmult_le_pos; lra). assert (2 * (n * U) * (n * eta) <= n * eta) by nra. assert (0 <= n * U * T) by (apply Rmult_le_pos; [apply Rmult_le_pos; lra|lra]).
  apply Rabs_le. lra.
Qed.
(* exact if every partial sum is a multiple of 2^e below 2^53 units *)
Lemma dot_exact e l x : (-1074 <= e)%Z -> rounded_dot l x -> forall ks, map (fun ab => fst ab * snd ab) l = map (fun k => IZR k * bpow radix2 e) ks -> (zabs_sum ks < 2 ^ 53)%Z ->
  exists k, x = IZR k * bpow radix2 e /\ x = pairs l /\ (Z.abs k <= zabs_sum ks)%Z.
Proof.
  intros He. assert (N : forall a, (0 <= zabs_sum a)%Z) by (unfold zabs_sum; induction a; cbn [fold_right]; lia).
  induction 1 as [|a b|a b l l' x S IH P|l1 l2 l x1 x2 S1 IH1 S2 IH2 P]; intros ks E B.
  - exists 0%Z. destruct ks; [|discriminate]. cbn. split; [lra|]. split; [reflexivity|lia].
  - destruct ks as [|k [|? ?]]; try discriminate. exists k. cbn [map fst snd] in E. injection E as E. rewrite E. cbn [zabs_sum fold_right] in *. rewrite binary64_id by (apply fixed_format; lia). split; [reflexivity|]. split; [unfold pairs, total; cbn; lra|lia].
  - pose proof (Permutation_map (fun ab : R * R => fst ab * snd ab) P) as P'. rewrite E in P'. apply Permutation_map_inv in P' as (ks' & E' & P'). rewrite (zabs_perm _ _ P') in B. rewrite (zabs_perm _ _ P'). destruct ks' as [|k ks']; [discriminate|]. cbn [map fst snd] in E'. injection E' as E1 E2.
    change (zabs_sum (k :: ks')) with (Z.abs k + zabs_sum ks')%Z in *. destruct (IH ks' ltac:(congruence) ltac:(pose proof (N ks'); lia)) as (j & A1 & A2 & A3).
    exists (j + k)%Z. assert (X : x + a * b = IZR (j + k) * bpow radix2 e) by (rewrite plus_IZR, A1; lra). rewrite X, binary64_id by (apply fixed_format; lia). split; [reflexivity|]. split; [|lia].
    rewrite <- X, A2, <- (pairs_perm _ _ P). unfold pairs, total. cbn [map fold_right fst snd]. lra.
  - pose proof (Permutation_map (fun ab : R * R => fst ab * snd ab) P) as P'. rewrite E, map_app in P'. apply Permutation_map_inv in P' as (ks' & E' & P'). symmetry in E'. apply map_eq_app in E' as (k1 & k2 & -> & E1 & E2).
    rewrite (zabs_perm _ _ P'), zabs_app in B. rewrite (zabs_perm _ _ P'), zabs_app. pose proof (N k1). pose proof (N k2).
    destruct (IH1 k1 (eq_sym E1) ltac:(lia)) as (a & A1 & A2 & A3). destruct (IH2 k2 (eq_sym E2) ltac:(lia)) as (b & B1 & B2 & B3).
    exists (a + b)%Z. assert (X : x1 + x2 = IZR (a + b) * bpow radix2 e) by (rewrite plus_IZR, A1, B1; lra).
    rewrite X, binary64_id by (apply fixed_format; lia). split; [reflexivity|]. split; [|lia]. rewrite <- X, A2, B2, <- pairs_app. apply pairs_perm, P.
Qed.

(* ================= products of probabilities *)
Lemma product_app a b : product (a ++ b) = product a * product b.
Proof. unfold product. induction a as [|x a IH]; cbn [app fold_right]; [lra|rewrite IH; ring]. Qed.
Lemma product_perm a b : Permutation a b -> product a = product b.
Proof. unfold product. induction 1; cbn [fold_right]; try lra; rewrite IHPermutation; lra. Qed.
Lemma product_unit l : Forall (fun p => 0 <= p <= 1) l -> 0 <= product l <= 1.
Proof. unfold product. induction 1; cbn [fold_right]; nra. Qed.
Lemma product_bounds l x : rounded_product l x -> Forall (fun p => 0 <= p <= 1) l -> Forall is_binary64 l -> l <> [] -> let n := (length l - 1)%nat in
  is_binary64 x /\ 0 <= x <= 1 /\ (1 - U) ^ n * product l - INR n * eta <= x <= (1 + U) ^ n * (product l + INR n * eta).
Proof.
  pose proof U_small as [U0 U1]. pose proof eta_pos as E0. assert (B1' : binary64 1 = 1) by exact (binary64_pow 0).
  assert (Z : forall l' y, rounded_product l' y -> l' = [] -> y = 1).
  { clear - B1'. intros l' y H. induction H as [|x|l1 l2 l x1 x2 S1 IH1 S2 IH2 P]; intros L; [reflexivity|discriminate|]. subst. apply Permutation_sym, Permutation_nil in P. apply app_eq_nil in P as [-> ->]. rewrite IH1, IH2 by reflexivity. rewrite Rmult_1_r. exact B1'. }
  induction 1 as [|x|l1 l2 l x1 x2 S1 IH1 S2 IH2 P]; intros F D NE; [congruence| |].
  - pose proof (Forall_inv F) as Q. split; [exact (Forall_inv D)|]. split; [exact Q|]. unfold product. cbn. lra.
  - pose proof (Permutation_Forall (Permutation_sym P) F) as F'. apply Forall_app in F' as [F1 F2]. pose proof (Permutation_Forall (Permutation_sym P) D) as D'. apply Forall_app in D' as [D1 D2].
    rewrite <- (product_perm _ _ P), product_app, <- (Permutation_length P), app_length. pose proof (product_unit l1 F1) as T1. pose proof (product_unit l2 F2) as T2.
    assert (C1 : l1 = [] \/ l1 <> []) by (destruct l1; [left; reflexivity|right; discriminate]). assert (C2 : l2 = [] \/ l2 <> []) by (destruct l2; [left; reflexivity|right; discriminate]).
    destruct C1 as [L1|L1].
    { rewrite (Z _ _ S1 L1). rewrite L1 in *. destruct C2 as [L2|L2]; [rewrite L2 in P; apply Permutation_nil in P; congruence|]. destruct (IH2 F2 D2 L2) as (X & Y & W). rewrite Rmult_1_l, binary64_id by exact X. cbn [length Nat.add]. unfold product at 1 3. cbn [fold_right]. rewrite Rmult_1_l. auto. }
    destruct C2 as [L2|L2].
    { rewrite (Z _ _ S2 L2). rewrite L2 in *. destruct (IH1 F1 D1 L1) as (X & Y & W). rewrite Rmult_1_r, binary64_id by exact X. cbn [length]. rewrite Nat.add_0_r. unfold product at 2 4. cbn [fold_right]. rewrite Rmult_1_r. auto. }
    destruct (IH1 F1 D1 L1) as (_ & X0 & X1 & X2). destruct (IH2 F2 D2 L2) as (_ & Y0 & Y1 & Y2). assert (length l1 <> 0)%nat by (destruct l1; [congruence|discriminate]). assert (length l2 <> 0)%nat by (destruct l2; [congruence|discriminate]).
    replace (length l1 + length l2 - 1)%nat with (S ((length l1 - 1) + (length l2 - 1)))%nat by lia. set (n := (length l1 - 1)%nat) in *. set (m := (length l2 - 1)%nat) in *. cbv zeta. rewrite S_INR, plus_INR. cbn [pow]. rewrite !pow_add.
    pose proof (pow_ge1 n) as G1. pose proof (pow_le1 n) as G2. pose proof (pow_ge1 m) as H1. pose proof (pow_le1 m) as H2. pose proof (pos_INR n) as N0. pose proof (pos_INR m) as M0.
    set (A := (1 - U) ^ n) in *. set (B := (1 - U) ^ m) in *. set (A' := (1 + U) ^ n) in *. set (B' := (1 + U) ^ m) in *. set (p := product l1) in *. set (q := product l2) in *. set (s := INR n * eta) in *. set (t := INR m * eta) in *.
    assert (Hs : 0 <= s) by (apply Rmult_le_pos; lra). assert (Ht : 0 <= t) by (apply Rmult_le_pos; lra).
    assert (X12 : 0 <= x1 * x2 <= 1) by (split; [apply Rmult_le_pos; lra|apply Rle_trans with (1 * 1); [apply Rmult_le_compat; lra|lra]]). pose proof (b64_pos (x1 * x2) ltac:(lra)) as [L1' L2']. split; [apply b64_format|]. split; [split; [apply b64_nonneg; lra|rewrite <- B1'; apply binary64_mono; lra]|]. split.
    + assert (Bq : 0 <= B * q <= 1) by (split; [apply Rmult_le_pos; lra|apply Rle_trans with (1 * 1); [apply Rmult_le_compat; lra|lra]]). assert (Y : A * p * (B * q) - s - t <= x1 * x2).
      { destruct (Rle_dec (A * p - s) 0) as [Q|Q]; [assert (A * p * (B * q) <= s * 1) by (apply Rmult_le_compat; [apply Rmult_le_pos; lra|lra|lra|lra]); lra|].
        assert ((A * p - s) * x2 <= x1 * x2) by (apply Rmult_le_compat_r; lra). assert ((A * p - s) * (B * q - t) <= (A * p - s) * x2) by (apply Rmult_le_compat_l; lra). assert (AP : A * p <= 1) by (apply Rle_trans with (1 * 1); [apply Rmult_le_compat; lra|lra]). assert (A * p * t <= 1 * t) by (apply Rmult_le_compat_r; lra). assert (s * (B * q) <= s * 1) by (apply Rmult_le_compat_l; lra). assert (0 <= s * t) by (apply Rmult_le_pos; lra). lra. }
      assert ((1 - U) * (A * p * (B * q) - s - t) <= (1 - U) * (x1 * x2)) by (apply Rmult_le_compat_l; lra). replace ((INR n + INR m + 1) * eta) with (s + t + eta) by (unfold s, t; ring). assert (0 <= U * (s + t)) by (apply Rmult_le_pos; lra). lra.
    + assert (Y : x1 * x2 <= A' * B' * (p * q + s + t)).
      { apply Rle_trans with (A' * (p + s) * x2); [apply Rmult_le_compat_r; lra|]. assert (A' * p * x2 <= A' * p * (B' * (q + t))) by (apply Rmult_le_compat_l; [apply Rmult_le_pos; lra|lra]). assert (A' * s * x2 <= A' * s * 1) by (apply Rmult_le_compat_l; [apply Rmult_le_pos; lra|lra]).
        assert (A' * s * 1 <= A' * s * B') by (apply Rmult_le_compat_l; [apply Rmult_le_pos; lra|lra]). assert (A' * B' * (p * t) <= A' * B' * (1 * t)) by (apply Rmult_le_compat_l; [apply Rmult_le_pos; lra|apply Rmult_le_compat_r; lra]). lra. }
      replace ((INR n + INR m + 1) * eta) with (s + t + eta) by (unfold s, t; ring). assert ((1 + U) * (x1 * x2) <= (1 + U) * (A' * B' * (p * q + s + t))) by (apply Rmult_le_compat_l; lra). assert (AB : 1 <= A' * B') by (apply Rle_trans with (1 * 1); [lra|apply Rmult_le_compat; lra]). assert (E : 1 <= (1 + U) * (A' * B')) by (apply Rle_trans with (1 * 1); [lra|apply Rmult_le_compat; lra]). assert (1 * eta <= (1 + U) * (A' * B') * eta) by (apply Rmult_le_compat_r; lra). lra.
Qed.
Lemma product_near l x : rounded_product l x -> Forall (fun p => 0 <= p <= 1) l -> Forall is_binary64 l -> l <> [] -> INR (length l) <= 2 ^ 48 ->
  0 <= x <= 1 /\ Rabs (x - product l) <= 2 * INR (length l) * U * product l + 2 * INR (length l) * eta.
Proof.
  intros H F D NE HN. pose proof U_small as [U0 U1]. pose proof eta_pos as E0. destruct (product_bounds l x H F D NE) as (_ & X0 & X1 & X2). split; [exact X0|]. pose proof (product_unit l F) as T0. set (k := (length l - 1)%nat) in *. assert (KN : INR k <= INR (length l)) by (apply le_INR; lia). set (N := INR (length l)) in *. set (n := INR k) in *. assert (N0 : 0 <= n) by apply pos_INR.
  assert (NU : n * U <= / 32). { apply Rle_trans with (2 ^ 48 * U); [apply Rmult_le_compat_r; lra|]. rewrite U_val. lra. }
  pose proof (pow_up k ltac:(fold n; lra)) as P1. pose proof (pow_down k) as P2. fold n in P1, P2. set (T := product l) in *.
  assert (NE0 : 0 <= n * eta) by (apply Rmult_le_pos; lra).
  assert ((1 + U) ^ k * (T + n * eta) <= (1 + 2 * n * U) * (T + n * eta)) by (apply Rmult_le_compat_r; lra).
  assert ((1 - n * U) * T <= (1 - U) ^ k * T) by (apply Rmult_le_compat_r; lra). assert (2 * (n * U) * (n * eta) <= n * eta) by nra. assert (0 <= n * U * T) by (apply Rmult_le_pos; [apply Rmult_le_pos; lra|lra]).
  assert (n * U * T <= N * U * T) by (apply Rmult_le_compat_r; [lra|apply Rmult_le_compat_r; lra]). assert (n * eta <= N * eta) by (apply Rmult_le_compat_r; lra).
  apply Rabs_le. lra.
Qed.
(* powers of two multiply exactly *)
Lemma product_dyadic l x : rounded_product l x -> forall ms, l = map (fun m => / 2 ^ m) ms -> (list_sum ms <= 1000)%nat -> x = / 2 ^ list_sum ms.
Proof.
  induction 1 as [|x|l1 l2 l x1 x2 S1 IH1 S2 IH2 P]; intros ms E B.
  - destruct ms; [|discriminate]. cbn. lra.
  - destruct ms as [|m [|? ?]]; try discriminate. injection E as ->. cbn. now rewrite Nat.add_0_r.
  - rewrite E in P. apply Permutation_map_inv in P as (ms' & E' & P). assert (LS : list_sum ms = list_sum ms') by (clear - P; unfold list_sum; induction P; cbn [fold_right]; lia). rewrite LS in *. symmetry in E'. apply map_eq_app in E' as (k1 & k2 & -> & E1 & E2). rewrite list_sum_app in *.
    rewrite (IH1 k1 (eq_sym E1)), (IH2 k2 (eq_sym E2)) by lia. rewrite <- inv_pow_add. rewrite <- bpow_neg. apply binary64_bpow. lia.
Qed.
