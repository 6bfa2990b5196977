From Coq Require Import Reals Lra.
From Flocq Require Import Core Relative.
From Verif Require Import Common Prefix_Model LempelZiv_Model LempelZiv_Proof LempelZivWindow_Model Float_Model Float_Spec.
Local Open Scope R_scope.

Lemma ln2_bounds : 1 / 2 < ln 2 < 1.
Proof.
  split.
  - apply exp_lt_inv. rewrite exp_ln by lra. apply Rlt_le_trans with (/ (1 - 1 / 2)); [|lra].
    replace (exp (1 / 2)) with (/ exp (- (1 / 2))) by (rewrite <- exp_Ropp; f_equal; lra). apply Rinv_lt_contravar.
    + apply Rmult_lt_0_compat; [lra|apply exp_pos].
    + replace (1 - 1 / 2) with (1 + - (1 / 2)) by lra. apply exp_ineq1. lra.
  - apply exp_lt_inv. rewrite exp_ln by lra. pose proof (exp_ineq1 1 ltac:(lra)). lra.
Qed.
Lemma ln_mono x y : 0 < x -> x <= y -> ln x <= ln y.
Proof. intros H [L|E]; [left; apply ln_increasing; assumption|subst; lra]. Qed.
Lemma ln_pow_nat x k : 0 < x -> ln (x ^ k) = INR k * ln x.
Proof. intros H. induction k as [|k IH]; [cbn; rewrite ln_1; lra|]. rewrite S_INR. cbn [pow]. rewrite ln_mult by (try apply pow_lt; assumption). rewrite IH. lra. Qed.
Lemma ln_gap n : 2 <= n -> ln (n - 1) <= ln n - / n.
Proof.
  intros H. assert (0 < / n) by (apply Rinv_0_lt_compat; lra). assert (/ n <= / 2) by (apply Rinv_le_contravar; lra).
  replace (n - 1) with (n * (1 - / n)) by (field; lra). rewrite ln_mult by lra.
  assert (ln (1 - / n) <= - / n); [|lra]. apply Rnot_lt_le. intros Hlt. apply exp_increasing in Hlt. rewrite exp_ln in Hlt by lra.
  pose proof (exp_ineq1 (- / n) ltac:(lra)). lra.
Qed.
Lemma binary64_error x : 1 / 2 ^ 10 <= Rabs x -> Rabs (binary64 x - x) <= / 2 ^ 53 * Rabs x.
Proof.
  intros H. unfold binary64. eapply Rle_trans; [apply relative_error_N_FLT; [lia|]|].
  - eapply Rle_trans; [|exact H]. change (-1074 + 53 - 1)%Z with (- (1022))%Z. apply Rle_trans with (bpow radix2 (- (10))%Z); [apply bpow_le; lia|].
    right. cbn. lra.
  - right. change (-53 + 1)%Z with (-52)%Z. cbn. lra.
Qed.
Lemma accurate_bounds clog n : accurate clog -> (1 <= n < 2 ^ 53)%Z -> (1 - / 2 ^ 52) * ln (IZR n) <= clog (IZR n) <= (1 + / 2 ^ 52) * ln (IZR n).
Proof. intros A H. specialize (A n H). revert A. unfold Rabs. destruct (Rcase_abs _); lra. Qed.

Lemma quotient_bounds clog (n b : Z) : accurate clog -> (2 <= n <= 2 ^ 44)%Z -> (2 <= b < 2 ^ 53)%Z ->
  let q := ln (IZR n) / ln (IZR b) in
  0 < q /\ q * (1 - / 2 ^ 50) <= math_log clog (IZR n) (IZR b) <= q * (1 + / 2 ^ 50).
Proof.
  intros A Hn Hb q. pose proof ln2_bounds as [L2a L2b]. assert (N2 : 2 <= IZR n) by (apply (IZR_le 2); lia). assert (B2 : 2 <= IZR b) by (apply (IZR_le 2); lia).
  assert (Ln : 1 / 2 < ln (IZR n)) by (pose proof (ln_mono 2 (IZR n)); lra). assert (Lb : 1 / 2 < ln (IZR b)) by (pose proof (ln_mono 2 (IZR b)); lra).
  assert (LbU : ln (IZR b) <= 53).
  { apply Rle_trans with (ln (2 ^ 53)); [apply ln_mono; [lra|]|rewrite ln_pow_nat by lra; change (INR 53) with (INR 53); rewrite INR_IZR_INZ; cbn; lra].
    apply Rle_trans with (IZR (2 ^ 53)); [apply IZR_le; lia|right; cbn; lra]. }
  assert (Q0 : 0 < q) by (apply Rdiv_lt_0_compat; lra).
  assert (Qlo : 1 / 106 <= q).
  { unfold q. apply Rmult_le_reg_r with (ln (IZR b)); [lra|]. replace (ln (IZR n) / ln (IZR b) * ln (IZR b)) with (ln (IZR n)) by (field; lra). lra. }
  split; [exact Q0|].
  destruct (accurate_bounds clog n A) as [n1 n2]; [lia|]. destruct (accurate_bounds clog b A) as [b1 b2]; [lia|].
  set (e := / 2 ^ 52) in *. assert (E : e = / 4503599627370496) by (unfold e; f_equal; lra).
  set (N := clog (IZR n)) in *. set (B := clog (IZR b)) in *.
  assert (B0 : 0 < B) by (rewrite E in *; lra). assert (N0 : 0 < N) by (rewrite E in *; lra).
  set (x := N / B). assert (X0 : 0 < x) by (apply Rdiv_lt_0_compat; assumption).
  assert (XB : x * B = N) by (unfold x; field; lra). assert (QB : q * ln (IZR b) = ln (IZR n)) by (unfold q; field; lra).
  (* x between q (1-e)/(1+e) and q (1+e)/(1-e) *)
  assert (X1 : q * (1 - 3 * e) <= x).
  { apply Rmult_le_reg_r with B; [exact B0|]. rewrite XB. apply Rle_trans with ((1 - e) * ln (IZR n)); [|exact n1]. rewrite <- QB.
    apply Rle_trans with (q * (1 - 3 * e) * ((1 + e) * ln (IZR b))).
    - apply Rmult_le_compat_l; [apply Rmult_le_pos; [lra|rewrite E; lra]|exact b2].
    - replace (q * (1 - 3 * e) * ((1 + e) * ln (IZR b))) with ((q * ln (IZR b)) * ((1 - 3 * e) * (1 + e))) by ring.
      rewrite (Rmult_comm (1 - e)). apply Rmult_le_compat_l; [rewrite QB; lra|]. rewrite E. lra. }
  assert (X2 : x <= q * (1 + 3 * e)).
  { apply Rmult_le_reg_r with B; [exact B0|]. rewrite XB. apply Rle_trans with ((1 + e) * ln (IZR n)); [exact n2|]. rewrite <- QB.
    apply Rle_trans with (q * (1 + 3 * e) * ((1 - e) * ln (IZR b))).
    - replace (q * (1 + 3 * e) * ((1 - e) * ln (IZR b))) with ((q * ln (IZR b)) * ((1 + 3 * e) * (1 - e))) by ring.
      rewrite (Rmult_comm (1 + e)). apply Rmult_le_compat_l; [rewrite QB; lra|]. rewrite E. lra.
    - apply Rmult_le_compat_l; [apply Rmult_le_pos; [lra|rewrite E; lra]|exact b1]. }
  unfold math_log. fold N B. fold x. assert (ER : Rabs (binary64 x - x) <= / 2 ^ 53 * x).
  { rewrite <- (Rabs_right x) at 3 by lra. apply binary64_error. rewrite Rabs_right by lra. apply Rle_trans with (1 / 106 * (1 - 3 * e)); [rewrite E; lra|].
    apply Rle_trans with (q * (1 - 3 * e)); [|exact X1]. apply Rmult_le_compat_r; [rewrite E; lra|exact Qlo]. }
  replace (/ 2 ^ 53) with (/ 2 * e) in ER by (unfold e; field). replace (/ 2 ^ 50) with (4 * e) by (unfold e; field).
  assert (F : x * (1 - / 2 * e) <= binary64 x <= x * (1 + / 2 * e)) by (revert ER; unfold Rabs; destruct (Rcase_abs _); lra).
  split.
  - apply Rle_trans with (x * (1 - / 2 * e)); [|apply F]. apply Rle_trans with (q * (1 - 3 * e) * (1 - / 2 * e)).
    + rewrite Rmult_assoc. apply Rmult_le_compat_l; [lra|]. rewrite E. lra.
    + apply Rmult_le_compat_r; [rewrite E; lra|exact X1].
  - apply Rle_trans with (x * (1 + / 2 * e)); [apply F|]. apply Rle_trans with (q * (1 + 3 * e) * (1 + / 2 * e)).
    + apply Rmult_le_compat_r; [rewrite E; lra|exact X2].
    + rewrite Rmult_assoc. apply Rmult_le_compat_l; [lra|]. rewrite E. lra.
Qed.

Lemma IZR_N_pow b w : IZR (Z.of_N (b ^ N.of_nat w)) = IZR (Z.of_N b) ^ w.
Proof. rewrite N2Z.inj_pow, nat_N_Z. rewrite <- pow_IZR. reflexivity. Qed.
Lemma ln_moderate n : (2 <= n <= 2 ^ 44)%Z -> ln (IZR n) < 44.
Proof.
  intros H. pose proof ln2_bounds as [_ L]. apply Rle_lt_trans with (ln (2 ^ 44)).
  - apply ln_mono; [apply (IZR_lt 0); lia|]. apply Rle_trans with (IZR (2 ^ 44)); [apply IZR_le; lia|right; cbn; lra].
  - rewrite ln_pow_nat by lra. rewrite INR_IZR_INZ. cbn. lra.
Qed.
Lemma ceil_enough (b n : N) (v : R) : (2 <= b < 2 ^ 53)%N -> (2 <= n)%N -> moderate n ->
  ln (IZR (Z.of_N n)) / ln (IZR (Z.of_N b)) * (1 - / 2 ^ 50) <= v -> (n <= b ^ N.of_nat (Z.to_nat (Zceil v)))%N.
Proof.
  unfold moderate. intros Hb Hn Hm Q1. set (w := Z.to_nat (Zceil v)). destruct (N.le_gt_cases n (b ^ N.of_nat w)) as [|H]; [assumption|exfalso].
  set (nz := Z.of_N n) in *. set (bz := Z.of_N b) in *. assert (Hnz : (2 <= nz <= 2 ^ 44)%Z) by (unfold nz; change (2 ^ 44)%Z with (Z.of_N (2 ^ 44)); lia).
  assert (Hbz : (2 <= bz < 2 ^ 53)%Z) by (unfold bz; change (2 ^ 53)%Z with (Z.of_N (2 ^ 53)); lia).
  set (q := ln (IZR nz) / ln (IZR bz)) in *.
  assert (N2 : 2 <= IZR nz) by (apply (IZR_le 2); lia). assert (B2 : 2 <= IZR bz) by (apply (IZR_le 2); lia). pose proof ln2_bounds as [L2 _].
  assert (Lb : 0 < ln (IZR bz)) by (pose proof (ln_mono 2 (IZR bz)); lra).
  assert (W : q * (1 - / 2 ^ 50) <= INR w).
  { eapply Rle_trans; [exact Q1|]. eapply Rle_trans; [apply Zceil_ub|]. unfold w. rewrite INR_IZR_INZ. apply IZR_le. lia. }
  assert (P : IZR bz ^ w <= IZR nz - 1).
  { unfold bz. rewrite <- IZR_N_pow, <- minus_IZR. apply IZR_le. unfold nz. lia. }
  assert (L : INR w * ln (IZR bz) <= ln (IZR nz) - / IZR nz).
  { rewrite <- ln_pow_nat by lra. eapply Rle_trans; [apply ln_mono; [apply pow_lt; lra|exact P]|apply ln_gap; exact N2]. }
  assert (M : q * (1 - / 2 ^ 50) * ln (IZR bz) <= INR w * ln (IZR bz)) by (apply Rmult_le_compat_r; lra).
  replace (q * (1 - / 2 ^ 50) * ln (IZR bz)) with (ln (IZR nz) * (1 - / 2 ^ 50)) in M by (unfold q; field; lra).
  pose proof (ln_moderate nz Hnz) as LM. assert (K : / IZR nz <= 44 * / 2 ^ 50) by (assert (0 < / 2 ^ 50) by (apply Rinv_0_lt_compat, pow_lt; lra); nra).
  assert (IZR nz <= 2 ^ 44) by (apply Rle_trans with (IZR (2 ^ 44)); [apply IZR_le; lia|right; cbn; lra]).
  assert (1 <= 44 * / 2 ^ 50 * IZR nz) by (apply Rmult_le_compat_r with (r := IZR nz) in K; [rewrite Rinv_l in K by lra; exact K|lra]).
  assert (44 * / 2 ^ 50 * IZR nz <= 44 * / 2 ^ 50 * 2 ^ 44) by (apply Rmult_le_compat_l; [|assumption]; assert (0 < / 2 ^ 50) by (apply Rinv_0_lt_compat, pow_lt; lra); lra).
  assert (44 * / 2 ^ 50 * 2 ^ 44 < 1) by (replace (44 * / 2 ^ 50 * 2 ^ 44) with (44 / 64) by (field); lra). lra.
Qed.
Lemma float_width_ok clog (b n : N) : accurate clog -> (2 <= b < 2 ^ 53)%N -> (1 <= n)%N -> moderate n -> (n <= b ^ N.of_nat (float_width clog b n))%N.
Proof.
  intros A Hb Hn Hm. destruct (N.eq_dec n 1) as [->|Hne].
  - assert (b ^ N.of_nat (float_width clog b 1) <> 0)%N by (apply N.pow_nonzero; lia). lia.
  - apply ceil_enough; [exact Hb|lia|exact Hm|]. apply quotient_bounds; [exact A|change (2 ^ 44)%Z with (Z.of_N (2 ^ 44)); unfold moderate in Hm; lia|change (2 ^ 53)%Z with (Z.of_N (2 ^ 53)); lia].
Qed.
Lemma default_block_size_ok clog2 n : accurate2 clog2 -> (2 <= n)%nat -> moderate (N.of_nat n) -> (N.of_nat n <= 2 ^ N.of_nat (default_block_size clog2 n))%N.
Proof.
  intros A Hn Hm. unfold default_block_size. rewrite INR_IZR_INZ, <- nat_N_Z. apply ceil_enough; [lia|lia|exact Hm|]. unfold moderate in Hm.
  assert (B : (1 <= Z.of_N (N.of_nat n) < 2 ^ 53)%Z) by (assert (2 ^ 44 < 2 ^ 53)%Z by reflexivity; change (2 ^ 44)%N with (Z.to_N (2 ^ 44)) in Hm; lia).
  specialize (A _ B). change (IZR (Z.of_N 2)) with 2. set (q := ln (IZR (Z.of_N (N.of_nat n))) / ln 2) in *.
  assert (Q : 0 < q) by (pose proof ln2_bounds; apply Rdiv_lt_0_compat; [|lra]; pose proof (ln_mono 2 (IZR (Z.of_N (N.of_nat n))) ltac:(lra) ltac:(apply (IZR_le 2); lia)); lra).
  assert (E : / 2 ^ 52 <= / 2 ^ 50) by (apply Rinv_le_contravar; [apply pow_lt; lra|apply Rle_pow; [lra|lia]]).
  assert (/ 2 ^ 52 * q <= / 2 ^ 50 * q) by (apply Rmult_le_compat_r; lra). revert A. unfold Rabs. destruct (Rcase_abs _); lra.
Qed.
(** and it is never more than one too large *)
Lemma float_width_tight clog (b n : N) w : accurate clog -> (2 <= b < 2 ^ 53)%N -> (2 <= n)%N -> moderate n -> (n <= b ^ N.of_nat w)%N -> (float_width clog b n <= w + 1)%nat.
Proof.
  unfold moderate. intros A Hb Hn Hm H. set (nz := Z.of_N n). set (bz := Z.of_N b). assert (Hnz : (2 <= nz <= 2 ^ 44)%Z) by (unfold nz; change (2 ^ 44)%Z with (Z.of_N (2 ^ 44)); lia).
  assert (Hbz : (2 <= bz < 2 ^ 53)%Z) by (unfold bz; change (2 ^ 53)%Z with (Z.of_N (2 ^ 53)); lia).
  destruct (quotient_bounds clog nz bz A Hnz Hbz) as [Q0 [_ Q2]]. cbv zeta in *. set (q := ln (IZR nz) / ln (IZR bz)) in *.
  assert (N2 : 2 <= IZR nz) by (apply (IZR_le 2); lia). assert (B2 : 2 <= IZR bz) by (apply (IZR_le 2); lia). pose proof ln2_bounds as [L2 _].
  assert (Lb : 1 / 2 < ln (IZR bz)) by (pose proof (ln_mono 2 (IZR bz)); lra).
  assert (Qw : q <= INR w).
  { unfold q. apply Rmult_le_reg_r with (ln (IZR bz)); [lra|]. unfold Rdiv. rewrite Rmult_assoc, Rinv_l, Rmult_1_r by lra. rewrite <- ln_pow_nat by lra. apply ln_mono; [lra|].
    unfold bz. rewrite <- IZR_N_pow. apply IZR_le. unfold nz. lia. }
  assert (Q88 : q <= 88).
  { unfold q. apply Rmult_le_reg_r with (ln (IZR bz)); [lra|]. unfold Rdiv. rewrite Rmult_assoc, Rinv_l, Rmult_1_r by lra. pose proof (ln_moderate nz Hnz). lra. }
  assert (C : (Zceil (math_log clog (IZR nz) (IZR bz)) <= Z.of_nat w + 1)%Z).
  { apply Zceil_glb. rewrite plus_IZR, <- INR_IZR_INZ. eapply Rle_trans; [exact Q2|]. assert (q * / 2 ^ 50 <= 88 * / 2 ^ 50) by (apply Rmult_le_compat_r; [left; apply Rinv_0_lt_compat, pow_lt; lra|exact Q88]).
    assert (88 * / 2 ^ 50 <= 1) by (replace (88 * / 2 ^ 50) with (88 / 1125899906842624) by (unfold Rdiv; f_equal; f_equal; lra); lra). lra. }
  unfold float_width. fold nz bz. lia.
Qed.
Lemma correctly_rounded_accurate : accurate (fun x => binary64 (ln x)).
Proof.
  intros n H. destruct (Z.eq_dec n 1) as [->|Hne].
  - rewrite ln_1. unfold binary64. rewrite round_0 by apply valid_rnd_N. rewrite Rminus_0_r, Rabs_R0. lra.
  - assert (L : 1 / 2 < ln (IZR n)) by (pose proof ln2_bounds; pose proof (ln_mono 2 (IZR n) ltac:(lra) ltac:(apply (IZR_le 2); lia)); lra).
    eapply Rle_trans; [apply binary64_error; rewrite Rabs_right by lra; assert (1 / 2 ^ 10 <= 1 / 2) by lra; lra|]. rewrite Rabs_right by lra.
    apply Rmult_le_compat_r; [lra|]. apply Rinv_le_contravar; [apply pow_lt; lra|]. apply Rle_pow; [lra|lia].
Qed.
Lemma correctly_rounded_accurate2 : accurate2 (fun x => binary64 (ln x / ln 2)).
Proof.
  intros n H. pose proof ln2_bounds as L2. destruct (Z.eq_dec n 1) as [->|Hne].
  - rewrite ln_1. unfold binary64. replace (0 / ln 2) with 0 by (field; lra). rewrite round_0 by apply valid_rnd_N. rewrite Rminus_0_r, Rabs_R0. lra.
  - assert (L : 1 <= ln (IZR n) / ln 2).
    { apply Rmult_le_reg_r with (ln 2); [lra|]. replace (ln (IZR n) / ln 2 * ln 2) with (ln (IZR n)) by (field; lra). rewrite Rmult_1_l. apply ln_mono; [lra|]. apply (IZR_le 2). lia. }
    eapply Rle_trans; [apply binary64_error; rewrite Rabs_right by lra; assert (1 / 2 ^ 10 <= 1 / 2) by lra; lra|]. rewrite Rabs_right by lra.
    apply Rmult_le_compat_r; [lra|]. apply Rinv_le_contravar; [apply pow_lt; lra|]. apply Rle_pow; [lra|lia].
Qed.

(** *** the codes only evaluate the width at moderate sizes *)
Local Open Scope nat_scope.
Section Ext.
  Context (w1 w2 : N -> nat) (B : N) (Agree : forall n, (n <= B)%N -> w1 n = w2 n).
  Lemma lz78_pack_ext calX calY ts : forall i, (calX <= B)%N -> (N.of_nat (i + length ts) <= B)%N -> lz78_pack w1 calX calY i ts = lz78_pack w2 calX calY i ts.
  Proof.
    induction ts as [|[p x] ts IH]; intros i HX H; [reflexivity|]. cbn [lz78_pack length] in *. rewrite !Agree by lia. rewrite IH by lia. reflexivity.
  Qed.
  Lemma lz78_unpack_ext calX calY : forall f n t ts, (calX <= B)%N -> lz78_unpack f w1 calX calY n t = Some ts -> (N.of_nat (n + length ts) <= B)%N -> lz78_unpack f w2 calX calY n t = Some ts.
  Proof.
    induction f as [|f IH]; intros n t ts HX H L; destruct t as [|a t]; cbn [lz78_unpack] in *; try assumption.
    destruct (lz78_unpack f w1 calX calY (S n) _) as [ts'|] eqn:E; [|discriminate]. inversion H; subst; clear H. cbn [length] in L.
    rewrite <- !Agree by lia. rewrite (IH (S n) _ ts' HX E) by lia. reflexivity.
  Qed.
  Lemma lzw_scan_ext calY input : forall d wd, (N.of_nat (length d + length input) <= B)%N -> lzw_scan w1 calY d wd input = lzw_scan w2 calY d wd input.
  Proof.
    induction input as [|s r IH]; intros d wd H; cbn [lzw_scan length] in *.
    - rewrite Agree by lia. reflexivity.
    - rewrite IH by lia. destruct (ed_get (wd ++ [s]) d); [reflexivity|]. destruct (ed_get wd d); [|reflexivity]. rewrite IH by (unfold ed_add; rewrite app_length; cbn [length]; lia).
      rewrite Agree by lia. reflexivity.
  Qed.
  Lemma lzw_unscan_ext calY : forall f d old t out, lzw_unscan f w1 calY d old t = Some out -> (N.of_nat (length d + length out) + 1 <= B)%N -> lzw_unscan f w2 calY d old t = Some out.
  Proof.
    induction f as [|f IH]; intros d old t out H L; cbn [lzw_unscan] in *; rewrite <- Agree by lia; destruct (length t <? _); try assumption.
    destruct old as [|o old]; [assumption|]. destruct (match nth_error d _ with Some wd => wd | None => _ end) as [|c u]; [assumption|].
    destruct (lzw_unscan f w1 calY _ (c :: u) _) as [out'|] eqn:E; [|discriminate]. inversion H; subst; clear H. cbn [length app] in L. rewrite app_length in L.
    rewrite (IH _ _ _ _ E); [reflexivity|]. rewrite app_length. cbn [length]. lia.
  Qed.
End Ext.
Lemma lz78_scan_length source : forall d wd ts, lz78_scan d wd source = Some ts -> length ts <= length source + (match wd with [] => 0 | _ => 1 end).
Proof.
  induction source as [|s r IH]; intros d wd ts H; cbn [lz78_scan length] in *.
  - destruct wd; [inversion H; cbn; lia|]. destruct (ed_get _ d); inversion H; cbn; lia.
  - destruct (ed_get (wd ++ [s]) d); [apply IH in H; destruct wd; cbn [app] in H; lia|]. destruct (ed_get wd d); [|discriminate].
    destruct (lz78_scan _ [] r) as [ts'|] eqn:E; [|discriminate]. inversion H; subst. apply IH in E. cbn [length]. destruct wd; lia.
Qed.
Lemma range_N_length n : length (range_N n) = N.to_nat n.
Proof. unfold range_N. rewrite map_length, seq_length. reflexivity. Qed.
Lemma lz77_ext w1 w2 c : (forall n, In n [N.of_nat (ss c); N.of_nat (ls c); calX c] -> w1 n = w2 n) ->
  (forall xs, lz77_encode w1 c xs = lz77_encode w2 c xs) /\ (forall ys, lz77_target_to_tokens w1 c ys = lz77_target_to_tokens w2 c ys) /\ (forall ys, lz77_decode w1 c ys = lz77_decode w2 c ys).
Proof.
  intros H. assert (P : p_width w1 c = p_width w2 c) by (apply H; cbn; tauto). assert (L : l_width w1 c = l_width w2 c) by (apply H; cbn; tauto). assert (X : x_width w1 c = x_width w2 c) by (apply H; cbn; tauto).
  assert (T : forall ts, lz77_tokens_to_target w1 c ts = lz77_tokens_to_target w2 c ts) by (induction ts as [|[[p l] x] ts IH]; [reflexivity|]; cbn [lz77_tokens_to_target]; rewrite P, L, X, IH; reflexivity).
  assert (U : forall f t, lz77_unpack f w1 c t = lz77_unpack f w2 c t) by (induction f as [|f IH]; intros t; cbn [lz77_unpack]; rewrite P, L, X; [reflexivity|]; rewrite IH; reflexivity).
  repeat split; intros; unfold lz77_encode, lz77_decode, lz77_target_to_tokens; rewrite ?U; [destruct (lz77_source_to_tokens c xs); rewrite ?T; reflexivity|reflexivity|reflexivity].
Qed.
Lemma lzss_ext w1 w2 c : (forall n, In n [N.of_nat (ss c); N.of_nat (ls c); calX c] -> w1 n = w2 n) ->
  (forall xs, lzss_source_to_tokens w1 c xs = lzss_source_to_tokens w2 c xs) /\ (forall xs, lzss_encode w1 c xs = lzss_encode w2 c xs) /\
  (forall ys, lzss_target_to_tokens w1 c ys = lzss_target_to_tokens w2 c ys) /\ (forall ys, lzss_decode w1 c ys = lzss_decode w2 c ys).
Proof.
  intros H. assert (P : p_width w1 c = p_width w2 c) by (apply H; cbn; tauto). assert (L : l_width w1 c = l_width w2 c) by (apply H; cbn; tauto). assert (X : x_width w1 c = x_width w2 c) by (apply H; cbn; tauto).
  assert (T : forall ts, lzss_tokens_to_target w1 c ts = lzss_tokens_to_target w2 c ts) by (induction ts as [|[x|p l] ts IH]; [reflexivity| |]; cbn [lzss_tokens_to_target]; rewrite ?P, ?L, ?X, IH; reflexivity).
  assert (U : forall f t, lzss_unpack f w1 c t = lzss_unpack f w2 c t) by (induction f as [|f IH]; intros [|a t]; cbn [lzss_unpack]; rewrite ?P, ?L, ?X, ?IH; reflexivity).
  assert (S0 : forall xs, lzss_source_to_tokens w1 c xs = lzss_source_to_tokens w2 c xs) by (intros xs; unfold lzss_source_to_tokens, break_even; rewrite P, L, X; reflexivity).
  repeat split; intros; unfold lzss_encode, lzss_decode, lzss_target_to_tokens; rewrite ?S0, ?U; try reflexivity. destruct (lzss_source_to_tokens w2 c xs); rewrite ?T; reflexivity.
Qed.
