From Coq Require Import Reals Lra QArith Qreals.
From Flocq Require Import Core Relative.
From Verif Require Import Common Spec_Lossless Huffman_Proof Prefix_Model Prefix_Proof PmfCodes_Model PmfCodes_Proof Canonical_Proof Kraft_Proof Float_Model Float_Spec Float_Proof FloatShannon_Model FloatShannon_Spec.
Local Open Scope R_scope.

Lemma binary64_mono x y : x <= y -> binary64 x <= binary64 y.
Proof. apply round_le; [apply FLT_exp_valid; red; lia|apply valid_rnd_N]. Qed.
Lemma bpow_pow k : bpow radix2 (Z.of_nat k) = 2 ^ k.
Proof. rewrite <- (IZR_Zpower radix2) by lia. rewrite pow_IZR. reflexivity. Qed.
Lemma binary64_bpow e : (-1074 <= e)%Z -> binary64 (bpow radix2 e) = bpow radix2 e.
Proof. intros H. apply round_generic; [apply valid_rnd_N|]. apply generic_format_FLT_bpow; [red; lia|exact H]. Qed.
Lemma binary64_pow k : binary64 (2 ^ k) = 2 ^ k.
Proof. rewrite <- bpow_pow. apply binary64_bpow. lia. Qed.
Lemma binary64_nat n : (Z.of_nat n < 2 ^ 53)%Z -> binary64 (INR n) = INR n.
Proof.
  intros H. rewrite INR_IZR_INZ. apply round_generic; [apply valid_rnd_N|]. apply generic_format_FLT. exists (Float radix2 (Z.of_nat n) 0); [unfold F2R; cbn; ring|cbn [Fnum]; change (radix2 ^ 53)%Z with (2 ^ 53)%Z; lia|cbn [Fexp]; lia].
Qed.

Lemma log2_pow k : ln (2 ^ k) / ln 2 = INR k.
Proof. pose proof ln2_bounds. rewrite ln_pow_nat by lra. field. lra. Qed.
Lemma log2_mono x y : 0 < x -> x <= y -> ln x / ln 2 <= ln y / ln 2.
Proof. intros H L. pose proof ln2_bounds. apply Rmult_le_compat_r; [left; apply Rinv_0_lt_compat; lra|apply ln_mono; assumption]. Qed.
Lemma range_length l p : representable_range p -> ideal_length l p -> (l <= 1000)%nat.
Proof.
  intros [P _] (L1 & _ & M). destruct (le_lt_dec l 1000) as [|G]; [assumption|exfalso].
  specialize (M 1000%nat ltac:(lia)). assert (0 < 2 ^ 1000) by (apply pow_lt; lra).
  assert (/ 2 ^ 1000 * 2 ^ 1000 <= p * 2 ^ 1000) by (apply Rmult_le_compat_r; lra).
  rewrite Rinv_l in H0 by lra. lra.
Qed.
Lemma recip_ge p : representable_range p -> 1 <= 1 / p.
Proof.
  intros [P Q]. assert (0 < / 2 ^ 1000) by (apply Rinv_0_lt_compat, pow_lt; lra).
  apply Rmult_le_reg_r with p; [lra|]. replace (1 / p * p) with 1 by (field; lra). lra.
Qed.
Lemma range_pos p : representable_range p -> 0 < p.
Proof. intros [P _]. assert (0 < / 2 ^ 1000) by (apply Rinv_0_lt_compat, pow_lt; lra). lra. Qed.
Lemma recip_le p k : 0 < p -> 1 <= p * 2 ^ k -> 1 / p <= 2 ^ k.
Proof. intros P H. apply Rmult_le_reg_r with p; [lra|]. replace (1 / p * p) with 1 by (field; lra). lra. Qed.
Lemma recip_ge_pow p k : 0 < p -> p * 2 ^ k <= 1 -> 2 ^ k <= 1 / p.
Proof. intros P H. apply Rmult_le_reg_r with p; [lra|]. replace (1 / p * p) with 1 by (field; lra). lra. Qed.

Lemma float_length_bounds clog2 l p : log2_like clog2 -> representable_range p -> ideal_length l p ->
  float_shannon_length clog2 p = l \/ (2 <= l)%nat /\ float_shannon_length clog2 p = (l - 1)%nat.
Proof.
  intros (UP & LO & _) R IL. pose proof (range_length l p R IL) as L1000. destruct IL as (L1 & A & M). pose proof (range_pos p R) as P. pose proof (recip_ge p R) as R1.
  unfold float_shannon_length. set (x := binary64 (1 / p)).
  assert (X1 : 1 <= x) by (unfold x; replace 1 with (binary64 (2 ^ 0)) at 1 by apply binary64_pow; apply binary64_mono; exact R1).
  assert (XU : x <= 2 ^ l) by (unfold x; rewrite <- (binary64_pow l); apply binary64_mono, recip_le; assumption).
  assert (CU : (Zceil (clog2 x) <= Z.of_nat l)%Z) by (apply Zceil_glb; rewrite <- INR_IZR_INZ; apply UP; try assumption; lia).
  destruct (le_lt_dec 2 l) as [L2|L2]; [|left; lia].
  assert (XL : 2 ^ (l - 1) <= x) by (unfold x; rewrite <- (binary64_pow (l - 1)); apply binary64_mono, recip_ge_pow; [assumption|left; apply M; lia]).
  assert (CL : (Z.of_nat (l - 1) <= Zceil (clog2 x))%Z).
  { apply le_IZR. eapply Rle_trans; [|apply Zceil_ub]. rewrite <- INR_IZR_INZ. apply LO; try assumption; lia. }
  lia.
Qed.
Lemma log2_one_plus t : 0 <= t <= 1 -> t <= ln (1 + t) / ln 2.
Proof.
  intros H. pose proof ln2_bounds as L2. apply Rmult_le_reg_r with (ln 2); [lra|]. replace (ln (1 + t) / ln 2 * ln 2) with (ln (1 + t)) by (field; lra).
  apply Rnot_lt_le. intros C. apply exp_increasing in C. rewrite exp_ln in C by lra.
  (* 2^t <= 1 + t on [0,1]: convexity of exp *)
  assert (E : exp (t * ln 2) <= 1 + t).
  { (* exp (t a) <= (1-t) + t exp a *)
    assert (CV : forall z, exp z >= 1 + z) by (intros z; destruct (Req_dec z 0) as [->|N]; [rewrite exp_0; lra|left; apply exp_ineq1; exact N]).
    set (s := t * ln 2). assert (E0 : exp 0 >= exp s * (1 + (0 - s))).
    { replace (exp 0) with (exp s * exp (0 - s)) by (rewrite <- exp_plus; f_equal; ring). apply Rle_ge, Rmult_le_compat_l; [left; apply exp_pos|apply Rge_le, CV]. }
    assert (E1 : exp (ln 2) >= exp s * (1 + (ln 2 - s))).
    { replace (exp (ln 2)) with (exp s * exp (ln 2 - s)) by (rewrite <- exp_plus; f_equal; ring). apply Rle_ge, Rmult_le_compat_l; [left; apply exp_pos|apply Rge_le, CV]. }
    rewrite exp_0 in E0. rewrite exp_ln in E1 by lra.
    assert (1 + t = (1 - t) * 1 + t * 2) by ring. rewrite H0.
    apply Rle_trans with ((1 - t) * (exp s * (1 + (0 - s))) + t * (exp s * (1 + (ln 2 - s)))).
    - right. unfold s. ring.
    - apply Rplus_le_compat; apply Rmult_le_compat_l; lra. }
  lra.
Qed.
Lemma float_length_exact clog2 l p : log2_like clog2 -> representable_range p -> clear_of_powers p -> ideal_length l p ->
  float_shannon_length clog2 p = l.
Proof.
  intros LK R S IL. destruct (float_length_bounds clog2 l p LK R IL) as [E|[L2 _]]; [exact E|].
  pose proof (range_length l p R IL) as L1000. pose proof (range_pos p R) as P. pose proof (recip_ge p R) as R1.
  destruct LK as (UP & LO & ER). destruct IL as (L1 & A & M).
  unfold float_shannon_length. set (x := binary64 (1 / p)).
  assert (X1 : 1 <= x) by (unfold x; replace 1 with (binary64 (2 ^ 0)) at 1 by apply binary64_pow; apply binary64_mono; exact R1).
  assert (XU : x <= 2 ^ l) by (unfold x; rewrite <- (binary64_pow l); apply binary64_mono, recip_le; assumption).
  assert (CU : (Zceil (clog2 x) <= Z.of_nat l)%Z) by (apply Zceil_glb; rewrite <- INR_IZR_INZ; apply UP; try assumption; lia).
  assert (K0 : 0 < 2 ^ (l - 1)) by (apply pow_lt; lra).
  assert (K2 : 2 <= 2 ^ (l - 1)) by (replace 2 with (2 ^ 1) at 1 by ring; apply Rle_pow; [lra|lia]).
  set (e := / 2 ^ 40). assert (EE : e = / 1099511627776) by (unfold e; f_equal; lra).
  pose proof (S (l - 1)%nat ltac:(lia) (M (l - 1)%nat ltac:(lia))) as SF. fold e in SF.
  (* 1/p >= 2^(l-1) (1 + e) *)
  assert (Q1 : 2 ^ (l - 1) * (1 + e) <= 1 / p).
  { apply Rmult_le_reg_r with p; [lra|]. replace (1 / p * p) with 1 by (field; lra).
    replace (2 ^ (l - 1) * (1 + e) * p) with (p * 2 ^ (l - 1) * (1 + e)) by ring.
    apply Rle_trans with ((1 - e) * (1 + e)); [apply Rmult_le_compat_r; [rewrite EE; lra|exact SF]|]. rewrite EE. lra. }
  assert (ERR := binary64_error (1 / p)). fold x in ERR. rewrite (Rabs_right (1 / p)) in ERR by lra.
  assert (B1 : (1 / p) * (1 - / 2 ^ 53) <= x). { specialize (ERR ltac:(lra)). revert ERR. unfold Rabs. destruct (Rcase_abs _); lra. }
  assert (X2 : 2 ^ (l - 1) * (1 + e / 2) <= x).
  { eapply Rle_trans; [|exact B1]. apply Rle_trans with (2 ^ (l - 1) * (1 + e) * (1 - / 2 ^ 53)).
    - rewrite Rmult_assoc. apply Rmult_le_compat_l; [lra|]. rewrite EE. replace (/ 2 ^ 53) with (/ 9007199254740992) by (f_equal; lra). lra.
    - apply Rmult_le_compat_r; [|exact Q1]. replace (/ 2 ^ 53) with (/ 9007199254740992) by (f_equal; lra). lra. }
  assert (X22 : 2 <= x). { assert (0 <= e / 2) by (rewrite EE; lra). assert (2 ^ (l - 1) * 1 <= 2 ^ (l - 1) * (1 + e / 2)) by (apply Rmult_le_compat_l; lra). lra. }
  assert (LG : INR (l - 1) + e / 2 <= ln x / ln 2).
  { apply Rle_trans with (ln (2 ^ (l - 1) * (1 + e / 2)) / ln 2).
    - assert (0 < 1 + e / 2) by (rewrite EE; lra). rewrite ln_mult by lra. unfold Rdiv at 2. rewrite Rmult_plus_distr_r.
      change (ln (2 ^ (l - 1)) * / ln 2) with (ln (2 ^ (l - 1)) / ln 2). change (ln (1 + e / 2) * / ln 2) with (ln (1 + e / 2) / ln 2).
      rewrite log2_pow. apply Rplus_le_compat_l. apply log2_one_plus. rewrite EE. lra.
    - apply log2_mono; [|exact X2]. apply Rmult_lt_0_compat; [lra|]. rewrite EE. lra. }
  assert (LGU : ln x / ln 2 <= INR l) by (rewrite <- log2_pow; apply log2_mono; lra).
  assert (L1K : INR l <= 1000) by (replace 1000 with (INR 1000) by (rewrite INR_IZR_INZ; reflexivity); apply le_INR; lia).
  specialize (ER x X22).
  assert (CL : INR (l - 1) < clog2 x).
  { assert (/ 2 ^ 52 * (ln x / ln 2) <= / 2 ^ 52 * 1000) by (apply Rmult_le_compat_l; [left; apply Rinv_0_lt_compat, pow_lt; lra|lra]).
    assert (/ 2 ^ 52 * 1000 < e / 2) by (rewrite EE; replace (/ 2 ^ 52) with (/ 4503599627370496) by (f_equal; lra); lra).
    revert ER. unfold Rabs. destruct (Rcase_abs _); lra. }
  assert ((Z.of_nat (l - 1) < Zceil (clog2 x))%Z).
  { apply lt_IZR. eapply Rlt_le_trans; [|apply Zceil_ub]. rewrite <- INR_IZR_INZ. exact CL. }
  lia.
Qed.

Lemma correctly_rounded_log2_like : log2_like (fun x => binary64 (ln x / ln 2)).
Proof.
  assert (SM : forall k, (k <= 1100)%nat -> binary64 (INR k) = INR k) by (intros k Hk; apply binary64_nat; lia).
  split; [|split].
  - intros x k Hk H1 H. rewrite <- (SM k Hk). apply binary64_mono. rewrite <- log2_pow. apply log2_mono; lra.
  - intros x k Hk H1 H. rewrite <- (SM k Hk). apply binary64_mono. rewrite <- log2_pow. apply log2_mono; [apply pow_lt; lra|exact H].
  - intros x H. assert (L : 1 <= ln x / ln 2) by (replace 1 with (INR 1) by reflexivity; rewrite <- (log2_pow 1); apply log2_mono; cbn [pow]; lra).
    eapply Rle_trans; [apply binary64_error; rewrite Rabs_right by lra; lra|]. rewrite Rabs_right by lra.
    apply Rmult_le_compat_r; [lra|]. apply Rinv_le_contravar; [apply pow_lt; lra|]. apply Rle_pow; [lra|lia].
Qed.

(* ---- the constructor *)
Lemma float_products_length pmf k : (1 <= k)%nat -> length (float_products pmf k) = (length pmf ^ k)%nat.
Proof.
  intros H. destruct k as [|k]; [lia|]. clear H. induction k as [|k IH]; [cbn; lia|].
  change (float_products pmf (S (S k))) with (flat_map (fun a => map (fun b => binary64 (a * b)) pmf) (float_products pmf (S k))).
  rewrite Nat.pow_succ_r', <- IH. clear IH. induction (float_products pmf (S k)) as [|a l IHl]; [cbn; lia|]. cbn [flat_map length]. rewrite app_length, map_length, IHl. lia.
Qed.
Lemma float_length_pos clog2 p : (1 <= float_shannon_length clog2 p)%nat.
Proof. unfold float_shannon_length. lia. Qed.
Lemma kterm_Q2R l : Q2R (/ inject_Z (2 ^ Z.of_nat l)) = / 2 ^ l.
Proof.
  rewrite Q2R_inv.
  - f_equal. unfold Q2R, inject_Z. cbn [Qnum Qden]. rewrite pow_IZR. change 2%R with (IZR 2). rewrite <- pow_IZR. rewrite pow_IZR. lra.
  - intros E. unfold Qeq, inject_Z in E. cbn in E. pose proof (Z.pow_pos_nonneg 2 (Z.of_nat l)). lia.
Qed.
Lemma kraft_sum_Q2R ls : Q2R (kraft_sum 2 ls) = rsum (map (fun l => / 2 ^ l) ls).
Proof.
  induction ls as [|l ls IH]; [unfold Q2R; cbn; lra|]. rewrite kraft_cons, Q2R_plus, IH. unfold rsum. cbn [map fold_right]. f_equal. apply kterm_Q2R.
Qed.
Lemma kraft_real ls : (kraft_sum 2 ls <= 1)%Q <-> rsum (map (fun l => / 2 ^ l) ls) <= 1.
Proof.
  rewrite <- kraft_sum_Q2R. split; intros H.
  - apply Qle_Rle in H. replace (Q2R 1) with 1 in H by (unfold Q2R; cbn; lra). exact H.
  - apply Rle_Qle. replace (Q2R 1) with 1 by (unfold Q2R; cbn; lra). exact H.
Qed.
Lemma float_make_spec clog2 pmf k : (2 <= length pmf)%nat -> (1 <= k)%nat -> Forall (fun p => 0 < p) pmf ->
  let ls := map (float_shannon_length clog2) (float_products pmf k) in
  (rsum (map (fun l => / 2 ^ l) ls) <= 1 ->
    exists c ws, float_shannon_make clog2 pmf k = Some c /\ good_code c (N.of_nat (length pmf)) k ws /\ map (@length N) (f2v_codewords c) = ls) /\
  (1 < rsum (map (fun l => / 2 ^ l) ls) -> float_shannon_make clog2 pmf k = None).
Proof.
  intros H2 Hk HP ls. assert (L := float_products_length pmf k Hk). assert (G := pow_ge_2 _ k H2 Hk).
  assert (Hpos : Forall (fun l => (0 < l)%nat) ls).
  { unfold ls. rewrite Forall_map. apply Forall_forall. intros p _. pose proof (float_length_pos clog2 p). lia. }
  assert (LL : length ls = length (float_products pmf k)) by apply map_length.
  assert (PO : forallb (fun p => if Rlt_dec 0 p then true else false) pmf = true).
  { apply forallb_forall. intros p Hp. rewrite Forall_forall in HP. specialize (HP p Hp). destruct (Rlt_dec 0 p); [reflexivity|contradiction]. }
  pose proof (canonical_kraft 2 ls ltac:(lia) ltac:(intros E; rewrite E in LL; cbn in LL; lia) Hpos) as CK.
  split; intros KS.
  - destruct (proj2 CK (proj2 (kraft_real ls) KS)) as [ws Ews].
    pose proof (canonical_lengths 2 ltac:(lia) _ ws Ews) as WL.
    assert (LW : length ws = length ls) by (rewrite <- WL, map_length; reflexivity).
    destruct (make_good (N.of_nat (length pmf)) k ws) as (c & Ec & Gc); auto; [lia|lia| | | |].
    + exact (canonical_range 2 ltac:(lia) ls ws Ews).
    + rewrite <- WL, Forall_map in Hpos. eapply Forall_impl; [|exact Hpos]. intros [|x w] Hw; [cbn in Hw; lia|discriminate].
    + exact (canonical_PF 2 ltac:(lia) ls ws Ews Hpos).
    + exists c, ws. unfold float_shannon_make. rewrite PO. fold ls. rewrite Ews. split; [exact Ec|]. split; [exact Gc|].
      rewrite (gc_words _ _ _ _ Gc). exact WL.
  - unfold float_shannon_make. rewrite PO. fold ls. destruct (canonical_code ls 2) as [ws|] eqn:E; [|reflexivity].
    exfalso. assert (X := proj1 CK (ex_intro _ ws eq_refl)). apply kraft_real in X. lra.
Qed.
Lemma ideal_exists p : representable_range p -> exists l, ideal_length l p.
Proof.
  intros R. pose proof (range_pos p R) as P.
  assert (W : exists l, (l < 1001)%nat /\ 1 <= p * 2 ^ l /\ forall m, (m < l)%nat -> p * 2 ^ m < 1).
  { assert (N : forall n, (exists l, (l < n)%nat /\ 1 <= p * 2 ^ l /\ forall m, (m < l)%nat -> p * 2 ^ m < 1) \/ forall m, (m < n)%nat -> p * 2 ^ m < 1).
    { induction n as [|n [(l & A & B)|IH]]; [right; lia|left; exists l; split; [lia|exact B]|].
      destruct (Rlt_le_dec (p * 2 ^ n) 1) as [C|C].
      - right. intros m Hm. destruct (Nat.eq_dec m n) as [->|]; [exact C|apply IH; lia].
      - left. exists n. split; [lia|]. split; [exact C|exact IH]. }
    destruct (N 1001%nat) as [W|W]; [exact W|exfalso]. specialize (W 1000%nat ltac:(lia)). destruct R as [R _].
    assert (0 < 2 ^ 1000) by (apply pow_lt; lra).
    assert (X : / 2 ^ 1000 * 2 ^ 1000 <= p * 2 ^ 1000) by (apply Rmult_le_compat_r; lra). rewrite Rinv_l in X by lra. lra. }
  destruct W as (l & _ & A & B). destruct l as [|l].
  - exists 1%nat. split; [lia|]. split; [cbn [pow] in *; lra|lia].
  - exists (S l). split; [lia|]. split; [exact A|]. intros m Hm. apply B. lia.
Qed.
Lemma Forall2_ideal clog2 ps : log2_like clog2 -> Forall (fun p => representable_range p /\ clear_of_powers p) ps ->
  Forall2 ideal_length (map (float_shannon_length clog2) ps) ps.
Proof.
  intros LK. induction 1 as [|p ps [R C] _ IH]; [constructor|]. cbn [map]. constructor; [|exact IH].
  destruct (ideal_exists p R) as [l I]. rewrite (float_length_exact clog2 l p LK R C I). exact I.
Qed.
Lemma ideal_kraft ls ps : Forall2 ideal_length ls ps -> rsum (map (fun l => / 2 ^ l) ls) <= rsum ps.
Proof.
  unfold rsum. induction 1 as [|l p ls ps (L1 & A & _) _ IH]; [cbn; lra|]. cbn [map fold_right]. apply Rplus_le_compat; [|exact IH].
  assert (0 < 2 ^ l) by (apply pow_lt; lra). apply Rmult_le_reg_r with (2 ^ l); [assumption|]. rewrite Rinv_l by lra. exact A.
Qed.

(* ---- a pmf that sums to exactly 1 and is rejected *)
Definition q16 : R := (1 - / 2 ^ 53) * / 2 ^ 4.
Lemma format_16 : generic_format radix2 (FLT_exp (-1074) 53) (16 + / 2 ^ 48).
Proof.
  apply generic_format_FLT. exists (Float radix2 (2 ^ 52 + 1) (-48)).
  - unfold F2R. cbn [Fnum Fexp]. change (bpow radix2 (-48)) with (/ IZR (2 ^ 48)). rewrite (plus_IZR (2 ^ 52) 1). change (IZR (2 ^ 52)) with (16 * IZR (2 ^ 48)) at 1 || idtac.
    replace (IZR (2 ^ 52)) with (16 * IZR (2 ^ 48)) by (rewrite <- mult_IZR; reflexivity).
    replace (2 ^ 48)%R with (IZR (2 ^ 48)) by (rewrite pow_IZR; reflexivity). field. apply not_0_IZR. discriminate.
  - cbn [Fnum]. change (radix2 ^ 53)%Z with (2 ^ 53)%Z. lia.
  - cbn [Fexp]. lia.
Qed.
Lemma succ_4 : succ radix2 (FLT_exp (-1074) 53) 4 = 4 + / 2 ^ 50.
Proof.
  rewrite succ_eq_pos by lra. f_equal. rewrite ulp_neq_0 by lra. unfold cexp.
  replace (mag radix2 4 : Z) with 3%Z.
  - change (FLT_exp (-1074) 53 3) with (-50)%Z. change (bpow radix2 (-50)) with (/ IZR (2 ^ 50)). rewrite pow_IZR. reflexivity.
  - symmetry. apply mag_unique. rewrite Rabs_right by lra. change (bpow radix2 (3 - 1)) with 4. change (bpow radix2 3) with 8. lra.
Qed.
Lemma format_4 : generic_format radix2 (FLT_exp (-1074) 53) 4.
Proof. change 4 with (bpow radix2 2). apply generic_format_FLT_bpow; [red; lia|lia]. Qed.
Lemma q16_range : representable_range q16.
Proof.
  assert (A : / 2 ^ 1000 <= / 2 ^ 5) by (apply Rinv_le_contravar; [apply pow_lt; lra|apply Rle_pow; [lra|lia]]).
  unfold representable_range, q16. replace (/ 2 ^ 53) with (/ 9007199254740992) by (f_equal; lra). lra.
Qed.
Lemma q16_ideal : ideal_length 5 q16.
Proof.
  split; [lia|]. unfold q16. replace (/ 2 ^ 53) with (/ 9007199254740992) by (f_equal; lra). split; [lra|].
  intros m Hm. assert (2 ^ m <= 2 ^ 4) by (apply Rle_pow; [lra|lia]).
  apply Rle_lt_trans with ((1 - / 9007199254740992) * / 2 ^ 4 * 2 ^ 4); [apply Rmult_le_compat_l; lra|lra].
Qed.
Lemma q16_length : float_shannon_length (fun x => binary64 (ln x / ln 2)) q16 = 4%nat.
Proof.
  destruct (float_length_bounds (fun x => binary64 (ln x / ln 2)) 5 q16 correctly_rounded_log2_like q16_range q16_ideal) as [E|[_ E]]; [exfalso|exact E].
  revert E. unfold float_shannon_length. set (x := binary64 (1 / q16)). pose proof ln2_bounds as L2.
  assert (XU : x <= 16 + / 2 ^ 48).
  { unfold x. replace (16 + / 2 ^ 48) with (binary64 (16 + / 2 ^ 48)) by (apply round_generic; [apply valid_rnd_N|apply format_16]).
    apply binary64_mono. pose proof q16_range as R. pose proof (range_pos _ R) as P. apply Rmult_le_reg_r with q16; [exact P|]. replace (1 / q16 * q16) with 1 by (field; lra).
    unfold q16. replace (/ 2 ^ 53) with (/ 9007199254740992) by (f_equal; lra). replace (/ 2 ^ 48) with (/ 281474976710656) by (f_equal; lra). lra. }
  assert (X1 : 1 <= x). { unfold x. replace 1 with (binary64 (2 ^ 0)) at 1 by apply binary64_pow. apply binary64_mono, recip_ge, q16_range. }
  assert (LG : ln x / ln 2 < 4 + / 2 ^ 51).
  { apply Rle_lt_trans with (ln (2 ^ 4 * (1 + / 2 ^ 52)) / ln 2).
    - apply log2_mono; [lra|]. eapply Rle_trans; [exact XU|]. right. replace (/ 2 ^ 48) with (/ 281474976710656) by (f_equal; lra). replace (/ 2 ^ 52) with (/ 4503599627370496) by (f_equal; lra). lra.
    - set (t := / 2 ^ 52). assert (T : t = / 4503599627370496) by (unfold t; f_equal; lra).
      rewrite ln_mult by (rewrite ?T; lra). unfold Rdiv. rewrite Rmult_plus_distr_r. change (ln (2 ^ 4) * / ln 2) with (ln (2 ^ 4) / ln 2). rewrite log2_pow.
      replace (INR 4) with 4 by (cbn; lra). apply Rplus_lt_compat_l. replace (/ 2 ^ 51) with (2 * t) by (rewrite T; replace (/ 2 ^ 51) with (/ 2251799813685248) by (f_equal; lra); lra).
      assert (LT : ln (1 + t) <= t).
      { apply Rnot_lt_le. intros C. apply exp_increasing in C. rewrite exp_ln in C by (rewrite T; lra). pose proof (exp_ineq1 t ltac:(rewrite T; lra)). lra. }
      apply Rmult_lt_reg_r with (ln 2); [lra|]. rewrite Rmult_assoc, Rinv_l, Rmult_1_r by lra. eapply Rle_lt_trans; [exact LT|]. assert (0 < t) by (rewrite T; lra). nra. }
  assert (B : binary64 (ln x / ln 2) <= 4).
  { unfold binary64. apply round_N_le_midp; [apply FLT_exp_valid; red; lia|apply format_4|]. rewrite succ_4.
    replace (/ 2 ^ 50) with (/ 1125899906842624) by (f_equal; lra). replace (/ 2 ^ 51) with (/ 2251799813685248) in LG by (f_equal; lra). lra. }
  assert ((Zceil (binary64 (ln x / ln 2)) <= 4)%Z) by (apply Zceil_glb; exact B). lia.
Qed.
Lemma tiny_range : representable_range (/ 2 ^ 53).
Proof. split; [apply Rinv_le_contravar; [apply pow_lt; lra|apply Rle_pow; [lra|lia]]|]. replace (/ 2 ^ 53) with (/ 9007199254740992) by (f_equal; lra). lra. Qed.
Lemma inv_pow_mul a b : (b <= a)%nat -> / 2 ^ a * 2 ^ b = / 2 ^ (a - b).
Proof.
  intros H. replace a with (b + (a - b))%nat at 1 by lia. rewrite pow_add. assert (0 < 2 ^ b) by (apply pow_lt; lra). assert (0 < 2 ^ (a - b)) by (apply pow_lt; lra). field. lra.
Qed.
Lemma dyadic_clear a : (1 <= a)%nat -> clear_of_powers (/ 2 ^ a).
Proof.
  intros Ha m Hm H. destruct (le_lt_dec a m) as [L|L].
  - exfalso. assert (2 ^ a <= 2 ^ m) by (apply Rle_pow; [lra|lia]). assert (0 < 2 ^ a) by (apply pow_lt; lra).
    assert (/ 2 ^ a * 2 ^ a <= / 2 ^ a * 2 ^ m) by (apply Rmult_le_compat_l; [left; apply Rinv_0_lt_compat; assumption|assumption]). rewrite Rinv_l in H2 by lra. lra.
  - rewrite inv_pow_mul by lia. assert (/ 2 ^ (a - m) <= / 2 ^ 1) by (apply Rinv_le_contravar; [apply pow_lt; lra|apply Rle_pow; [lra|lia]]).
    replace (/ 2 ^ 40) with (/ 1099511627776) by (f_equal; lra). lra.
Qed.
Lemma dyadic_ideal a : (1 <= a)%nat -> ideal_length a (/ 2 ^ a).
Proof.
  intros H. split; [exact H|]. assert (0 < 2 ^ a) by (apply pow_lt; lra). split; [rewrite Rinv_l by lra; lra|].
  intros m Hm. rewrite inv_pow_mul by lia. rewrite <- Rinv_1. apply Rinv_lt_contravar; [rewrite Rmult_1_l; apply pow_lt; lra|]. apply Rlt_pow_R1; [lra|lia].
Qed.
Definition bad_pmf : list R := repeat q16 16 ++ [/ 2 ^ 53].
Lemma bad_pmf_sum : rsum bad_pmf = 1.
Proof. unfold bad_pmf, rsum, q16. cbn [repeat app fold_right]. replace (/ 2 ^ 53) with (/ 9007199254740992) by (f_equal; lra). lra. Qed.
Lemma bad_pmf_rejected : float_shannon_make (fun x => binary64 (ln x / ln 2)) bad_pmf 1 = None.
Proof.
  apply (proj2 (float_make_spec (fun x => binary64 (ln x / ln 2)) bad_pmf 1 ltac:(cbn; lia) ltac:(lia)
    ltac:(unfold bad_pmf; apply Forall_app; split; [apply Forall_forall; intros y Hy; apply repeat_spec in Hy; subst y; apply range_pos, q16_range|constructor; [apply range_pos, tiny_range|constructor]]))).
  cbn [float_products]. unfold bad_pmf. rewrite map_app. cbn [map repeat]. rewrite q16_length.
  rewrite (float_length_exact _ 53 _ correctly_rounded_log2_like tiny_range (dyadic_clear 53 ltac:(lia)) (dyadic_ideal 53 ltac:(lia))).
  unfold rsum. cbn [map app fold_right]. assert (0 < / 2 ^ 53) by (apply Rinv_0_lt_compat, pow_lt; lra). lra.
Qed.
