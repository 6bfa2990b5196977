(** C120: binary entropy in double precision. *)
Set Warnings "-ambiguous-paths".
From Coq Require Import Reals Lra Permutation.
From Flocq Require Import Core.
From Coquelicot Require Import Complex.
From Verif Require Import Common Float_Model FloatFano_Proof FloatViterbi_Spec FloatViterbi_Proof FloatShannon_Proof FloatConst_Proof FloatSoft_Model FloatSoft_Proof FloatPhase_Proof FloatPhase_Search Info_Model FloatRate_Model FloatRate_Spec FloatRate_Proof FloatRate_Entropy FloatRate_Divergence Props_FloatRate Props_FloatDivergence.
From Verif Require Info_Sums.
Local Open Scope R_scope.

Lemma double_1 : double 1.
Proof. change 1 with (bpow radix2 0); apply generic_format_FLT_bpow; [red; lia|lia]. Qed.
Lemma below_one y : double y -> y < 1 -> y <= 1 - / 2 ^ 53.
Proof.
  intros Dy Y. assert (A : y <= pred radix2 (FLT_exp (-1074) 53) 1) by (apply pred_ge_gt; [apply FLT_exp_valid; unfold Prec_gt_0; lia|exact Dy|exact double_1|lra]).
  change 1 with (bpow radix2 0) in A. rewrite pred_bpow in A by (apply FLT_exp_valid; unfold Prec_gt_0; lia). change (FLT_exp (-1074) 53 0) with (- Z.of_nat 53)%Z in A. rewrite bpow_neg in A. exact A.
Qed.
(* x log2 (1/x) with an accurate logarithm and a rounded product *)
Lemma binary_term clog2 x : accurate_log2 clog2 -> double x -> 0 < x <= 1 ->
  0 <= ln (1 / x) / ln 2 /\ clog2 x <= 0 /\ Rabs (- (x * clog2 x) - x * (ln (1 / x) / ln 2)) <= 8 * U * (x * (ln (1 / x) / ln 2)).
Proof.
  intros HL Dx [X0 X1]. pose proof U_small as [U0 U1]. specialize (HL x Dx X0). rewrite U_50 in HL. assert (L2 : 0 < ln 2) by (rewrite <- ln_1; apply ln_increasing; lra).
  pose proof (ln_nonneg (1 / x) (inv_ge1 x X0 X1)) as Y. assert (E : ln x / ln 2 = - (ln (1 / x) / ln 2)). { unfold Rdiv at 3. rewrite Rmult_1_l, ln_Rinv by lra. field. lra. } rewrite E in HL. set (l := ln (1 / x) / ln 2) in *.
  assert (l0 : 0 <= l) by (apply Rmult_le_pos; [exact Y|left; apply Rinv_0_lt_compat; lra]). rewrite Rabs_Ropp, (Rabs_pos_eq l l0) in HL. split; [exact l0|]. pose proof HL as HL'. apply Rabs_le_inv in HL'. assert (0 <= U * l) by (apply Rmult_le_pos; lra). assert (U * l <= / 1000000 * l) by (apply Rmult_le_compat_r; lra). split; [lra|].
  replace (- (x * clog2 x) - x * l) with (x * - (clog2 x - - l)) by ring. rewrite Rabs_mult, Rabs_Ropp, (Rabs_pos_eq x) by lra. replace (8 * U * (x * l)) with (x * (8 * U * l)) by ring. apply Rmult_le_compat_l; lra.
Qed.
(* For every double p in [0, 1]: never negative, relative error 2^-49 and absolute error 2^-50. *)
Theorem C120_binary_entropy : forall clog2 p, accurate_log2 clog2 -> double p -> 0 <= p <= 1 ->
  0 <= float_binary_entropy clog2 p /\ Rabs (float_binary_entropy clog2 p - binary_entropy_bits p) <= / 2 ^ 49 * binary_entropy_bits p + / 2 ^ 50.
Proof.
  intros clog2 p HL Dp [P0 P1]. pose proof U_small as [U0 U1]. pose proof eta_pos as E0. assert (L2 : 0 < ln 2) by (rewrite <- ln_1; apply ln_increasing; lra). assert (L2' : / 2 <= ln 2). { pose proof (Info_Sums.ln_le_sub (/ 2) ltac:(lra)) as L. rewrite ln_Rinv in L by lra. lra. }
  pose proof (inv_pow_pos 49) as I49. pose proof (inv_pow_pos 50) as I50. unfold float_binary_entropy, binary_entropy_bits.
  destruct (Req_EM_T p 0) as [->|N0]. { destruct (Rlt_dec 0 0); [lra|]. destruct (Rlt_dec 0 1); [|lra]. rewrite Rminus_0_r. replace (1 / 1) with 1 by field. rewrite ln_1. unfold Rdiv. rewrite Rmult_0_l, Rmult_0_r, Rplus_0_r, Rminus_0_r, Rabs_R0. lra. }
  destruct (Req_EM_T p 1) as [->|N1]. { destruct (Rlt_dec 0 1); [|lra]. destruct (Rlt_dec 1 1); [lra|]. replace (1 / 1) with 1 by field. rewrite ln_1. unfold Rdiv. rewrite Rmult_0_l, Rmult_0_r, Rplus_0_r, Rminus_0_r, Rabs_R0. lra. }
  destruct (Rlt_dec 0 p); [|lra]. destruct (Rlt_dec p 1); [|lra]. pose proof (below_one p Dp ltac:(lra)) as Bp. set (x := 1 - p) in *. set (q := binary64 x) in *.
  assert (B1 : binary64 1 = 1) by exact (binary64_pow 0). pose proof (inv_pow_pos 53) as I53. pose proof (pow_small 53 1003 ltac:(lia)) as I1003.
  assert (X0 : / 2 ^ 53 <= x) by (unfold x; lra). destruct (b64_err x (or_intror (Rle_trans _ _ _ I1003 X0))) as [Q1 Q2]. fold q in Q1, Q2. destruct (quotient_near x (Rle_trans _ _ _ I1003 X0)) as [Q0 Q3]. fold q in Q0, Q3. assert (Q4 : q <= 1) by (unfold q; rewrite <- B1; apply binary64_mono; unfold x; lra).
  destruct (binary_term clog2 p HL Dp ltac:(lra)) as (F0 & C0 & F1). destruct (binary_term clog2 q HL (b64_format _) ltac:(lra)) as (G0 & D0 & G1).
  (* the rounded 1 - p *)
  assert (R : Rabs (q * (ln (1 / q) / ln 2) - x * (ln (1 / x) / ln 2)) <= 2 * U * (x * (ln (1 / x) / ln 2)) + 5 * U /\ 0 <= x * (ln (1 / x) / ln 2)).
  { assert (Y : 0 <= ln (1 / x)) by (apply ln_nonneg, inv_ge1; unfold x in *; lra). assert (Eq : ln (1 / q) = ln (1 / x) - (ln q - ln x)) by (unfold Rdiv; rewrite !Rmult_1_l, !ln_Rinv by lra; ring). rewrite Eq. set (l := ln (1 / x)) in *. set (d := ln q - ln x) in *. set (i := / ln 2). assert (i0 : 0 < i) by (apply Rinv_0_lt_compat; lra).
    assert (i2 : i <= 2) by (unfold i; apply Rle_trans with (/ / 2); [apply Rinv_le_contravar; lra|rewrite Rinv_inv; lra]). unfold Rdiv. fold i. assert (li : 0 <= l * i) by (apply Rmult_le_pos; lra). assert (xl : 0 <= x * (l * i)) by (apply Rmult_le_pos; lra). split; [|exact xl].
    replace (q * ((l - d) * i) - x * (l * i)) with ((q - x) * (l * i) - q * (d * i)) by ring. unfold Rminus at 1. eapply Rle_trans; [apply Rabs_triang|]. rewrite Rabs_Ropp, !Rabs_mult, (Rabs_pos_eq q), (Rabs_pos_eq l), (Rabs_pos_eq i) by lra.
    assert (Rabs (q - x) <= U * x) by (apply Rabs_le; lra). assert (Rabs (q - x) * (l * i) <= U * x * (l * i)) by (apply Rmult_le_compat_r; lra). pose proof (Rabs_pos d). assert (Rabs d * i <= 2 * U * 2) by (apply Rmult_le_compat; lra). assert (0 <= Rabs d * i) by (apply Rmult_le_pos; lra). assert (q * (Rabs d * i) <= 1 * (2 * U * 2)) by (apply Rmult_le_compat; lra). assert (0 <= U * (x * (l * i))) by (apply Rmult_le_pos; lra). lra. }
  destruct R as [R Fx0]. set (f := p * (ln (1 / p) / ln 2)) in *. set (g := q * (ln (1 / q) / ln 2)) in *. set (h := x * (ln (1 / x) / ln 2)) in *.
  assert (f0 : 0 <= f) by (apply Rmult_le_pos; lra). assert (g0 : 0 <= g) by (apply Rmult_le_pos; lra).
  replace (- p * clog2 p) with (- (p * clog2 p)) in * by ring. set (y := - (p * clog2 p)) in *. assert (y0 : 0 <= y). { unfold y. assert (0 <= p * - clog2 p) by (apply Rmult_le_pos; lra). lra. }
  set (z := q * clog2 q) in *. assert (z0 : z <= 0). { unfold z. assert (0 <= q * - clog2 q) by (apply Rmult_le_pos; lra). lra. }
  set (t1 := binary64 y). set (t2 := binary64 z). assert (T1 : 0 <= t1) by (apply b64_nonneg, y0). assert (T2 : t2 <= 0) by (unfold t2; rewrite <- b64_0; apply binary64_mono, z0).
  pose proof (b64_near y) as N1'. pose proof (b64_near z) as N2'. fold eta t1 t2 in N1', N2'. rewrite (Rabs_pos_eq y y0) in N1'. rewrite <- Rabs_Ropp with (x := z) in N2' at 1. rewrite (Rabs_pos_eq (- z)) in N2' by lra.
  split; [apply b64_nonneg; lra|]. pose proof (b64_near (t1 - t2)) as N3. fold eta in N3. rewrite (Rabs_pos_eq (t1 - t2)) in N3 by lra. set (v := binary64 (t1 - t2)) in *.
  replace (/ 2 ^ 49) with (16 * U) by (pose proof U_50; change 50%nat with (49 + 1)%nat in *; rewrite inv_pow_add in *; lra). rewrite U_50.
  assert (EU : eta <= / 1000000 * U). { pose proof (pow_small 100 1075 ltac:(lia)). assert (/ 2 ^ 100 <= / 1000000 * / 2 ^ 53); [|unfold eta, U; lra]. change 100%nat with (47 + 53)%nat. rewrite inv_pow_add. apply Rmult_le_compat_r; lra. }
  apply Rabs_le_inv in F1. apply Rabs_le_inv in G1. apply Rabs_le_inv in R. apply Rabs_le_inv in N1'. apply Rabs_le_inv in N2'. apply Rabs_le_inv in N3.
  assert (Uf : 0 <= U * f) by (apply Rmult_le_pos; lra). assert (Uh : 0 <= U * h) by (apply Rmult_le_pos; lra). assert (UUf : 0 <= U * (U * f) <= / 1000000 * (U * f)) by (split; [apply Rmult_le_pos; lra|apply Rmult_le_compat_r; lra]). assert (UUh : 0 <= U * (U * h) <= / 1000000 * (U * h)) by (split; [apply Rmult_le_pos; lra|apply Rmult_le_compat_r; lra]). assert (UU : 0 <= U * U <= / 1000000 * U) by (split; [apply Rmult_le_pos; lra|apply Rmult_le_compat_r; lra]).
  assert (Ug : 0 <= U * g <= U * (h + 2 * U * h + 5 * U)) by (split; [apply Rmult_le_pos; lra|apply Rmult_le_compat_l; lra]).
  assert (Uy : U * y <= U * (f + 8 * U * f)) by (apply Rmult_le_compat_l; lra). assert (Uz : U * - z <= U * (g + 8 * U * g)) by (apply Rmult_le_compat_l; lra).
  assert (UUg : 0 <= U * (U * g) <= / 1000000 * (U * g)) by (split; [apply Rmult_le_pos; lra|apply Rmult_le_compat_r; lra]).
  assert (T1' : t1 <= f + 10 * (U * f) + eta) by lra. assert (T2' : - t2 <= h + 13 * (U * h) + 6 * U) by lra.
  assert (Ut : U * (t1 - t2) <= U * (f + 10 * (U * f) + eta + (h + 13 * (U * h) + 6 * U))) by (apply Rmult_le_compat_l; lra). assert (Ue : 0 <= U * eta <= / 1000000 * eta) by (split; [apply Rmult_le_pos; lra|apply Rmult_le_compat_r; lra]).
  apply Rabs_le. lra.
Qed.
(* Exactly 0 at 0 and 1, and exactly 1 at 1/2 if the logarithm of 1/2 is exact. *)
Theorem C120_binary_entropy_exact : forall clog2, float_binary_entropy clog2 0 = 0 /\ float_binary_entropy clog2 1 = 0 /\ (clog2 (/ 2) = -1 -> float_binary_entropy clog2 (/ 2) = 1).
Proof.
  intros clog2. unfold float_binary_entropy. destruct (Req_EM_T 0 0); [|lra]. destruct (Req_EM_T 1 0); [lra|]. destruct (Req_EM_T 1 1); [|lra]. destruct (Req_EM_T (/ 2) 0); [lra|]. destruct (Req_EM_T (/ 2) 1); [lra|]. repeat split. intros H.
  replace (1 - / 2) with (/ 2) by lra. assert (BH : binary64 (/ 2) = / 2) by (change (/ 2) with (bpow radix2 (-1)); apply binary64_bpow; lia). rewrite BH, H. replace (- / 2 * -1) with (/ 2) by lra. replace (/ 2 * -1) with (- / 2) by lra.
  assert (BN : binary64 (- / 2) = - / 2) by (apply binary64_id, generic_format_opp; rewrite <- BH; apply b64_format). rewrite BH, BN. replace (/ 2 - - / 2) with 1 by lra. exact (binary64_pow 0).
Qed.
Theorem C120_binary_entropy_satisfiable : exists clog2, accurate_log2 clog2 /\ clog2 (/ 2) = -1 /\ double (/ 2) /\ binary_entropy_bits (/ 2) = 1 /\ float_binary_entropy clog2 (/ 2) = 1.
Proof.
  exists (fun x => binary64 (ln x / ln 2)). assert (BH : binary64 (/ 2) = / 2) by (change (/ 2) with (bpow radix2 (-1)); apply binary64_bpow; lia). assert (L2 : 0 < ln 2) by (rewrite <- ln_1; apply ln_increasing; lra).
  assert (E : binary64 (ln (/ 2) / ln 2) = -1). { rewrite ln_Rinv by lra. replace (- ln 2 / ln 2) with (-1) by (field; lra). apply binary64_id. replace (-1) with (- (1)) by ring. apply generic_format_opp, double_1. }
  split; [exact (proj2 C120_rounded_logs)|]. split; [exact E|]. split; [rewrite <- BH; apply b64_format|]. split; [|apply C120_binary_entropy_exact, E].
  unfold binary_entropy_bits. destruct (Rlt_dec 0 (/ 2)); [|lra]. destruct (Rlt_dec (/ 2) 1); [|lra]. replace (1 / / 2) with 2 by field. replace (1 / (1 - / 2)) with 2 by field. field. lra.
Qed.
