(** The logarithms of probabilities in double precision. *)
Set Warnings "-ambiguous-paths".
From Coq Require Import Reals Lra Permutation.
From Flocq Require Import Core.
From Coquelicot Require Import Complex.
From Verif Require Import Common Float_Model FloatFano_Proof FloatViterbi_Spec FloatViterbi_Proof FloatShannon_Proof FloatConst_Proof FloatSoft_Model FloatSoft_Proof FloatPhase_Proof FloatPhase_Search Info_Model FloatRate_Model FloatRate_Spec FloatRate_Proof.
From Verif Require Info_Sums.
Local Open Scope R_scope.

Lemma U_50 : / 2 ^ 50 = 8 * U.
Proof. unfold U. change 53%nat with (50 + 3)%nat. rewrite inv_pow_add. replace (/ 2 ^ 3) with (/ 8) by (f_equal; lra). lra. Qed.
Lemma U_51' : / 2 ^ 51 = 4 * U.
Proof. unfold U. change 53%nat with (51 + 2)%nat. rewrite inv_pow_add. replace (/ 2 ^ 2) with (/ 4) by (f_equal; lra). lra. Qed.
Lemma U_52' : / 2 ^ 52 = 2 * U.
Proof. unfold U. change 53%nat with (52 + 1)%nat. rewrite inv_pow_add. replace (/ 2 ^ 1) with (/ 2) by (f_equal; lra). lra. Qed.
Lemma eta_1073 : / 2 ^ 1073 = 4 * eta.
Proof. unfold eta. change 1075%nat with (1073 + 2)%nat. rewrite inv_pow_add. replace (/ 2 ^ 2) with (/ 4) by (f_equal; lra). lra. Qed.
Lemma eta_1074 : / 2 ^ 1074 = 2 * eta.
Proof. unfold eta. change 1075%nat with (1074 + 1)%nat. rewrite inv_pow_add. replace (/ 2 ^ 1) with (/ 2) by (f_equal; lra). lra. Qed.
Lemma ln_nonneg x : 1 <= x -> 0 <= ln x.
Proof. intros H. rewrite <- ln_1. destruct H as [H| <-]; [left; apply ln_increasing; lra|lra]. Qed.

Lemma inv_ge1 p : 0 < p -> p <= 1 -> 1 <= 1 / p.
Proof. intros P0 P1. apply Rmult_le_reg_r with p; [exact P0|]. replace (1 / p * p) with 1 by (field; lra). lra. Qed.
Lemma base_above b : log_base_above_1 b -> 1 < base_of b.
Proof. destruct b as [|v]; cbn; [intros _; pose proof (exp_ineq1 1); lra|tauto]. Qed.
Section Logs.
Variables (clog clog2 : R -> R) (HL : accurate_logs clog clog2).
Lemma float_log_near b x : log_base_above_1 b -> double x -> 1 <= x ->
  0 <= float_log clog clog2 b x /\ Rabs (float_log clog clog2 b x - ln x / ln (base_of b)) <= 32 * U * (ln x / ln (base_of b)) + eta.
Proof.
  intros Hb' Dx Hx. pose proof (base_above b Hb') as Hb. destruct HL as (L1 & L2 & _). pose proof U_small as [U0 U1]. pose proof eta_pos as E0. pose proof (ln_nonneg x Hx) as X0. rewrite U_50 in L1, L2.
  assert (V0 : 0 < ln (base_of b)) by (rewrite <- ln_1; apply ln_increasing; lra). set (Q := ln x / ln (base_of b)). assert (Q0 : 0 <= Q) by (apply Rmult_le_pos; [lra|left; apply Rinv_0_lt_compat; lra]). assert (UQ : 0 <= U * Q) by (apply Rmult_le_pos; lra).
  destruct b as [|v]; cbn [float_log base_of log_base_above_1] in *.
  - specialize (L1 x Dx Hx). unfold Q in *. rewrite ln_exp in *. replace (ln x / 1) with (ln x) in * by field. apply Rabs_le_inv in L1. assert (0 <= U * ln x) by (apply Rmult_le_pos; lra). assert (U * ln x <= / 1000000 * ln x) by (apply Rmult_le_compat_r; lra). split; [lra|apply Rabs_le; lra].
  - destruct (Req_EM_T v 2) as [->|Nv].
    + specialize (L2 x Dx Hx). fold Q in L2. apply Rabs_le_inv in L2. assert (U * Q <= / 1000000 * Q) by (apply Rmult_le_compat_r; lra). split; [lra|apply Rabs_le; lra].
    + pose proof (L1 x Dx Hx) as Lx. pose proof (L1 v (proj1 Hb') ltac:(lra)) as Lv. set (X := ln x) in *. set (V := ln v) in *. apply Rabs_le_inv in Lx. apply Rabs_le_inv in Lv. set (r := clog x / clog v).
      assert (UV : 0 <= U * V) by (apply Rmult_le_pos; lra). assert (U * V <= / 1000000 * V) by (apply Rmult_le_compat_r; lra). assert (UX : 0 <= U * X) by (apply Rmult_le_pos; lra). assert (U * X <= / 1000000 * X) by (apply Rmult_le_compat_r; lra).
      assert (CV : 0 < clog v) by lra. assert (EX : X = Q * V) by (unfold Q; field; lra). assert (Er : r * clog v = clog x) by (unfold r; field; lra).
      assert (R0 : 0 <= r) by (apply Rmult_le_pos; [lra|left; apply Rinv_0_lt_compat; lra]).
      assert (UU : U * (U * (Q * V)) <= / 1000000 * (U * (Q * V))) by (apply Rmult_le_compat_r; [rewrite <- EX; lra|lra]). assert (QV0 : 0 <= U * (Q * V)) by (rewrite <- EX; lra). assert (UUp : 0 <= U * (U * (Q * V))) by (apply Rmult_le_pos; lra).
      assert (Up : r <= (1 + 24 * U) * Q).
      { apply Rmult_le_reg_r with (clog v); [exact CV|]. rewrite Er. apply Rle_trans with ((1 + 24 * U) * Q * ((1 - 8 * U) * V)); [|apply Rmult_le_compat_l; [apply Rmult_le_pos; lra|lra]]. rewrite EX in *. lra. }
      assert (Lo : (1 - 24 * U) * Q <= r).
      { apply Rmult_le_reg_r with (clog v); [exact CV|]. rewrite Er. apply Rle_trans with ((1 - 24 * U) * Q * ((1 + 8 * U) * V)); [apply Rmult_le_compat_l; [apply Rmult_le_pos; lra|lra]|]. rewrite EX in *. lra. }
      pose proof (b64_pos r R0) as B. split; [now apply b64_nonneg|]. assert (U * r <= U * ((1 + 24 * U) * Q)) by (apply Rmult_le_compat_l; lra). assert (U * (U * Q) <= / 1000000 * (U * Q)) by (apply Rmult_le_compat_r; lra). apply Rabs_le. lra.
Qed.
Lemma recip_near p : / 2 ^ 1000 <= p <= 1 -> 1 <= binary64 (1 / p) /\ Rabs (ln (binary64 (1 / p)) - ln (1 / p)) <= 2 * U.
Proof.
  intros [P0 P1]. pose proof U_small as [U0 U1]. pose proof (inv_pow_pos 1000). assert (P : 0 < p) by lra. pose proof (inv_ge1 p P P1) as Q1.
  assert (B1 : binary64 1 = 1) by exact (binary64_pow 0). split; [rewrite <- B1 at 1; now apply binary64_mono|].
  assert (S : / 2 ^ 1003 <= 1 / p) by (pose proof (pow_small 0 1003 ltac:(lia)) as W; cbn [pow] in W; lra). destruct (b64_err (1 / p) (or_intror S)) as [E1 E2]. set (q := 1 / p) in *.
  apply Rabs_le. split.
  - assert (L : ln (1 - U) + ln q <= ln (binary64 q)) by (rewrite <- (ln_mult (1 - U) q) by lra; apply Rcomplements.ln_le; [apply Rmult_lt_0_compat; lra|lra]).
    assert (M : - (2 * U) <= ln (1 - U)). { pose proof (Info_Sums.ln_le_sub (/ (1 - U)) ltac:(apply Rinv_0_lt_compat; lra)) as M. rewrite ln_Rinv in M by lra. assert (/ (1 - U) <= 1 + 2 * U); [|lra]. apply Rmult_le_reg_r with (1 - U); [lra|]. rewrite Rinv_l by lra. nra. }
    lra.
  - assert (L : ln (binary64 q) <= ln (1 + U) + ln q) by (rewrite <- (ln_mult (1 + U) q) by lra; apply Rcomplements.ln_le; [|lra]; assert (0 < (1 - U) * q) by (apply Rmult_lt_0_compat; lra); lra).
    pose proof (Info_Sums.ln_le_sub (1 + U) ltac:(lra)). lra.
Qed.
Lemma terms_near b ps : log_base_above_1 b -> Forall (fun p => / 2 ^ 1000 <= p <= 1) ps ->
  let l := combine ps (map (fun p => float_log clog clog2 b (binary64 (1 / p))) ps) in
  length l = length ps /\ Forall (fun ab => 0 <= fst ab * snd ab) l /\ 0 <= total ps /\ 0 <= total (map (fun p => p * ln (1 / p)) ps) /\
  Rabs (pairs l - total (map (fun p => p * ln (1 / p)) ps) / ln (base_of b)) <= 32 * U * (total (map (fun p => p * ln (1 / p)) ps) / ln (base_of b)) + 3 * U * (total ps / ln (base_of b)) + INR (length ps) * eta.
Proof.
  intros Hb. pose proof (base_above b Hb) as Hb1. pose proof U_small as [U0 U1]. pose proof eta_pos as E0. assert (V0 : 0 < ln (base_of b)) by (rewrite <- ln_1; apply ln_increasing; lra). set (V := ln (base_of b)) in *.
  induction ps as [|p ps IH]; intros F.
  - unfold pairs, total, Rdiv. cbn. rewrite !Rmult_0_l, Rminus_0_r, Rabs_R0. repeat split; try constructor; lra.
  - pose proof (Forall_inv F) as P. destruct (IH (Forall_inv_tail F)) as (L & N & S0 & T0 & E). clear IH. cbn [map combine length]. rewrite S_INR. set (t := float_log clog clog2 b (binary64 (1 / p))) in *. set (l := combine ps _) in *.
    unfold pairs, total in *. cbn [map fold_right fst snd]. set (A := fold_right Rplus 0 (map (fun ab => fst ab * snd ab) l)) in *. set (T := fold_right Rplus 0 (map (fun p => p * ln (1 / p)) ps)) in *. set (S := fold_right Rplus 0 ps) in *.
    destruct (recip_near p P) as [Q1 Q2]. destruct (float_log_near b _ Hb (b64_format _) Q1) as [T1 T2]. fold t V in T1, T2. set (lq := ln (binary64 (1 / p))) in *. assert (P0 : 0 < p) by (pose proof (inv_pow_pos 1000); lra).
    assert (X0 : 0 <= ln (1 / p)). { apply ln_nonneg, inv_ge1; [exact P0|lra]. } set (X := ln (1 / p)) in *.
    assert (I0 : 0 < / V) by (apply Rinv_0_lt_compat; lra). unfold Rdiv in *. set (i := / V) in *.
    split; [lia|]. split; [constructor; [apply Rmult_le_pos; cbn; lra|exact N]|]. split; [lra|]. split; [assert (0 <= p * X) by (apply Rmult_le_pos; lra); lra|].
    assert (D : Rabs (t - X * i) <= 32 * U * (X * i) + 3 * U * i + eta).
    { replace (t - X * i) with ((t - lq * i) + (lq - X) * i) by ring. eapply Rle_trans; [apply Rabs_triang|]. rewrite (Rabs_mult (lq - X)), (Rabs_pos_eq i) by lra. assert (Rabs (lq - X) * i <= 2 * U * i) by (apply Rmult_le_compat_r; lra).
      apply Rabs_le_inv in Q2. assert (lq * i <= (X + 2 * U) * i) by (apply Rmult_le_compat_r; lra). assert (32 * U * (lq * i) <= 32 * U * ((X + 2 * U) * i)) by (apply Rmult_le_compat_l; lra). assert (U * (U * i) <= / 1000000 * (U * i)) by (apply Rmult_le_compat_r; [apply Rmult_le_pos; lra|lra]). assert (0 <= U * i) by (apply Rmult_le_pos; lra). lra. }
    replace (p * t + A - (p * X + T) * i) with (p * (t - X * i) + (A - T * i)) by ring. eapply Rle_trans; [apply Rabs_triang|]. rewrite Rabs_mult, (Rabs_pos_eq p) by lra.
    assert (p * Rabs (t - X * i) <= p * (32 * U * (X * i) + 3 * U * i + eta)) by (apply Rmult_le_compat_l; lra). assert (p * eta <= 1 * eta) by (apply Rmult_le_compat_r; lra). lra.
Qed.
End Logs.
