(** Rounded dot products of terms of either sign, and logarithms of quotients. *)
Set Warnings "-ambiguous-paths".
From Coq Require Import Reals Lra Permutation.
From Flocq Require Import Core.
From Coquelicot Require Import Complex.
From Verif Require Import Common Float_Model FloatFano_Proof FloatViterbi_Spec FloatViterbi_Proof FloatShannon_Proof FloatConst_Proof FloatSoft_Model FloatSoft_Proof FloatPhase_Proof FloatPhase_Search Info_Model FloatRate_Model FloatRate_Spec FloatRate_Proof FloatRate_Entropy.
From Verif Require Info_Sums.
Local Open Scope R_scope.

Definition abs_pairs (l : list (R * R)) : R := total (map (fun ab => Rabs (fst ab * snd ab)) l).
Lemma abs_pairs_app a b : abs_pairs (a ++ b) = abs_pairs a + abs_pairs b.
Proof. unfold abs_pairs. now rewrite map_app, total_app. Qed.
Lemma abs_pairs_perm a b : Permutation a b -> abs_pairs a = abs_pairs b.
Proof. intros P. apply total_perm, Permutation_map, P. Qed.
Lemma abs_pairs_le l : Rabs (pairs l) <= abs_pairs l.
Proof.
  unfold pairs, abs_pairs, total. induction l as [|ab l IH]; cbn [map fold_right]; [rewrite Rabs_R0; lra|]. eapply Rle_trans; [apply Rabs_triang|lra].
Qed.
Lemma dot_signed l x : rounded_dot l x -> Rabs (x - pairs l) <= (1 + U) ^ length l * (abs_pairs l + INR (length l) * eta) - abs_pairs l.
Proof.
  pose proof U_small as [U0 U1]. pose proof eta_pos as E0. induction 1 as [|a b|a b l l' x S IH P|l1 l2 l x1 x2 S1 IH1 S2 IH2 P].
  - unfold pairs, abs_pairs, total. cbn. rewrite Rminus_0_r, Rabs_R0. lra.
  - pose proof (b64_near (a * b)) as B. fold eta in B. unfold pairs, abs_pairs, total. cbn. rewrite !Rmult_1_r, !Rplus_0_r. assert (0 <= U * eta) by (apply Rmult_le_pos; lra). lra.
  - rewrite <- (pairs_perm _ _ P), <- (abs_pairs_perm _ _ P), <- (Permutation_length P). cbn [length pow]. rewrite S_INR. replace (pairs ((a, b) :: l)) with (a * b + pairs l) by reflexivity. replace (abs_pairs ((a, b) :: l)) with (Rabs (a * b) + abs_pairs l) by reflexivity.
    set (n := length l) in *. pose proof (pow_ge1 n) as G1. pose proof (abs_pairs_le l) as AL. set (A := abs_pairs l) in *. pose proof (pos_INR n) as N0. pose proof (b64_near (x + a * b)) as B. fold eta in B. set (c := a * b) in *. pose proof (Rabs_pos c) as C0.
    assert (X : Rabs x <= (1 + U) ^ n * (A + INR n * eta)). { replace x with ((x - pairs l) + pairs l) by ring. eapply Rle_trans; [apply Rabs_triang|lra]. }
    set (G := (1 + U) ^ n) in *. set (W := G * (A + INR n * eta)) in *. pose proof (Rabs_triang x c) as T.
    replace (binary64 (x + c) - (c + pairs l)) with ((binary64 (x + c) - (x + c)) + (x - pairs l)) by ring. eapply Rle_trans; [apply Rabs_triang|].
    assert (U * Rabs (x + c) <= U * (W + Rabs c)) by (apply Rmult_le_compat_l; lra). assert (E : 1 <= (1 + U) * G) by nra. assert (1 * eta <= (1 + U) * G * eta) by (apply Rmult_le_compat_r; lra).
    assert ((1 + U) * 1 * Rabs c <= (1 + U) * G * Rabs c) by (apply Rmult_le_compat_r; [lra|apply Rmult_le_compat_l; lra]).
    replace ((1 + U) * G * (Rabs c + A + (INR n + 1) * eta) - (Rabs c + A)) with ((1 + U) * W + (1 + U) * G * Rabs c + (1 + U) * G * eta - (Rabs c + A)) by (unfold W; ring). lra.
  - rewrite <- (pairs_perm _ _ P), <- (abs_pairs_perm _ _ P), pairs_app, abs_pairs_app, <- (Permutation_length P), app_length, plus_INR, pow_add.
    assert (Z : forall l' y, rounded_dot l' y -> length l' = 0%nat -> y = 0 /\ pairs l' = 0 /\ abs_pairs l' = 0).
    { clear. intros l' y H. induction H as [|a b|a b l l' x S IH P|l1 l2 l x1 x2 S1 IH1 S2 IH2 P]; intros L; [repeat split; reflexivity|discriminate| |].
      - rewrite <- (Permutation_length P) in L. discriminate.
      - rewrite <- (Permutation_length P), app_length in L. destruct (IH1 ltac:(lia)) as (-> & E1 & F1). destruct (IH2 ltac:(lia)) as (-> & E2 & F2). rewrite <- (pairs_perm _ _ P), <- (abs_pairs_perm _ _ P), pairs_app, abs_pairs_app, E1, E2, F1, F2, Rplus_0_r. split; [apply b64_0|split; reflexivity]. }
    destruct (Nat.eq_dec (length l1) 0) as [L1|L1].
    { destruct (Z _ _ S1 L1) as (-> & Q1 & Q1'). rewrite Q1, Q1', L1. cbn [pow INR]. rewrite ?Rplus_0_l, ?Rmult_1_l. rewrite binary64_id by (eapply dot_format; eauto). exact IH2. }
    destruct (Nat.eq_dec (length l2) 0) as [L2|L2].
    { destruct (Z _ _ S2 L2) as (-> & Q2 & Q2'). rewrite Q2, Q2', L2. cbn [pow INR]. rewrite ?Rplus_0_r, ?Rmult_1_r. rewrite binary64_id by (eapply dot_format; eauto). exact IH1. }
    destruct (plus_error x1 x2 (dot_format _ _ S1) (dot_format _ _ S2)) as [_ E]. fold U in E.
    pose proof (abs_pairs_le l1) as AL1. pose proof (abs_pairs_le l2) as AL2. pose proof (Rabs_pos (pairs l1)). pose proof (Rabs_pos (pairs l2)).
    set (n := length l1) in *. set (m := length l2) in *. pose proof (pos_INR n) as N0. pose proof (pos_INR m) as M0.
    assert (Nn : 0 <= INR n * eta) by (apply Rmult_le_pos; lra). assert (Nm : 0 <= INR m * eta) by (apply Rmult_le_pos; lra).
    assert (Qn : 1 + U <= (1 + U) ^ n). { destruct n as [|n']; [lia|]. cbn [pow]. pose proof (pow_ge1 n'). nra. }
    assert (Qm : 1 + U <= (1 + U) ^ m). { destruct m as [|m']; [lia|]. cbn [pow]. pose proof (pow_ge1 m'). nra. }
    set (G := (1 + U) ^ n) in *. set (H' := (1 + U) ^ m) in *. set (A := abs_pairs l1) in *. set (B := abs_pairs l2) in *. set (W1 := A + INR n * eta) in *. set (W2 := B + INR m * eta) in *.
    assert (X1 : Rabs x1 <= G * W1). { replace x1 with ((x1 - pairs l1) + pairs l1) by ring. eapply Rle_trans; [apply Rabs_triang|lra]. }
    assert (X2 : Rabs x2 <= H' * W2). { replace x2 with ((x2 - pairs l2) + pairs l2) by ring. eapply Rle_trans; [apply Rabs_triang|lra]. }
    pose proof (Rabs_triang x1 x2). assert (U * Rabs (x1 + x2) <= U * (G * W1 + H' * W2)) by (apply Rmult_le_compat_l; lra).
    assert (V1 : (1 + U) * (G * W1) <= H' * (G * W1)) by (apply Rmult_le_compat_r; [apply Rmult_le_pos; unfold W1; lra|lra]). assert (V2 : (1 + U) * (H' * W2) <= G * (H' * W2)) by (apply Rmult_le_compat_r; [apply Rmult_le_pos; unfold W2; lra|lra]).
    replace (binary64 (x1 + x2) - (pairs l1 + pairs l2)) with ((binary64 (x1 + x2) - (x1 + x2)) + ((x1 - pairs l1) + (x2 - pairs l2))) by ring. eapply Rle_trans; [apply Rabs_triang|]. pose proof (Rabs_triang (x1 - pairs l1) (x2 - pairs l2)).
    replace (G * H' * (A + B + (INR n + INR m) * eta) - (A + B)) with (H' * (G * W1) + G * (H' * W2) - (A + B)) by (unfold W1, W2; ring). lra.
Qed.
Lemma dot_signed_near l x : rounded_dot l x -> INR (length l) <= 2 ^ 48 -> Rabs (x - pairs l) <= 2 * INR (length l) * U * abs_pairs l + 2 * INR (length l) * eta.
Proof.
  intros H HN. pose proof U_small as [U0 U1]. pose proof eta_pos as E0. pose proof (dot_signed l x H) as X. pose proof (abs_pairs_le l) as A0. pose proof (Rabs_pos (pairs l)). set (n := INR (length l)) in *. assert (N0 : 0 <= n) by apply pos_INR.
  assert (NU : n * U <= / 32). { apply Rle_trans with (2 ^ 48 * U); [apply Rmult_le_compat_r; lra|]. rewrite U_val. lra. }
  pose proof (pow_up (length l) ltac:(fold n; lra)) as P1. fold n in P1. set (A := abs_pairs l) in *. assert (NE : 0 <= n * eta) by (apply Rmult_le_pos; lra).
  assert ((1 + U) ^ length l * (A + n * eta) <= (1 + 2 * n * U) * (A + n * eta)) by (apply Rmult_le_compat_r; lra). assert (2 * (n * U) * (n * eta) <= n * eta) by nra. lra.
Qed.
Section Logs.
Variables (clog clog2 : R -> R) (HL : accurate_logs_everywhere clog clog2).
Lemma float_log_signed b x : log_base_above_1 b -> double x -> 0 < x ->
  Rabs (float_log clog clog2 b x - ln x / ln (base_of b)) <= 32 * U * Rabs (ln x / ln (base_of b)) + eta.
Proof.
  intros Hb' Dx Hx. pose proof (base_above b Hb') as Hb. destruct HL as (L1 & L2). pose proof U_small as [U0 U1]. pose proof eta_pos as E0. rewrite U_50 in L1, L2.
  assert (V0 : 0 < ln (base_of b)) by (rewrite <- ln_1; apply ln_increasing; lra). set (Q := ln x / ln (base_of b)). pose proof (Rabs_pos Q) as Q0. assert (UQ : 0 <= U * Rabs Q) by (apply Rmult_le_pos; lra).
  destruct b as [|v]; cbn [float_log base_of log_base_above_1] in *.
  - specialize (L1 x Dx Hx). assert (EQ : Q = ln x) by (unfold Q; rewrite ln_exp; field). rewrite EQ in *. lra.
  - destruct (Req_EM_T v 2) as [->|Nv]; [specialize (L2 x Dx Hx); fold Q in L2; lra|].
    pose proof (L1 x Dx Hx) as Lx. pose proof (L1 v (proj1 Hb') ltac:(lra)) as Lv. set (X := ln x) in *. set (V := ln v) in *. rewrite (Rabs_pos_eq V) in Lv by lra. set (r := clog x / clog v). pose proof Lv as Lv'. apply Rabs_le_inv in Lv'.
    assert (U * V <= / 1000000 * V) by (apply Rmult_le_compat_r; lra). assert (CV : 0 < clog v) by lra. assert (EX : X = Q * V) by (unfold Q; field; lra). assert (Er : r * clog v = clog x) by (unfold r; field; lra).
    assert (AX : Rabs X = Rabs Q * V) by (rewrite EX, Rabs_mult, (Rabs_pos_eq V); lra). rewrite AX in Lx.
    assert (UQV : 0 <= U * Rabs Q * V) by (apply Rmult_le_pos; lra).
    assert (D : Rabs (r - Q) <= 24 * U * Rabs Q).
    { apply Rmult_le_reg_r with (clog v); [exact CV|]. rewrite <- (Rabs_pos_eq (clog v)) at 1 by lra. rewrite <- Rabs_mult. replace ((r - Q) * clog v) with ((clog x - X) - Q * (clog v - V)) by (rewrite <- Er, EX; ring).
      eapply Rle_trans; [unfold Rminus at 1; apply Rabs_triang|]. rewrite Rabs_Ropp, Rabs_mult. assert (Rabs Q * Rabs (clog v - V) <= Rabs Q * (8 * U * V)) by (apply Rmult_le_compat_l; lra).
      apply Rle_trans with (16 * (U * Rabs Q * V)); [lra|]. apply Rle_trans with (24 * U * Rabs Q * ((1 - / 100) * V)); [lra|]. apply Rmult_le_compat_l; lra. }
    pose proof (b64_near r) as B. fold eta in B. assert (Rr : Rabs r <= (1 + 24 * U) * Rabs Q). { replace r with ((r - Q) + Q) by ring. eapply Rle_trans; [apply Rabs_triang|lra]. }
    assert (U * Rabs r <= U * ((1 + 24 * U) * Rabs Q)) by (apply Rmult_le_compat_l; lra). assert (U * (U * Rabs Q) <= / 1000000 * (U * Rabs Q)) by (apply Rmult_le_compat_r; lra).
    fold r. replace (binary64 r - Q) with ((binary64 r - r) + (r - Q)) by ring. eapply Rle_trans; [apply Rabs_triang|lra].
Qed.
Lemma quotient_near w : / 2 ^ 1003 <= w -> 0 < binary64 w /\ Rabs (ln (binary64 w) - ln w) <= 2 * U.
Proof.
  intros S. pose proof U_small as [U0 U1]. pose proof (inv_pow_pos 1003). assert (W0 : 0 < w) by lra.
  assert (S' : / 2 ^ 1003 <= w) by exact S. destruct (b64_err w (or_intror S')) as [E1 E2]. assert (P1 : 0 < (1 - U) * w) by (apply Rmult_lt_0_compat; lra). split; [lra|].
  apply Rabs_le. split.
  - assert (L : ln (1 - U) + ln w <= ln (binary64 w)) by (rewrite <- (ln_mult (1 - U) w) by lra; apply Rcomplements.ln_le; lra).
    assert (M : - (2 * U) <= ln (1 - U)). { pose proof (Info_Sums.ln_le_sub (/ (1 - U)) ltac:(apply Rinv_0_lt_compat; lra)) as M. rewrite ln_Rinv in M by lra. assert (/ (1 - U) <= 1 + 2 * U); [|lra]. apply Rmult_le_reg_r with (1 - U); [lra|]. rewrite Rinv_l by lra. nra. }
    lra.
  - assert (L : ln (binary64 w) <= ln (1 + U) + ln w) by (rewrite <- (ln_mult (1 + U) w) by lra; apply Rcomplements.ln_le; lra).
    pose proof (Info_Sums.ln_le_sub (1 + U) ltac:(lra)). lra.
Qed.
Lemma divergence_terms b (ps : list (R * R)) : log_base_above_1 b -> Forall (fun pq => 0 < fst pq <= 1 /\ / 2 ^ 1003 <= fst pq / snd pq) ps ->
  let l := combine (map fst ps) (map (fun pq => float_log clog clog2 b (binary64 (fst pq / snd pq))) ps) in
  let D := total (map (fun pq => fst pq * ln (fst pq / snd pq)) ps) in let A := total (map (fun pq => fst pq * Rabs (ln (fst pq / snd pq))) ps) in let S := total (map fst ps) in
  length l = length ps /\ 0 <= S /\ 0 <= A /\ Rabs (pairs l - D / ln (base_of b)) <= 32 * U * (A / ln (base_of b)) + 3 * U * (S / ln (base_of b)) + INR (length ps) * eta /\
  abs_pairs l <= (1 + 32 * U) * (A / ln (base_of b)) + 3 * U * (S / ln (base_of b)) + INR (length ps) * eta.
Proof.
  intros Hb. pose proof (base_above b Hb) as Hb1. pose proof U_small as [U0 U1]. pose proof eta_pos as E0. assert (V0 : 0 < ln (base_of b)) by (rewrite <- ln_1; apply ln_increasing; lra). set (V := ln (base_of b)) in *.
  assert (I0 : 0 < / V) by (apply Rinv_0_lt_compat; lra). unfold Rdiv at 5 6 7 8 9. set (i := / V) in *. cbv zeta.
  induction ps as [|[p q] ps IH]; intros F.
  - unfold pairs, abs_pairs, total. cbn. unfold Rdiv. rewrite ?Rmult_0_l, ?Rminus_0_r, ?Rabs_R0. repeat split; lra.
  - destruct (Forall_inv F) as [P W]. cbn [fst snd] in P, W. destruct (IH (Forall_inv_tail F)) as (L & S0 & A0 & E & E'). clear IH. cbn [map combine length fst snd]. rewrite S_INR. unfold Rdiv in *. set (w := p * / q) in *. set (t := float_log clog clog2 b (binary64 w)) in *. set (l := combine (map fst ps) _) in *.
    unfold pairs, abs_pairs, total in *. cbn [map fold_right fst snd]. set (B := fold_right Rplus 0 (map (fun ab => fst ab * snd ab) l)) in *. set (B' := fold_right Rplus 0 (map (fun ab => Rabs (fst ab * snd ab)) l)) in *. set (D := fold_right Rplus 0 (map (fun pq => fst pq * ln _) ps)) in *. set (A := fold_right Rplus 0 (map (fun pq => fst pq * Rabs _) ps)) in *. set (S := fold_right Rplus 0 (map fst ps)) in *.
    destruct (quotient_near w W) as [Q1 Q2]. pose proof (float_log_signed b _ Hb (b64_format w) Q1) as T2. fold t V in T2. set (lq := ln (binary64 w)) in *. set (X := ln w) in *. unfold Rdiv in T2. fold i in T2. pose proof (Rabs_pos X) as X0.
    assert (Rlq : Rabs (lq * i) <= (Rabs X + 2 * U) * i). { rewrite Rabs_mult, (Rabs_pos_eq i) by lra. apply Rmult_le_compat_r; [lra|]. replace lq with ((lq - X) + X) by ring. eapply Rle_trans; [apply Rabs_triang|lra]. }
    assert (Dt : Rabs (t - X * i) <= 32 * U * (Rabs X * i) + 3 * U * i + eta).
    { replace (t - X * i) with ((t - lq * i) + (lq - X) * i) by ring. eapply Rle_trans; [apply Rabs_triang|]. rewrite (Rabs_mult (lq - X)), (Rabs_pos_eq i) by lra. assert (Rabs (lq - X) * i <= 2 * U * i) by (apply Rmult_le_compat_r; lra).
      assert (32 * U * Rabs (lq * i) <= 32 * U * ((Rabs X + 2 * U) * i)) by (apply Rmult_le_compat_l; lra). assert (0 <= U * i) by (apply Rmult_le_pos; lra). assert (U * (U * i) <= / 1000000 * (U * i)) by (apply Rmult_le_compat_r; lra). lra. }
    assert (Pt : p * Rabs (t - X * i) <= p * (32 * U * (Rabs X * i) + 3 * U * i + eta)) by (apply Rmult_le_compat_l; lra). assert (p * eta <= 1 * eta) by (apply Rmult_le_compat_r; lra).
    split; [lia|]. split; [lra|]. split; [assert (0 <= p * Rabs X) by (apply Rmult_le_pos; lra); lra|]. split.
    + replace (p * t + B - (p * X + D) * i) with (p * (t - X * i) + (B - D * i)) by ring. eapply Rle_trans; [apply Rabs_triang|]. rewrite Rabs_mult, (Rabs_pos_eq p) by lra. lra.
    + assert (Rabs (p * t) <= p * (Rabs X * i) + p * Rabs (t - X * i)).
      { rewrite Rabs_mult, (Rabs_pos_eq p) by lra. rewrite <- Rmult_plus_distr_l. apply Rmult_le_compat_l; [lra|]. replace t with (X * i + (t - X * i)) at 1 by ring. eapply Rle_trans; [apply Rabs_triang|]. rewrite (Rabs_mult X), (Rabs_pos_eq i) by lra. lra. }
      lra.
Qed.
End Logs.
