(** C120: relative entropy in double precision. *)
Set Warnings "-ambiguous-paths".
From Coq Require Import Reals Lra Permutation.
From Flocq Require Import Core.
From Coquelicot Require Import Complex.
From Verif Require Import Common Float_Model FloatFano_Proof FloatViterbi_Spec FloatViterbi_Proof FloatShannon_Proof FloatConst_Proof FloatSoft_Model FloatSoft_Proof FloatPhase_Proof FloatPhase_Search Info_Model FloatRate_Model FloatRate_Spec FloatRate_Proof FloatRate_Entropy FloatRate_Divergence Props_FloatRate.
From Verif Require Info_Sums.
Local Open Scope R_scope.

Lemma masked_part pmf : forall qmf, Forall2 (fun p q => p = 0 \/ (/ 2 ^ 500 <= p <= 1 /\ / 2 ^ 500 <= q <= 1)) pmf qmf ->
  let ps := filter (fun pq => if Rlt_dec 0 (fst pq) then true else false) (combine pmf qmf) in
  Forall (fun pq => 0 < fst pq <= 1 /\ / 2 ^ 1003 <= fst pq / snd pq) ps /\ total (map fst ps) = total pmf /\
  total (map (fun pq => fst pq * ln (fst pq / snd pq)) ps) = relative_entropy_nats pmf qmf /\
  total (map (fun pq => fst pq * Rabs (ln (fst pq / snd pq))) ps) = absolute_divergence_nats pmf qmf /\ (length ps <= length pmf)%nat.
Proof.
  pose proof (inv_pow_pos 500) as I0. pose proof (pow_small 500 1003 ltac:(lia)) as I1. unfold relative_entropy_nats, absolute_divergence_nats, total. induction pmf as [|p pmf IH]; intros qmf F; inversion F as [|? q ? qmf' P F' E1 E2]; subst; [cbn; repeat split; auto; lra|].
  destruct (IH qmf' F') as (A & B & C & D & L). cbn [combine filter map fold_right length fst snd]. destruct (Rlt_dec 0 p) as [Q|Q].
  - destruct P as [P|[P P']]; [lra|]. cbn [map fold_right length fst snd]. repeat split; try lra; [|lia]. constructor; [|exact A]. cbn [fst snd]. split; [lra|]. apply Rle_trans with (/ 2 ^ 500); [lra|]. apply Rle_trans with p; [lra|].
    unfold Rdiv. rewrite <- (Rmult_1_r p) at 1. apply Rmult_le_compat_l; [lra|]. rewrite <- Rinv_1. apply Rinv_le_contravar; lra.
  - assert (p = 0) by (destruct P as [P|[P P']]; lra). subst. repeat split; [assumption|lra|lra|lra|lia].
Qed.
(* For every base above 1, every two pmfs with entries between 2^-500 and 1 where the first is positive, every order of summation:
   the error is (N + 16) 2^-51 relative to the sum of the absolute values of the terms (which cancel if the pmfs are close),
   plus 2^-51 / ln(base) per unit of total probability. *)
Theorem C120_relative_entropy : forall clog clog2 npdot b pmf qmf, accurate_logs_everywhere clog clog2 -> any_dot npdot -> log_base_above_1 b ->
  Forall2 (fun p q => p = 0 \/ (/ 2 ^ 500 <= p <= 1 /\ / 2 ^ 500 <= q <= 1)) pmf qmf -> INR (length pmf) <= 2 ^ 48 ->
  let D := relative_entropy_nats pmf qmf / ln (base_of b) in let A := absolute_divergence_nats pmf qmf / ln (base_of b) in let N := INR (length pmf) in
  Rabs (float_relative_entropy clog clog2 npdot b pmf qmf - D) <= (N + 16) / 2 ^ 51 * A + total pmf / (2 ^ 51 * ln (base_of b)) + N / 2 ^ 1073.
Proof.
  intros clog clog2 npdot b pmf qmf HL HD Hb F HN D A N. pose proof (base_above b Hb) as Hb1. pose proof U_small as [U0 U1]. pose proof eta_pos as E0. assert (V0 : 0 < ln (base_of b)) by (rewrite <- ln_1; apply ln_increasing; lra).
  destruct (masked_part pmf qmf F) as (P1 & P2 & P3 & P4 & P5). unfold float_relative_entropy. cbv zeta. set (ps := filter _ (combine pmf qmf)) in *. destruct (divergence_terms clog clog2 HL b ps Hb P1) as (L & S0 & A0 & E & E').
  pose proof (HD (map fst ps) (map (fun pq => float_log clog clog2 b (binary64 (fst pq / snd pq))) ps) ltac:(now rewrite !map_length)) as Dt. set (l := combine (map fst ps) _) in *. set (x := npdot _ _) in *.
  rewrite P2, ?P3, ?P4 in *. fold D in E. fold A in E, E'. apply le_INR in P5. rewrite <- L in *. pose proof (dot_signed_near l x Dt ltac:(lra)) as X. set (n := INR (length l)) in *. fold N in P5, HN.
  set (V := ln (base_of b)) in *. set (S := total pmf) in *. set (T := pairs l) in *. set (T' := abs_pairs l) in *.
  assert (n0 : 0 <= n) by apply pos_INR. assert (I0 : 0 < / V) by (apply Rinv_0_lt_compat; lra). assert (A0' : 0 <= A) by (apply Rmult_le_pos; lra). set (Sv := S / V) in *. assert (Sv0 : 0 <= Sv) by (apply Rmult_le_pos; lra).
  replace (S / (2 ^ 51 * V)) with (4 * U * Sv) by (unfold Sv, Rdiv; rewrite Rinv_mult, U_51'; ring). unfold Rdiv. rewrite U_51', eta_1073.
  assert (NU : n * U <= / 32). { apply Rle_trans with (2 ^ 48 * U); [apply Rmult_le_compat_r; lra|]. rewrite U_val. lra. }
  assert (nU0 : 0 <= n * U) by (apply Rmult_le_pos; lra). assert (ne0 : 0 <= n * eta) by (apply Rmult_le_pos; lra).
  assert (Y : n * U * T' <= n * U * ((1 + 32 * U) * A + 3 * U * Sv + n * eta)) by (apply Rmult_le_compat_l; lra).
  assert (UA : 0 <= U * A) by (apply Rmult_le_pos; lra). assert (USv : 0 <= U * Sv) by (apply Rmult_le_pos; lra).
  assert (Y1 : n * U * (32 * U * A) <= / 32 * (32 * U * A)) by (apply Rmult_le_compat_r; lra). assert (Y2 : n * U * (3 * U * Sv) <= / 32 * (3 * U * Sv)) by (apply Rmult_le_compat_r; lra). assert (Y3 : n * U * (n * eta) <= / 32 * (n * eta)) by (apply Rmult_le_compat_r; lra).
  assert (Z1 : n * U * A <= N * U * A) by (apply Rmult_le_compat_r; [lra|apply Rmult_le_compat_r; lra]). assert (Z2 : n * eta <= N * eta) by (apply Rmult_le_compat_r; lra). assert (Z0 : 0 <= n * U * A) by (apply Rmult_le_pos; lra).
  replace (x - D) with ((x - T) + (T - D)) by ring. eapply Rle_trans; [apply Rabs_triang|]. lra.
Qed.
(* The relative entropy of a pmf with respect to itself is exactly 0, for every pmf. *)
Theorem C120_relative_entropy_equal : forall clog clog2 npdot b pmf, accurate_logs_everywhere clog clog2 -> any_dot npdot -> log_base_above_1 b ->
  float_relative_entropy clog clog2 npdot b pmf pmf = 0.
Proof.
  intros clog clog2 npdot b pmf HL HD Hb. assert (B1 : binary64 1 = 1) by exact (binary64_pow 0). assert (D1 : double 1) by (rewrite <- B1; apply b64_format).
  assert (T : float_log clog clog2 b 1 = 0).
  { destruct HL as (L1 & L2). specialize (L1 1 D1 ltac:(lra)). specialize (L2 1 D1 ltac:(lra)). unfold Rdiv in L2. rewrite ln_1 in L1, L2. rewrite Rmult_0_l, !Rabs_R0, Rmult_0_r, Rminus_0_r in L2. rewrite Rabs_R0, Rmult_0_r, Rminus_0_r in L1.
    assert (C1 : clog 1 = 0) by (apply Rabs_le_inv in L1; lra). assert (C2 : clog2 1 = 0) by (apply Rabs_le_inv in L2; lra).
    unfold float_log. destruct b as [|v]; [exact C1|]. destruct (Req_EM_T v 2); [exact C2|]. rewrite C1. unfold Rdiv. rewrite Rmult_0_l. apply b64_0. }
  unfold float_relative_entropy. cbv zeta. set (ps := filter _ (combine pmf pmf)).
  assert (G : Forall (fun pq => snd pq = fst pq /\ 0 < fst pq) ps).
  { unfold ps. apply Forall_forall. intros [p q] I. apply filter_In in I as [I1 I2]. cbn [fst snd] in *. destruct (Rlt_dec 0 p) as [Q|Q]; [|discriminate]. split; [|exact Q]. clear - I1. induction pmf as [|y pmf IH]; [destruct I1|]. destruct I1 as [I1|I1]; [congruence|auto]. }
  assert (M : map (fun pq => float_log clog clog2 b (binary64 (fst pq / snd pq))) ps = map (fun _ => 0) ps).
  { apply map_ext_in. intros pq I. rewrite Forall_forall in G. destruct (G pq I) as [-> Q]. replace (fst pq / fst pq) with 1 by (field; lra). now rewrite B1. }
  rewrite M. pose proof (HD (map fst ps) (map (fun _ => 0) ps) ltac:(now rewrite !map_length)) as Dt. clear M G.
  destruct (dot_exact 0 _ _ ltac:(lia) Dt (map (fun _ => 0%Z) ps)) as (k & _ & E & _).
  - clear. induction ps as [|pq ps IH]; [reflexivity|]. cbn [map combine fst snd]. rewrite IH. f_equal. cbn. ring.
  - assert (Z : zabs_sum (map (fun _ => 0%Z) ps) = 0%Z) by (clear; unfold zabs_sum; induction ps as [|pq ps IH]; [reflexivity|cbn [map fold_right]; rewrite IH; reflexivity]). rewrite Z. lia.
  - rewrite E. clear. unfold pairs, total. induction ps as [|pq ps IH]; [reflexivity|]. cbn [map combine fst snd fold_right]. rewrite IH. ring.
Qed.
(* correctly rounded logarithms are accurate for all positive doubles *)
Theorem C120_rounded_logs : accurate_logs_everywhere (fun x => binary64 (ln x)) (fun x => binary64 (ln x / ln 2)).
Proof.
  pose proof U_small as [U0 U1]. assert (L2 : 0 < ln 2) by (rewrite <- ln_1; apply ln_increasing; lra). pose proof eta_pos as E0. assert (L2' : ln 2 <= 1) by (pose proof (Info_Sums.ln_le_sub 2); lra). pose proof (inv_pow_pos 53) as P53.
  assert (N : forall y, double y -> 0 < y -> forall d, 0 < d <= 1 -> Rabs (binary64 (ln y / d) - ln y / d) <= / 2 ^ 50 * Rabs (ln y / d)).
  { intros y Dy Hy d Hd. rewrite U_50. set (q := ln y / d). destruct (Req_dec y 1) as [->|Ne].
    { unfold q. rewrite ln_1. unfold Rdiv. rewrite Rmult_0_l, b64_0, Rminus_0_r, Rabs_R0. lra. }
    assert (G : / 2 ^ 53 <= Rabs (ln y)).
    { destruct (Rlt_dec 1 y) as [Y|Y].
      - pose proof (above_one y Dy Y) as A. pose proof (inv_pow_pos 52) as P52. pose proof (Info_Sums.ln_le_sub (/ y) ltac:(apply Rinv_0_lt_compat; lra)) as B. rewrite ln_Rinv in B by lra. assert (I : / y <= 1 - / 2 ^ 53).
        { apply Rmult_le_reg_r with y; [lra|]. rewrite Rinv_l by lra. apply Rle_trans with ((1 - / 2 ^ 53) * (1 + / 2 ^ 52)); [|apply Rmult_le_compat_l; lra]. lra. }
        eapply Rle_trans; [|apply Rle_abs]. lra.
      - assert (D1 : double 1) by (change 1 with (bpow radix2 0); apply generic_format_FLT_bpow; [red; lia|lia]).
        assert (A : y <= pred radix2 (FLT_exp (-1074) 53) 1) by (apply pred_ge_gt; [apply FLT_exp_valid; unfold Prec_gt_0; lia|exact Dy|exact D1|lra]).
        change 1 with (bpow radix2 0) in A. rewrite pred_bpow in A by (apply FLT_exp_valid; unfold Prec_gt_0; lia). change (FLT_exp (-1074) 53 0) with (- Z.of_nat 53)%Z in A. rewrite bpow_neg in A. change (bpow radix2 0) with 1 in A.
        pose proof (Info_Sums.ln_le_sub y Hy). rewrite <- Rabs_Ropp. eapply Rle_trans; [|apply Rle_abs]. lra. }
    assert (Q : / 2 ^ 53 <= Rabs q). { apply Rle_trans with (Rabs (ln y)); [exact G|]. unfold q, Rdiv. rewrite Rabs_mult, (Rabs_pos_eq (/ d)) by (left; apply Rinv_0_lt_compat; lra). rewrite <- (Rmult_1_r (Rabs (ln y))) at 1. apply Rmult_le_compat_l; [apply Rabs_pos|]. rewrite <- Rinv_1. apply Rinv_le_contravar; lra. }
    pose proof (b64_near q) as B. assert (T : / 2 ^ 1075 <= U * Rabs q). { apply Rle_trans with (U * / 2 ^ 53); [|apply Rmult_le_compat_l; lra]. unfold U. rewrite <- inv_pow_add. apply pow_small. lia. }
    pose proof (Rabs_pos q). assert (0 <= U * Rabs q) by (apply Rmult_le_pos; lra). lra. }
  split; intros x Dx Hx; [|apply N; auto]. specialize (N x Dx Hx 1 ltac:(lra)). unfold Rdiv in N. rewrite Rinv_1, Rmult_1_r in N. exact N.
Qed.
(* The hypotheses are met, by two different pmfs with a zero entry; the divergence is 1 bit. *)
Theorem C120_relative_entropy_satisfiable : exists clog clog2 npdot pmf qmf, accurate_logs_everywhere clog clog2 /\ any_dot npdot /\ log_base_above_1 (Base 2) /\
  Forall2 (fun p q => p = 0 \/ (/ 2 ^ 500 <= p <= 1 /\ / 2 ^ 500 <= q <= 1)) pmf qmf /\ INR (length pmf) <= 2 ^ 48 /\ relative_entropy_nats pmf qmf / ln 2 = 1 /\
  Rabs (float_relative_entropy clog clog2 npdot (Base 2) pmf qmf - 1) <= / 2 ^ 40.
Proof.
  pose proof (pow_small 1 500 ltac:(lia)) as I1. rewrite pow_1 in I1. assert (D2 : double 2) by (change 2 with (bpow radix2 1); apply generic_format_FLT_bpow; [red; lia|lia]).
  assert (F : Forall2 (fun p q => p = 0 \/ (/ 2 ^ 500 <= p <= 1 /\ / 2 ^ 500 <= q <= 1)) [1; 0] [/ 2; / 2]) by (constructor; [right; lra|constructor; [left; reflexivity|constructor]]).
  assert (L2 : 0 < ln 2) by (rewrite <- ln_1; apply ln_increasing; lra). assert (L2' : / 2 <= ln 2). { pose proof (Info_Sums.ln_le_sub (/ 2) ltac:(lra)) as L. rewrite ln_Rinv in L by lra. lra. }
  assert (E1 : relative_entropy_nats [1; 0] [/ 2; / 2] / ln 2 = 1).
  { unfold relative_entropy_nats, total. cbn [combine map fst snd fold_right]. destruct (Rlt_dec 0 1); [|lra]. destruct (Rlt_dec 0 0); [lra|]. replace (1 / / 2) with 2 by field. field. lra. }
  assert (E2 : absolute_divergence_nats [1; 0] [/ 2; / 2] / ln 2 = 1).
  { unfold absolute_divergence_nats, total. cbn [combine map fst snd fold_right]. destruct (Rlt_dec 0 1); [|lra]. destruct (Rlt_dec 0 0); [lra|]. replace (1 / / 2) with 2 by field. rewrite Rabs_pos_eq by lra. field. lra. }
  assert (HN : INR (length [1; 0]) <= 2 ^ 48) by (cbn; lra). assert (Hb : log_base_above_1 (Base 2)) by (split; [exact D2|lra]).
  pose proof (C120_relative_entropy _ _ _ (Base 2) _ _ C120_rounded_logs C120_fused_dot Hb F HN) as X. cbv zeta in X. cbn [base_of] in X. rewrite E1, E2 in X.
  eexists _, _, _, [1; 0], [/ 2; / 2]. split; [exact C120_rounded_logs|]. split; [exact C120_fused_dot|]. split; [exact Hb|]. split; [exact F|]. split; [exact HN|]. split; [exact E1|].
  eapply Rle_trans; [exact X|]. unfold total. cbn [length fold_right INR]. unfold Rdiv. rewrite Rinv_mult. assert (/ ln 2 <= 2). { apply Rle_trans with (/ (/ 2)); [apply Rinv_le_contravar; lra|rewrite Rinv_inv; lra]. }
  pose proof (inv_pow_pos 51) as I51. assert (/ 2 ^ 51 * / ln 2 <= / 2 ^ 51 * 2) by (apply Rmult_le_compat_l; lra). pose proof (pow_small 51 1073 ltac:(lia)) as I3. assert (I4 : / 2 ^ 51 = / 2048 * / 2 ^ 40) by (change 51%nat with (11 + 40)%nat; rewrite inv_pow_add; f_equal; f_equal; lra). pose proof (inv_pow_pos 40). lra.
Qed.
