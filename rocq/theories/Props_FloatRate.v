(** C120: entropy, Kraft parameter and rate in double precision. *)
Set Warnings "-ambiguous-paths".
From Coq Require Import Reals Lra Permutation.
From Flocq Require Import Core.
From Coquelicot Require Import Complex.
From Verif Require Import Common Float_Model FloatFano_Proof FloatViterbi_Spec FloatViterbi_Proof FloatShannon_Proof FloatConst_Proof FloatSoft_Model FloatSoft_Proof FloatPhase_Proof FloatPhase_Search Info_Model FloatRate_Model FloatRate_Spec FloatRate_Proof FloatRate_Entropy.
From Verif Require Info_Sums Props_FloatSoft.
Local Open Scope R_scope.

Lemma positive_part pmf : Forall (fun p => p = 0 \/ / 2 ^ 1000 <= p <= 1) pmf -> let ps := filter (fun p => if Rlt_dec 0 p then true else false) pmf in
  Forall (fun p => / 2 ^ 1000 <= p <= 1) ps /\ total ps = total pmf /\ total (map (fun p => p * ln (1 / p)) ps) = entropy_nats pmf /\ (length ps <= length pmf)%nat.
Proof.
  pose proof (inv_pow_pos 1000) as I0. unfold entropy_nats, total. induction pmf as [|p pmf IH]; intros F; [cbn; repeat split; auto; lra|]. destruct (IH (Forall_inv_tail F)) as (A & B & C & D). pose proof (Forall_inv F) as P. cbn [filter map fold_right length]. destruct (Rlt_dec 0 p) as [Q|Q].
  - cbn [map fold_right length]. repeat split; [constructor; [destruct P; [lra|assumption]|assumption]| | |lia]; lra.
  - assert (p = 0) by (destruct P; lra). subst. repeat split; [assumption| | |lia]; lra.
Qed.

(* ================= entropy *)
(* For every base above 1, every pmf with entries 0 or between 2^-1000 and 1, every order of summation: the relative error
   is (N + 16) 2^-51 and the absolute error 2^-51 / ln(base) per unit of total probability. *)
Theorem C120_entropy : forall clog clog2 npdot b pmf, accurate_logs clog clog2 -> any_dot npdot -> log_base_above_1 b ->
  Forall (fun p => p = 0 \/ / 2 ^ 1000 <= p <= 1) pmf -> INR (length pmf) <= 2 ^ 48 ->
  let H := entropy_nats pmf / ln (base_of b) in let N := INR (length pmf) in
  0 <= float_entropy clog clog2 npdot b pmf /\
  Rabs (float_entropy clog clog2 npdot b pmf - H) <= (N + 16) / 2 ^ 51 * H + total pmf / (2 ^ 51 * ln (base_of b)) + N / 2 ^ 1073.
Proof.
  intros clog clog2 npdot b pmf HL HD Hb F HN H N. pose proof (base_above b Hb) as Hb1. pose proof U_small as [U0 U1]. pose proof eta_pos as E0. assert (V0 : 0 < ln (base_of b)) by (rewrite <- ln_1; apply ln_increasing; lra).
  destruct (positive_part pmf F) as (P1 & P2 & P3 & P4). unfold float_entropy. cbv zeta. set (ps := filter _ pmf) in *. destruct (terms_near clog clog2 HL b ps Hb P1) as (L & Nn & S0 & T0 & E).
  pose proof (HD ps (map (fun p => float_log clog clog2 b (binary64 (1 / p))) ps) ltac:(now rewrite map_length)) as D. set (l := combine ps _) in *. set (x := npdot ps _) in *.
  rewrite P2, P3 in *. fold H in E. set (V := ln (base_of b)) in *. set (S := total pmf) in *. apply le_INR in P4. rewrite <- L in *. set (n := INR (length l)) in *. fold N in P4, HN. destruct (dot_near l x D Nn ltac:(fold n; lra)) as [X0 X1]. fold n in X1. split; [exact X0|]. set (T := pairs l) in *.
  assert (n0 : 0 <= n) by apply pos_INR. assert (I0 : 0 < / V) by (apply Rinv_0_lt_compat; lra). assert (H0 : 0 <= H) by (apply Rmult_le_pos; lra). set (Sv := S / V) in *. assert (Sv0 : 0 <= Sv) by (apply Rmult_le_pos; lra).
  replace (S / (2 ^ 51 * V)) with (4 * U * Sv) by (unfold Sv, Rdiv; rewrite Rinv_mult, U_51'; ring). unfold Rdiv. rewrite U_51', eta_1073.
  assert (NU : n * U <= / 32). { apply Rle_trans with (2 ^ 48 * U); [apply Rmult_le_compat_r; lra|]. rewrite U_val. lra. }
  apply Rabs_le_inv in E. assert (nU0 : 0 <= n * U) by (apply Rmult_le_pos; lra). assert (ne0 : 0 <= n * eta) by (apply Rmult_le_pos; lra).
  assert (TB : T <= H + 32 * U * H + 3 * U * Sv + n * eta) by lra. assert (Y : n * U * T <= n * U * (H + 32 * U * H + 3 * U * Sv + n * eta)) by (apply Rmult_le_compat_l; lra).
  assert (UH : 0 <= U * H) by (apply Rmult_le_pos; lra). assert (nUH : 0 <= n * U * H) by (apply Rmult_le_pos; lra). assert (USv : 0 <= U * Sv) by (apply Rmult_le_pos; lra).
  assert (Y1 : n * U * (32 * U * H) <= / 32 * (32 * U * H)) by (apply Rmult_le_compat_r; lra). assert (Y2 : n * U * (3 * U * Sv) <= / 32 * (3 * U * Sv)) by (apply Rmult_le_compat_r; lra). assert (Y3 : n * U * (n * eta) <= / 32 * (n * eta)) by (apply Rmult_le_compat_r; lra).
  assert (Z1 : n * U * H <= N * U * H) by (apply Rmult_le_compat_r; [lra|apply Rmult_le_compat_r; lra]). assert (Z2 : n * eta <= N * eta) by (apply Rmult_le_compat_r; lra).
  replace (x - H) with ((x - T) + (T - H)) by ring. eapply Rle_trans; [apply Rabs_triang|]. assert (Rabs (T - H) <= 32 * U * H + 3 * U * Sv + n * eta) by (apply Rabs_le; lra). lra.
Qed.
(* A deterministic source has entropy exactly 0. *)
Theorem C120_entropy_deterministic : forall clog clog2 npdot b n m, accurate_logs clog clog2 -> any_dot npdot -> log_base_above_1 b ->
  float_entropy clog clog2 npdot b (repeat 0 n ++ 1 :: repeat 0 m) = 0.
Proof.
  intros clog clog2 npdot b n m HL HD Hb. assert (Z : forall k l, filter (fun p => if Rlt_dec 0 p then true else false) (repeat 0 k ++ l) = filter (fun p => if Rlt_dec 0 p then true else false) l).
  { induction k as [|k IH]; intros l; [reflexivity|]. cbn [repeat app filter]. destruct (Rlt_dec 0 0); [lra|apply IH]. }
  unfold float_entropy. rewrite Z. cbn [filter]. destruct (Rlt_dec 0 1); [|lra]. rewrite <- (app_nil_r (repeat 0 m)), Z. cbn [filter map].
  assert (B1 : binary64 1 = 1) by exact (binary64_pow 0). replace (1 / 1) with 1 by field. rewrite B1. set (t := float_log clog clog2 b 1).
  assert (T : t = 0).
  { destruct HL as (L1 & L2 & _). assert (D1 : double 1) by (rewrite <- B1; apply b64_format). specialize (L1 1 D1 ltac:(lra)). specialize (L2 1 D1 ltac:(lra)). unfold Rdiv in L2. rewrite ln_1 in L1, L2. rewrite Rmult_0_l, !Rmult_0_r, Rminus_0_r in L2. rewrite Rmult_0_r, Rminus_0_r in L1.
    assert (C1 : clog 1 = 0) by (apply Rabs_le_inv in L1; lra). assert (C2 : clog2 1 = 0) by (apply Rabs_le_inv in L2; lra).
    unfold t, float_log. destruct b as [|v]; [exact C1|]. destruct (Req_EM_T v 2); [exact C2|]. rewrite C1. unfold Rdiv. rewrite Rmult_0_l. apply b64_0. }
  rewrite T. pose proof (HD [1] [0] eq_refl) as D. destruct (dot_exact 0 _ _ ltac:(lia) D [0%Z]) as (k & _ & E & _); [cbn; f_equal; lra|cbn; lia|]. rewrite E. unfold pairs, total. cbn. lra.
Qed.
Lemma dyadic_total ls ws : length ls = length ws -> Forall (fun l => (l <= 47)%nat) ls ->
  map (fun ab => fst ab * snd ab) (combine (map INR ws) (map (fun l => / 2 ^ l) ls)) = map (fun k => IZR k * bpow radix2 (-47)) (map (fun wl => Z.of_nat (fst wl) * 2 ^ Z.of_nat (47 - snd wl))%Z (combine ws ls)).
Proof.
  revert ws. induction ls as [|l ls IH]; intros [|w ws] H F; try discriminate; [reflexivity|]. cbn [map combine fst snd]. rewrite (IH ws ltac:(cbn in H; lia) (Forall_inv_tail F)). f_equal. pose proof (Forall_inv F) as L. cbv beta in L.
  rewrite mult_IZR, <- INR_IZR_INZ. rewrite (IZR_Zpower radix2) by lia. rewrite Rmult_assoc. f_equal. rewrite <- bpow_plus. replace (Z.of_nat (47 - l) + -47)%Z with (- Z.of_nat l)%Z by lia. now rewrite bpow_neg.
Qed.
Lemma dyadic_zabs ls : forall ws, length ls = length ws -> Forall (fun l => (l <= 47)%nat) ls ->
  IZR (zabs_sum (map (fun wl => Z.of_nat (fst wl) * 2 ^ Z.of_nat (47 - snd wl))%Z (combine ws ls))) = 2 ^ 47 * total (map (fun ab => fst ab * snd ab) (combine (map INR ws) (map (fun l => / 2 ^ l) ls))).
Proof.
  unfold zabs_sum, total. induction ls as [|l ls IH]; intros [|w ws] H F; try discriminate; [cbn [map combine fold_right]; lra|]. cbn [map combine fst snd fold_right]. pose proof (Forall_inv F) as L. cbv beta in L. rewrite plus_IZR, (IH ws ltac:(cbn in H; lia) (Forall_inv_tail F)), Rmult_plus_distr_l. f_equal.
  rewrite Z.abs_eq by (apply Z.mul_nonneg_nonneg; [lia|apply Z.pow_nonneg; lia]). rewrite mult_IZR, <- INR_IZR_INZ, (IZR_Zpower radix2) by lia. replace (Z.of_nat (47 - l)) with (Z.of_nat 47 + - Z.of_nat l)%Z by lia. rewrite bpow_plus, bpow_neg, bpow_pow. ring.
Qed.
(* the mean of integers under dyadic probabilities is computed exactly as long as it stays below 64 *)
Lemma dyadic_dot npdot ls ws : any_dot npdot -> length ls = length ws -> Forall (fun l => (l <= 47)%nat) ls -> mean ws (map (fun l => / 2 ^ l) ls) < 64 ->
  npdot (map INR ws) (map (fun l => / 2 ^ l) ls) = mean ws (map (fun l => / 2 ^ l) ls).
Proof.
  intros HD H F B. assert (M : mean ws (map (fun l => / 2 ^ l) ls) = pairs (combine (map INR ws) (map (fun l => / 2 ^ l) ls))).
  { unfold mean, pairs. f_equal. clear B F. revert ws H. induction ls as [|l ls IH]; intros [|w ws] H; try discriminate; [reflexivity|]. cbn [map combine fst snd]. f_equal. apply IH. cbn in H. lia. }
  pose proof (HD (map INR ws) (map (fun l => / 2 ^ l) ls) ltac:(rewrite !map_length; lia)) as D. rewrite M in *. destruct (dot_exact (-47) _ _ ltac:(lia) D _ (dyadic_total ls ws H F)) as (k & _ & E & _); [|exact E].
  apply lt_IZR. rewrite (dyadic_zabs ls ws H F). fold (pairs (combine (map INR ws) (map (fun l => / 2 ^ l) ls))). replace (IZR (2 ^ 53)) with (2 ^ 47 * 64) by lra. apply Rmult_lt_compat_l; [lra|exact B].
Qed.
Lemma mean_bound ls : Forall (fun l => (l <= 47)%nat) ls -> mean ls (map (fun l => / 2 ^ l) ls) <= 47 * total (map (fun l => / 2 ^ l) ls).
Proof.
  unfold mean, total. induction ls as [|l ls IH]; intros F; [cbn; lra|]. specialize (IH (Forall_inv_tail F)). pose proof (Forall_inv F) as L. cbv beta in L. apply le_INR in L. replace (INR 47) with 47 in L by (cbn; lra). cbn [map combine fold_right fst snd]. pose proof (inv_pow_pos l). assert (INR l * / 2 ^ l <= 47 * / 2 ^ l) by (apply Rmult_le_compat_r; lra). lra.
Qed.
(* The probabilities 2^-l, l <= 47: the entropy in bits is computed without any error, in every order of summation. *)
Theorem C120_entropy_dyadic : forall clog clog2 npdot ls, accurate_logs clog clog2 -> any_dot npdot -> Forall (fun l => (l <= 47)%nat) ls ->
  let pmf := map (fun l => / 2 ^ l) ls in total pmf <= 1 -> float_entropy clog clog2 npdot (Base 2) pmf = mean ls pmf.
Proof.
  intros clog clog2 npdot ls HL HD F pmf B. pose proof (mean_bound ls F) as MB. fold pmf in MB. unfold float_entropy.
  assert (E1 : filter (fun p => if Rlt_dec 0 p then true else false) pmf = pmf).
  { unfold pmf. clear. induction ls as [|l ls IH]; [reflexivity|]. cbn [map filter]. pose proof (inv_pow_pos l). destruct (Rlt_dec 0 (/ 2 ^ l)); [|lra]. now rewrite IH. }
  cbv zeta. rewrite E1. assert (E2 : map (fun p => float_log clog clog2 (Base 2) (binary64 (1 / p))) pmf = map INR ls).
  { unfold pmf. rewrite map_map. apply map_ext_in. intros l Hl. rewrite Forall_forall in F. specialize (F l Hl). destruct HL as (_ & _ & L3). unfold float_log. destruct (Req_EM_T 2 2); [|lra].
    replace (1 / / 2 ^ l) with (2 ^ l) by (field; apply pow_nonzero; lra). rewrite binary64_pow. apply L3. lia. }
  rewrite E2. pose proof (HD pmf (map INR ls) ltac:(unfold pmf; now rewrite !map_length)) as D.
  assert (Sw : forall (a b : list R), map (fun ab => fst ab * snd ab) (combine a b) = map (fun ab => fst ab * snd ab) (combine b a)).
  { induction a as [|x a IH]; intros [|y b]; try reflexivity. cbn [combine map fst snd]. rewrite IH. f_equal. lra. }
  pose proof (dyadic_total ls ls eq_refl F) as DT. rewrite Sw in DT. destruct (dot_exact (-47) _ _ ltac:(lia) D _ DT) as (k & _ & E & _).
  - apply lt_IZR. rewrite (dyadic_zabs ls ls eq_refl F). replace (IZR (2 ^ 53)) with (2 ^ 47 * 64) by lra. apply Rmult_lt_compat_l; [lra|]. eapply Rle_lt_trans with (mean ls pmf); [|lra]. right. unfold mean. f_equal. unfold pmf. clear.
    induction ls as [|l ls IH]; [reflexivity|]. cbn [map combine fst snd]. f_equal. exact IH.
  - rewrite E. unfold pairs. rewrite Sw. unfold mean. f_equal. unfold pmf. clear. induction ls as [|l ls IH]; [reflexivity|]. cbn [map combine fst snd]. f_equal. exact IH.
Qed.

(* ================= Kraft parameter *)
Theorem C120_kraft : forall cpow npsum T ls, accurate_power cpow -> any_order npsum -> (2 <= T)%nat -> INR (length ls) <= 2 ^ 48 ->
  let N := INR (length ls) in 0 <= float_kraft_parameter cpow npsum T ls /\
  Rabs (float_kraft_parameter cpow npsum T ls - kraft T ls) <= (N + 1) / 2 ^ 51 * kraft T ls + N / 2 ^ 1073.
Proof.
  intros cpow npsum T ls HP HS HT HN N. pose proof U_small as [U0 U1]. pose proof eta_pos as E0. unfold float_kraft_parameter, kraft. set (l := map (fun l => cpow (INR T) (- INR l)) ls).
  assert (T2 : 2 <= INR T) by (apply (le_INR 2) in HT; cbn in HT; lra).
  assert (G : Forall is_binary64 l /\ Forall (fun y => 0 <= y) l /\ 0 <= total (map (fun l => / INR T ^ l) ls) /\ Rabs (total l - total (map (fun l => / INR T ^ l) ls)) <= 2 * U * total (map (fun l => / INR T ^ l) ls) + 2 * N * eta).
  { unfold l, N, total. clear HN N l. induction ls as [|x ls IH]; [cbn; rewrite Rminus_0_r, Rabs_R0; repeat split; try constructor; lra|]. destruct IH as (A & B & C & D). destruct (HP T x HT) as (P1 & P2 & P3 & _). cbn [map fold_right length]. rewrite S_INR.
    assert (Q : 0 < / INR T ^ x) by (apply Rinv_0_lt_compat, pow_lt; lra). rewrite U_52', eta_1074 in P3. set (S := fold_right Rplus 0 (map (fun l => / INR T ^ l) ls)) in *. set (S' := fold_right Rplus 0 (map (fun l => cpow (INR T) (- INR l)) ls)) in *. set (v := cpow (INR T) (- INR x)) in *. set (q := / INR T ^ x) in *.
    repeat split; [constructor; assumption|constructor; assumption|lra|]. replace (v + S' - (q + S)) with ((v - q) + (S' - S)) by ring. eapply Rle_trans; [apply Rabs_triang|]. lra. }
  destruct G as (F1 & F2 & K0 & E). pose proof (rounded_relative l _ (HS l) F1 F2) as [B1 B2]. destruct (rounded_pos _ _ (HS l) F1 F2) as [X0 _]. split; [exact X0|]. set (x := npsum l) in *. set (K := total (map (fun l => / INR T ^ l) ls)) in *. pose proof (total_nonneg l F2) as V0. set (V := total l) in *.
  assert (Ll : length l = length ls) by (unfold l; apply map_length). rewrite Ll in *. assert (N0 : 0 <= N) by apply pos_INR. assert (NU : N * U <= / 32). { apply Rle_trans with (2 ^ 48 * U); [apply Rmult_le_compat_r; unfold N; lra|]. rewrite U_val. lra. }
  pose proof (pow_up (length ls) ltac:(fold N; lra)) as P1. pose proof (pow_down (length ls)) as P2. fold N in P1, P2.
  assert (Y1 : (1 + U) ^ length ls * V <= (1 + 2 * N * U) * V) by (apply Rmult_le_compat_r; lra). assert (Y2 : (1 - N * U) * V <= (1 - U) ^ length ls * V) by (apply Rmult_le_compat_r; lra).
  apply Rabs_le_inv in E. assert (nU0 : 0 <= N * U) by (apply Rmult_le_pos; lra). assert (ne0 : 0 <= N * eta) by (apply Rmult_le_pos; lra).
  assert (Y : N * U * V <= N * U * (K + 2 * U * K + 2 * N * eta)) by (apply Rmult_le_compat_l; lra). assert (UK : 0 <= U * K) by (apply Rmult_le_pos; lra).
  assert (Y3 : N * U * (2 * U * K) <= / 32 * (2 * U * K)) by (apply Rmult_le_compat_r; lra). assert (Y4 : N * U * (2 * N * eta) <= / 32 * (2 * N * eta)) by (apply Rmult_le_compat_r; lra). assert (0 <= N * U * V) by (apply Rmult_le_pos; lra). assert (0 <= N * U * K) by (apply Rmult_le_pos; lra).
  unfold Rdiv. rewrite U_51', eta_1073. replace (x - K) with ((x - V) + (V - K)) by ring. eapply Rle_trans; [apply Rabs_triang|]. assert (Rabs (x - V) <= 2 * N * U * V) by (apply Rabs_le; lra). assert (Rabs (V - K) <= 2 * U * K + 2 * N * eta) by (apply Rabs_le; lra). lra.
Qed.
(* Target alphabets whose size is a power of two and codewords of at most 52 bits: no error at all. *)
Theorem C120_kraft_exact : forall cpow npsum a ls, accurate_power cpow -> any_order npsum -> (1 <= a)%nat -> Forall (fun l => (a * l <= 52)%nat) ls ->
  kraft (2 ^ a) ls < 2 -> float_kraft_parameter cpow npsum (2 ^ a) ls = kraft (2 ^ a) ls.
Proof.
  intros cpow npsum a ls HP HS Ha F B. assert (T2 : (2 <= 2 ^ a)%nat) by (change 2%nat with (2 ^ 1)%nat at 1; apply Nat.pow_le_mono_r; lia).
  assert (I : forall l, / INR (2 ^ a) ^ l = / 2 ^ (a * l)) by (intros l; rewrite pow_INR, pow_mult; reflexivity).
  assert (V : forall l, (a * l <= 52)%nat -> / 2 ^ (a * l) = IZR (2 ^ Z.of_nat (52 - a * l)) * bpow radix2 (-52)).
  { intros l H. rewrite (IZR_Zpower radix2) by lia. rewrite <- bpow_plus. replace (Z.of_nat (52 - a * l) + -52)%Z with (- Z.of_nat (a * l))%Z by lia. now rewrite bpow_neg. }
  unfold float_kraft_parameter. set (ks := map (fun l => (2 ^ Z.of_nat (52 - a * l))%Z) ls).
  assert (E : map (fun l => cpow (INR (2 ^ a)) (- INR l)) ls = map (fun k => IZR k * bpow radix2 (-52)) ks).
  { unfold ks. rewrite map_map. apply map_ext_in. intros l Hl. rewrite Forall_forall in F. specialize (F l Hl). destruct (HP (2 ^ a)%nat l T2) as (_ & _ & _ & X). rewrite <- (V l F), <- I. apply X. rewrite I, (V l F). apply fixed_format; [lia|]. rewrite Z.abs_eq by (apply Z.pow_nonneg; lia). apply Z.pow_lt_mono_r; lia. }
  assert (K : kraft (2 ^ a) ls = total (map (fun k => IZR k * bpow radix2 (-52)) ks)).
  { unfold kraft, ks. rewrite map_map. f_equal. apply map_ext_in. intros l Hl. rewrite Forall_forall in F. rewrite I. apply V, F, Hl. }
  assert (Z : IZR (zabs_sum ks) = 2 ^ 52 * kraft (2 ^ a) ls).
  { rewrite K. unfold ks, zabs_sum, total. clear. induction ls as [|l ls IH]; [cbn; lra|]. cbn [map fold_right]. rewrite plus_IZR, IH, Z.abs_eq by (apply Z.pow_nonneg; lia). replace (bpow radix2 (-52)) with (/ 2 ^ 52) by (rewrite <- bpow_neg; reflexivity). field. }
  destruct (rounded_exact (-52) _ _ ltac:(lia) (HS _) ks E) as (k & _ & X & _); [|rewrite X, E; symmetry; exact K].
  apply lt_IZR. rewrite Z. replace (IZR (2 ^ 53)) with (2 ^ 52 * 2) by lra. apply Rmult_lt_compat_l; [lra|exact B].
Qed.

(* ================= rate *)
Lemma blocks_all pmf k (P : R -> Prop) : Forall P pmf -> Forall (fun b => length b = k /\ Forall P b) (blocks pmf k).
Proof.
  intros F. induction k as [|k IH]; [constructor; [split; [reflexivity|constructor]|constructor]|]. cbn [blocks]. apply Forall_flat_map. rewrite Forall_forall in *. intros p Hp. apply Forall_map, Forall_forall. intros b Hb. destruct (IH b Hb) as [L B]. split; [cbn; now rewrite L|constructor; auto].
Qed.
Lemma rate_terms npprod U' e ws : forall bs, length ws = length bs -> 0 <= U' -> 0 <= e -> Forall (fun b => 0 <= npprod b /\ 0 <= product b /\ Rabs (npprod b - product b) <= U' * product b + e) bs ->
  let l := combine (map INR ws) (map npprod bs) in let T := mean ws (map product bs) in
  length l = length bs /\ Forall (fun ab => 0 <= fst ab * snd ab) l /\ 0 <= T /\ Rabs (pairs l - T) <= U' * T + INR (list_sum ws) * e.
Proof.
  induction ws as [|w ws IH]; intros [|b bs] H HU He F; try discriminate; [unfold pairs, mean, total; cbn; rewrite Rminus_0_r, Rabs_R0; repeat split; try constructor; lra|].
  destruct (IH bs ltac:(cbn in H; lia) HU He (Forall_inv_tail F)) as (A & B & C & D). destruct (Forall_inv F) as (P1 & P2 & P3). cbv zeta. unfold pairs, mean, total in *. cbn [map combine length fold_right fst snd]. change (list_sum (w :: ws)) with (w + list_sum ws)%nat. rewrite plus_INR. pose proof (pos_INR w) as W0.
  split; [cbn in A; lia|]. split; [constructor; [apply Rmult_le_pos; assumption|exact B]|]. split; [assert (0 <= INR w * product b) by (apply Rmult_le_pos; lra); lra|].
  match goal with |- Rabs (?x + ?y - (?u + ?v)) <= _ => replace (x + y - (u + v)) with (INR w * (npprod b - product b) + (y - v)) by ring end. eapply Rle_trans; [apply Rabs_triang|]. rewrite Rabs_mult, (Rabs_pos_eq (INR w)) by lra. assert (INR w * Rabs (npprod b - product b) <= INR w * (U' * product b + e)) by (apply Rmult_le_compat_l; lra). lra.
Qed.
Theorem C120_rate : forall npdot npprod k lengths pmf, any_dot npdot -> any_product npprod -> (1 <= k)%nat -> Forall (fun p => double p /\ 0 <= p <= 1) pmf ->
  length lengths = length (blocks pmf k) -> INR (length lengths) <= 2 ^ 48 -> INR k <= 2 ^ 48 ->
  let R := mean lengths (map product (blocks pmf k)) / INR k in let n := INR (length lengths) in
  0 <= float_rate npdot npprod k lengths pmf /\
  Rabs (float_rate npdot npprod k lengths pmf - R) <= (n + INR k + 1) / 2 ^ 51 * R + (n + INR k * INR (list_sum lengths) + 1) / 2 ^ 1073.
Proof.
  intros npdot npprod k ws pmf HD HP Hk F HL HN HK R n. pose proof U_small as [U0 U1]. pose proof eta_pos as E0. assert (K1 : 1 <= INR k) by (apply (le_INR 1) in Hk; cbn in Hk; lra). set (kk := INR k) in *.
  assert (G : Forall (fun b => 0 <= npprod b /\ 0 <= product b /\ Rabs (npprod b - product b) <= 2 * kk * U * product b + 2 * kk * eta) (blocks pmf k)).
  { pose proof (blocks_all pmf k _ F) as B. eapply Forall_impl; [|exact B]. cbv beta. intros b [Lb Fb]. assert (F1 : Forall (fun p => 0 <= p <= 1) b) by (eapply Forall_impl; [|exact Fb]; cbv beta; tauto). assert (F2 : Forall is_binary64 b) by (eapply Forall_impl; [|exact Fb]; cbv beta; intros y [Y _]; exact Y).
    destruct (product_near b _ (HP b) F1 F2 ltac:(intros ->; cbn in Lb; lia) ltac:(rewrite Lb; exact HK)) as [X0 X1]. rewrite Lb in X1. fold kk in X1. pose proof (product_unit b F1). repeat split; [lra|lra|exact X1]. }
  assert (Uk0 : 0 <= kk * U) by (apply Rmult_le_pos; lra). assert (ek0 : 0 <= kk * eta) by (apply Rmult_le_pos; lra).
  destruct (rate_terms npprod (2 * kk * U) (2 * kk * eta) ws (blocks pmf k) HL ltac:(lra) ltac:(lra) G) as (A & B & T0 & E). pose proof (HD (map INR ws) (map npprod (blocks pmf k)) ltac:(rewrite !map_length; exact HL)) as D. unfold float_rate. cbv zeta. set (l := combine _ _) in *. set (x := npdot _ _) in *. set (T := mean ws _) in *.
  rewrite <- HL in A. fold n in HN. assert (An : INR (length l) = n) by (unfold n; now rewrite A). destruct (dot_near l x D B ltac:(rewrite An; exact HN)) as [X0 X1]. rewrite An in X1. set (S := pairs l) in *. set (La := INR (list_sum ws)) in *. assert (L0 : 0 <= La) by apply pos_INR. assert (n0 : 0 <= n) by apply pos_INR.
  assert (NU : n * U <= / 32). { apply Rle_trans with (2 ^ 48 * U); [apply Rmult_le_compat_r; lra|]. rewrite U_val. lra. }
  assert (KU : kk * U <= / 32). { apply Rle_trans with (2 ^ 48 * U); [apply Rmult_le_compat_r; lra|]. rewrite U_val. lra. }
  set (i := / kk). assert (i0 : 0 < i) by (apply Rinv_0_lt_compat; lra). assert (i1 : i <= 1) by (unfold i; rewrite <- Rinv_1; apply Rinv_le_contravar; lra).
  unfold Rdiv in *. fold i in R. fold i. set (y := x * i). assert (Y0 : 0 <= y) by (apply Rmult_le_pos; lra). pose proof (b64_near y) as Bn. rewrite (Rabs_pos_eq y Y0) in Bn. fold eta in Bn. split; [now apply b64_nonneg|].
  rewrite U_51', eta_1073. apply Rabs_le_inv in E. assert (nU0 : 0 <= n * U) by (apply Rmult_le_pos; lra). assert (ne0 : 0 <= n * eta) by (apply Rmult_le_pos; lra). set (w := kk * eta * La). assert (w0 : 0 <= w) by (apply Rmult_le_pos; lra).
  assert (SB : S <= T + 2 * (kk * U) * T + 2 * w) by (unfold w; lra). assert (Y1 : n * U * S <= n * U * (T + 2 * (kk * U) * T + 2 * w)) by (apply Rmult_le_compat_l; lra).
  assert (UT : 0 <= U * T) by (apply Rmult_le_pos; lra). assert (nUT : 0 <= n * U * T) by (apply Rmult_le_pos; lra). assert (kUT : 0 <= kk * U * T) by (apply Rmult_le_pos; lra).
  assert (Y2 : n * U * (2 * (kk * U) * T) <= / 32 * (2 * (kk * U) * T)) by (apply Rmult_le_compat_r; lra). assert (Y3 : n * U * (2 * w) <= / 32 * (2 * w)) by (apply Rmult_le_compat_r; lra).
  assert (XT : Rabs (x - T) <= (22 / 10 * (n * U) + 22 / 10 * (kk * U)) * T + (2 * (n * eta) + 22 / 10 * w)).
  { replace (x - T) with ((x - S) + (S - T)) by ring. eapply Rle_trans; [apply Rabs_triang|]. assert (Rabs (S - T) <= 2 * (kk * U) * T + 2 * w) by (apply Rabs_le; unfold w; lra). lra. }
  assert (XT' : x <= 12 / 10 * T + (2 * (n * eta) + 22 / 10 * w)). { apply Rabs_le_inv in XT. assert (n * U * T <= / 32 * T) by (apply Rmult_le_compat_r; lra). assert (kk * U * T <= / 32 * T) by (apply Rmult_le_compat_r; lra). lra. }
  assert (M1 : Rabs (y - R) <= ((22 / 10 * (n * U) + 22 / 10 * (kk * U)) * T + (2 * (n * eta) + 22 / 10 * w)) * i).
  { unfold y, R. replace (x * i - T * i) with ((x - T) * i) by ring. rewrite Rabs_mult, (Rabs_pos_eq i) by lra. apply Rmult_le_compat_r; lra. }
  assert (M2 : U * y <= U * ((12 / 10 * T + (2 * (n * eta) + 22 / 10 * w)) * i)) by (apply Rmult_le_compat_l; [lra|]; unfold y; apply Rmult_le_compat_r; lra).
  set (z := 2 * (n * eta) + 22 / 10 * w) in *. assert (z0 : 0 <= z) by (unfold z; lra). assert (zi : z * i <= z * 1) by (apply Rmult_le_compat_l; lra). assert (zi0 : 0 <= z * i) by (apply Rmult_le_pos; lra). assert (Uzi : U * (z * i) <= / 1000000 * (z * i)) by (apply Rmult_le_compat_r; lra).
  match goal with |- Rabs ?q <= _ => replace q with ((binary64 y - y) + (y - R)) by (change q with (binary64 y - R); ring) end. eapply Rle_trans; [apply Rabs_triang|]. unfold R in *. assert (R0 : 0 <= T * i) by (apply Rmult_le_pos; lra). assert (0 <= n * U * (T * i)) by (apply Rmult_le_pos; lra). assert (0 <= kk * U * (T * i)) by (apply Rmult_le_pos; lra). assert (0 <= U * (T * i)) by (apply Rmult_le_pos; lra).
  replace ((n + kk * La + 1) * (4 * eta)) with (4 * (n * eta) + 4 * w + 4 * eta) by (unfold w; ring). replace ((n + kk + 1) * (4 * U) * (T * i)) with (4 * (n * U * (T * i)) + 4 * (kk * U * (T * i)) + 4 * (U * (T * i))) by ring. unfold z in zi, Uzi, zi0. unfold z in M1, M2. lra.
Qed.
Fixpoint nblocks (ls : list nat) (k : nat) : list (list nat) :=
  match k with O => [[]] | S k' => flat_map (fun l => map (cons l) (nblocks ls k')) ls end.
Lemma blocks_map (f : nat -> R) ls k : blocks (map f ls) k = map (map f) (nblocks ls k).
Proof.
  induction k as [|k IH]; [reflexivity|]. cbn [blocks nblocks]. rewrite IH. clear IH. generalize (nblocks ls k). intros bs. induction ls as [|l ls IH]; [reflexivity|]. cbn [map flat_map]. rewrite map_app, <- IH. f_equal. rewrite !map_map. reflexivity.
Qed.
Lemma nblocks_sum ls k m : Forall (fun l => (l <= m)%nat) ls -> Forall (fun b => (list_sum b <= k * m)%nat) (nblocks ls k).
Proof.
  intros F. induction k as [|k IH]; [constructor; [cbn; lia|constructor]|]. cbn [nblocks]. apply Forall_flat_map. rewrite Forall_forall in *. intros l Hl. apply Forall_map, Forall_forall. intros b Hb. specialize (F l Hl). specialize (IH b Hb). cbv beta in *. change (list_sum (l :: b)) with (l + list_sum b)%nat. lia.
Qed.
Lemma product_pow b : product (map (fun l => / 2 ^ l) b) = / 2 ^ list_sum b.
Proof. unfold product. induction b as [|l b IH]; [cbn; lra|]. cbn [map fold_right]. rewrite IH, <- inv_pow_add. reflexivity. Qed.
(* The probabilities 2^-l with k l <= 47 and a mean length below 64: the only rounding is that of the division by k. *)
Theorem C120_rate_dyadic : forall npdot npprod k m lengths ls, any_dot npdot -> any_product npprod -> Forall (fun l => (l <= m)%nat) ls -> (k * m <= 47)%nat ->
  let pmf := map (fun l => / 2 ^ l) ls in let n := mean lengths (map product (blocks pmf k)) in
  length lengths = length (blocks pmf k) -> n < 64 -> float_rate npdot npprod k lengths pmf = binary64 (n / INR k).
Proof.
  intros npdot npprod k m ws ls HD HP F Hm pmf n HL Hn. pose proof (nblocks_sum ls k m F) as B. unfold float_rate. cbv zeta. unfold n in *. clear n. unfold pmf in *. clear pmf. rewrite blocks_map in HL, Hn |- *. set (es := map (@list_sum) (nblocks ls k)).
  assert (E1 : map npprod (map (map (fun l => / 2 ^ l)) (nblocks ls k)) = map (fun l => / 2 ^ l) es).
  { unfold es. rewrite !map_map. apply map_ext_in. intros b Hb. rewrite Forall_forall in B. specialize (B b Hb). cbv beta in B. apply (product_dyadic _ _ (HP _) b eq_refl). lia. }
  assert (E2 : map product (map (map (fun l => / 2 ^ l)) (nblocks ls k)) = map (fun l => / 2 ^ l) es).
  { unfold es. rewrite !map_map. apply map_ext. intros b. apply product_pow. }
  rewrite E2 in Hn |- *. rewrite E1. rewrite map_length in HL. rewrite dyadic_dot; auto.
  - unfold es. rewrite map_length. symmetry. exact HL.
  - unfold es. apply Forall_map. eapply Forall_impl; [|exact B]. cbv beta. intros b Hb. lia.
Qed.
(* A code whose lengths are -log2 of dyadic probabilities has a rate equal to the entropy, as floating-point numbers. *)
Theorem C120_rate_is_entropy : forall clog clog2 npdot npprod ls, accurate_logs clog clog2 -> any_dot npdot -> any_product npprod -> Forall (fun l => (l <= 47)%nat) ls ->
  let pmf := map (fun l => / 2 ^ l) ls in total pmf <= 1 -> float_rate npdot npprod 1 ls pmf = float_entropy clog clog2 npdot (Base 2) pmf.
Proof.
  intros clog clog2 npdot npprod ls HL HD HP F pmf B. pose proof (mean_bound ls F) as MB. fold pmf in MB.
  assert (E : map product (blocks pmf 1) = pmf). { clear. generalize pmf. clear. intros q. cbn [blocks]. induction q as [|p q IH]; [reflexivity|]. cbn [flat_map]. rewrite map_app, IH. cbn [map app]. f_equal. unfold product. cbn. ring. }
  assert (Lb : length (blocks pmf 1) = length pmf) by (rewrite <- (map_length product), E; reflexivity).
  pose proof (C120_rate_dyadic npdot npprod 1 47 ls ls HD HP F ltac:(lia)) as Q. cbv zeta in Q. fold pmf in Q. rewrite E in Q. rewrite Q; [|rewrite Lb; unfold pmf; now rewrite map_length|lra].
  pose proof (C120_entropy_dyadic clog clog2 npdot ls HL HD F B) as Q2. fold pmf in Q2. rewrite Q2. cbn [INR]. unfold Rdiv. rewrite Rinv_1, Rmult_1_r. apply binary64_id.
  unfold pmf. rewrite <- (dyadic_dot npdot ls ls HD eq_refl F) by (fold pmf; lra). eapply dot_format, HD. now rewrite !map_length.
Qed.

(* ================= rate of a variable-to-fixed code *)
Lemma mean_le ws bs : Forall (fun b => product b <= 1) bs -> mean ws (map product bs) <= INR (list_sum ws).
Proof.
  unfold mean, total. revert bs. induction ws as [|w ws IH]; intros [|b bs] F; try (cbn [map combine fold_right]; apply pos_INR). cbn [map combine fold_right fst snd]. change (list_sum (w :: ws)) with (w + list_sum ws)%nat. rewrite plus_INR. specialize (IH bs (Forall_inv_tail F)). pose proof (Forall_inv F) as P. cbv beta in P. pose proof (pos_INR w). assert (INR w * product b <= INR w * 1) by (apply Rmult_le_compat_l; lra). lra.
Qed.
(* Every list of non-empty sourcewords of at most K symbols with a mean length of at least 1/2 (at least 1 for a fully covering
   code): the relative error is (N + K + 2) 2^-51. *)
Theorem C120_v2f_rate : forall npdot npprod n words pmf K, any_dot npdot -> any_product npprod -> (1 <= n)%nat -> Forall (fun p => double p /\ 0 <= p <= 1) pmf ->
  Forall (fun x => x <> [] /\ (length x <= K)%nat /\ Forall (fun s => (s < length pmf)%nat) x) words -> INR (length words) <= 2 ^ 48 -> INR K <= 2 ^ 48 ->
  let kbar := mean (map (@length nat) words) (map (fun x => product (map (fun s => nth s pmf 0) x)) words) in let rate := INR n / kbar in
  1 / 2 <= kbar -> Rabs (float_v2f_rate npdot npprod n words pmf - rate) <= (INR (length words) + INR K + 2) / 2 ^ 51 * rate.
Proof.
  intros npdot npprod n words pmf K HD HP Hn F W HN HK kbar rate Hk. pose proof U_small as [U0 U1]. pose proof eta_pos as E0. set (bs := map (map (fun s => nth s pmf 0)) words).
  assert (Ek : kbar = mean (map (@length nat) words) (map product bs)) by (unfold kbar, bs; now rewrite map_map). set (N := INR (length words)) in *. set (kk := INR K) in *. assert (kk0 : 0 <= kk) by apply pos_INR. assert (N0 : 0 <= N) by apply pos_INR.
  assert (Uk0 : 0 <= kk * U) by (apply Rmult_le_pos; lra). assert (ek0 : 0 <= kk * eta) by (apply Rmult_le_pos; lra).
  assert (G : Forall (fun b => 0 <= npprod b /\ 0 <= product b /\ Rabs (npprod b - product b) <= 2 * kk * U * product b + 2 * kk * eta) bs).
  { unfold bs. apply Forall_map. eapply Forall_impl; [|exact W]. cbv beta. intros x (X1 & X2 & X3). set (b := map (fun s => nth s pmf 0) x). assert (B : Forall (fun p => double p /\ 0 <= p <= 1) b).
    { unfold b. apply Forall_map. eapply Forall_impl; [|exact X3]. cbv beta. intros s Hs. rewrite Forall_forall in F. apply F, nth_In, Hs. }
    assert (F1 : Forall (fun p => 0 <= p <= 1) b) by (eapply Forall_impl; [|exact B]; cbv beta; tauto). assert (F2 : Forall is_binary64 b) by (eapply Forall_impl; [|exact B]; cbv beta; intros y [Y _]; exact Y).
    assert (Lb : INR (length b) <= kk) by (unfold b; rewrite map_length; apply le_INR, X2). destruct (product_near b _ (HP b) F1 F2 ltac:(unfold b; destruct x; [contradiction|discriminate]) ltac:(lra)) as [Y0 Y1]. pose proof (product_unit b F1) as [P0 P1]. split; [lra|]. split; [exact P0|]. eapply Rle_trans; [exact Y1|].
    assert (V1 : INR (length b) * (U * product b) <= kk * (U * product b)) by (apply Rmult_le_compat_r; [apply Rmult_le_pos; lra|exact Lb]). assert (V2 : INR (length b) * eta <= kk * eta) by (apply Rmult_le_compat_r; lra). lra. }
  assert (G1 : Forall (fun b => product b <= 1) bs).
  { unfold bs. apply Forall_map. eapply Forall_impl; [|exact W]. cbv beta. intros x (_ & _ & X3). apply product_unit. apply Forall_map. eapply Forall_impl; [|exact X3]. cbv beta. intros s Hs. rewrite Forall_forall in F. apply F, nth_In, Hs. }
  destruct (rate_terms npprod (2 * kk * U) (2 * kk * eta) (map (@length nat) words) bs ltac:(unfold bs; now rewrite !map_length) ltac:(lra) ltac:(lra) G) as (A & B & T0 & E).
  pose proof (HD (map INR (map (@length nat) words)) (map npprod bs) ltac:(unfold bs; now rewrite !map_length)) as D. unfold float_v2f_rate. cbv zeta. replace (map (fun x => npprod (map (fun symb => nth symb pmf 0) x)) words) with (map npprod bs) by (unfold bs; now rewrite map_map).
  set (l := combine _ _) in *. set (x := npdot _ _) in *. rewrite <- Ek in *. assert (Ln : INR (length l) = N) by (rewrite A; unfold bs, N; now rewrite map_length). destruct (dot_near l x D B ltac:(rewrite Ln; exact HN)) as [X0 X1]. rewrite Ln in X1. set (S := pairs l) in *.
  assert (La : INR (list_sum (map (@length nat) words)) <= kk * N).
  { unfold kk, N. rewrite <- mult_INR. apply le_INR. clear - W. induction W as [|y ys (_ & Y & _) _ IH]; [cbn; lia|]. cbn [map length]. change (list_sum (length y :: map (@length nat) ys)) with (length y + list_sum (map (@length nat) ys))%nat. lia. }
  set (Q := INR (list_sum (map (@length nat) words))) in *. assert (Q0 : 0 <= Q) by apply pos_INR.
  assert (P48 : (2 : R) ^ 48 * U <= / 32) by (rewrite U_val; lra). assert (NU : N * U <= / 32) by (apply Rle_trans with (2 ^ 48 * U); [apply Rmult_le_compat_r; lra|lra]). assert (KU : kk * U <= / 32) by (apply Rle_trans with (2 ^ 48 * U); [apply Rmult_le_compat_r; lra|lra]).
  assert (NU0 : 0 <= N * U) by (apply Rmult_le_pos; lra).
  (* the underflow terms are far below U *)
  assert (Ez : 2 ^ 160 * eta <= / 1000 * U). { unfold eta. rewrite U_val. pose proof (pow_small 800 1075 ltac:(lia)) as Z. pose proof (inv_pow_pos 800). assert (/ 2 ^ 800 = / 2 ^ 600 * / 2 ^ 200) by (rewrite <- inv_pow_add; reflexivity). lra. }
  assert (M1 : N * eta <= 2 ^ 48 * eta) by (apply Rmult_le_compat_r; lra). assert (M2 : kk * eta * Q <= 2 ^ 144 * eta).
  { apply Rle_trans with (kk * eta * (kk * N)); [apply Rmult_le_compat_l; lra|]. replace (kk * eta * (kk * N)) with (kk * (kk * N) * eta) by ring. apply Rmult_le_compat_r; [lra|]. replace (2 ^ 144) with (2 ^ 48 * (2 ^ 48 * 2 ^ 48)) by (rewrite <- !pow_add; reflexivity). apply Rmult_le_compat; try lra; try (apply Rmult_le_pos; lra); apply Rmult_le_compat; lra. }
  assert (M3 : 2 * (N * eta) + 2 * (kk * eta * Q) <= / 1000 * U). { eapply Rle_trans; [|exact Ez]. assert ((2 : R) ^ 160 = 2 ^ 16 * 2 ^ 144) by (rewrite <- pow_add; reflexivity). assert ((2 : R) ^ 48 * eta <= 2 ^ 144 * eta) by (apply Rmult_le_compat_r; [lra|apply Rle_pow; [lra|lia]]). rewrite H. assert (0 <= 2 ^ 144 * eta) by (apply Rmult_le_pos; [apply pow_le|]; lra). lra. }
  assert (Ne0 : 0 <= N * eta) by (apply Rmult_le_pos; lra). assert (ke0 : 0 <= kk * eta * Q) by (apply Rmult_le_pos; lra).
  set (t := kbar) in *. apply Rabs_le_inv in E. assert (SB : S <= t + 2 * (kk * U) * t + 2 * (kk * eta * Q)) by lra.
  assert (Y1 : N * U * S <= N * U * (t + 2 * (kk * U) * t + 2 * (kk * eta * Q))) by (apply Rmult_le_compat_l; lra). assert (nUT : 0 <= N * U * t) by (apply Rmult_le_pos; lra). assert (kUT : 0 <= kk * U * t) by (apply Rmult_le_pos; lra). assert (UT : 0 <= U * t) by (apply Rmult_le_pos; lra). assert (UT' : U * (1 / 2) <= U * t) by (apply Rmult_le_compat_l; lra).
  assert (Y2 : N * U * (2 * (kk * U) * t) <= / 32 * (2 * (kk * U) * t)) by (apply Rmult_le_compat_r; lra). assert (Y3 : N * U * (2 * (kk * eta * Q)) <= / 32 * (2 * (kk * eta * Q))) by (apply Rmult_le_compat_r; lra).
  set (d := 2 * (N * U) + 22 / 10 * (kk * U) + / 100 * U). assert (XT : Rabs (x - t) <= d * t).
  { replace (x - t) with ((x - S) + (S - t)) by ring. eapply Rle_trans; [apply Rabs_triang|]. assert (Rabs (S - t) <= 2 * (kk * U) * t + 2 * (kk * eta * Q)) by (apply Rabs_le; lra). unfold d. lra. }
  assert (D0 : 0 <= d) by (unfold d; lra). assert (D1 : d <= 14 / 100) by (unfold d; lra). apply Rabs_le_inv in XT. assert (dt : d * t <= 14 / 100 * t) by (apply Rmult_le_compat_r; lra). assert (Xp : 86 / 100 * t <= x) by lra. assert (x0 : 0 < x) by lra.
  assert (n1 : 1 <= INR n) by (apply (le_INR 1) in Hn; cbn in Hn; lra). assert (R0 : 0 < rate) by (apply Rdiv_lt_0_compat; lra).
  assert (Z1 : Rabs (INR n / x - rate) <= 100 / 86 * d * rate).
  { replace (INR n / x - rate) with (rate * ((t - x) / x)) by (unfold rate; field; lra). rewrite Rabs_mult, (Rabs_pos_eq rate) by lra. rewrite (Rmult_comm _ rate). apply Rmult_le_compat_l; [lra|]. unfold Rdiv at 1. rewrite Rabs_mult, (Rabs_pos_eq (/ x)) by (left; apply Rinv_0_lt_compat; lra).
    apply Rmult_le_reg_r with x; [lra|]. rewrite Rmult_assoc, Rinv_l, Rmult_1_r by lra. apply Rle_trans with (d * t); [apply Rabs_le; lra|]. apply Rle_trans with (100 / 86 * d * (86 / 100 * t)); [right; field|]. apply Rmult_le_compat_l; [lra|exact Xp]. }
  assert (Up : x <= 2 ^ 100). { assert (T1 : t <= Q). { rewrite Ek. apply mean_le, G1. } assert (kk * N <= 2 ^ 48 * 2 ^ 48) by (apply Rmult_le_compat; lra). lra. }
  assert (Lo : / 2 ^ 1003 <= INR n / x). { apply Rle_trans with (/ 2 ^ 100); [apply pow_small; lia|]. apply Rle_trans with (/ x); [apply Rinv_le_contravar; lra|]. unfold Rdiv. rewrite <- (Rmult_1_l (/ x)) at 1. apply Rmult_le_compat_r; [left; apply Rinv_0_lt_compat; lra|exact n1]. }
  pose proof (b64_err (INR n / x) (or_intror Lo)) as Be. replace ((N + kk + 2) / 2 ^ 51) with ((N + kk + 2) * (4 * U)) by (unfold Rdiv; now rewrite U_51'). set (y := INR n / x) in *. apply Rabs_le_inv in Z1. assert (dR : d * rate <= 14 / 100 * rate) by (apply Rmult_le_compat_r; lra). assert (Yb : U * y <= U * (12 / 10 * rate)) by (apply Rmult_le_compat_l; lra).
  replace (binary64 y - rate) with ((binary64 y - y) + (y - rate)) by ring. eapply Rle_trans; [apply Rabs_triang|]. assert (Rabs (y - rate) <= 100 / 86 * d * rate) by (apply Rabs_le; lra).
  assert (0 <= N * U * rate) by (apply Rmult_le_pos; lra). assert (0 <= kk * U * rate) by (apply Rmult_le_pos; lra). assert (0 <= U * rate) by (apply Rmult_le_pos; lra).
  replace (100 / 86 * d * rate) with (100 / 86 * (2 * (N * U * rate) + 22 / 10 * (kk * U * rate) + / 100 * (U * rate))) in * by (unfold d; ring). replace ((N + kk + 2) * (4 * U) * rate) with (4 * (N * U * rate) + 4 * (kk * U * rate) + 8 * (U * rate)) by ring. assert (Rabs (binary64 y - y) <= U * y) by (apply Rabs_le; lra). lra.
Qed.
Theorem C120_v2f_satisfiable : exists words pmf, Forall (fun p => double p /\ 0 <= p <= 1) pmf /\
  Forall (fun x => x <> [] /\ (length x <= 2)%nat /\ Forall (fun s => (s < length pmf)%nat) x) words /\ INR (length words) <= 2 ^ 48 /\ INR 2 <= 2 ^ 48 /\
  mean (map (@length nat) words) (map (fun x => product (map (fun s => nth s pmf 0) x)) words) = 3 / 2.
Proof.
  assert (DH : double (/ 2)) by (change (/ 2) with (bpow radix2 (-1)); apply generic_format_FLT_bpow; [red; lia|lia]).
  exists [[0]; [1; 0]; [1; 1]]%nat, [/ 2; / 2]. split; [repeat constructor; auto; lra|]. split; [repeat constructor; try discriminate; cbn; lia|]. split; [cbn; lra|]. split; [cbn; lra|]. unfold mean, total, product. cbn. lra.
Qed.

(* ================= the assumptions are met *)
Fixpoint dot_left (a b : list R) (s : R) : R := match a, b with x :: a', y :: b' => dot_left a' b' (binary64 (s + x * y)) | _, _ => s end.
(* a fused multiply-add per entry, from left to right *)
Theorem C120_fused_dot : any_dot (fun a b => dot_left a b 0).
Proof.
  intros a b _. assert (G : forall a b done s, rounded_dot done s -> rounded_dot (done ++ combine a b) (dot_left a b s)).
  { induction a0 as [|x a0 IH]; intros [|y b0] done s H; cbn [dot_left combine]; rewrite ?app_nil_r; auto.
    replace (done ++ (x, y) :: combine a0 b0) with ((done ++ [(x, y)]) ++ combine a0 b0) by (rewrite <- app_assoc; reflexivity). apply IH. eapply dot_fma; [exact H|]. apply (Permutation_app_comm [(x, y)] done). }
  apply (G a b [] 0). constructor.
Qed.
Fixpoint prod_left (l : list R) : R := match l with [] => 1 | [x] => x | x :: l' => binary64 (x * prod_left l') end.
Theorem C120_plain_product : any_product prod_left.
Proof.
  intros l. induction l as [|x [|y l] IH]; [constructor|constructor|]. change (prod_left (x :: y :: l)) with (binary64 (x * prod_left (y :: l))). eapply prod_mul; [apply prod_one|exact IH|apply Permutation_refl].
Qed.
Lemma above_one x : double x -> 1 < x -> 1 + / 2 ^ 52 <= x.
Proof.
  intros D H. assert (S : succ radix2 (FLT_exp (-1074) 53) 1 = 1 + / 2 ^ 52).
  { rewrite succ_eq_pos by lra. f_equal. rewrite ulp_neq_0 by lra. unfold Generic_fmt.cexp. replace (mag radix2 1 : Z) with 1%Z.
    - change (FLT_exp (-1074) 53 1) with (-52)%Z. change (bpow radix2 (-52)) with (/ IZR (2 ^ 52)). rewrite pow_IZR. reflexivity.
    - symmetry. apply mag_unique. rewrite Rabs_right by lra. change (bpow radix2 (1 - 1)) with 1. change (bpow radix2 1) with 2. lra. }
  rewrite <- S. apply succ_le_lt; [apply FLT_exp_valid; unfold Prec_gt_0; lia| |exact D|exact H]. change 1 with (bpow radix2 0). apply generic_format_FLT_bpow; [red; lia|lia].
Qed.
(* correctly rounded functions are accurate *)
Theorem C120_rounded_library : accurate_logs (fun x => binary64 (ln x)) (fun x => binary64 (ln x / ln 2)) /\ accurate_power (fun x y => binary64 (Rpower x y)).
Proof.
  pose proof U_small as [U0 U1]. assert (L2 : 0 < ln 2) by (rewrite <- ln_1; apply ln_increasing; lra). pose proof eta_pos as E0.
  assert (L2' : ln 2 <= 1) by (pose proof (Info_Sums.ln_le_sub 2); lra).
  assert (N : forall y, double y -> 1 <= y -> forall d, 0 < d <= 1 -> Rabs (binary64 (ln y / d) - ln y / d) <= / 2 ^ 50 * (ln y / d)).
  { intros y Dy Hy d Hd. pose proof (ln_nonneg y Hy) as X0. rewrite U_50. set (q := ln y / d). assert (Q0 : 0 <= q) by (apply Rmult_le_pos; [lra|left; apply Rinv_0_lt_compat; lra]).
    assert (C : q = 0 \/ / 2 ^ 1003 <= q).
    { destruct (Req_dec y 1) as [->|Ne]; [left; unfold q; rewrite ln_1; unfold Rdiv; ring|right]. pose proof (above_one y Dy ltac:(lra)) as A. pose proof (inv_pow_pos 52) as P52.
      pose proof (Info_Sums.ln_le_sub (/ y) ltac:(apply Rinv_0_lt_compat; lra)) as B. rewrite ln_Rinv in B by lra. assert (I : / y <= 1 - / 2 ^ 53).
      { apply Rmult_le_reg_r with y; [lra|]. rewrite Rinv_l by lra. apply Rle_trans with ((1 - / 2 ^ 53) * (1 + / 2 ^ 52)); [|apply Rmult_le_compat_l; lra]. lra. }
      assert (G : / 2 ^ 53 <= q). { apply Rle_trans with (ln y); [lra|]. unfold q, Rdiv. rewrite <- (Rmult_1_r (ln y)) at 1. apply Rmult_le_compat_l; [exact X0|]. rewrite <- Rinv_1. apply Rinv_le_contravar; lra. }
      pose proof (pow_small 53 1003 ltac:(lia)). lra. }
    pose proof (b64_err q C) as E. assert (0 <= U * q) by (apply Rmult_le_pos; lra). apply Rabs_le. lra. }
  split; [split; [|split]|].
  - intros x Dx Hx. specialize (N x Dx Hx 1 ltac:(lra)). unfold Rdiv in N. rewrite Rinv_1, Rmult_1_r in N. exact N.
  - intros x Dx Hx. apply N; auto.
  - intros l Hl. rewrite log2_pow. apply binary64_nat. lia.
  - intros T l HT. assert (T2 : 2 <= INR T) by (apply (le_INR 2) in HT; cbn in HT; lra). assert (E : Rpower (INR T) (- INR l) = / INR T ^ l) by (rewrite Rpower_Ropp, Rpower_pow by lra; reflexivity). rewrite E.
    assert (Q : 0 < / INR T ^ l) by (apply Rinv_0_lt_compat, pow_lt; lra). split; [apply b64_format|]. split; [apply b64_nonneg; lra|]. split; [|intros D; apply binary64_id, D].
    rewrite U_52', eta_1074. pose proof (b64_near (/ INR T ^ l)) as B. rewrite Rabs_pos_eq with (x := / INR T ^ l) in B by lra. fold eta in B. assert (0 <= U * / INR T ^ l) by (apply Rmult_le_pos; lra). lra.
Qed.

(* ================= a complete code can have a Kraft parameter below 1, and the entropy of a pmf can overflow *)
Lemma cexp_at x p : (-1021 <= p)%Z -> bpow radix2 (p - 1) <= x < bpow radix2 p -> Generic_fmt.cexp radix2 (FLT_exp (-1074) 53) x = (p - 53)%Z.
Proof. intros Hp B. unfold Generic_fmt.cexp. rewrite (mag_unique_pos radix2 x p B). unfold FLT_exp. lia. Qed.
Lemma b64_at x p k : (-1021 <= p)%Z -> bpow radix2 (p - 1) <= x < bpow radix2 p -> Rabs (x * bpow radix2 (53 - p) - IZR k) < / 2 -> binary64 x = IZR k * bpow radix2 (p - 53).
Proof.
  intros Hp B N. unfold binary64, round. rewrite (cexp_at x p Hp B). unfold scaled_mantissa. rewrite (cexp_at x p Hp B). replace (- (p - 53))%Z with (53 - p)%Z by lia. rewrite (Znearest_imp _ _ k) by exact N. reflexivity.
Qed.
Lemma b64_tie x p k : (-1021 <= p)%Z -> bpow radix2 (p - 1) <= x < bpow radix2 p -> Z.even k = true -> x * bpow radix2 (53 - p) = IZR k - / 2 -> binary64 x = IZR k * bpow radix2 (p - 53).
Proof.
  intros Hp B Ev N. unfold binary64, round, scaled_mantissa. rewrite (cexp_at x p Hp B). replace (- (p - 53))%Z with (53 - p)%Z by lia. rewrite N. set (y := IZR k - / 2).
  assert (F : Zfloor y = (k - 1)%Z) by (apply Zfloor_imp; unfold y; rewrite plus_IZR, minus_IZR; lra). assert (C : Zceil y = k) by (apply Zceil_imp; unfold y; rewrite minus_IZR; lra).
  unfold Znearest. rewrite F, C, Rcompare_Eq by (unfold y; rewrite minus_IZR; lra). rewrite Z.even_sub, Ev. reflexivity.
Qed.
(* The complete code of the six one-symbol words over an alphabet of six symbols: with a correctly rounded power and a sum
   from left to right the Kraft parameter is 1 - 2^-53, not 1. *)
Theorem C120_kraft_refuted : exists cpow npsum T ls, accurate_power cpow /\ any_order npsum /\ (2 <= T)%nat /\ kraft T ls = 1 /\
  float_kraft_parameter cpow npsum T ls = 1 - / 2 ^ 53.
Proof.
  exists (fun x y => binary64 (Rpower x y)), (fun l => fold_left (fun a x => binary64 (a + x)) l 0), 6%nat, (repeat 1%nat 6).
  split; [apply C120_rounded_library|]. split; [apply Props_FloatSoft.C118_left_to_right|]. split; [lia|]. split; [unfold kraft, total; cbn; lra|].
  unfold float_kraft_parameter. cbn [repeat map]. rewrite Rpower_Ropp. change (INR 1) with 1. rewrite Rpower_1 by (cbn; lra). replace (INR 6) with 6 by (cbn; lra).
  assert (P53 : bpow radix2 53 = 9007199254740992) by (cbn; lra). assert (P54 : bpow radix2 54 = 18014398509481984) by (cbn; lra). assert (P55 : bpow radix2 55 = 36028797018963968) by (cbn; lra).
  assert (N : forall k, bpow radix2 (- k) = / bpow radix2 k) by (intros k; apply bpow_opp).
  set (a := binary64 (/ 6)). assert (A : a = 6004799503160661 / 36028797018963968).
  { unfold a. rewrite (b64_at _ (-2) 6004799503160661); [|lia| |].
    - change (-2 - 53)%Z with (- (55))%Z. rewrite N, P55. reflexivity.
    - change (bpow radix2 (-2 - 1)) with (/ 8). change (bpow radix2 (-2)) with (/ 4). lra.
    - change (53 - -2)%Z with 55%Z. rewrite P55. apply Rabs_def1; lra. }
  cbn [fold_left]. rewrite Rplus_0_l. assert (S1 : binary64 a = a) by (apply binary64_id, b64_format). rewrite S1.
  assert (S2 : binary64 (a + a) = 2 * a).
  { replace (a + a) with (2 * a) by ring. rewrite (b64_at _ (-1) 6004799503160661); [|lia| |].
    - change (-1 - 53)%Z with (- (54))%Z. rewrite N, P54, A. lra.
    - change (bpow radix2 (-1 - 1)) with (/ 4). change (bpow radix2 (-1)) with (/ 2). rewrite A. lra.
    - change (53 - -1)%Z with 54%Z. rewrite P54, A. apply Rabs_def1; lra. }
  rewrite S2. assert (S3 : binary64 (2 * a + a) = / 2).
  { rewrite (b64_tie _ (-1) 9007199254740992); [|lia| |reflexivity|].
    - change (-1 - 53)%Z with (- (54))%Z. rewrite N, P54. lra.
    - change (bpow radix2 (-1 - 1)) with (/ 4). change (bpow radix2 (-1)) with (/ 2). rewrite A. lra.
    - change (53 - -1)%Z with 54%Z. rewrite P54, A. lra. }
  rewrite S3. assert (R : forall m k, 4503599627370496 <= IZR k <= 9007199254740991 -> m / 36028797018963968 * 9007199254740992 = IZR k + / 4 -> binary64 (m / 36028797018963968) = IZR k / 9007199254740992).
  { intros m k K M. rewrite (b64_at _ 0 k); [|lia| |].
    - change (0 - 53)%Z with (- (53))%Z. rewrite N, P53. reflexivity.
    - change (bpow radix2 (0 - 1)) with (/ 2). change (bpow radix2 0) with 1. lra.
    - change (53 - 0)%Z with 53%Z. rewrite P53, M. apply Rabs_def1; lra. }
  replace (/ 2 + a) with (24019198012642645 / 36028797018963968) by (rewrite A; lra). rewrite (R _ 6004799503160661%Z) by lra.
  replace (6004799503160661 / 9007199254740992 + a) with (30023997515803305 / 36028797018963968) by (rewrite A; lra). rewrite (R _ 7505999378950826%Z) by lra.
  replace (7505999378950826 / 9007199254740992 + a) with (36028797018963965 / 36028797018963968) by (rewrite A; lra). rewrite (R _ 9007199254740991%Z) by lra. lra.
Qed.
Lemma tiny_sum e : double e -> 0 <= e -> binary64 (1 + e) = 1 -> forall l x, rounded_sum l x ->
  (l = [] -> x = 0) /\ (l = [1] -> x = 1) /\ (l = [e] -> x = e) /\ (l = [1; e] \/ l = [e; 1] -> x = 1).
Proof.
  intros De E0 E1 l x H. assert (Be : binary64 e = e) by (apply binary64_id, De). assert (B1 : binary64 1 = 1) by exact (binary64_pow 0). assert (B0 : binary64 0 = 0) by apply b64_0.
  induction H as [|x|l1 l2 l x1 x2 H1 IH1 H2 IH2 P].
  - split; [|split; [|split]]; intros Q; [reflexivity|discriminate|discriminate|destruct Q; discriminate].
  - split; [|split; [|split]]; intros Q; [discriminate|congruence|congruence|destruct Q; discriminate].
  - destruct IH1 as (A0 & A1 & A2 & A3), IH2 as (C0 & C1 & C2 & C3). split; [|split; [|split]]; intros Q.
    + subst l. apply Permutation_sym, Permutation_nil in P. apply app_eq_nil in P as [-> ->]. rewrite A0, C0, Rplus_0_l by reflexivity. exact B0.
    + subst l. apply Permutation_sym, Permutation_length_1_inv in P. apply app_eq_unit in P as [[-> ->]|[-> ->]]; [rewrite A0, C1, Rplus_0_l by reflexivity|rewrite A1, C0, Rplus_0_r by reflexivity]; exact B1.
    + subst l. apply Permutation_sym, Permutation_length_1_inv in P. apply app_eq_unit in P as [[-> ->]|[-> ->]]; [rewrite A0, C2, Rplus_0_l by reflexivity|rewrite A2, C0, Rplus_0_r by reflexivity]; exact Be.
    + assert (R : l1 ++ l2 = [1; e] \/ l1 ++ l2 = [e; 1]).
      { destruct Q as [-> | ->]; apply Permutation_sym, Permutation_length_2_inv in P; tauto. }
      clear P Q. destruct l1 as [|y [|y' [|y'' l1]]].
      * rewrite A0, Rplus_0_l by reflexivity. rewrite C3 by exact R. exact B1.
      * destruct R as [R|R]; injection R as -> ->; [rewrite A1, C2 by reflexivity; exact E1|rewrite A2, C1, Rplus_comm by reflexivity; exact E1].
      * assert (l2 = []) as -> by (destruct R as [R|R]; injection R as _ _ R; destruct l2; [reflexivity|discriminate|reflexivity|discriminate]). rewrite app_nil_r in R. rewrite A3, C0, Rplus_0_r by (exact R || reflexivity). exact B1.
      * destruct R as [R|R]; discriminate.
Qed.
(* The pmf [1; 2^-1074] consists of doubles which any rounded sum adds to exactly 1, and its entropy is below 2^-1063, but the
   1/p that np.log is applied to exceeds the range of binary64: the computed value is infinite. *)
Theorem C120_entropy_overflow_refuted : exists pmf, Forall (fun p => double p /\ 0 < p <= 1) pmf /\ (forall npsum, any_order npsum -> npsum pmf = 1) /\
  entropy_nats pmf <= / 2 ^ 1063 /\ exists p, In p pmf /\ 2 ^ 1024 <= binary64 (1 / p).
Proof.
  pose proof (inv_pow_pos 1074) as I0. pose proof (pow_small 100 1074 ltac:(lia)) as I2. pose proof (inv_pow_pos 100) as I1. assert (I3 : / 2 ^ 100 <= / 2 ^ 60) by (apply pow_small; lia). assert (I4 : / 2 ^ 60 < / 2 ^ 54) by lra. exists [1; / 2 ^ 1074].
  assert (D1 : double 1) by (change 1 with (bpow radix2 0); apply generic_format_FLT_bpow; [red; lia|lia]).
  assert (D2 : double (/ 2 ^ 1074)) by (rewrite <- bpow_neg; apply generic_format_FLT_bpow; [red; lia|lia]).
  split; [constructor; [split; [exact D1|lra]|constructor; [split; [exact D2|lra]|constructor]]|]. split; [|split].
  - intros npsum HS. apply (tiny_sum (/ 2 ^ 1074) D2 ltac:(lra)) with (l := [1; / 2 ^ 1074]); [|apply HS|left; reflexivity]. set (e := / 2 ^ 1074) in *. rewrite (b64_at _ 1 4503599627370496); [|lia| |].
    + change (1 - 53)%Z with (- (52))%Z. rewrite bpow_opp. change (bpow radix2 52) with 4503599627370496. lra.
    + change (bpow radix2 (1 - 1)) with 1. change (bpow radix2 1) with 2. lra.
    + change (53 - 1)%Z with 52%Z. change (bpow radix2 52) with 4503599627370496. apply Rabs_def1; lra.
  - unfold entropy_nats, total. cbn [map fold_right]. destruct (Rlt_dec 0 1); [|lra]. destruct (Rlt_dec 0 (/ 2 ^ 1074)); [|lra]. replace (1 / 1) with 1 by field. rewrite ln_1. unfold Rdiv. rewrite Rinv_inv, !Rmult_1_l, ln_pow by lra.
    pose proof (Info_Sums.ln_le_sub 2 ltac:(lra)) as L. assert (C : INR 1074 <= 2 ^ 11).
    { rewrite INR_IZR_INZ. change (Z.of_nat 1074) with 1074%Z. lra. }
    pose proof (pos_INR 1074). assert (L0 : 0 <= ln 2) by (apply ln_nonneg; lra).
    assert (X : INR 1074 * ln 2 <= 2 ^ 11 * 1) by (apply Rmult_le_compat; lra). rewrite Rplus_0_l, Rplus_0_r.
    apply Rle_trans with (/ 2 ^ 1074 * (2 ^ 11 * 1)); [apply Rmult_le_compat_l; lra|]. replace 1074%nat with (1063 + 11)%nat by reflexivity. rewrite inv_pow_add. right. field.
  - exists (/ 2 ^ 1074). split; [right; left; reflexivity|]. unfold Rdiv. rewrite Rinv_inv, Rmult_1_l. rewrite binary64_pow. apply Rle_pow; [lra|lia].
Qed.
(* The hypotheses are met: correctly rounded log, log2 and pow, a fused np.dot and a left-to-right np.sum and np.prod, a pmf with a
   zero entry, a code with three words over two symbols. *)
Theorem C120_satisfiable : exists clog clog2 cpow npdot npsum npprod, accurate_logs clog clog2 /\ accurate_power cpow /\ any_dot npdot /\ any_order npsum /\ any_product npprod /\
  log_base_above_1 (Base 2) /\ Forall (fun p => p = 0 \/ / 2 ^ 1000 <= p <= 1) [/ 2; 0; / 2] /\ INR (length [/ 2; 0; / 2]) <= 2 ^ 48 /\
  Forall (fun p => double p /\ 0 <= p <= 1) [/ 2; 0; / 2] /\ length (repeat 1%nat 9) = length (blocks [/ 2; 0; / 2] 2) /\
  Forall (fun l => (l <= 47)%nat) [1; 2; 2]%nat /\ total (map (fun l => / 2 ^ l) [1; 2; 2]%nat) = 1 /\
  float_kraft_parameter cpow npsum 2 [1; 2; 2]%nat = 1 /\
  float_entropy clog clog2 npdot (Base 2) (map (fun l => / 2 ^ l) [1; 2; 2]%nat) = 3 / 2 /\
  float_rate npdot npprod 1 [1; 2; 2]%nat (map (fun l => / 2 ^ l) [1; 2; 2]%nat) = 3 / 2.
Proof.
  destruct C120_rounded_library as [HL HP]. pose proof (inv_pow_pos 1000) as I0. assert (I1 : / 2 ^ 1000 <= / 2 ^ 1) by (apply pow_small; lia). rewrite pow_1 in I1.
  assert (DH : double (/ 2)) by (change (/ 2) with (bpow radix2 (-1)); apply generic_format_FLT_bpow; [red; lia|lia]). assert (D0 : double 0) by apply generic_format_0.
  assert (D2 : double 2) by (change 2 with (bpow radix2 1); apply generic_format_FLT_bpow; [red; lia|lia]).
  assert (F47 : Forall (fun l => (l <= 47)%nat) [1; 2; 2]%nat) by (repeat constructor; lia). assert (T1 : total (map (fun l => / 2 ^ l) [1; 2; 2]%nat) = 1) by (unfold total; cbn; lra).
  assert (T2 : total (map (fun l => / 2 ^ l) [1; 2; 2]%nat) <= 1) by lra.
  pose proof (C120_entropy_dyadic _ _ _ _ HL C120_fused_dot F47 T2) as E. pose proof (C120_rate_is_entropy _ _ _ _ _ HL C120_fused_dot C120_plain_product F47 T2) as Q. cbv zeta in Q.
  assert (M : mean [1; 2; 2]%nat (map (fun l => / 2 ^ l) [1; 2; 2]%nat) = 3 / 2) by (unfold mean, total; cbn; lra). rewrite M in E. rewrite E in Q.
  exists (fun x => binary64 (ln x)), (fun x => binary64 (ln x / ln 2)), (fun x y => binary64 (Rpower x y)), (fun a b => dot_left a b 0), (fun l => fold_left (fun a x => binary64 (a + x)) l 0), prod_left.
  repeat match goal with |- _ /\ _ => split end; try exact HL; try exact HP; try exact C120_fused_dot; try exact Props_FloatSoft.C118_left_to_right; try exact C120_plain_product; try exact F47; try exact T1; try exact E; try exact Q.
  - split; [exact D2|lra].
  - constructor; [right; lra|constructor; [left; reflexivity|constructor; [right; lra|constructor]]].
  - cbn. lra.
  - constructor; [split; [exact DH|lra]|constructor; [split; [exact D0|lra]|constructor; [split; [exact DH|lra]|constructor]]].
  - reflexivity.
  - assert (K : kraft (2 ^ 1) [1; 2; 2]%nat = 1) by (unfold kraft, total; cbn; lra). rewrite <- K. apply (C120_kraft_exact _ _ 1 _ HP Props_FloatSoft.C118_left_to_right); [lia|repeat constructor; lia|lra].
Qed.
