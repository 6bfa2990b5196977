(* Entropy bounds on the rates of fixed-to-variable and variable-to-fixed codes. *)
From Verif Require Import Common Prefix_Model Prefix_Proof Cover_Proof Canonical_Proof Parse_Proof Spec_Lossless Kraft_Proof PmfCodes_Model Huffman_Proof HuffmanOpt_Proof PmfCodes_Proof McMillan_Proof Rate_Model.
From Coq Require Import QArith Qabs Qreals Reals Lra Lia Psatz.
From Verif Require Import FB_Model FB_Proof Info_Spec Info_Sums Info_Proof Rate_Proof Rate_Tree.
Local Open Scope R_scope.

Notation blocks pmf k := (map qprod (product_repeat pmf k)) (only parsing).
Lemma blocks_length pmf k : N.of_nat (length (blocks pmf k)) = (N.of_nat (length pmf) ^ N.of_nat k)%N.
Proof. rewrite product_blocks, map_length. apply tuples_length. Qed.

Lemma f2v_size src tgt k m c : f2v_make src tgt k m = Some c -> NoDup (map fst m) ->
  f2v_src c = src /\ f2v_tgt c = tgt /\ f2v_k c = k /\ f2v_map c = m /\ (2 <= tgt)%N /\ (1 <= k)%nat /\ (2 <= src)%N /\
  Forall (Forall (fun x => (x < tgt)%N)) (f2v_codewords c) /\ N.of_nat (length (f2v_codewords c)) = (src ^ N.of_nat k)%N.
Proof.
  intros E ND. destruct (f2v_make_inv _ _ _ _ _ E) as (Hs & Ht & Hk & HK & HV & ->). cbn. unfold f2v_codewords. cbn [f2v_map].
  repeat (split; [first [reflexivity|assumption]|]). rewrite map_length, <- (map_length fst), <- tuples_length.
  f_equal. apply Nat.le_antisymm; apply NoDup_incl_length; try assumption; try apply tuples_NoDup; intros w; apply HK.
Qed.

Lemma f2v_rate_value tol c pmf : (0 <= tol)%Q -> exact_pmf pmf -> (1 <= f2v_k c)%nat ->
  N.of_nat (length (f2v_codewords c)) = (N.of_nat (length pmf) ^ N.of_nat (f2v_k c))%N ->
  exists r, f2v_rate tol c pmf = Some r /\
    (r == expected_length (blocks pmf (f2v_k c)) (f2v_codewords c) / nat_q (f2v_k c))%Q /\
    Q2R r = sum_to (length (blocks pmf (f2v_k c))) (fun i => nth i (RL (blocks pmf (f2v_k c))) 0 * INR (nth i (map (@length N) (f2v_codewords c)) 0%nat)) / INR (f2v_k c).
Proof.
  intros HT HP Hk HL. unfold f2v_rate. rewrite exact_pmf_valid by assumption.
  assert (L : length (map (@length N) (f2v_codewords c)) = length (blocks pmf (f2v_k c))). { apply Nat2N.inj. rewrite blocks_length, map_length. exact HL. }
  rewrite !map_length in *. rewrite L, Nat.eqb_refl. eexists. split; [reflexivity|]. split.
  - rewrite expected_qdot. reflexivity.
  - unfold Qdiv. assert (K0 : ~ (nat_q (f2v_k c) == 0)%Q) by (unfold nat_q, Qeq; cbn; lia).
    rewrite Q2R_mult, Q2R_inv, Q2R_nat by exact K0. unfold Rdiv. f_equal.
    rewrite <- (map_map (@length N) nat_q), qdot_Rsum by (rewrite !map_length; exact L). rewrite map_length. reflexivity.
Qed.

Lemma nth_RL i ps : nth i (RL ps) 0 = Q2R (nth i ps 0%Q).
Proof. rewrite <- (map_nth Q2R), Q2R_0'. reflexivity. Qed.
Lemma nat_q_S n : (nat_q (S n) == nat_q n + 1)%Q.
Proof. unfold nat_q. rewrite Nat2Z.inj_succ, <- Z.add_1_r, inject_Z_plus. reflexivity. Qed.
Lemma div_le_div a b c : 0 < c -> a * c <= b -> a <= b / c.
Proof. intros Hc H. apply (Rmult_le_reg_r c); [assumption|]. unfold Rdiv. rewrite Rmult_assoc, Rinv_l by lra. lra. Qed.
Lemma ln_N_pos b : (2 <= b)%N -> 0 < ln (INR (N.to_nat b)).
Proof.
  intros Hb. rewrite <- ln_1. apply ln_increasing; [lra|]. apply (lt_INR 1). lia.
Qed.

Lemma f2v_entropy_bound src tgt k m c pmf tol : (0 <= tol)%Q -> f2v_make src tgt k m = Some c -> NoDup (map fst m) ->
  N.of_nat (length pmf) = src -> exact_pmf pmf -> uniquely_decodable (f2v_codewords c) ->
  exists r, f2v_rate tol c pmf = Some r /\ H_list (RL pmf) / ln (INR (N.to_nat tgt)) <= Q2R r.
Proof.
  intros HT E ND L HP UD. destruct (f2v_size _ _ _ _ _ E ND) as (Es & Et & Ek & Em & Ht & Hk & Hs & HR & HL).
  destruct (f2v_rate_value tol c pmf HT HP) as (r & Er & _ & V); [lia|rewrite L, Ek; exact HL|].
  exists r. split; [exact Er|]. rewrite V, Ek. pose proof (ln_N_pos tgt Ht) as PT.
  assert (PK : 0 < INR k) by (apply lt_0_INR; lia).
  assert (NL : length (blocks pmf k) = length (map (@length N) (f2v_codewords c))). { apply Nat2N.inj. rewrite blocks_length, map_length, L. symmetry. exact HL. }
  destruct (block_pmf pmf k HP) as [BP BH].
  pose proof (mcmillan tgt (f2v_codewords c) Ht HR UD) as K. apply Qle_Rle in K. rewrite Q2R_1', kraft_Rsum in K by assumption.
  change (map wlen (f2v_codewords c)) with (map (@length N) (f2v_codewords c)) in K. rewrite <- NL in K.
  rewrite map_length in BP. unfold H_list in BH at 1. rewrite map_length in BH.
  assert (PD : 0 < INR (N.to_nat tgt)) by (apply lt_0_INR; lia).
  pose proof (entropy_le_length _ _ (map (@length N) (f2v_codewords c)) (INR (N.to_nat tgt)) BP PD K) as G. rewrite BH in G.
  apply div_le_div; [assumption|].
  apply (Rmult_le_reg_r (ln (INR (N.to_nat tgt)))); [assumption|].
  replace (H_list (RL pmf) / ln (INR (N.to_nat tgt)) * INR k * ln (INR (N.to_nat tgt))) with (INR k * H_list (RL pmf)) by (field; lra). exact G.
Qed.

(* expected length of Shannon's words for a perturbed distribution *)
Lemma sum_Rsum_len ps ws : length ws = length ps ->
  Q2R (expected_length ps ws) = sum_to (length ps) (fun i => nth i (RL ps) 0 * INR (length (nth i ws []))).
Proof.
  intros L. rewrite (Qeq_eqR _ _ (expected_qdot ps ws)). rewrite <- (map_map (@length N) nat_q), qdot_Rsum by (rewrite map_length; exact L).
  apply sum_ext. intros i Hi. do 2 f_equal. change 0%nat with (length (@nil N)) at 1. apply map_nth.
Qed.

Lemma expected_strict ps ws : (2 <= length ps)%nat -> pmf_list (RL ps) -> Forall (fun p => (0 < p)%Q) ps -> length ws = length ps ->
  (forall i, (i < length ps)%nat -> nth i (RL ps) 0 < 1 -> INR (length (nth i ws [])) * ln 2 < - ln (nth i (RL ps) 0) + ln 2) ->
  Q2R (expected_length ps ws) * ln 2 < H_list (RL ps) + ln 2.
Proof.
  intros H2 BP HP L W. rewrite sum_Rsum_len by exact L. rewrite map_length in BP.
  unfold H_list. rewrite map_length, (H_nats_alt _ _ BP). destruct BP as (_ & NN & S1).
  assert (PO : forall i, (i < length ps)%nat -> 0 < nth i (RL ps) 0).
  { intros i Hi. rewrite nth_RL. apply Q2R_pos. rewrite Forall_forall in HP. apply HP, nth_In. exact Hi. }
  assert (L1 : forall i, (i < length ps)%nat -> nth i (RL ps) 0 < 1).
  { intros i Hi. destruct (Rlt_dec (nth i (RL ps) 0) 1) as [|G]; [assumption|exfalso].
    set (j := if Nat.eqb i 0 then 1%nat else 0%nat).
    assert (J : (j < length ps)%nat /\ j <> i) by (unfold j; destruct (Nat.eqb_spec i 0); lia). clearbody j. destruct J as [J1 J2].
    assert (A : nth i (RL ps) 0 + nth j (RL ps) 0 <= 1).
    { rewrite <- S1, <- (sum_delta (length ps) i (fun x => nth x (RL ps) 0) Hi), <- (sum_delta (length ps) j (fun x => nth x (RL ps) 0) J1), <- sum_plus. apply sum_le.
      intros x Hx. specialize (PO x Hx). destruct (Nat.eqb_spec x i), (Nat.eqb_spec x j); try congruence; lra. }
    specialize (PO j J1). lra. }
  rewrite <- sum_scal_r. replace (- sum_to (length ps) (fun i => nth i (RL ps) 0 * ln (nth i (RL ps) 0)) + ln 2)
    with (sum_to (length ps) (fun i => nth i (RL ps) 0 * (- ln (nth i (RL ps) 0) + ln 2))).
  2:{ rewrite (sum_ext _ _ (fun i => (-1) * (nth i (RL ps) 0 * ln (nth i (RL ps) 0)) + nth i (RL ps) 0 * ln 2)) by (intros; ring).
      rewrite sum_plus, sum_scal, sum_scal_r, S1. ring. }
  apply sum_lt; [lia|]. intros i Hi. rewrite Rmult_assoc. apply Rmult_lt_compat_l; [apply PO; assumption|]. apply W; auto.
Qed.

Lemma ln_one_minus M : (2 <= M)%nat -> - ln (1 - / INR M) <= / (INR M - 1).
Proof.
  intros HM. assert (I : 2 <= INR M) by (apply (le_INR 2); exact HM). assert (P : 0 < / INR M) by (apply Rinv_0_lt_compat; lra).
  assert (E : 1 - / INR M = / (INR M / (INR M - 1))) by (field; lra).
  assert (Q : 0 < INR M / (INR M - 1)) by (apply Rdiv_lt_0_compat; lra).
  rewrite E, ln_Rinv by exact Q. pose proof (ln_le_sub _ Q).
  replace (INR M / (INR M - 1) - 1) with (/ (INR M - 1)) in H by (field; lra). lra.
Qed.
Lemma limit_le a b : (forall M, (2 <= M)%nat -> a <= b + / (INR M - 1)) -> a <= b.
Proof.
  intros H. destruct (Rle_dec a b) as [|N]; [assumption|exfalso]. assert (D : 0 < a - b) by lra.
  destruct (archimed_cor1 _ D) as (K & K1 & K2). specialize (H (S K) ltac:(lia)). rewrite S_INR in H.
  replace (INR K + 1 - 1) with (INR K) in H by ring. lra.
Qed.

Lemma expected_perturbed ps E : (2 <= length ps)%nat -> pmf_list (RL ps) -> Forall (fun p => (0 <= p)%Q) ps -> (qsum ps <= 1)%Q ->
  (forall ws, length ws = length ps -> Forall (Forall (fun x => (x < 2)%N)) ws -> Forall (fun w => w <> []) ws -> prefix_free_words ws ->
     (E <= expected_length ps ws)%Q) ->
  Q2R E * ln 2 <= H_list (RL ps) + ln 2.
Proof.
  intros H2 BP HP HS OPT. rewrite map_length in BP. apply limit_le. intros M HM.
  set (e := (/ nat_q M)%Q). set (n := length ps) in *. set (ps' := map (fun p => ((1 - e) * p + e / nat_q n)%Q) ps).
  assert (EM : Q2R e = / INR M). { unfold e. rewrite Q2R_inv, Q2R_nat; [reflexivity|]. unfold nat_q, Qeq. cbn. lia. }
  assert (IM : 2 <= INR M) by (apply (le_INR 2); exact HM). assert (PM : 0 < / INR M) by (apply Rinv_0_lt_compat; lra).
  assert (LM : / INR M <= / 2) by (apply Rinv_le_contravar; lra).
  assert (e0 : (0 < e)%Q). { apply Rlt_Qlt. rewrite Q2R_0', EM. exact PM. }
  assert (e1 : (0 < 1 - e)%Q). { apply Rlt_Qlt. rewrite Q2R_0', Q2R_minus, Q2R_1', EM. lra. }
  assert (n0 : (0 < nat_q n)%Q). { apply Rlt_Qlt. rewrite Q2R_0', Q2R_nat. apply lt_0_INR. lia. }
  assert (en : (0 < e / nat_q n)%Q). { unfold Qdiv. rewrite <- (Qmult_0_l (/ nat_q n)). apply Qmult_lt_compat_r; [apply Qinv_lt_0_compat; exact n0|exact e0]. }
  assert (L' : length ps' = n) by apply map_length.
  assert (P' : Forall (fun p => (0 < p)%Q) ps').
  { apply Forall_forall. intros x Hx. apply in_map_iff in Hx. destruct Hx as (p & <- & Hp). rewrite Forall_forall in HP. specialize (HP p Hp).
    assert (0 <= (1 - e) * p)%Q by (apply Qmult_le_0_compat; [apply Qlt_le_weak; exact e1|exact HP]). lra. }
  assert (S' : (qsum ps' <= 1)%Q).
  { assert (G : forall l, (qsum (map (fun p => ((1 - e) * p + e / nat_q n)%Q) l) == (1 - e) * qsum l + nat_q (length l) * (e / nat_q n))%Q).
    { induction l as [|a l IH]; cbn [qsum fold_right map length].
      - unfold nat_q. cbn [Z.of_nat]. change (inject_Z 0) with 0%Q. ring.
      - fold (qsum l). fold (qsum (map (fun p => ((1 - e) * p + e / nat_q n)%Q) l)). rewrite IH. rewrite nat_q_S. ring. }
    unfold ps'. rewrite G. fold n. setoid_replace (nat_q n * (e / nat_q n))%Q with e by (field; intros C; rewrite C in n0; revert n0; apply Qlt_irrefl).
    assert ((1 - e) * qsum ps <= (1 - e) * 1)%Q. { rewrite !(Qmult_comm (1 - e)). apply Qmult_le_compat_r; [exact HS|apply Qlt_le_weak; exact e1]. }
    lra. }
  destruct (shannon_words ps' ltac:(lia) P' S') as (ws & Lw & Bw & Nw & Fw & W).
  specialize (OPT ws ltac:(congruence) Bw Nw Fw). apply Qle_Rle in OPT.
  assert (L2 : 0 < ln 2) by (rewrite <- ln_1; apply ln_increasing; lra).
  apply Rle_trans with (Q2R (expected_length ps ws) * ln 2); [apply Rmult_le_compat_r; [lra|exact OPT]|].
  rewrite sum_Rsum_len by (rewrite Lw, L'; reflexivity). fold n. unfold H_list. rewrite map_length. fold n. rewrite (H_nats_alt _ _ BP).
  destruct BP as (_ & NN & S1). rewrite <- sum_scal_r.
  replace (- sum_to n (fun i => nth i (RL ps) 0 * ln (nth i (RL ps) 0)) + ln 2 + / (INR M - 1))
    with (sum_to n (fun i => nth i (RL ps) 0 * (- ln (nth i (RL ps) 0) + / (INR M - 1) + ln 2))).
  2:{ rewrite (sum_ext _ _ (fun i => (-1) * (nth i (RL ps) 0 * ln (nth i (RL ps) 0)) + nth i (RL ps) 0 * (/ (INR M - 1) + ln 2))) by (intros; ring).
      rewrite sum_plus, sum_scal, sum_scal_r, S1. ring. }
  apply sum_le. intros i Hi. rewrite Rmult_assoc. specialize (NN i Hi).
  destruct (Req_dec (nth i (RL ps) 0) 0) as [->|NZ]; [lra|]. apply Rmult_le_compat_l; [exact NN|].
  destruct (W i ltac:(lia)) as [W1 _]. eapply Rle_trans; [exact W1|].
  assert (EP : nth i (RL ps') 0 = (1 - / INR M) * nth i (RL ps) 0 + Q2R (e / nat_q n)).
  { rewrite !nth_RL. unfold ps'. rewrite (nth_indep _ 0%Q ((1 - e) * 0 + e / nat_q n)%Q) by (fold ps'; lia).
    rewrite (map_nth (fun p => ((1 - e) * p + e / nat_q n)%Q)), Q2R_plus, Q2R_mult, Q2R_minus, Q2R_1', EM. reflexivity. }
  pose proof (Q2R_pos _ en) as EN.
  assert (LB : (1 - / INR M) * nth i (RL ps) 0 <= nth i (RL ps') 0) by (rewrite EP; lra).
  assert (PX : 0 < (1 - / INR M) * nth i (RL ps) 0) by (apply Rmult_lt_0_compat; lra).
  pose proof (ln_mono _ _ PX LB) as LN. rewrite ln_mult in LN by lra. pose proof (ln_one_minus M HM). lra.
Qed.
