(* Property theorems C80 and C81: rates of source codes. *)
From Verif Require Import Common Prefix_Model Prefix_Proof Cover_Proof Canonical_Proof Parse_Proof Spec_Lossless Kraft_Proof PmfCodes_Model Huffman_Proof HuffmanOpt_Proof PmfCodes_Proof McMillan_Proof Rate_Model Props_PmfCodes.
From Coq Require Import QArith Qabs Qreals Permutation Reals Lra Lia Psatz.
From Verif Require Import FB_Model FB_Proof Info_Spec Info_Sums Info_Proof Rate_Spec Rate_Proof Rate_Tree Rate_Internal Rate_Bounds Rate_Tunstall.
Local Open Scope R_scope.

Lemma mean_parse_R pmf ws : Q2R (mean_parse_length pmf ws) = mean_length (RL pmf) ws.
Proof.
  unfold mean_parse_length, mean_length. induction ws as [|w ws IH]; cbn [sum_q map]; [apply Q2R_0'|]. rewrite Q2R_plus, Q2R_mult, Rsum_cons, IH, word_prob_Q.
  change (len_q w) with (nat_q (length w)). rewrite Q2R_nat. reflexivity.
Qed.
Lemma expected_sum pmf (m : list (list N * list N)) :
  (expected_length (map (block_prob pmf) (map fst m)) (map snd m) == sum_q (fun kv => block_prob pmf (fst kv) * len_q (snd kv)) m)%Q.
Proof. induction m as [|[k v] m IH]; cbn [map expected_length sum_q fst snd]; [reflexivity|]. rewrite IH. reflexivity. Qed.
Lemma entropy_list pmf : source_entropy pmf = H_list (RL pmf).
Proof. unfold source_entropy, H_list. rewrite map_length. reflexivity. Qed.

(* ---- C80: rate is the mean codeword length per source symbol when the mapping lists the blocks lexicographically *)
Theorem C80_rate : forall src tgt k m c pmf tol, (0 <= tol)%Q -> f2v_make src tgt k m = Some c -> map fst m = tuples src k ->
  N.of_nat (length pmf) = src -> exact_pmf_q pmf ->
  exists r, f2v_rate tol c pmf = Some r /\
    (r == sum_q (fun kv => block_prob pmf (fst kv) * len_q (snd kv)) m / inject_Z (Z.of_nat k))%Q.
Proof.
  intros src tgt k m c pmf tol HT E HK L HP.
  assert (ND : NoDup (map fst m)) by (rewrite HK; apply tuples_NoDup).
  destruct (f2v_size _ _ _ _ _ E ND) as (Es & Et & Ek & Em & Ht & Hk & Hs & HR & HL).
  destruct (f2v_rate_value tol c pmf HT HP) as (r & Er & V & _); [lia|rewrite L, Ek; exact HL|].
  exists r. split; [exact Er|]. rewrite V, Ek. unfold f2v_codewords. rewrite Em, product_blocks, L, <- HK, expected_sum. reflexivity.
Qed.
Example C80_rate_example : exists c r, f2v_make 2 2 1 [([0], [0]); ([1], [1; 0])]%N = Some c /\ f2v_rate 0 c [9 # 10; 1 # 10] = Some r /\ (r == 11 # 10)%Q.
Proof. eexists. eexists. split; [vm_compute; reflexivity|]. split; [vm_compute; reflexivity|reflexivity]. Qed.
(* A mapping given in another order (from_enc_mapping keeps the order of the dict) gets the rate of another code:
   here the frequent symbol has the long codeword, the mean length is 19/10 and rate returns 11/10. *)
Theorem C80_rate_order_refuted : exists c r, f2v_make 2 2 1 [([1], [0]); ([0], [1; 0])]%N = Some c /\
  f2v_rate 0 c [9 # 10; 1 # 10] = Some r /\ (r == 11 # 10)%Q /\
  (sum_q (fun kv => block_prob [9 # 10; 1 # 10] (fst kv) * len_q (snd kv)) (f2v_map c) == 19 # 10)%Q.
Proof. eexists. eexists. split; [vm_compute; reflexivity|]. split; [vm_compute; reflexivity|]. split; reflexivity. Qed.

(* no uniquely decodable code beats the entropy *)
Theorem C80_entropy_bound : forall src tgt k m c pmf tol, (0 <= tol)%Q -> f2v_make src tgt k m = Some c -> NoDup (map fst m) ->
  N.of_nat (length pmf) = src -> exact_pmf_q pmf -> uniquely_decodable (f2v_codewords c) ->
  exists r, f2v_rate tol c pmf = Some r /\ source_entropy pmf / ln (INR (N.to_nat tgt)) <= Q2R r.
Proof. intros. rewrite entropy_list. eapply f2v_entropy_bound; eauto. Qed.
(* kraft_parameter of a uniquely decodable code is at most one *)
Theorem C80_kraft_parameter : forall src tgt k m c, f2v_make src tgt k m = Some c ->
  (f2v_kraft_parameter c == kraft_sum tgt (map (@length N) (map snd m)))%Q /\
  (uniquely_decodable (f2v_codewords c) -> (f2v_kraft_parameter c <= 1)%Q).
Proof.
  intros src tgt k m c E. destruct (f2v_make_inv _ _ _ _ _ E) as (Hs & Ht & Hk & HK & HV & Ec).
  assert (G : (f2v_kraft_parameter c == kraft_sum tgt (map (@length N) (map snd m)))%Q).
  { unfold f2v_kraft_parameter, f2v_codewords. rewrite Ec. cbn [f2v_map f2v_tgt]. induction (map snd m) as [|w l IH]; [reflexivity|].
    cbn [map qsum kraft_sum fold_right]. fold (qsum (map (fun w => (/ inject_Z (Z.of_N tgt ^ Z.of_nat (length w)))%Q) l)). rewrite IH. reflexivity. }
  split; [exact G|]. intros U. rewrite G. unfold f2v_codewords in U. rewrite Ec in U. cbn [f2v_map] in U. apply (mcmillan tgt (map snd m) Ht HV U).
Qed.

(* Huffman codes: H <= rate <= H + 1/k bits, strictly below when no probability vanishes *)
Theorem C80_huffman_rate : forall pmf k pol asg tol, (0 <= tol)%Q -> (2 <= length pmf)%nat -> (1 <= k)%nat -> exact_pmf_q pmf ->
  exists c r, huffman_make pmf k pol asg = Some c /\ f2v_rate tol c pmf = Some r /\
    source_entropy pmf / ln 2 <= Q2R r <= source_entropy pmf / ln 2 + / INR k /\
    (Forall (fun p => (0 < p)%Q) pmf -> Q2R r < source_entropy pmf / ln 2 + / INR k).
Proof.
  intros pmf k pol asg tol HT H2 Hk HP. destruct (huffman_make_spec pmf k pol asg H2 Hk) as (c & ws & E & [G1 G2 G3 G4 G5 G6 G7 G8 G9] & _).
  assert (Em : exists m, f2v_make (N.of_nat (length pmf)) 2 k m = Some c). { unfold huffman_make in E. destruct (huffman_codewords _ _ _); [|discriminate]. eauto. }
  destruct Em as (m & Em). destruct (f2v_make_inv _ _ _ _ _ Em) as (_ & _ & _ & _ & _ & Ec).
  assert (Fm : f2v_map c = m) by (rewrite Ec; reflexivity). rewrite Fm in G4.
  assert (ND : NoDup (map fst m)) by (rewrite G4; apply tuples_NoDup).
  assert (UD : uniquely_decodable (f2v_codewords c)).
  { apply is_uniquely_parsable_iff; auto. apply PF_uniquely_parsable; auto. apply is_prefix_free_iff in G6; auto. apply is_prefix_free_PF in G6. rewrite filter_non_empty_id in G6; auto. }
  destruct (f2v_entropy_bound _ _ _ _ _ _ _ HT Em ND eq_refl HP UD) as (r & Er & LB).
  change (INR (N.to_nat 2)) with (INR 2) in LB. replace (INR 2) with 2 in LB by (cbn [INR]; lra).
  destruct (f2v_size _ _ _ _ _ Em ND) as (_ & _ & _ & _ & _ & _ & _ & _ & HL).
  destruct (f2v_rate_value tol c pmf HT HP) as (r' & Er' & V & _); [lia|rewrite G3; exact HL|]. rewrite Er in Er'. injection Er' as <-.
  exists c, r. split; [exact E|]. split; [exact Er|]. rewrite entropy_list. rewrite G3 in V. apply Qeq_eqR in V.
  assert (K0 : ~ (nat_q k == 0)%Q) by (unfold nat_q, Qeq; cbn; lia).
  unfold Qdiv in V. rewrite Q2R_mult, Q2R_inv, Q2R_nat in V by exact K0. rewrite product_blocks in V.
  set (ps := map (block_prob pmf) (tuples (N.of_nat (length pmf)) k)) in *.
  destruct (block_pmf pmf k HP) as [BP BH]. rewrite product_blocks in BP, BH. fold ps in BP, BH.
  assert (LP : length ps = length (f2v_codewords c)). { apply Nat2N.inj. rewrite HL. unfold ps. rewrite map_length, tuples_length. reflexivity. }
  assert (L2 : 0 < ln 2) by (rewrite <- ln_1; apply ln_increasing; lra). assert (KP : 0 < INR k) by (apply lt_0_INR; lia).
  assert (N2 : (2 <= length ps)%nat). { pose proof (pow_ge_2 _ k H2 Hk). rewrite LP. lia. }
  assert (NNp : Forall (fun p => (0 <= p)%Q) ps).
  { apply Forall_forall. intros x Hx. unfold ps in Hx. apply in_map_iff in Hx. destruct Hx as (t & <- & _). destruct HP as [NN _]. clear - NN.
    induction t as [|a t IH]; cbn [block_prob fold_right]; [discriminate|]. apply Qmult_le_0_compat; [|exact IH].
    destruct (nth_in_or_default (N.to_nat a) pmf 0%Q) as [H| ->]; [rewrite Forall_forall in NN; auto|apply Qle_refl]. }
  assert (S1 : (qsum ps <= 1)%Q). { apply Rle_Qle. rewrite Q2R_sum, Q2R_1'. apply pmf_list_iff in BP. destruct BP as [_ ->]. lra. }
  assert (OPT : forall ws0, length ws0 = length ps -> Forall (Forall (fun x => (x < 2)%N)) ws0 -> Forall (fun w => w <> []) ws0 -> prefix_free_words ws0 ->
     (expected_length ps (f2v_codewords c) <= expected_length ps ws0)%Q).
  { intros ws0 A B C D. apply (C11_huffman_optimal_prefix_free pmf k pol asg); auto; [apply HP|congruence]. }
  pose proof (expected_perturbed ps _ N2 BP NNp S1 OPT) as UB. rewrite BH in UB.
  assert (CV : Q2R r = Q2R (expected_length ps (f2v_codewords c)) / INR k) by exact V.
  assert (CE : H_list (RL pmf) / ln 2 + / INR k = (INR k * H_list (RL pmf) + ln 2) / ln 2 / INR k) by (field; lra).
  split; [split; [exact LB|]|].
  - rewrite CV, CE. unfold Rdiv. apply Rmult_le_compat_r; [left; apply Rinv_0_lt_compat; exact KP|].
    apply (Rmult_le_reg_r (ln 2)); [exact L2|]. rewrite Rmult_assoc, Rinv_l by lra. lra.
  - intros PO. assert (PP : Forall (fun p => (0 < p)%Q) ps).
    { apply Forall_forall. intros x Hx. unfold ps in Hx. apply in_map_iff in Hx. destruct Hx as (t & <- & Ht). apply in_tuples in Ht. destruct Ht as [_ Ht]. clear - Ht PO.
      induction Ht as [|a t Ha Ht IH]; cbn [block_prob fold_right]; [reflexivity|]. apply Qmult_lt_0_compat; [|exact IH].
      rewrite Forall_forall in PO. apply PO. apply nth_In. lia. }
    destruct (shannon_words ps N2 PP S1) as (ws0 & A & B & C & D & W).
    pose proof (expected_strict ps ws0 N2 BP PP A ltac:(intros i Hi; apply (W i Hi))) as ST. rewrite BH in ST.
    specialize (OPT ws0 A B C D). apply Qle_Rle in OPT.
    rewrite CV, CE. unfold Rdiv. apply Rmult_lt_compat_r; [apply Rinv_0_lt_compat; exact KP|].
    apply (Rmult_lt_reg_r (ln 2)); [exact L2|]. rewrite Rmult_assoc, Rinv_l by lra.
    apply Rle_lt_trans with (Q2R (expected_length ps ws0) * ln 2); [apply Rmult_le_compat_r; lra|]. lra.
Qed.
Example C80_huffman_example : exact_pmf_q [8 # 10; 1 # 10; 1 # 10] /\ exists c r, huffman_make [8 # 10; 1 # 10; 1 # 10]%Q 2 High Tree = Some c /\
  f2v_rate 0 c [8 # 10; 1 # 10; 1 # 10] = Some r /\ (r == 96 # 100)%Q.
Proof. split; [split; [repeat constructor; discriminate|reflexivity]|]. eexists. eexists. split; [vm_compute; reflexivity|]. split; [vm_compute; reflexivity|reflexivity]. Qed.

(* Shannon codes: H <= rate < H + 1/k bits *)
Theorem C80_shannon_rate : forall pmf k tol, (0 <= tol)%Q -> (2 <= length pmf)%nat -> (1 <= k)%nat -> exact_pmf_q pmf -> Forall (fun p => (0 < p)%Q) pmf ->
  exists c r, shannon_make pmf k = Some c /\ f2v_rate tol c pmf = Some r /\
    source_entropy pmf / ln 2 <= Q2R r < source_entropy pmf / ln 2 + / INR k.
Proof.
  intros pmf k tol HT H2 Hk HP PO. assert (SP : (qsum pmf <= 1)%Q) by (destruct HP as [_ S]; rewrite S; apply Qle_refl).
  destruct (shannon_make_spec pmf k H2 Hk PO SP) as (c & ws & E & [G1 G2 G3 G4 G5 G6 G7 G8 G9] & K).
  assert (Em : exists m, f2v_make (N.of_nat (length pmf)) 2 k m = Some c).
  { unfold shannon_make in E. destruct (forallb _ pmf); [|discriminate]. destruct (canonical_code _ _); [|discriminate]. eauto. }
  destruct Em as (m & Em). destruct (f2v_make_inv _ _ _ _ _ Em) as (_ & _ & _ & _ & _ & Ec).
  assert (Fm : f2v_map c = m) by (rewrite Ec; reflexivity). rewrite Fm in G4.
  assert (ND : NoDup (map fst m)) by (rewrite G4; apply tuples_NoDup).
  assert (UD : uniquely_decodable (f2v_codewords c)).
  { apply is_uniquely_parsable_iff; auto. apply PF_uniquely_parsable; auto. apply is_prefix_free_iff in G6; auto. apply is_prefix_free_PF in G6. rewrite filter_non_empty_id in G6; auto. }
  destruct (f2v_entropy_bound _ _ _ _ _ _ _ HT Em ND eq_refl HP UD) as (r & Er & LB).
  change (INR (N.to_nat 2)) with (INR 2) in LB. replace (INR 2) with 2 in LB by (cbn [INR]; lra).
  destruct (f2v_size _ _ _ _ _ Em ND) as (_ & _ & _ & _ & _ & _ & _ & _ & HL).
  destruct (f2v_rate_value tol c pmf HT HP) as (r' & Er' & V & _); [lia|rewrite G3; exact HL|]. rewrite Er in Er'. injection Er' as <-.
  exists c, r. split; [exact E|]. split; [exact Er|]. rewrite entropy_list. rewrite G3 in V.
  rewrite product_blocks, <- (expected_length_wd _ _ _ (outer_power_blocks pmf k Hk)) in V. apply Qeq_eqR in V.
  assert (K0 : ~ (nat_q k == 0)%Q) by (unfold nat_q, Qeq; cbn; lia).
  unfold Qdiv in V. rewrite Q2R_mult, Q2R_inv, Q2R_nat in V by exact K0.
  set (ps := outer_power pmf k) in *.
  assert (RP : RL ps = RL (blocks pmf k)).
  { rewrite product_blocks. pose proof (outer_power_blocks pmf k Hk) as F. fold ps in F. clear - F. induction F as [|a b l l' Hab F IH]; [reflexivity|]. cbn [map]. rewrite IH, (Qeq_eqR _ _ Hab). reflexivity. }
  destruct (block_pmf pmf k HP) as [BP BH]. rewrite <- RP in BP, BH.
  assert (LP : length ps = length (f2v_codewords c)). { rewrite <- (map_length (@length N) (f2v_codewords c)), K, map_length. reflexivity. }
  assert (L2 : 0 < ln 2) by (rewrite <- ln_1; apply ln_increasing; lra). assert (KP : 0 < INR k) by (apply lt_0_INR; lia).
  assert (N2 : (2 <= length ps)%nat). { pose proof (pow_ge_2 _ k H2 Hk). rewrite LP. lia. }
  assert (PP : Forall (fun p => (0 < p)%Q) ps).
  { apply Forall_outer; auto. intros a b Ha Hb. rewrite <- (Qmult_0_l b). apply Qmult_lt_compat_r; auto. }
  assert (S1 : (qsum ps <= 1)%Q). { apply Rle_Qle. rewrite Q2R_sum, Q2R_1'. apply pmf_list_iff in BP. destruct BP as [_ ->]. lra. }
  split; [exact LB|].
  pose proof (shannon_words_of ps N2 PP S1 (f2v_codewords c) K) as W.
  pose proof (expected_strict ps (f2v_codewords c) N2 BP PP ltac:(congruence) ltac:(intros i Hi; apply (W i Hi))) as ST. rewrite BH in ST.
  assert (CE : H_list (RL pmf) / ln 2 + / INR k = (INR k * H_list (RL pmf) + ln 2) / ln 2 / INR k) by (field; lra).
  rewrite V, CE. unfold Rdiv. apply Rmult_lt_compat_r; [apply Rinv_0_lt_compat; exact KP|].
  apply (Rmult_lt_reg_r (ln 2)); [exact L2|]. rewrite Rmult_assoc, Rinv_l by lra. lra.
Qed.
Example C80_shannon_example : exists c r, shannon_make [8 # 10; 1 # 10; 1 # 10]%Q 1 = Some c /\ f2v_rate 0 c [8 # 10; 1 # 10; 1 # 10] = Some r /\ (r == 16 # 10)%Q.
Proof. eexists. eexists. split; [vm_compute; reflexivity|]. split; [vm_compute; reflexivity|reflexivity]. Qed.

(* ---- C81: variable-to-fixed codes *)
Theorem C81_rate : forall tgt src n m c pmf tol, (0 <= tol)%Q -> v2f_make tgt src n m = Some c ->
  N.of_nat (length pmf) = src -> exact_pmf_q pmf ->
  prefix_free_words (v2f_sourcewords c) -> covers_every_sequence (v2f_sourcewords c) src ->
  exists r, v2f_rate tol c pmf = Some r /\ (1 <= mean_parse_length pmf (map snd m))%Q /\ (r == inject_Z (Z.of_nat n) / mean_parse_length pmf (map snd m))%Q.
Proof.
  intros tgt src n m c pmf tol HT E L HP PF COV. destruct (v2f_rate_value _ _ _ _ _ _ _ HT E L HP PF COV) as (r & Er & V & ML).
  exists r. split; [exact Er|]. pose proof (v2f_make_inv _ _ _ _ _ E) as (_ & _ & _ & _ & _ & Ec).
  assert (ES : v2f_sourcewords c = map snd m) by (rewrite Ec; reflexivity). rewrite ES, <- mean_parse_R in *.
  split; [apply Rle_Qle; rewrite Q2R_1'; exact ML|]. apply eqR_Qeq. rewrite V. unfold Qdiv. change (inject_Z (Z.of_nat n)) with (nat_q n).
  rewrite Q2R_mult, Q2R_nat, Q2R_inv; [reflexivity|]. intros C. apply Qeq_eqR in C. rewrite Q2R_0' in C. lra.
Qed.
(* no complete prefix-free dictionary beats the entropy *)
Theorem C81_entropy_bound : forall tgt src n m c pmf tol, (0 <= tol)%Q -> v2f_make tgt src n m = Some c -> NoDup (map fst m) ->
  N.of_nat (length pmf) = src -> exact_pmf_q pmf ->
  prefix_free_words (v2f_sourcewords c) -> covers_every_sequence (v2f_sourcewords c) src ->
  exists r, v2f_rate tol c pmf = Some r /\ source_entropy pmf / ln (INR (N.to_nat tgt)) <= Q2R r.
Proof. intros. rewrite entropy_list. eapply v2f_entropy_bound; eauto. Qed.
(* Tunstall's dictionary has the greatest mean parse length among all complete prefix-free dictionaries that are
   not larger, and, unless card - 1 divides 2^n - 1, among all those with at most 2^n words *)
Theorem C81_tunstall_optimal : forall pop, max_heap_pop pop -> forall pmf n, (2 <= length pmf)%nat -> exact_pmf_q pmf ->
  (N.of_nat (length pmf) <= 2 ^ N.of_nat n)%N ->
  exists c, tunstall_make pop pmf n = Some c /\
    forall ws, Forall (Forall (fun x => (x < N.of_nat (length pmf))%N)) ws -> prefix_free_words ws -> covers_every_sequence ws (N.of_nat (length pmf)) ->
      (length ws <= length (v2f_sourcewords c))%nat \/ ((N.of_nat (length ws) <= 2 ^ N.of_nat n)%N /\ ((2 ^ N.of_nat n - 1) mod (N.of_nat (length pmf) - 1) <> 0)%N) ->
      (mean_parse_length pmf ws <= mean_parse_length pmf (v2f_sourcewords c))%Q.
Proof.
  intros pop Hpop pmf n H2 HP Hn.
  destruct (tunstall_spec pop ltac:(intros h Hh; destruct (Hpop h Hh) as (x & r & A & B & _); eauto) pmf H2 n Hn) as (c & E & Es & _ & _ & B1 & B2 & PF & COV & _).
  exists c. split; [exact E|]. intros ws HW HPF HC HL. apply Rle_Qle. rewrite !mean_parse_R.
  destruct (tunstall_optimal_dict pop pmf n c Hpop H2 HP Hn E ws HW HPF HC) as [(j & J) OPT]. apply OPT.
  assert (HT : Forall (Forall (fun x => (x < N.of_nat (length pmf))%N)) (v2f_sourcewords c)).
  { unfold tunstall_make in E. destruct (_ <? _)%N; [discriminate|]. destruct (length pmf <=? 1)%nat; [discriminate|]. destruct (tunstall_grow _ _ _ _); [|discriminate].
    apply v2f_make_inv in E. destruct E as (_ & _ & _ & _ & HV & ->). eapply Forall_impl; [|exact HV]. cbn. tauto. }
  destruct (tunstall_optimal_dict pop pmf n c Hpop H2 HP Hn E _ HT PF COV) as [(i & J') _].
  destruct HL as [|[L1 L2]]; [assumption|]. destruct (Nat.le_gt_cases (length ws) (length (v2f_sourcewords c))) as [|G]; [assumption|exfalso]. apply L2.
  assert (IJ : (i < j)%nat) by nia. assert (EQ : (2 ^ N.of_nat n = 1 + N.of_nat j * (N.of_nat (length pmf) - 1))%N) by nia.
  rewrite EQ. replace (1 + N.of_nat j * (N.of_nat (length pmf) - 1) - 1)%N with (N.of_nat j * (N.of_nat (length pmf) - 1))%N by lia. apply N.mod_mul. lia.
Qed.
(* and its rate approaches the entropy: rate * ln ((2^n - card + 1) * p_min) <= n * H *)
Theorem C81_tunstall_rate : forall pop, max_heap_pop pop -> forall pmf pmin n tol, (0 <= tol)%Q -> (2 <= length pmf)%nat -> exact_pmf_q pmf ->
  (0 < pmin)%Q -> Forall (fun p => (pmin <= p)%Q) pmf -> (N.of_nat (length pmf) <= 2 ^ N.of_nat n)%N ->
  exists c r, tunstall_make pop pmf n = Some c /\ v2f_rate tol c pmf = Some r /\
    source_entropy pmf / ln 2 <= Q2R r /\
    Q2R r * ln ((2 ^ n - INR (length pmf) + 1) * Q2R pmin) <= INR n * source_entropy pmf.
Proof.
  intros pop Hpop pmf pmin n tol HT H2 HP Hm0 Hm Hn.
  destruct (tunstall_spec pop ltac:(intros h Hh; destruct (Hpop h Hh) as (x & r & A & B & _); eauto) pmf H2 n Hn) as (c & E & Es & _ & _ & B1 & B2 & PF & COV & _).
  assert (EM : exists m, v2f_make 2 (N.of_nat (length pmf)) n m = Some c /\ NoDup (map fst m)).
  { assert (E' := E). unfold tunstall_make in E'. destruct (_ <? _)%N; [discriminate|]. destruct (length pmf <=? 1)%nat; [discriminate|]. destruct (tunstall_grow _ _ _ _) as [h|]; [|discriminate].
    eexists. split; [exact E'|]. apply dict_of_pairs_NoDup. }
  destruct EM as (m & EM & ND). destruct (v2f_rate_value _ _ _ _ _ _ _ HT EM eq_refl HP PF COV) as (r & Er & V & ML).
  destruct (v2f_entropy_bound _ _ _ _ _ _ _ HT EM ND eq_refl HP PF COV) as (r' & Er' & LB). rewrite Er in Er'. injection Er' as <-.
  change (INR (N.to_nat 2)) with (INR 2) in LB. replace (INR 2) with 2 in LB by (cbn [INR]; lra).
  exists c, r. rewrite entropy_list. repeat (split; [assumption|]). rewrite V.
  pose proof (tunstall_entropy pop pmf pmin n c Hpop H2 HP Hm0 Hm Hn E) as G. apply Q2R_pos in Hm0.
  assert (SZ : 2 ^ n - INR (length pmf) + 1 <= INR (length (v2f_sourcewords c))).
  { assert (P2 : 2 ^ n = INR (N.to_nat (2 ^ N.of_nat n))). { rewrite N2Nat.inj_pow, Nat2N.id, pow_INR. f_equal. }
    rewrite P2. assert (Z : (N.to_nat (2 ^ N.of_nat n) + 1 <= length (v2f_sourcewords c) + length pmf)%nat) by lia. apply le_INR in Z. rewrite !plus_INR in Z. cbn [INR] in Z. lra. }
  assert (PZ : 0 < 2 ^ n - INR (length pmf) + 1).
  { assert (P2 : 2 ^ n = INR (N.to_nat (2 ^ N.of_nat n))). { rewrite N2Nat.inj_pow, Nat2N.id, pow_INR. f_equal. }
    rewrite P2. assert (Z : (length pmf <= N.to_nat (2 ^ N.of_nat n))%nat) by lia. apply le_INR in Z. lra. }
  assert (LL : ln ((2 ^ n - INR (length pmf) + 1) * Q2R pmin) <= H_list (RL pmf) * mean_length (RL pmf) (v2f_sourcewords c)).
  { eapply Rle_trans; [|exact G]. apply ln_mono; [apply Rmult_lt_0_compat; assumption|]. apply Rmult_le_compat_r; lra. }
  set (M := mean_length (RL pmf) (v2f_sourcewords c)) in *. pose proof (pos_INR n).
  replace (INR n / M * ln ((2 ^ n - INR (length pmf) + 1) * Q2R pmin)) with (INR n * (ln ((2 ^ n - INR (length pmf) + 1) * Q2R pmin) / M)) by (field; lra).
  apply Rmult_le_compat_l; [assumption|]. apply (Rmult_le_reg_r M); [lra|]. unfold Rdiv. rewrite Rmult_assoc, Rinv_l by lra. lra.
Qed.
Example C81_example : exists c r, tunstall_make first_max [8 # 10; 1 # 10; 1 # 10]%Q 3 = Some c /\ v2f_rate 0 c [8 # 10; 1 # 10; 1 # 10] = Some r /\ (r == 300 # 244)%Q.
Proof. eexists. eexists. split; [vm_compute; reflexivity|]. split; [vm_compute; reflexivity|reflexivity]. Qed.

Print Assumptions C80_rate. Print Assumptions C80_rate_order_refuted. Print Assumptions C80_entropy_bound. Print Assumptions C80_kraft_parameter.
Print Assumptions C80_huffman_rate. Print Assumptions C80_shannon_rate. Print Assumptions C81_rate. Print Assumptions C81_entropy_bound.
Print Assumptions C81_tunstall_optimal. Print Assumptions C81_tunstall_rate.
