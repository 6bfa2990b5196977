(* Rates of source codes against the entropy. *)
From Verif Require Import Common Prefix_Model Prefix_Proof Canonical_Proof Parse_Proof Spec_Lossless Kraft_Proof PmfCodes_Model PmfCodes_Proof McMillan_Proof Rate_Model.
From Coq Require Import QArith Qabs Qreals Reals Lra Lia Psatz.
From Verif Require Import FB_Model FB_Proof Info_Spec Info_Sums Info_Proof.
Local Open Scope R_scope.

Notation pmf_list p := (is_pmf (length p) p).
Definition H_list (p : list R) : R := H_nats (length p) p.

Lemma H_list_Rsum p : H_list p = Rsum (map (fun x => x * ln (/ x)) p).
Proof. unfold H_list, H_nats. rewrite (Rsum_map_nth _ p 0). reflexivity. Qed.

Definition outer_list (p q : list R) : list R := flat_map (fun x => map (fun y => x * y) q) p.

Lemma outer_Rsum f p q : Rsum (map f (outer_list p q)) = Rsum (map (fun x => Rsum (map (fun y => f (x * y)) q)) p).
Proof.
  unfold outer_list. rewrite flat_map_concat_map, concat_map, map_map, <- flat_map_concat_map, Rsum_flat_map.
  apply Rsum_ext. intros. rewrite map_map. reflexivity.
Qed.
Lemma pmf_list_iff p : pmf_list p <-> (forall x, In x p -> 0 <= x) /\ Rsum p = 1.
Proof.
  unfold is_pmf. rewrite Rsum_nth. split.
  - intros (_ & N & S). split; [|exact S]. intros x Hx. apply (In_nth _ _ 0) in Hx. destruct Hx as (i & Hi & <-). auto.
  - intros (N & S). split; [reflexivity|split; [|exact S]]. intros. apply N. apply nth_In. assumption.
Qed.
Lemma outer_pmf p q : pmf_list p -> pmf_list q -> pmf_list (outer_list p q) /\ H_list (outer_list p q) = H_list p + H_list q.
Proof.
  rewrite !pmf_list_iff. intros [NP SP] [NQ SQ]. split; [split|].
  - intros z Hz. apply in_flat_map in Hz. destruct Hz as (x & Hx & Hz). apply in_map_iff in Hz. destruct Hz as (y & <- & Hy). apply Rmult_le_pos; auto.
  - rewrite <- (map_id (outer_list p q)), outer_Rsum. rewrite (Rsum_ext _ (fun x => x * 1)).
    + rewrite (Rsum_scal_r 1 (fun x => x)), map_id, SP. lra.
    + intros x Hx. rewrite Rsum_scal, map_id, SQ. reflexivity.
  - rewrite !H_list_Rsum, outer_Rsum.
    rewrite (Rsum_ext _ (fun x => x * ln (/ x) + x * Rsum (map (fun y => y * ln (/ y)) q))).
    + rewrite Rsum_plus, Rsum_scal_r, map_id, SP. lra.
    + intros x Hx. rewrite (Rsum_ext _ (fun y => (x * ln (/ x)) * y + x * (y * ln (/ y)))).
      * rewrite Rsum_plus, !Rsum_scal, map_id, SQ. lra.
      * intros y Hy. specialize (NP x Hx). specialize (NQ y Hy). rewrite !pln_inv by (try apply Rmult_le_pos; assumption).
        destruct (Req_dec x 0) as [->|]; [lra|]. destruct (Req_dec y 0) as [->|]; [lra|]. rewrite ln_mult by lra. ring.
Qed.

(* rationals as reals *)
Notation RL l := (map Q2R l).
Lemma Q2R_inject z : Q2R (inject_Z z) = IZR z.
Proof. unfold Q2R, inject_Z. cbn [Qnum Qden]. field. Qed.
Lemma Q2R_nat n : Q2R (nat_q n) = INR n.
Proof. unfold nat_q. rewrite Q2R_inject, INR_IZR_INZ. reflexivity. Qed.
Lemma Q2R_0' : Q2R 0 = 0. Proof. unfold Q2R. cbn. lra. Qed.
Lemma Q2R_1' : Q2R 1 = 1. Proof. unfold Q2R. cbn. field. Qed.
Lemma Q2R_sum l : Q2R (qsum l) = Rsum (RL l).
Proof. induction l as [|a l IH]; cbn [qsum fold_right map]; [apply Q2R_0'|]. rewrite Q2R_plus, Rsum_cons. fold (qsum l). rewrite IH. reflexivity. Qed.
Lemma Q2R_nonneg q : (0 <= q)%Q -> 0 <= Q2R q.
Proof. intros H. apply Qle_Rle in H. rewrite Q2R_0' in H. exact H. Qed.
Lemma Q2R_pos q : (0 < q)%Q -> 0 < Q2R q.
Proof. intros H. apply Qlt_Rlt in H. rewrite Q2R_0' in H. exact H. Qed.

Definition exact_pmf (pmf : list Q) : Prop := Forall (fun p => (0 <= p)%Q) pmf /\ (qsum pmf == 1)%Q.
Lemma exact_pmf_list pmf : exact_pmf pmf -> pmf_list (RL pmf).
Proof.
  intros [N S]. apply pmf_list_iff. split.
  - intros x Hx. apply in_map_iff in Hx. destruct Hx as (q & <- & Hq). apply Q2R_nonneg. rewrite Forall_forall in N. auto.
  - rewrite <- Q2R_sum, (Qeq_eqR _ _ S). apply Q2R_1'.
Qed.
Lemma exact_pmf_valid tol pmf : (0 <= tol)%Q -> exact_pmf pmf -> validate_pmf_q tol pmf = true.
Proof.
  intros T [N S]. unfold validate_pmf_q. apply andb_true_intro. split.
  - apply forallb_forall. intros x Hx. rewrite Forall_forall in N. apply Qle_bool_iff. auto.
  - apply Qle_bool_iff. rewrite S. exact T.
Qed.

(* block probabilities *)
Lemma product_blocks pmf k : map qprod (product_repeat pmf k) = map (block_prob pmf) (tuples (N.of_nat (length pmf)) k).
Proof.
  induction k as [|k IH]; [reflexivity|]. cbn [product_repeat tuples].
  rewrite <- (range_nth pmf) at 1. rewrite !flat_map_concat_map, !concat_map, !map_map. f_equal. apply map_ext. intros s.
  rewrite !map_map. cbn [block_prob qprod fold_right].
  change (map (fun x => (nth (N.to_nat s) pmf 0 * qprod x)%Q) (product_repeat pmf k) = map (fun x => (nth (N.to_nat s) pmf 0 * block_prob pmf x)%Q) (tuples (N.of_nat (length pmf)) k)).
  rewrite <- (map_map qprod (fun y => (nth (N.to_nat s) pmf 0 * y)%Q)), IH, map_map. reflexivity.
Qed.
Lemma product_outer pmf k : RL (map qprod (product_repeat pmf (S k))) = outer_list (RL pmf) (RL (map qprod (product_repeat pmf k))).
Proof.
  cbn [product_repeat]. unfold outer_list. rewrite !flat_map_concat_map, !concat_map, !map_map. f_equal. apply map_ext. intros p.
  rewrite !map_map. apply map_ext. intros l. cbn [qprod fold_right]. apply Q2R_mult.
Qed.
Lemma block_pmf pmf k : exact_pmf pmf ->
  pmf_list (RL (map qprod (product_repeat pmf k))) /\ H_list (RL (map qprod (product_repeat pmf k))) = INR k * H_list (RL pmf).
Proof.
  intros E. apply exact_pmf_list in E. induction k as [|k [IH1 IH2]].
  - cbn [product_repeat map qprod fold_right]. rewrite Q2R_1'. split.
    + apply pmf_list_iff. split; [intros x [<-|[]]; lra|rewrite Rsum_cons, Rsum_nil; lra].
    + rewrite H_list_Rsum. cbn [map]. rewrite Rsum_cons, Rsum_nil, Rinv_1, ln_1. cbn [INR]. lra.
  - rewrite product_outer. destruct (outer_pmf _ _ E IH1) as [A B]. split; [exact A|]. rewrite B, IH2, S_INR. lra.
Qed.

(* expected lengths *)
Lemma qdot_Rsum (ls : list nat) ps : length ls = length ps ->
  Q2R (qdot (map nat_q ls) ps) = sum_to (length ps) (fun i => nth i (RL ps) 0 * INR (nth i ls 0%nat)).
Proof.
  intros L. transitivity (Rsum (map (fun i => nth i (RL ps) 0 * INR (nth i ls 0%nat)) (seq 0 (length ps)))); [|apply Rsum_seq].
  revert ls L. induction ps as [|p ps IH]; intros [|l ls] L; try discriminate; cbn [map qdot]; [rewrite Q2R_0'; reflexivity|].
  cbn [length seq map]. rewrite Rsum_cons, Q2R_plus, Q2R_mult, Q2R_nat. cbn [nth]. rewrite IH by (cbn in L; congruence).
  rewrite <- seq_shift, map_map. cbn [nth]. lra.
Qed.
Lemma expected_qdot ps ws : (expected_length ps ws == qdot (map (fun w => nat_q (length w)) ws) ps)%Q.
Proof.
  revert ws. induction ps as [|p ps IH]; intros [|w ws]; cbn [expected_length map qdot]; try reflexivity. rewrite IH. unfold nat_q. ring.
Qed.

(* Kraft sums *)
Lemma kraft_Rsum b ls : (2 <= b)%N -> Q2R (kraft_sum b ls) = sum_to (length ls) (fun i => exp (- (INR (nth i ls 0%nat) * ln (INR (N.to_nat b))))).
Proof.
  intros Hb. transitivity (Rsum (map (fun l => exp (- (INR l * ln (INR (N.to_nat b))))) ls)).
  2:{ rewrite (Rsum_map_nth _ ls 0%nat). reflexivity. }
  assert (B : 0 < INR (N.to_nat b)) by (apply lt_0_INR; lia).
  induction ls as [|l ls IH]; cbn [kraft_sum fold_right map]; [apply Q2R_0'|]. rewrite Rsum_cons, Q2R_plus. fold (kraft_sum b ls). rewrite IH. f_equal.
  assert (P : (0 < Z.of_N b ^ Z.of_nat l)%Z) by (apply Z.pow_pos_nonneg; lia).
  rewrite Q2R_inv by (intros E; unfold Qeq in E; cbn in E; lia). rewrite Q2R_inject, exp_Ropp. f_equal.
  change (exp (INR l * ln (INR (N.to_nat b)))) with (Rpower (INR (N.to_nat b)) (INR l)). rewrite Rpower_pow by assumption.
  rewrite <- (Z2Nat.id (Z.of_N b)) by lia. rewrite <- pow_IZR, <- INR_IZR_INZ. do 2 f_equal. lia.
Qed.

(* the entropy is at most the expected length times ln D *)
Lemma entropy_le_length n P (ls : list nat) D : is_pmf n P -> 0 < D ->
  sum_to n (fun i => exp (- (INR (nth i ls 0%nat) * ln D))) <= 1 ->
  H_nats n P <= sum_to n (fun i => nth i P 0 * INR (nth i ls 0%nat)) * ln D.
Proof.
  intros HP HD K. pose proof HP as (L & N & S). rewrite (H_nats_alt n P HP).
  pose proof (gibbs n (fun i => nth i P 0) (fun i => exp (- (INR (nth i ls 0%nat) * ln D)))) as G. cbv beta in G. rewrite S in G.
  assert (G' : 1 - sum_to n (fun i => exp (- (INR (nth i ls 0%nat) * ln D))) <= sum_to n (fun i => nth i P 0 * (ln (nth i P 0) - ln (exp (- (INR (nth i ls 0%nat) * ln D)))))).
  { apply G; [exact N|intros; left; apply exp_pos|]. intros i Hi E. pose proof (exp_pos (- (INR (nth i ls 0%nat) * ln D))). lra. }
  rewrite (sum_ext n (fun i => nth i P 0 * (ln (nth i P 0) - ln (exp (- (INR (nth i ls 0%nat) * ln D))))) (fun i => nth i P 0 * ln (nth i P 0) + (nth i P 0 * INR (nth i ls 0%nat)) * ln D)) in G'.
  2:{ intros. rewrite ln_exp. ring. }
  rewrite sum_plus, sum_scal_r in G'. lra.
Qed.

Lemma sum_lt n f g : (0 < n)%nat -> (forall i, (i < n)%nat -> f i < g i) -> sum_to n f < sum_to n g.
Proof.
  intros Hn L. destruct n; [lia|]. cbn [sum_to]. assert (sum_to n f <= sum_to n g) by (apply sum_le; intros; left; apply L; lia). specialize (L n ltac:(lia)). lra.
Qed.

(* words of Shannon's lengths for any positive list P' of sum at most one *)
Lemma shannon_words_of P' : (2 <= length P')%nat -> Forall (fun p => (0 < p)%Q) P' -> (qsum P' <= 1)%Q ->
  forall cs : list (list N), map (@length N) cs = map shannon_length P' ->
    forall i, (i < length P')%nat ->
      INR (length (nth i cs [])) * ln 2 <= - ln (nth i (RL P') 0) + ln 2 /\
      (nth i (RL P') 0 < 1 -> INR (length (nth i cs [])) * ln 2 < - ln (nth i (RL P') 0) + ln 2).
Proof.
  intros H2 HP HS cs K i Hi.
  assert (EL : length (nth i cs []) = shannon_length (nth i P' 0%Q)).
  { rewrite <- (map_nth (@length N)), K. rewrite (nth_indep _ (length (@nil N)) (shannon_length 0%Q)) by (rewrite map_length; assumption). apply map_nth. }
  rewrite EL. assert (PQ : (0 < nth i P' 0)%Q) by (rewrite Forall_forall in HP; apply HP, nth_In; assumption).
  assert (EP : nth i (RL P') 0 = Q2R (nth i P' 0%Q)) by (rewrite <- Q2R_0'; apply map_nth). rewrite EP.
  pose proof (Q2R_pos _ PQ) as PR. destruct (shannon_length_spec _ PQ) as (S1 & _ & SM).
  assert (L2 : 0 < ln 2) by (rewrite <- ln_1; apply ln_increasing; lra).
  set (l := shannon_length (nth i P' 0%Q)) in *. set (x := Q2R (nth i P' 0%Q)) in *.
  assert (X1 : x <= 1).
  { assert (nth i P' 0 <= qsum P')%Q.
    { clear - HP Hi. revert i Hi. induction HP as [|a P' Ha HP IH]; intros i Hi; [cbn in Hi; lia|]. cbn [qsum fold_right]. fold (qsum P').
      assert (0 <= qsum P')%Q. { clear - HP. induction HP; cbn [qsum fold_right]; [apply Qle_refl|]. fold (qsum l). rewrite <- (Qplus_0_l 0). apply Qplus_le_compat; [apply Qlt_le_weak; assumption|assumption]. }
      destruct i; cbn [nth].
      - rewrite <- (Qplus_0_r a) at 1. apply Qplus_le_compat; [apply Qle_refl|assumption].
      - rewrite <- (Qplus_0_l (nth i P' 0)%Q). apply Qplus_le_compat; [apply Qlt_le_weak; assumption|]. apply IH. cbn in Hi. lia. }
    unfold x. rewrite <- Q2R_1'. apply Qle_Rle. eapply Qle_trans; eassumption. }
  pose proof (ln_le0 x PR X1) as LX.
  destruct (Nat.eq_dec l 1) as [E1|N1].
  - rewrite E1. cbn [INR]. split; [lra|]. intros C. assert (ln x < ln 1) by (apply ln_increasing; assumption). rewrite ln_1 in H. lra.
  - assert (A : (nth i P' 0 * inject_Z (2 ^ Z.of_nat (l - 1)) < 1)%Q) by (apply SM; lia).
    apply Qlt_Rlt in A. rewrite Q2R_mult, Q2R_inject, Q2R_1' in A. fold x in A.
    assert (PW : IZR (2 ^ Z.of_nat (l - 1)) = Rpower 2 (INR (l - 1))). { rewrite Rpower_pow by lra. rewrite pow_IZR. reflexivity. }
    rewrite PW in A. apply ln_increasing in A; [|apply Rmult_lt_0_compat; [assumption|apply exp_pos]].
    rewrite ln_mult, ln_1 in A by (try assumption; apply exp_pos). unfold Rpower in A. rewrite ln_exp, minus_INR in A by lia. cbn [INR] in A.
    split; [|intros _]; lra.
Qed.
Lemma shannon_words P' : (2 <= length P')%nat -> Forall (fun p => (0 < p)%Q) P' -> (qsum P' <= 1)%Q ->
  exists ws, length ws = length P' /\ Forall (Forall (fun x => (x < 2)%N)) ws /\ Forall (fun w => w <> []) ws /\ prefix_free_words ws /\
    forall i, (i < length P')%nat ->
      INR (length (nth i ws [])) * ln 2 <= - ln (nth i (RL P') 0) + ln 2 /\
      (nth i (RL P') 0 < 1 -> INR (length (nth i ws [])) * ln 2 < - ln (nth i (RL P') 0) + ln 2).
Proof.
  intros H2 HP HS. destruct (shannon_make_spec P' 1 H2 ltac:(lia) HP HS) as (c & ws & _ & [G1 G2 G3 G4 G5 G6 G7 G8 G9] & K).
  cbn [outer_power] in K. exists (f2v_codewords c).
  assert (L : length (f2v_codewords c) = length P') by (rewrite <- (map_length (@length N)), K, map_length; reflexivity).
  repeat (split; [assumption|]). intros i Hi. apply shannon_words_of; assumption.
Qed.
