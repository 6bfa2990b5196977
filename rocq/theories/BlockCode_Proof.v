(* Generic facts about block codes. *)
From Verif Require Import Common Bits_Model Bits_Proof Vec_Model Vec_Proof LinAlg_Model Linear_Spec
  LinAlg_Proof XRref_Proof Null_Proof BlockCode_Model Code_Spec.
Local Open Scope nat_scope.

Lemma matvec_matvec n A B s : wf n A -> length B = n -> forall m, wf m B -> length s = m ->
  matvec A (matvec B s) = matvec (matmul m A B) s.
Proof.
  intros WA LB m WB Ls. unfold matmul, matvec at 1 3. rewrite map_map. apply map_ext_in. intros r Hr.
  rewrite dot_vecmat; auto.
Qed.

Lemma independent_onto n H : wf n H -> independent n H ->
  forall s, length s = length H -> exists v, length v = n /\ matvec H v = s.
Proof.
  intros W I s Ls. apply rank_full_independent in I; auto.
  destruct (pinv_shape n H W) as [WX LX]. pose proof (pinv_right n H W I) as E.
  exists (matvec (pseudo_inverse n H) s). rewrite matvec_length. split; auto.
  rewrite (matvec_matvec n _ _ _ W LX (length H)) by auto. rewrite E. apply matvec_eye; auto.
Qed.

Lemma encoder_ok_matrix n k m G Ginv H : wf n G -> length G = k -> wf k Ginv -> length Ginv = n ->
  matmul k G Ginv = eye k -> encoder_ok (matrix_code n k m G Ginv H).
Proof.
  intros WG LG WI LI E.
  assert (Q : forall u, length u = k -> vecmat k (vecmat n u G) Ginv = u).
  { intros u Lu. rewrite <- vecmat_matmul by auto. rewrite E, vecmat_eye; auto. }
  constructor; cbn; auto.
  - intros; apply vecmat_length; auto.
  - intros u v Lu Lv. apply vecmat_vxor; auto. congruence.
  - intros u v Lu Lv Z. rewrite <- (Q u Lu), <- (Q v Lv), Z; auto.
Qed.

Lemma is_codeword_matrix n k m G Ginv H v : wf n G -> length G = k ->
  (is_codeword (matrix_code n k m G Ginv H) v <-> row_space n G v).
Proof. intros W L. rewrite row_space_iff by auto. unfold is_codeword; cbn. rewrite L. reflexivity. Qed.

Lemma code_of_generator_valid n G : wf n G -> independent n G -> length G <> 0 ->
  exists C, code_of_generator n G = Some C /\ bc_n C = n /\ bc_k C = length G /\ bc_G C = G /\ valid_code C /\
    (forall v, is_codeword C v <-> row_space n G v).
Proof.
  intros W I K. pose proof I as R. apply rank_full_independent in R; auto.
  destruct (null_spec n G W R K) as (N & EN & WN & LN & IN & O1 & O2).
  unfold code_of_generator. rewrite EN. eexists. split; [reflexivity|].
  destruct (rank_spec n G W) as (_ & _ & _ & _ & _ & _ & _ & Hn & _). rewrite R in Hn.
  split; auto. split; auto. split; auto. split; [|intros; apply is_codeword_matrix; auto].
  destruct (pinv_shape n G W) as [WX LX].
  constructor; [cbn; lia|apply encoder_ok_matrix; auto; apply pinv_right; auto|].
  constructor; cbn; auto.
  - intros r Lr. fold (is_codeword (matrix_code n (length G) (n - length G) G (pseudo_inverse n G) N) r).
    rewrite is_codeword_matrix, <- O2, orthogonal_matvec, LN by auto. reflexivity.
  - intros s Ls. apply independent_onto; auto. congruence.
  - intros g h Hg Hh. rewrite dot_comm. apply (proj2 (O2 g (proj1 (Forall_forall _ _) W g Hg))); auto.
    apply row_space_in; auto.
Qed.

Lemma code_of_generator_none n G : wf n G -> (~ independent n G \/ length G = 0) -> code_of_generator n G = None.
Proof.
  intros W H. unfold code_of_generator. rewrite null_none; auto.
  destruct H as [H|H]; auto. left. intros E. apply H. apply rank_full_independent; auto.
Qed.

Lemma code_of_check_valid n H : wf n H -> independent n H -> length H <> 0 ->
  exists C, code_of_check n H = Some C /\ bc_n C = n /\ bc_m C = length H /\ bc_H C = H /\ valid_code C /\
    (forall v, length v = n -> (is_codeword C v <-> orthogonal_to H v)) /\ is_rref (bc_G C).
Proof.
  intros W I K. pose proof I as R. apply rank_full_independent in R; auto.
  destruct (null_spec n H W R K) as (N & EN & WN & LN & IN & O1 & O2).
  destruct (rank_spec n H W) as (_ & _ & _ & _ & _ & _ & _ & Hn & _). rewrite R in Hn.
  set (G := rref n N). assert (WG : wf n G) by (apply rref_wf; auto).
  assert (LG : length G = n - length H) by (unfold G; rewrite rref_length; auto).
  assert (IG : independent n G).
  { pose proof (proj2 (rank_full_independent n N WN) IN) as RN.
    destruct (rank_spec n N WN) as (B & _ & LB & IB & EB & _). rewrite RN in EB.
    fold G in EB. rewrite firstn_all2 in EB by (rewrite LG, LN; lia). rewrite <- EB; exact IB. }
  assert (RG : forall v, length v = n -> (orthogonal_to H v <-> row_space n G v)).
  { intros v Lv. rewrite O1 by auto. apply rref_row_space; auto. }
  unfold code_of_check. rewrite EN. fold G. eexists. split; [reflexivity|].
  split; auto. split; auto. split; auto. split; [|split; [|apply rref_is_rref; auto]].
  - destruct (pinv_shape n G WG) as [WX LX]. rewrite LG in WX.
    pose proof (proj2 (rank_full_independent n G WG) IG) as RkG.
    constructor; [cbn; lia|apply encoder_ok_matrix; auto; rewrite <- LG; apply pinv_right; auto|].
    constructor; cbn; auto.
    + intros r Lr. fold (is_codeword (matrix_code n (n - length H) (length H) G (pseudo_inverse n G) H) r).
      rewrite is_codeword_matrix, <- RG, orthogonal_matvec by auto. reflexivity.
    + intros s Ls. apply independent_onto; auto.
    + intros g h Hg Hh. rewrite dot_comm.
      apply (proj2 (RG g (proj1 (Forall_forall _ _) WG g Hg))); auto. apply row_space_in; auto.
  - intros v Lv. rewrite is_codeword_matrix, RG; auto. reflexivity.
Qed.

(* ---- inverse_encode ---- *)
Lemma forallb_negb_zeros v : forallb negb v = true <-> v = zeros (length v).
Proof.
  induction v as [|[] v IH]; cbn; [tauto| |].
  - split; [discriminate|]. intros E; inversion E.
  - rewrite IH. fold (zeros (length v)). split; [intros E; rewrite E at 1; auto|intros E; injection E as E'; exact E'].
Qed.

Lemma inverse_encode_spec C v : encoder_ok C ->
  (forall r, length r = bc_n C -> (bc_check C r = zeros (length (bc_check C r)) <-> is_codeword C r)) ->
  length v = bc_n C ->
  (forall u, bc_inverse_encode C v = Some u <-> length u = bc_k C /\ bc_encode C u = v) /\
  (bc_inverse_encode C v = None <-> ~ is_codeword C v).
Proof.
  intros E Z L. unfold bc_inverse_encode.
  destruct (forallb negb (bc_check C v)) eqn:F.
  - apply forallb_negb_zeros in F. apply Z in F; auto. pose proof F as F'. destruct F' as (u0 & L0 & E0). split.
    + intros u. split.
      * intros [= <-]. rewrite <- E0. rewrite ok_project by auto. auto.
      * intros [Lu Eu]. rewrite <- Eu, ok_project by auto. auto.
    + split; [discriminate|tauto].
  - assert (N : ~ is_codeword C v).
    { intros H. apply Z in H; auto. apply forallb_negb_zeros in H. congruence. }
    split; [|tauto]. intros u. split; [discriminate|]. intros [Lu Eu]. exfalso. apply N. exists u; auto.
Qed.

(* ---- messages ---- *)
Lemma pow2_N k : N.of_nat (2 ^ k) = (2 ^ N.of_nat k)%N.
Proof.
  induction k as [|k IH]; [reflexivity|]. cbn [Nat.pow]. rewrite Nnat.Nat2N.inj_succ, N.pow_succ_r', <- IH. lia.
Qed.

Lemma message_length k j : length (message k j) = k.
Proof. apply int_to_bits_length. Qed.

Lemma message_inj k i j : i < 2 ^ k -> j < 2 ^ k -> message k i = message k j -> i = j.
Proof.
  intros Hi Hj E. unfold message in E. apply (f_equal (fun b => bits_to_int b LSB_first)) in E.
  rewrite !bits_int_round_trip in E by (rewrite <- pow2_N; lia). lia.
Qed.

Lemma message_surj k u : length u = k -> exists j, j < 2 ^ k /\ message k j = u.
Proof.
  intros L. exists (N.to_nat (bits_to_int u LSB_first)). split.
  - pose proof (bits_to_int_bound u LSB_first) as B. rewrite L, <- pow2_N in B. lia.
  - unfold message. rewrite Nnat.N2Nat.id. rewrite <- L. apply int_bits_round_trip.
Qed.

Lemma codewords_length C : length (codewords C) = 2 ^ bc_k C.
Proof. unfold codewords. rewrite map_length, seq_length; auto. Qed.

Lemma nth_codewords C j : j < 2 ^ bc_k C -> nth j (codewords C) [] = bc_encode C (message (bc_k C) j).
Proof. intros H. unfold codewords. apply (nth_map_seq (fun j => bc_encode C (message (bc_k C) j))); auto. Qed.

Lemma in_codewords C v : In v (codewords C) <-> is_codeword C v.
Proof.
  unfold codewords. rewrite in_map_iff. split.
  - intros (j & <- & Hj). exists (message (bc_k C) j). split; auto. apply message_length.
  - intros (u & Lu & <-). destruct (message_surj _ _ Lu) as (j & Hj & E). exists j. rewrite E. split; auto.
    apply in_seq; lia.
Qed.

Lemma codewords_NoDup C : encoder_ok C -> NoDup (codewords C).
Proof.
  intros E. apply NoDup_map_inj_in; [|apply seq_NoDup]. intros i j Hi Hj Q. apply in_seq in Hi, Hj.
  apply ok_encode_injective in Q; auto using message_length. apply (message_inj (bc_k C)); auto; lia.
Qed.

(* ---- weights ---- *)
Lemma vsum_weight v : vsum v = weight v.
Proof. unfold weight. induction v as [|[] v IH]; unfold vsum in *; cbn [fold_right filter length] in *; auto; rewrite IH; auto. Qed.

Lemma weight_le v : weight v <= length v.
Proof. unfold weight. induction v as [|[] v IH]; cbn; lia. Qed.

Lemma weight_zero v : weight v = 0 <-> v = zeros (length v).
Proof.
  unfold weight. induction v as [|[] v IH]; cbn; [tauto| |].
  - split; [discriminate|]. intros E; inversion E.
  - rewrite IH. fold (zeros (length v)). split; [intros E; rewrite E at 1; auto|intros E; injection E as E'; exact E'].
Qed.

Lemma weight_zeros n : weight (zeros n) = 0.
Proof. apply weight_zero. rewrite zeros_length; auto. Qed.

Lemma weight_vxor_le u v : length u = length v -> weight (vxor u v) <= weight u + weight v.
Proof.
  unfold weight. revert v; induction u as [|x u IH]; intros [|y v] L; cbn in *; try lia.
  specialize (IH v ltac:(lia)). destruct x, y; cbn; lia.
Qed.

Lemma hdist_sym u v : hdist u v = hdist v u.
Proof. unfold hdist. rewrite vxor_comm; auto. Qed.

Lemma hdist_triangle u v w : length u = length v -> length v = length w -> hdist u w <= hdist u v + hdist v w.
Proof.
  intros L1 L2. unfold hdist. rewrite <- (vxor_cancel v w L2) at 1. rewrite <- vxor_assoc.
  apply weight_vxor_le. rewrite !vxor_length; congruence.
Qed.

Lemma hdist_zero u v : length u = length v -> hdist u v = 0 -> u = v.
Proof.
  intros L H. unfold hdist in H. apply weight_zero in H. rewrite vxor_length in H by auto.
  apply vxor_eq_zeros; auto.
Qed.

Lemma hdist_self u : hdist u u = 0.
Proof. unfold hdist. rewrite vxor_self. apply weight_zeros. Qed.

(* ---- weight distribution ---- *)
Lemma list_max_le_bound l b : (forall x, In x l -> x <= b) -> list_max l <= b.
Proof. intros H. apply list_max_le. apply Forall_forall. auto. Qed.

Lemma bincount_spec n l : (forall x, In x l -> x <= n) ->
  bincount (n + 1) l = map (fun w => count_occ Nat.eq_dec l w) (seq 0 (n + 1)).
Proof.
  intros H. unfold bincount. f_equal. f_equal. destruct l as [|x l]; [lia|].
  pose proof (list_max_le_bound _ _ H). lia.
Qed.

Lemma count_occ_app' l l' w : count_occ Nat.eq_dec (l ++ l') w = count_occ Nat.eq_dec l w + count_occ Nat.eq_dec l' w.
Proof. apply count_occ_app. Qed.

Lemma nadd_map (f g : nat -> nat) l : nadd (map f l) (map g l) = map (fun x => f x + g x) l.
Proof. induction l as [|x l IH]; cbn; auto. rewrite IH; auto. Qed.

Lemma batch_loop_spec C size : encoder_ok C -> 0 < size -> forall fuel i,
  2 ^ bc_k C <= i + fuel * size -> 
  let wt j := vsum (bc_encode C (message (bc_k C) j)) in
  batch_loop C size fuel i (map (fun w => count_occ Nat.eq_dec (map wt (seq 0 (Nat.min i (2 ^ bc_k C)))) w) (seq 0 (bc_n C + 1)))
  = map (fun w => count_occ Nat.eq_dec (map wt (seq 0 (2 ^ bc_k C))) w) (seq 0 (bc_n C + 1)).
Proof.
  intros E Hs fuel. set (K := 2 ^ bc_k C). cbn zeta. set (wt := fun j => vsum (bc_encode C (message (bc_k C) j))).
  induction fuel as [|f IH]; intros i H.
  - cbn [batch_loop]. rewrite Nat.min_r by lia. auto.
  - cbn [batch_loop]. fold K. destruct (K <=? i) eqn:Q.
    + apply Nat.leb_le in Q. rewrite Nat.min_r by lia. auto.
    + apply Nat.leb_gt in Q. fold wt. rewrite bincount_spec.
      * rewrite nadd_map. rewrite <- (IH (i + size)) by lia. f_equal. apply map_ext. intros w.
        rewrite <- count_occ_app, <- map_app. f_equal. f_equal.
        rewrite Nat.min_l by lia.
        assert (R : Nat.min (i + size) K = i + (Nat.min (i + size) K - i)) by lia. rewrite R at 2. rewrite seq_app. auto.
      * intros x Hx. apply in_map_iff in Hx as (j & <- & _). unfold wt. rewrite vsum_weight.
        rewrite <- (ok_encode_length C E (message (bc_k C) j)) by apply message_length. apply weight_le.
Qed.

Lemma weight_distribution_spec C cached : encoder_ok C ->
  weight_distribution C cached =
  map (fun w => length (filter (fun v => weight v =? w) (codewords C))) (seq 0 (bc_n C + 1)).
Proof.
  intros E.
  assert (G : forall w, count_occ Nat.eq_dec (map vsum (codewords C)) w = length (filter (fun v => weight v =? w) (codewords C))).
  { intros w. induction (codewords C) as [|c l IH]; cbn; auto. rewrite vsum_weight.
    destruct (Nat.eq_dec (weight c) w) as [Q|Q].
    - rewrite (proj2 (Nat.eqb_eq _ _) Q). cbn. rewrite IH; auto.
    - rewrite (proj2 (Nat.eqb_neq _ _) Q). auto. }
  unfold weight_distribution. destruct cached.
  - rewrite bincount_spec.
    + apply map_ext. auto.
    + intros x Hx. apply in_map_iff in Hx as (v & <- & Hv). apply in_codewords in Hv as (u & Lu & <-).
      rewrite vsum_weight. rewrite <- (ok_encode_length C E u) by auto. apply weight_le.
  - pose proof (batch_loop_spec C 1024 E ltac:(lia) (2 ^ bc_k C) 0) as B. cbn zeta in B.
    rewrite Nat.min_l in B by lia. cbn [seq map count_occ] in B.
    assert (Z : map (fun _ : nat => 0) (seq 0 (bc_n C + 1)) = repeat 0 (bc_n C + 1)).
    { generalize 0 at 2. generalize (bc_n C + 1). induction n as [|n IH]; intros s; cbn; auto. rewrite IH; auto. }
    rewrite <- Z. rewrite B by lia. apply map_ext. intros w. rewrite <- G. f_equal. unfold codewords. rewrite map_map. auto.
Qed.

Lemma nth_weight_distribution C cached w : encoder_ok C -> w <= bc_n C ->
  nth w (weight_distribution C cached) 0 = length (filter (fun v => weight v =? w) (codewords C)).
Proof.
  intros E H. rewrite weight_distribution_spec by auto.
  rewrite (nth_map_seq (fun w => length (filter (fun v => weight v =? w) (codewords C)))); auto. lia.
Qed.

Lemma filter_sorted_nth1 (f : nat -> bool) N d : f 0 = true ->
  nth_error (filter f (seq 0 N)) 1 = Some d <->  0 < N /\ 0 < d /\ d < N /\ f d = true /\ (forall i, 0 < i < d -> f i = false).
Proof.
  intros F0. destruct N as [|N]; [cbn; split; [discriminate|lia]|].
  cbn [seq filter]. rewrite F0. change (nth_error (0 :: filter f (seq 1 N)) 1) with (nth_error (filter f (seq 1 N)) 0).
  assert (G : forall N s, nth_error (filter f (seq s N)) 0 = Some d <-> s <= d /\ d < s + N /\ f d = true /\ (forall i, s <= i < d -> f i = false)).
  { clear. induction N as [|N IH]; intros s; cbn [seq filter].
    - cbn. split; [discriminate|lia].
    - destruct (f s) eqn:Fs.
      + cbn [nth_error]. split.
        * intros [= <-]. repeat split; auto; try lia.
        * intros (H1 & H2 & H3 & H4). destruct (Nat.eq_dec s d) as [->|Ne]; auto.
          rewrite H4 in Fs by lia. discriminate.
      + rewrite IH. split; intros (H1 & H2 & H3 & H4).
        * repeat split; auto; try lia. intros i Hi. destruct (Nat.eq_dec i s) as [->|]; auto. apply H4; lia.
        * destruct (Nat.eq_dec s d) as [->|Ne]; [congruence|]. repeat split; auto; try lia. intros i Hi. apply H4; lia. }
  rewrite G. split; intros (H1 & H2 & H3); repeat split; try tauto; try lia.
Qed.

Lemma codeword_zero C : encoder_ok C -> bc_encode C (zeros (bc_k C)) = zeros (bc_n C).
Proof. intros E. rewrite ok_encode by (auto; apply zeros_length). apply vecmat_zeros. apply (ok_G C E). Qed.

Lemma codeword_vxor C v w : encoder_ok C -> is_codeword C v -> is_codeword C w -> is_codeword C (vxor v w).
Proof.
  intros E (u & Lu & <-) (x & Lx & <-). exists (vxor u x). split; [rewrite vxor_length; congruence|].
  apply ok_encode_linear; auto.
Qed.

Lemma codeword_length C v : encoder_ok C -> is_codeword C v -> length v = bc_n C.
Proof. intros E (u & Lu & <-). apply ok_encode_length; auto. Qed.

Lemma length_filter_pos {A} (f : A -> bool) l : 0 < length (filter f l) <-> exists x, In x l /\ f x = true.
Proof.
  split.
  - destruct (filter f l) as [|x t] eqn:E; cbn; [lia|]. intros _. exists x. apply filter_In. rewrite E. left; auto.
  - intros (x & H). apply filter_In in H. destruct (filter f l); [destruct H|cbn; lia].
Qed.

Lemma minimum_weight_distance C d : encoder_ok C ->
  (0 < d /\ (exists v, is_codeword C v /\ weight v = d) /\ (forall v, is_codeword C v -> weight v <> 0 -> d <= weight v)) <->
  is_minimum_distance C d.
Proof.
  intros E. split.
  - intros (P & (v & Hv & Wv) & M). split.
    + intros x y Hx Hy N. unfold hdist. apply M; [apply codeword_vxor; auto|].
      intros Z. apply N. apply hdist_zero; auto. rewrite !(codeword_length C); auto.
    + exists v, (zeros (bc_n C)). split; auto. split.
      * exists (zeros (bc_k C)). split; [apply zeros_length|apply codeword_zero; auto].
      * unfold hdist. rewrite vxor_zeros_r by (apply codeword_length; auto). split; auto.
        intros ->. rewrite weight_zeros in Wv. lia.
  - intros [M (v & w & Hv & Hw & N & D)].
    assert (Lv : length v = bc_n C) by (apply codeword_length; auto).
    assert (Lw : length w = bc_n C) by (apply codeword_length; auto).
    assert (D0 : 0 < d).
    { destruct (Nat.eq_dec d 0) as [->|]; [|lia]. exfalso. apply N. apply hdist_zero; auto. congruence. }
    split; auto. split.
    + exists (vxor v w). split; auto. apply codeword_vxor; auto.
    + intros x Hx Wx. assert (Lx : length x = bc_n C) by (apply codeword_length; auto).
      rewrite <- (vxor_zeros_r x (bc_n C)) by auto. apply M; auto.
      * exists (zeros (bc_k C)). split; [apply zeros_length|apply codeword_zero; auto].
      * intros ->. rewrite weight_zeros in Wx. lia.
Qed.

Lemma minimum_distance_spec C cached d : encoder_ok C ->
  (minimum_distance C cached = Some d <-> is_minimum_distance C d).
Proof.
  intros E. rewrite <- minimum_weight_distance by auto. unfold minimum_distance, flatnonzero.
  assert (LD : length (weight_distribution C cached) = bc_n C + 1).
  { rewrite weight_distribution_spec, map_length, seq_length; auto. }
  rewrite LD.
  assert (F : forall w, w <= bc_n C -> (negb (nth w (weight_distribution C cached) 0 =? 0) = true <-> exists v, is_codeword C v /\ weight v = w)).
  { intros w Hw. rewrite nth_weight_distribution by auto. rewrite negb_true_iff, Nat.eqb_neq.
    assert (Q : length (filter (fun v => weight v =? w) (codewords C)) <> 0 <-> 0 < length (filter (fun v => weight v =? w) (codewords C))) by lia.
    rewrite Q, length_filter_pos. split; intros (v & H1 & H2); exists v.
    - apply in_codewords in H1. apply Nat.eqb_eq in H2. auto.
    - split; [apply in_codewords; auto|apply Nat.eqb_eq; auto]. }
  rewrite filter_sorted_nth1.
  - split.
    + intros (_ & D0 & Dn & Fd & Fi). split; auto. split; [apply F; auto; lia|].
      intros v Hv Wv. destruct (le_lt_dec d (weight v)) as [Q|Q]; auto. exfalso.
      specialize (Fi (weight v) ltac:(lia)). rewrite (proj2 (F (weight v) ltac:(lia))) in Fi; [discriminate|]. exists v; auto.
    + intros (D0 & (v & Hv & Wv) & M).
      assert (Dn : d <= bc_n C).
      { rewrite <- Wv. rewrite <- (codeword_length C v) by auto. apply weight_le. }
      split; [lia|]. split; auto. split; [lia|]. split.
      * apply F; auto. exists v; auto.
      * intros i Hi. destruct (negb _) eqn:Q; auto. apply F in Q; [|lia]. destruct Q as (x & Hx & Wx).
        specialize (M x Hx). lia.
  - apply F; [lia|]. exists (zeros (bc_n C)). split; [|apply weight_zeros].
    exists (zeros (bc_k C)). split; [apply zeros_length|apply codeword_zero; auto].
Qed.

Lemma minimum_distance_exists C cached : encoder_ok C -> 0 < bc_k C -> exists d, minimum_distance C cached = Some d.
Proof.
  intros E K.
  assert (X : exists v, is_codeword C v /\ weight v <> 0).
  { exists (bc_encode C (unit_vec (bc_k C) 0)). split; [exists (unit_vec (bc_k C) 0); split; auto; apply unit_vec_length|].
    intros Z. apply weight_zero in Z. rewrite (ok_encode_length C E) in Z by apply unit_vec_length.
    rewrite <- codeword_zero in Z by auto. apply ok_encode_injective in Z; auto using unit_vec_length, zeros_length.
    apply (f_equal (fun v => nth 0 v false)) in Z. rewrite nth_unit_vec, nth_zeros in Z by auto. discriminate. }
  assert (G : forall b, (exists v, is_codeword C v /\ weight v <> 0 /\ weight v <= b) ->
    exists d, 0 < d /\ (exists v, is_codeword C v /\ weight v = d) /\ (forall v, is_codeword C v -> weight v <> 0 -> d <= weight v)).
  { induction b as [|b IH]; intros (v & Hv & Nv & Bv); [lia|].
    destruct (in_dec Bool.bool_dec true (map (fun c => negb (weight c =? 0) && (weight c <=? b)) (codewords C))) as [I|I].
    - apply in_map_iff in I as (c & Ec & Hc). apply andb_true_iff in Ec as [E1 E2].
      apply negb_true_iff, Nat.eqb_neq in E1. apply Nat.leb_le in E2. apply IH. exists c. split; auto. apply in_codewords; auto.
    - assert (Q : forall c, is_codeword C c -> weight c <> 0 -> S b <= weight c).
      { intros c Hc Nc. destruct (le_lt_dec (S b) (weight c)); auto. exfalso. apply I. apply in_map_iff. exists c.
        split; [|apply in_codewords; auto]. apply andb_true_iff. split; [apply negb_true_iff, Nat.eqb_neq; auto|apply Nat.leb_le; lia]. }
      exists (S b). split; [lia|]. split; auto. exists v. split; auto. specialize (Q v Hv Nv). lia. }
  destruct X as (v & Hv & Nv). destruct (G (weight v)) as (d & Hd).
  - exists v; auto.
  - exists d. apply minimum_distance_spec; auto. apply minimum_weight_distance; auto.
Qed.
