(* null_matrix spans the orthogonal complement. *)
From Verif Require Import Common Vec_Model Vec_Proof LinAlg_Model Linear_Spec LinAlg_Proof XRref_Proof.

Lemma dot_single a b p : (forall j, j <> p -> nth j a false && nth j b false = false) ->
  dot a b = nth p a false && nth p b false.
Proof.
  revert b p; induction a as [|x a IH]; intros [|y b] p H; cbn [dot].
  - destruct p; auto.
  - destruct p; auto.
  - rewrite (nth_overflow []) by (cbn; lia). rewrite andb_false_r; auto.
  - destruct p as [|p].
    + cbn [nth]. assert (E : dot a b = false).
      { rewrite (IH b (length a)).
        - rewrite (nth_overflow a) by lia. auto.
        - intros j _. apply (H (S j)). lia. }
      rewrite E, xorb_false_r; auto.
    + cbn [nth]. rewrite (IH b p) by (intros j Hj; apply (H (S j)); lia).
      specialize (H 0 ltac:(lia)). cbn in H. rewrite H. apply xorb_false_l.
Qed.

Lemma index_of_nth l t : NoDup l -> t < length l -> index_of (nth t l 0) l = Some t.
Proof.
  revert t; induction l as [|y l IH]; cbn; intros t ND H; [lia|]. inversion ND; subst.
  destruct t as [|t]; [rewrite Nat.eqb_refl; auto|].
  destruct (nth t l 0 =? y) eqn:E.
  - apply Nat.eqb_eq in E. exfalso. apply H2. rewrite <- E. apply nth_In; lia.
  - rewrite IH by (auto; lia). auto.
Qed.

Lemma index_of_none x l : ~ In x l -> index_of x l = None.
Proof.
  induction l as [|y l IH]; cbn; intros H; auto. destruct (x =? y) eqn:E.
  - apply Nat.eqb_eq in E. exfalso. auto.
  - rewrite IH by tauto. auto.
Qed.

Lemma in_not_pivots n ps j : In j (not_pivots n ps) <-> j < n /\ ~ In j ps.
Proof.
  unfold not_pivots. rewrite filter_In, in_seq, negb_true_iff. split.
  - intros [H1 H2]. split; [lia|]. intros I. rewrite (proj2 (existsb_exists _ _)) in H2; [discriminate|].
    exists j. split; auto. apply Nat.eqb_refl.
  - intros [H1 H2]. split; [lia|]. apply Bool.not_true_is_false. intros E. apply existsb_exists in E as (x & Hx & E).
    apply Nat.eqb_eq in E. subst; auto.
Qed.

Lemma not_pivots_NoDup n ps : NoDup (not_pivots n ps).
Proof. apply NoDup_filter, seq_NoDup. Qed.

Lemma not_pivots_length n ps : NoDup ps -> (forall p, In p ps -> p < n) -> length (not_pivots n ps) = n - length ps.
Proof.
  intros ND B.
  assert (NDa : NoDup (ps ++ not_pivots n ps)).
  { apply NoDup_app_intro; auto using not_pivots_NoDup. intros x Hx Hx'. apply in_not_pivots in Hx'. tauto. }
  assert (E : length (ps ++ not_pivots n ps) = n).
  { apply Nat.le_antisymm.
    - transitivity (length (seq 0 n)); [|rewrite seq_length; auto]. apply NoDup_incl_length; auto. intros x Hx. apply in_seq.
      apply in_app_iff in Hx as [Hx|Hx]; [specialize (B x Hx); lia|apply in_not_pivots in Hx; lia].
    - transitivity (length (seq 0 n)); [rewrite seq_length; auto|]. apply NoDup_incl_length; [apply seq_NoDup|]. intros x Hx. apply in_seq in Hx.
      apply in_app_iff. destruct (in_dec Nat.eq_dec x ps); auto. right. apply in_not_pivots. split; [lia|auto]. }
  rewrite app_length in E. lia.
Qed.

Lemma orthogonal_row_space n M v : wf n M -> length v = n -> orthogonal_to M v ->
  forall x, row_space n M x -> dot x v = false.
Proof.
  intros W L O x H. induction H as [|r x Hr H IH]; [apply dot_zeros_l|].
  assert (length x = n) by (apply (row_space_length n M); auto).
  unfold wf in W; rewrite Forall_forall in W.
  rewrite dot_vxor_l by (rewrite (W r Hr); auto). rewrite IH, (O r Hr). auto.
Qed.

Lemma orthogonal_matvec M v : orthogonal_to M v <-> matvec M v = zeros (length M).
Proof.
  split.
  - intros O. apply vec_ext; rewrite matvec_length, ?zeros_length; auto. intros i Hi.
    rewrite nth_matvec, nth_zeros. apply O, nth_In; auto.
  - intros E r Hr. apply In_nth_row in Hr as (i & Hi & <-). rewrite <- nth_matvec, E, nth_zeros; auto.
Qed.

Lemma null_spec n M : wf n M -> rank n M = length M -> length M <> 0 ->
  exists N, null_matrix n M = Some N /\ wf n N /\ length N = n - length M /\ independent n N /\
    (forall v, length v = n -> (orthogonal_to M v <-> row_space n N v)) /\
    (forall v, length v = n -> (orthogonal_to N v <-> row_space n M v)).
Proof.
  intros W Rk K0. set (k := length M) in *.
  destruct (xrref_spec n M W) as (t & Ht & H1 & H2 & P & Ex & IP & EP). cbn zeta in *. fold k in Ht, H2.
  assert (Et : t = k) by (unfold rank in Rk; rewrite Ex, leads_length in Rk; auto). subst t.
  set (R := rref n M) in *. assert (WR : wf n R) by (apply rref_wf; auto).
  assert (LR : length R = k) by apply rref_length.
  assert (IR : inv n k R) by (apply rref_inv; auto).
  set (ps := leads k R) in *. assert (Lps : length ps = k) by apply leads_length.
  assert (ND : NoDup ps).
  { apply (NoDup_nth _ 0). rewrite Lps. intros i j Hi Hj. unfold ps. rewrite !nth_leads by auto. intros Q.
    destruct (Nat.eq_dec i j); auto. destruct IR as [Ha _]. pose proof (H1 i Hi). pose proof (H1 j Hj).
    destruct (lt_dec i j); [destruct (Ha i j); lia|destruct (Ha j i); lia]. }
  assert (Nps : forall i, i < k -> nth i ps 0 = pivot (nth i R [])) by (intros; apply nth_leads; auto).
  assert (Bps : forall p, In p ps -> p < n).
  { intros p Hp. apply In_nth with (d := 0) in Hp as (i & Hi & <-). rewrite Lps in Hi. rewrite Nps by auto. auto. }
  set (np := not_pivots n ps). assert (Lnp : length np = n - k) by (unfold np; rewrite not_pivots_length, Lps; auto).
  assert (NDn : NoDup np) by apply not_pivots_NoDup.
  set (entry := fun i j => match index_of j ps with
        | Some t => nth (nth i np 0) (nth t R []) false
        | None => match index_of j np with Some s => s =? i | None => false end end).
  set (N := map (fun i => map (entry i) (seq 0 n)) (seq 0 (n - k))).
  assert (EN : null_matrix n M = Some N).
  { unfold null_matrix. rewrite Ex. fold R ps. rewrite Lps. fold k. rewrite Nat.eqb_refl.
    rewrite (proj2 (Nat.eqb_neq k 0)) by auto. reflexivity. }
  assert (LN : length N = n - k) by (unfold N; rewrite map_length, seq_length; auto).
  assert (NN : forall i, i < n - k -> nth i N [] = map (entry i) (seq 0 n)).
  { intros i Hi. unfold N. apply (nth_map_seq (fun i => map (entry i) (seq 0 n))); auto. }
  assert (WN : wf n N).
  { unfold wf. rewrite Forall_forall. intros x Hx. apply in_map_iff in Hx as (i & <- & _). rewrite map_length, seq_length; auto. }
  assert (ENT : forall i j, i < n - k -> j < n -> nth j (nth i N []) false = entry i j).
  { intros i j Hi Hj. rewrite NN by auto. rewrite nth_map_seq; auto. }
  assert (EP1 : forall i t, i < n - k -> t < k -> nth (pivot (nth t R [])) (nth i N []) false = nth (nth i np 0) (nth t R []) false).
  { intros i t Hi Ht'. rewrite ENT by auto. unfold entry. rewrite <- Nps by auto. rewrite index_of_nth by (auto; lia). auto. }
  assert (NPn : forall s, s < n - k -> nth s np 0 < n /\ ~ In (nth s np 0) ps).
  { intros s Hs. apply in_not_pivots. apply nth_In. fold np. lia. }
  assert (EP2 : forall i s, i < n - k -> s < n - k -> nth (nth s np 0) (nth i N []) false = (s =? i)).
  { intros i s Hi Hs. destruct (NPn s Hs) as [B I]. rewrite ENT by auto. unfold entry. rewrite index_of_none by auto.
    rewrite index_of_nth by (auto; lia). auto. }
  assert (Rp : forall t t', t < k -> t' < k -> nth (pivot (nth t' R [])) (nth t R []) false = (t =? t')).
  { intros t t' Ht1 Ht2. rewrite <- nth_column. rewrite (rref_column n k R t') by auto. apply nth_unit_vec; auto. }
  assert (LRt : forall t, t < k -> length (nth t R []) = n) by (intros; apply wf_nth; auto; lia).
  assert (LNt : forall i, i < n - k -> length (nth i N []) = n) by (intros; apply wf_nth; auto; lia).
  (* position analysis *)
  assert (POS : forall j, j < n -> (exists t, t < k /\ j = pivot (nth t R [])) \/ (exists s, s < n - k /\ j = nth s np 0)).
  { intros j Hj. destruct (in_dec Nat.eq_dec j ps) as [I|I].
    - left. apply In_nth with (d := 0) in I as (t & Hti & <-). rewrite Lps in Hti. exists t. rewrite Nps; auto.
    - right. assert (I' : In j np) by (apply in_not_pivots; auto). apply In_nth with (d := 0) in I' as (s & Hs & <-).
      exists s. split; auto. lia. }
  (* a vector vanishing off the pivots *)
  assert (OFF : forall t x, t < k -> length x = n -> (forall s, s < n - k -> nth (nth s np 0) x false = false) ->
     dot (nth t R []) x = nth (pivot (nth t R [])) x false).
  { intros t x Ht' Lx Hx. rewrite (dot_single _ _ (pivot (nth t R []))).
    - rewrite Rp, Nat.eqb_refl by auto. auto.
    - intros j Hj. destruct (le_lt_dec n j) as [Q|Q]; [rewrite nth_overflow by (rewrite LRt; auto); auto|].
      destruct (POS j Q) as [(t' & Ht2 & ->)|(s & Hs & ->)].
      + rewrite Rp by auto. destruct (t =? t') eqn:Z; auto. apply Nat.eqb_eq in Z. subst. congruence.
      + rewrite Hx by auto. apply andb_false_r. }
  assert (ON : forall t s, t < k -> s < n - k -> dot (nth t R []) (nth s N []) = false).
  { intros t s Ht' Hs. destruct (NPn s Hs) as [B I].
    set (e := unit_vec n (nth s np 0)). set (x := vxor e (nth s N [])).
    assert (Le : length e = n) by apply unit_vec_length.
    assert (Lx : length x = n) by (unfold x; rewrite vxor_length; auto; rewrite LNt; auto).
    assert (E : nth s N [] = vxor e x) by (unfold x; rewrite vxor_cancel; auto; rewrite LNt; auto).
    rewrite E, dot_vxor_r by congruence. unfold e at 1. rewrite dot_unit_r by auto.
    rewrite OFF; auto.
    - unfold x. rewrite nth_vxor by (rewrite Le, LNt; auto). rewrite EP1 by auto. unfold e. rewrite nth_unit_vec by auto.
      rewrite (proj2 (Nat.eqb_neq _ _)).
      + rewrite xorb_false_l. apply xorb_nilpotent.
      + intros Z. apply I. rewrite <- Z, <- Nps by auto. apply nth_In; lia.
    - intros s' Hs'. destruct (NPn s' Hs') as [B' I']. unfold x. rewrite nth_vxor by (rewrite Le, LNt; auto).
      unfold e. rewrite nth_unit_vec, EP2 by auto.
      destruct (s' =? s) eqn:Z.
      + apply Nat.eqb_eq in Z. subst s'. rewrite Nat.eqb_refl. auto.
      + apply Nat.eqb_neq in Z. rewrite (proj2 (Nat.eqb_neq _ _)); auto. intros Q. apply Z.
        apply (proj1 (NoDup_nth np 0) NDn); auto; lia. }
  assert (CN : forall c s, length c = n - k -> s < n - k -> nth (nth s np 0) (vecmat n c N) false = nth s c false).
  { intros c s Lc Hs. rewrite nth_vecmat by auto.
    assert (Q : column (nth s np 0) N = unit_vec (n - k) s).
    { apply vec_ext; rewrite column_length, ?unit_vec_length; auto. intros i Hi. rewrite nth_column, EP2 by lia.
      rewrite nth_unit_vec by lia. apply Nat.eqb_sym. }
    rewrite Q, dot_unit_r; auto. }
  (* orthogonality to R instead of M *)
  assert (OR : forall v, length v = n -> (orthogonal_to M v <-> orthogonal_to R v)).
  { intros v Lv. destruct (rref_space n n M W) as [S1 S2]. fold R in S1, S2. split; intros O r Hr.
    - apply (orthogonal_row_space n M); auto.
    - apply (orthogonal_row_space n R); auto. }
  exists N. split; auto. split; auto. split; auto. split.
  - intros c Lc Z. rewrite LN in *. apply vec_ext; rewrite ?zeros_length; auto. intros s Hs.
    rewrite <- (CN c s) by lia. rewrite Z, !nth_zeros. auto.
  - split; [|intros v Lv; rewrite (rref_row_space n n M v W); fold R; split].
    intros v Lv. rewrite OR by auto. split.
    + intros O. set (c := map (fun s => nth (nth s np 0) v false) (seq 0 (n - k))).
      assert (Lc : length c = n - k) by (unfold c; rewrite map_length, seq_length; auto).
      assert (Q : v = vecmat n c N); [|rewrite Q; apply row_space_vecmat; auto].
      assert (LcN : length (vecmat n c N) = n) by (apply vecmat_length; auto).
      set (w := vxor v (vecmat n c N)). assert (Lw : length w = n) by (unfold w; rewrite vxor_length; congruence).
      assert (Wn : forall s, s < n - k -> nth (nth s np 0) w false = false).
      { intros s Hs. unfold w. rewrite nth_vxor, CN by congruence. unfold c.
        rewrite (nth_map_seq (fun s => nth (nth s np 0) v false)) by auto. apply xorb_nilpotent. }
      apply vxor_eq_zeros; [congruence|]. fold w. rewrite Lv.
      apply vec_ext; rewrite ?zeros_length; auto. intros j Hj. rewrite nth_zeros. rewrite Lw in Hj.
      destruct (POS j Hj) as [(t & Ht' & ->)|(s & Hs & ->)]; [|apply Wn; auto].
      rewrite <- OFF by auto. unfold w. rewrite dot_vxor_r by congruence.
      rewrite (O (nth t R [])) by (apply nth_In; lia). rewrite xorb_false_l.
      rewrite dot_comm, dot_vecmat by auto.
      rewrite (proj1 (orthogonal_matvec N (nth t R []))); [apply dot_zeros_r|].
      intros r Hr. apply In_nth_row in Hr as (s & Hs & <-). rewrite dot_comm. apply ON; auto; lia.
    + intros S r Hr. apply In_nth_row in Hr as (t & Ht' & <-). rewrite dot_comm.
      apply (orthogonal_row_space n N); auto; [apply LRt; lia|].
      intros x Hx. apply In_nth_row in Hx as (s & Hs & <-). rewrite dot_comm. apply ON; lia.
    + intros O. set (c := map (fun t => nth (pivot (nth t R [])) v false) (seq 0 k)).
      assert (Lc : length c = k) by (unfold c; rewrite map_length, seq_length; auto).
      assert (Q : v = vecmat n c R); [|rewrite Q; apply row_space_vecmat; auto].
      assert (LcR : length (vecmat n c R) = n) by (apply vecmat_length; auto).
      set (w := vxor v (vecmat n c R)). assert (Lw : length w = n) by (unfold w; rewrite vxor_length; congruence).
      assert (Wp : forall t, t < k -> nth (pivot (nth t R [])) w false = false).
      { intros t Ht'. unfold w. rewrite nth_vxor by congruence. rewrite nth_vecmat by auto.
        rewrite (rref_column n k R t) by auto. rewrite dot_unit_r by auto. unfold c.
        rewrite (nth_map_seq (fun t => nth (pivot (nth t R [])) v false)) by auto. apply xorb_nilpotent. }
      apply vxor_eq_zeros; [congruence|]. fold w. rewrite Lv.
      apply vec_ext; rewrite ?zeros_length; auto. intros j Hj. rewrite nth_zeros. rewrite Lw in Hj.
      destruct (POS j Hj) as [(t & Ht' & ->)|(s & Hs & ->)]; [apply Wp; auto|].
      assert (D : dot (nth s N []) w = nth (nth s np 0) w false).
      { rewrite (dot_single _ _ (nth s np 0)); [rewrite EP2, Nat.eqb_refl by auto; auto|].
        intros j' Hj'. destruct (le_lt_dec n j') as [Z|Z]; [rewrite nth_overflow by (rewrite LNt; auto); auto|].
        destruct (POS j' Z) as [(t' & Ht2 & ->)|(s' & Hs' & ->)].
        - rewrite Wp by auto. apply andb_false_r.
        - rewrite EP2 by auto. destruct (s' =? s) eqn:Y; auto. apply Nat.eqb_eq in Y. subst s'. congruence. }
      rewrite <- D. unfold w. rewrite dot_vxor_r by congruence.
      rewrite (O (nth s N [])) by (apply nth_In; lia). rewrite xorb_false_l.
      rewrite dot_comm, dot_vecmat by auto.
      rewrite (proj1 (orthogonal_matvec R (nth s N []))); [apply dot_zeros_r|].
      intros r Hr. apply In_nth_row in Hr as (t & Ht' & <-). apply ON; auto; lia.
    + intros S r Hr. apply In_nth_row in Hr as (s & Hs & <-). rewrite dot_comm.
      apply (orthogonal_row_space n R); auto; [apply LNt; lia|].
      intros x Hx. apply In_nth_row in Hx as (t & Ht' & <-). apply ON; lia.
Qed.

Lemma null_none n M : wf n M -> (rank n M <> length M \/ length M = 0) -> null_matrix n M = None.
Proof.
  intros W H. unfold null_matrix, rank in *. destruct (xrref n M) as [[P R] ps].
  destruct (length ps =? length M) eqn:E; auto. apply Nat.eqb_eq in E.
  destruct H as [H|H]; [congruence|]. rewrite H. reflexivity.
Qed.
