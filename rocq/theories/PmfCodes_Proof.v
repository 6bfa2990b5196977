(* Huffman, Fano, Shannon and Tunstall codes: the constructions succeed and have the claimed shape. *)
From Verif Require Import Common Prefix_Model Prefix_Proof Cover_Proof Canonical_Proof Parse_Proof Spec_Lossless Kraft_Proof
  PmfCodes_Model Huffman_Proof HuffmanOpt_Proof McMillan_Proof.
From Coq Require Import QArith Qabs Qfield Lqa Permutation.
Local Open Scope nat_scope.

(* ---------- block extension *)
Lemma outer_power_S pmf k : outer_power pmf (S (S k)) = flat_map (fun a => map (fun b => (a * b)%Q) pmf) (outer_power pmf (S k)).
Proof. reflexivity. Qed.
Lemma outer_power_length pmf k : 1 <= k -> N.of_nat (length (outer_power pmf k)) = (N.of_nat (length pmf) ^ N.of_nat k)%N.
Proof.
  destruct k as [|k]; [lia|]. intros _. induction k as [|k IH].
  - change (N.of_nat 1) with 1%N. rewrite N.pow_1_r. reflexivity.
  - rewrite outer_power_S. rewrite flat_map_concat_map.
    rewrite (concat_const_length _ (length pmf)).
    2:{ rewrite Forall_map, Forall_forall. intros; apply map_length. }
    rewrite map_length, Nat2N.inj_mul, IH.
    replace (N.of_nat (S (S k))) with (N.succ (N.of_nat (S k))) by lia. rewrite N.pow_succ_r'. lia.
Qed.
Lemma Forall_outer (P : Q -> Prop) pmf k : 1 <= k -> Forall P pmf -> (forall a b, P a -> P b -> P (a * b)%Q) ->
  Forall P (outer_power pmf k).
Proof.
  destruct k as [|k]; [lia|]. intros _ HP Hm. induction k as [|k IH]; [exact HP|].
  rewrite outer_power_S, Forall_forall. intros x Hx. apply in_flat_map in Hx as [a [Ha Hx]].
  apply in_map_iff in Hx as [b [<- Hb]]. rewrite Forall_forall in *. apply Hm; auto.
Qed.
Lemma qsum_scale a l : (qsum (map (fun b => (a * b)%Q) l) == a * qsum l)%Q.
Proof. unfold qsum. induction l as [|x l IH]; cbn [map fold_right]; [ring|rewrite IH; ring]. Qed.
Lemma qsum_flat (l : list Q) pmf : (qsum (flat_map (fun a => map (fun b => (a * b)%Q) pmf) l) == qsum l * qsum pmf)%Q.
Proof.
  induction l as [|x l IH]; cbn [flat_map]; [unfold qsum; cbn; ring|].
  rewrite qsum_app, qsum_scale, IH. change (qsum (x :: l)) with (x + qsum l)%Q. ring.
Qed.
Lemma qsum_nonneg l : Forall (fun p => (0 <= p)%Q) l -> (0 <= qsum l)%Q.
Proof.
  induction 1 as [|x l Hx _ IH]; [apply Qle_refl|]. change (qsum (x :: l)) with (x + qsum l)%Q. lra.
Qed.
Lemma qsum_outer_le pmf k : 1 <= k -> Forall (fun p => (0 <= p)%Q) pmf -> (qsum pmf <= 1)%Q -> (qsum (outer_power pmf k) <= 1)%Q.
Proof.
  destruct k as [|k]; [lia|]. intros _ HP H1. induction k as [|k IH]; [exact H1|].
  rewrite outer_power_S, qsum_flat.
  assert (0 <= qsum (outer_power pmf (S k)))%Q.
  { apply qsum_nonneg. apply Forall_outer; [lia|exact HP|]. intros; apply Qmult_le_0_compat; auto. }
  assert (0 <= qsum pmf)%Q by (apply qsum_nonneg; auto).
  apply Qle_trans with (1 * 1)%Q; [|lra]. apply Qmult_le_compat_nonneg; split; auto.
Qed.

Lemma pow_ge_2 (a k : nat) : 2 <= a -> 1 <= k -> (2 <= N.of_nat a ^ N.of_nat k)%N.
Proof.
  intros Ha Hk. apply N.le_trans with (N.of_nat a ^ 1)%N; [rewrite N.pow_1_r; lia|].
  apply N.pow_le_mono_r; lia.
Qed.

(* the mapping built from a list of codewords *)
Lemma make_from_words src k ws : (2 <= src)%N -> 1 <= k -> N.of_nat (length ws) = (src ^ N.of_nat k)%N ->
  Forall (fun w => Forall (fun x => (x < 2)%N) w) ws ->
  f2v_make src 2 k (dict_of_pairs (combine (tuples src k) ws)) =
    Some {| f2v_src := src; f2v_tgt := 2; f2v_k := k; f2v_map := combine (tuples src k) ws |} /\
  length (tuples src k) = length ws.
Proof.
  intros Hs Hk Hl Hb. assert (L : length (tuples src k) = length ws).
  { apply Nat2N.inj. rewrite Hl. apply tuples_length. }
  split; [|exact L]. rewrite dict_of_pairs_fresh by (rewrite keys_combine by exact L; apply tuples_NoDup).
  apply f2v_make_ok; auto; [lia| |].
  - intros w. rewrite keys_combine by exact L. tauto.
  - rewrite values_combine by exact L. exact Hb.
Qed.

(* what the properties say of a code built from words *)
Record good_code (c : f2v) (src : N) (k : nat) (ws : list word) : Prop := {
  gc_src : f2v_src c = src; gc_tgt : f2v_tgt c = 2%N; gc_k : f2v_k c = k;
  gc_keys : map fst (f2v_map c) = tuples src k; gc_words : f2v_codewords c = ws;
  gc_PF : prefix_free_words (f2v_codewords c); gc_flag : f2v_is_prefix_free c = true;
  gc_ne : Forall (fun w => w <> []) (f2v_codewords c);
  gc_bin : Forall (Forall (fun x => (x < 2)%N)) (f2v_codewords c)
}.
Lemma make_good src k ws : (2 <= src)%N -> 1 <= k -> N.of_nat (length ws) = (src ^ N.of_nat k)%N ->
  Forall (fun w => Forall (fun x => (x < 2)%N) w) ws -> Forall (fun w => w <> []) ws -> PF ws ->
  exists c, f2v_make src 2 k (dict_of_pairs (combine (tuples src k) ws)) = Some c /\ good_code c src k ws.
Proof.
  intros Hs Hk Hl Hb Hn Hp. destruct (make_from_words src k ws) as [E L]; auto.
  eexists; split; [exact E|].
  assert (V : map snd (combine (tuples src k) ws) = ws) by (apply values_combine; exact L).
  split; unfold f2v_is_prefix_free, f2v_codewords; cbn [f2v_src f2v_tgt f2v_k f2v_map]; rewrite ?V; auto.
  - apply keys_combine; exact L.
  - refine (proj1 (is_prefix_free_iff ws Hn) _). apply is_prefix_free_PF. rewrite filter_non_empty_id; auto.
  - apply is_prefix_free_PF. rewrite filter_non_empty_id; auto.
Qed.

(* ---------- Huffman *)
Lemma huffman_words pmf pol asg : 2 <= length pmf ->
  exists ws T, huffman_codewords pmf pol asg = Some ws /\ merges pmf (start pmf) T /\ Permutation (leaves T) (seq 0 (length pmf)) /\
    map wlen ws = map wlen (tree_words (length pmf) T) /\ PF ws /\ Forall (fun w => w <> []) ws /\
    Forall (fun w => Forall (fun x => (x < 2)%N) w) ws.
Proof.
  intros H2. destruct (huffman_tree_spec pmf pol) as (links & n & T & E & I & M); [intros ->; cbn in H2; lia|].
  pose proof (Inv_single_perm _ _ _ _ I) as P.
  destruct (tree_words_facts (length pmf) T H2 P) as (L & PFt & NEt & Bt & K).
  unfold huffman_codewords; rewrite E. destruct asg.
  - exists (tree_words (length pmf) T), T. rewrite (tree_codewords_spec _ _ _ _ I). repeat split; auto.
  - rewrite (tree_lengths_spec _ _ _ _ I).
    assert (Hpos : Forall (fun l => 0 < l) (map wlen (tree_words (length pmf) T))).
    { rewrite Forall_map. eapply Forall_impl; [|exact NEt]. intros [|x w] Hw; cbn; [congruence|lia]. }
    destruct (proj2 (canonical_kraft 2 (map wlen (tree_words (length pmf) T)) ltac:(lia)
       ltac:(intros Ez; apply (f_equal (@length nat)) in Ez; rewrite map_length, L in Ez; cbn in Ez; lia) Hpos)) as [ws Ews].
    { rewrite K. apply Qle_refl. }
    exists ws, T. pose proof (canonical_lengths 2 ltac:(lia) _ ws Ews) as WL. rewrite Ews. repeat split; auto.
    + eapply canonical_PF; eauto. lia.
    + rewrite <- WL, Forall_map in Hpos. eapply Forall_impl; [|exact Hpos]. intros [|x w] Hw; [cbn in Hw; lia|discriminate].
    + eapply canonical_range; eauto. lia.
Qed.

Lemma huffman_make_spec pmf k pol asg : 2 <= length pmf -> 1 <= k ->
  exists c ws, huffman_make pmf k pol asg = Some c /\ good_code c (N.of_nat (length pmf)) k ws /\
    (kraft_sum 2 (map (@length N) (f2v_codewords c)) == 1)%Q.
Proof.
  intros H2 Hk. assert (L := outer_power_length pmf k Hk). assert (G := pow_ge_2 _ k H2 Hk).
  destruct (huffman_words (outer_power pmf k) pol asg) as (ws & T & E & M & P & WL & PFw & NE & B); [lia|].
  destruct (tree_words_facts (length (outer_power pmf k)) T ltac:(lia) P) as (LT & _ & _ & _ & K).
  assert (LW : length ws = length (outer_power pmf k)).
  { apply (f_equal (@length nat)) in WL. rewrite !map_length in WL. lia. }
  destruct (make_good (N.of_nat (length pmf)) k ws) as (c & Ec & Gc); auto; [lia|lia|].
  exists c, ws. unfold huffman_make; rewrite E. split; [exact Ec|]. split; [exact Gc|].
  rewrite (gc_words _ _ _ _ Gc). change (map (@length N) ws) with (map wlen ws). rewrite WL. exact K.
Qed.

(* ---------- optimality *)
Lemma huffman_make_optimal pmf k pol asg c ws : 2 <= length pmf -> 1 <= k -> Forall (fun p => (0 <= p)%Q) pmf ->
  huffman_make pmf k pol asg = Some c -> length ws = length (f2v_codewords c) ->
  Forall (Forall (fun x => (x < 2)%N)) ws -> uniquely_decodable ws ->
  (expected_length (outer_power pmf k) (f2v_codewords c) <= expected_length (outer_power pmf k) ws)%Q.
Proof.
  intros H2 Hk Hp E Lw Bw U. assert (L := outer_power_length pmf k Hk). assert (G := pow_ge_2 _ k H2 Hk).
  destruct (huffman_words (outer_power pmf k) pol asg) as (cs & T & Ec & M & P & WL & PFw & NE & B); [lia|].
  destruct (tree_words_facts (length (outer_power pmf k)) T ltac:(lia) P) as (LT & _ & _ & _ & K).
  assert (LW : length cs = length (outer_power pmf k)).
  { apply (f_equal (@length nat)) in WL. rewrite !map_length in WL. lia. }
  destruct (make_good (N.of_nat (length pmf)) k cs) as (c' & Ec' & Gc); auto; [lia|lia|].
  unfold huffman_make in E. rewrite Ec, Ec' in E. injection E as <-.
  rewrite (gc_words _ _ _ _ Gc) in *.
  assert (X : forall q (us : list word), (expected_length q us == cost (combine q (map wlen us)))%Q).
  { clear. intros q. induction q as [|x q IH]; intros [|u us]; try reflexivity.
    cbn [expected_length map combine cost]. rewrite (IH us). reflexivity. }
  rewrite !X, WL.
  apply huffman_optimal; auto.
  - apply Forall_outer; auto. intros; apply Qmult_le_0_compat; auto.
  - rewrite map_length. lia.
  - apply mcmillan; auto. lia.
Qed.

(* ---------- Fano *)
Definition is_first_min (l : list Q) (r : nat) : Prop :=
  r < length l /\ (forall i, i < length l -> (nth r l 0 <= nth i l 0)%Q) /\ (forall i, i < r -> (nth r l 0 < nth i l 0)%Q).
Lemma argmin_from_spec l : forall pre best, is_first_min pre best ->
  is_first_min (pre ++ l) (argmin_from best (nth best pre 0%Q) (length pre) l).
Proof.
  induction l as [|x l IH]; intros pre best (H1 & H2 & H3); cbn [argmin_from].
  - rewrite app_nil_r. split; auto.
  - replace (pre ++ x :: l) with ((pre ++ [x]) ++ l) by (rewrite <- app_assoc; reflexivity).
    assert (LL : length (pre ++ [x]) = S (length pre)) by (rewrite app_length; cbn; lia).
    assert (Nx : nth (length pre) (pre ++ [x]) 0%Q = x) by (rewrite app_nth2, Nat.sub_diag by lia; reflexivity).
    assert (Np : forall i, i < length pre -> nth i (pre ++ [x]) 0%Q = nth i pre 0%Q) by (intros; apply app_nth1; auto).
    destruct (Qle_bool (nth best pre 0%Q) x) eqn:EB.
    + apply Qle_bool_iff in EB. rewrite <- LL, <- (Np best) by auto. apply IH. split; [lia|]. split.
      * intros i Hi. rewrite (Np best) by auto. destruct (Nat.eq_dec i (length pre)) as [->|].
        -- rewrite Nx; auto.
        -- rewrite Np by lia. apply H2; lia.
      * intros i Hi. rewrite !Np by lia. apply H3; auto.
    + assert (EB' : (x < nth best pre 0)%Q). { apply Qnot_le_lt. intros C. apply Qle_bool_iff in C. congruence. }
      rewrite <- LL.
      assert (Q : is_first_min (pre ++ [x]) (length pre)); [|apply IH in Q; rewrite Nx in Q; exact Q]. split; [lia|]. split.
      * intros i Hi. rewrite Nx. destruct (Nat.eq_dec i (length pre)) as [->|].
        -- rewrite Nx; apply Qle_refl.
        -- rewrite Np by lia. apply Qlt_le_weak. eapply Qlt_le_trans; [exact EB'|apply H2; lia].
      * intros i Hi. rewrite Nx, Np by lia. eapply Qlt_le_trans; [exact EB'|apply H2; lia].
Qed.
Lemma argmin_spec l : l <> [] -> is_first_min l (argmin l).
Proof.
  destruct l as [|x l]; [congruence|]. intros _. unfold argmin.
  apply (argmin_from_spec l [x] 0). split; [cbn; lia|]. split.
  - intros [|i] Hi; [apply Qle_refl|cbn in Hi; lia].
  - lia.
Qed.

Lemma cumsum_length acc l : length (cumsum acc l) = length l.
Proof. revert acc; induction l as [|x l IH]; intros acc; cbn; auto. Qed.
Lemma cumsum_nth l : forall acc i, i < length l -> (nth i (cumsum acc l) 0 == acc + qsum (firstn (S i) l))%Q.
Proof.
  induction l as [|x l IH]; intros acc i Hi; cbn [length] in Hi; [lia|]. cbn [cumsum].
  destruct i as [|i].
  - cbn [nth firstn]. unfold qsum; cbn [fold_right]. ring.
  - cbn [nth]. rewrite IH by lia. rewrite (firstn_cons (S i)).
    change (qsum (x :: firstn (S i) l)) with (x + qsum (firstn (S i) l))%Q. ring.
Qed.
Lemma qsum_snoc l x : (qsum (l ++ [x]) == qsum l + x)%Q.
Proof. rewrite qsum_app. unfold qsum; cbn [fold_right]. ring. Qed.

Lemma fano_split_bound probs : 2 <= length probs -> Forall (fun p => (0 <= p)%Q) probs -> S (fano_split probs) < length probs.
Proof.
  intros H2 HP. unfold fano_split. set (v := fun c => Qabs (c - qsum probs / 2)).
  set (L := map v (cumsum 0 probs)).
  assert (LL : length L = length probs) by (unfold L; rewrite map_length, cumsum_length; auto).
  destruct (argmin_spec L) as (A & B & C); [intros E; rewrite E in LL; cbn in LL; lia|].
  destruct (Nat.eq_dec (S (argmin L)) (length probs)) as [E|]; [|lia]. exfalso.
  assert (Hv : forall i, i < length probs -> (nth i L 0 == v (qsum (firstn (S i) probs)))%Q).
  { intros i Hi. unfold L. rewrite nth_indep with (d' := v 0%Q) by (rewrite map_length, cumsum_length; lia).
    rewrite map_nth. unfold v. rewrite cumsum_nth by lia. apply Qabs_wd. ring. }
  assert (K := C (argmin L - 1) ltac:(lia)). rewrite (Hv (argmin L)), (Hv (argmin L - 1)) in K by lia.
  rewrite (firstn_all_ge (S (argmin L))) in K by lia.
  replace (S (argmin L - 1)) with (length probs - 1) in K by lia.
  destruct (exists_last (l := probs)) as (pre & x & ->); [intros ->; cbn in H2; lia|].
  rewrite app_length in K; cbn [length] in K. replace (length pre + 1 - 1) with (length pre) in K by lia.
  rewrite firstn_app_exact in K. unfold v in K. rewrite Forall_app in HP. destruct HP as [HP Hx].
  inversion Hx as [|? ? Hx0 _]; subst.
  assert (HS := qsum_nonneg _ HP). assert (QS := qsum_snoc pre x). revert K. apply Qle_not_lt.
  assert (HD : (qsum (pre ++ [x]) / 2 == (qsum pre + x) * (1 # 2))%Q) by (rewrite QS; field).
  rewrite HD. rewrite (Qabs_pos (qsum (pre ++ [x]) - _)) by (rewrite QS; lra).
  apply Qabs_Qle_condition. rewrite QS. split; lra.
Qed.

Fixpoint set_all (xs ds : list nat) (l : list nat) : list nat :=
  match xs, ds with x :: xs', d :: ds' => set_all xs' ds' (set_nat x d l) | _, _ => l end.
Lemma set_all_app xs ds xs' ds' l : length xs = length ds -> set_all (xs ++ xs') (ds ++ ds') l = set_all xs' ds' (set_all xs ds l).
Proof. revert ds l; induction xs as [|x xs IH]; intros [|d ds] l H; cbn in *; try lia; auto. Qed.
Lemma set_all_length xs : forall ds l, length (set_all xs ds l) = length l.
Proof. induction xs as [|x xs IH]; intros [|d ds] l; cbn; auto. rewrite IH. apply set_nat_length. Qed.
Lemma set_all_other xs : forall ds l y, ~ In y xs -> nth y (set_all xs ds l) 0 = nth y l 0.
Proof.
  induction xs as [|x xs IH]; intros [|d ds] l y H; cbn [set_all]; auto.
  rewrite IH by (intros C; apply H; right; auto). apply set_nat_other. intros ->; apply H; left; auto.
Qed.
Lemma set_all_nth xs : forall ds l, NoDup xs -> length xs = length ds -> (forall x, In x xs -> x < length l) ->
  map (fun x => nth x (set_all xs ds l) 0) xs = ds.
Proof.
  induction xs as [|x xs IH]; intros [|d ds] l N H B; cbn [length] in H; try lia; auto. cbn [set_all map].
  inversion N as [|? ? Nx N']; subst. f_equal.
  - rewrite set_all_other by auto. apply set_nat_same. apply B; left; auto.
  - apply IH; auto. intros y Hy. rewrite set_nat_length. apply B; right; auto.
Qed.

Definition slice (lo m : nat) (items : list (nat * Q)) := firstn m (skipn lo items).
Lemma skipn_skipn' {A} a b (l : list A) : skipn a (skipn b l) = skipn (b + a) l.
Proof. revert l; induction b as [|b IH]; intros l; [reflexivity|]. destruct l; [destruct a; reflexivity|]. cbn. apply IH. Qed.
Lemma firstn_add {A} a b (l : list A) : firstn (a + b) l = firstn a l ++ firstn b (skipn a l).
Proof. revert l; induction a as [|a IH]; intros l; [reflexivity|]. destruct l; [destruct b; reflexivity|]. cbn. f_equal. apply IH. Qed.
Lemma slice_app lo a b items : slice lo (a + b) items = slice lo a items ++ slice (lo + a) b items.
Proof. unfold slice. rewrite firstn_add, skipn_skipn'. reflexivity. Qed.
Lemma slice_length lo m items : lo + m <= length items -> length (slice lo m items) = m.
Proof. intros H. unfold slice. rewrite firstn_length, skipn_length. lia. Qed.

Lemma slice_In lo m items x : In x (slice lo m items) -> In x items.
Proof.
  intros H. rewrite <- (firstn_skipn lo items). apply in_or_app; right.
  rewrite <- (firstn_skipn m (skipn lo items)). apply in_or_app; left. exact H.
Qed.

Lemma fano_segment items : Forall (fun xp => (0 <= snd xp)%Q) items ->
  forall m lo len, 1 <= m -> lo + m <= length items ->
  exists ds, length ds = m /\ (kraft_sum 2 ds == kterm 2 len)%Q /\ Forall (fun d => len <= d /\ (2 <= m -> len < d)) ds /\
    forall f rest lengths, fano_loop (2 * m - 1 + f) items ((lo, lo + m, len) :: rest) lengths =
      fano_loop f items rest (set_all (map fst (slice lo m items)) ds lengths).
Proof.
  intros HI. induction m as [m IH] using lt_wf_ind. intros lo len Hm Hlo.
  destruct (Nat.eq_dec m 1) as [->|Hne].
  - exists [len]. split; [reflexivity|]. split; [rewrite kraft_cons, kraft_nil; ring|].
    split; [repeat constructor; lia|]. intros f rest lengths.
    change (2 * 1 - 1 + f) with (S f). cbn [fano_loop].
    replace (lo + 1 - lo) with 1 by lia. cbn [Nat.eqb].
    destruct (nth_error items lo) as [[x p]|] eqn:E; [|apply nth_error_None in E; lia].
    replace (slice lo 1 items) with [(x, p)]; [reflexivity|].
    unfold slice. destruct (nth_error_split _ _ E) as (l1 & l2 & -> & <-). rewrite skipn_app_exact. reflexivity.
  - set (s := fano_split (map snd (slice lo m items))).
    assert (Hs : S s < m).
    { unfold s. rewrite <- (slice_length lo m items Hlo) at 2. rewrite <- (map_length snd).
      apply fano_split_bound; rewrite ?map_length, ?slice_length; auto; [lia|].
      rewrite Forall_map. rewrite Forall_forall in *. intros y Hy. apply HI. eapply slice_In; eauto. }
    destruct (IH (S s) Hs lo (S len)) as (d1 & L1 & K1 & F1 & R1); [lia|lia|].
    destruct (IH (m - S s) ltac:(lia) (lo + S s) (S len)) as (d2 & L2 & K2 & F2 & R2); [lia|lia|].
    exists (d1 ++ d2). rewrite app_length, kraft_app, K1, K2, kterm_S. split; [lia|]. split; [field|]. split.
    + apply Forall_app; split; eapply Forall_impl; try eassumption; cbn; intros d [Hd _]; lia.
    + intros f rest lengths. replace (2 * m - 1 + f) with (S (2 * m - 2 + f)) by lia. cbn [fano_loop].
      replace (lo + m - lo) with m by lia. destruct (Nat.eqb_spec m 1) as [|_]; [lia|].
      fold (slice lo m items). fold s.
      replace (lo + s + 1) with (lo + S s) by lia.
      replace (2 * m - 2 + f) with (2 * S s - 1 + (2 * (m - S s) - 1 + f)) by lia.
      rewrite R1. replace (lo + m) with (lo + S s + (m - S s)) by lia. rewrite R2. f_equal.
      rewrite <- set_all_app by (rewrite map_length, slice_length; lia).
      rewrite <- map_app, <- slice_app. do 2 f_equal. f_equal. lia.
Qed.

Lemma insert_desc_perm x l : Permutation (x :: l) (insert_desc x l).
Proof.
  induction l as [|y l IH]; cbn [insert_desc]; auto. destruct (Qle_bool (snd y) (snd x)); auto.
  rewrite perm_swap. constructor. exact IH.
Qed.
Lemma sort_desc_perm l : Permutation l (sort_desc l).
Proof.
  unfold sort_desc. induction l as [|x l IH]; cbn [fold_right]; auto.
  eapply Permutation_trans; [|apply insert_desc_perm]. constructor. exact IH.
Qed.
Lemma map_snd_combine_seq {A} (l : list A) : map snd (combine (seq 0 (length l)) l) = l.
Proof. apply map_snd_combine'. apply seq_length. Qed.
Lemma map_fst_combine_seq {A} (l : list A) : map fst (combine (seq 0 (length l)) l) = seq 0 (length l).
Proof. apply map_fst_combine'. apply seq_length. Qed.

Lemma fano_lengths_spec pmf : 1 <= length pmf -> Forall (fun p => (0 <= p)%Q) pmf ->
  exists ls, fano_code_lengths pmf = Some ls /\ length ls = length pmf /\ (kraft_sum 2 ls == 1)%Q /\
    (2 <= length pmf -> Forall (fun l => 0 < l) ls).
Proof.
  intros H1 HP. unfold fano_code_lengths. set (items := sort_desc (combine (seq 0 (length pmf)) pmf)).
  pose proof (sort_desc_perm (combine (seq 0 (length pmf)) pmf)) as P. fold items in P.
  assert (LI : length items = length pmf).
  { rewrite <- (Permutation_length P), combine_length, seq_length. lia. }
  assert (XP : Permutation (map fst items) (seq 0 (length pmf))).
  { rewrite <- P. rewrite map_fst_combine_seq. reflexivity. }
  destruct (fano_segment items) with (m := length pmf) (lo := 0) (len := 0) as (ds & LD & K & F & R); auto; [|lia|].
  { rewrite Forall_forall in *. intros y Hy. apply HP. rewrite <- (map_snd_combine_seq pmf). apply in_map.
    eapply Permutation_in; [symmetry; exact P|exact Hy]. }
  set (xs := map fst (slice 0 (length pmf) items)) in *.
  assert (EX : xs = map fst items).
  { unfold xs, slice. cbn [skipn]. rewrite firstn_all_ge by lia. reflexivity. }
  assert (ND : NoDup xs). { rewrite EX. eapply Permutation_NoDup; [symmetry; exact XP|apply seq_NoDup]. }
  assert (LX : length xs = length ds). { rewrite EX, map_length. lia. }
  set (ls := set_all xs ds (repeat 0 (length pmf))).
  assert (LL : length ls = length pmf) by (unfold ls; rewrite set_all_length, repeat_length; reflexivity).
  assert (PL : Permutation ls ds).
  { rewrite <- (set_all_nth xs ds (repeat 0 (length pmf)) ND LX).
    - fold ls. rewrite EX, XP. rewrite (list_ext 0 ls (map (fun x => nth x ls 0) (seq 0 (length pmf)))) at 1; auto.
      + rewrite map_length, seq_length. exact LL.
      + intros i Hi. rewrite nth_map_seq by lia. reflexivity.
    - intros x Hx. rewrite repeat_length. rewrite EX in Hx. apply (Permutation_in _ XP) in Hx. apply in_seq in Hx. lia. }
  exists ls. split; [|split; [exact LL|split]].
  - replace (2 * length pmf) with (2 * length pmf - 1 + 1) by lia. exact (R 1 [] (repeat 0 (length pmf))).
  - rewrite (kraft_perm _ _ _ PL), K. reflexivity.
  - intros H2. rewrite PL. eapply Forall_impl; [|exact F]. cbn. intros d Hd. lia.
Qed.

Lemma fano_make_spec pmf k : 2 <= length pmf -> 1 <= k -> Forall (fun p => (0 <= p)%Q) pmf ->
  exists c ws, fano_make pmf k = Some c /\ good_code c (N.of_nat (length pmf)) k ws /\
    (kraft_sum 2 (map (@length N) (f2v_codewords c)) == 1)%Q /\
    fano_code_lengths (outer_power pmf k) = Some (map (@length N) (f2v_codewords c)).
Proof.
  intros H2 Hk HP. assert (L := outer_power_length pmf k Hk). assert (G := pow_ge_2 _ k H2 Hk).
  destruct (fano_lengths_spec (outer_power pmf k)) as (ls & E & LL & K & Pos).
  { lia. }
  { apply Forall_outer; auto. intros; apply Qmult_le_0_compat; auto. }
  assert (Hpos := Pos ltac:(lia)).
  destruct (proj2 (canonical_kraft 2 ls ltac:(lia) ltac:(intros ->; cbn in LL; lia) Hpos)) as [ws Ews].
  { rewrite K. apply Qle_refl. }
  pose proof (canonical_lengths 2 ltac:(lia) _ ws Ews) as WL.
  assert (LW : length ws = length ls) by (rewrite <- WL, map_length; reflexivity).
  destruct (make_good (N.of_nat (length pmf)) k ws) as (c & Ec & Gc); auto; [lia|lia| | | |].
  - exact (canonical_range 2 ltac:(lia) ls ws Ews).
  - rewrite <- WL, Forall_map in Hpos. eapply Forall_impl; [|exact Hpos]. intros [|x w] Hw; [cbn in Hw; lia|discriminate].
  - exact (canonical_PF 2 ltac:(lia) ls ws Ews Hpos).
  - exists c, ws. unfold fano_make; rewrite E, Ews. split; [exact Ec|]. split; [exact Gc|].
    rewrite (gc_words _ _ _ _ Gc). change (map (@length N) ws) with (map wlen ws). rewrite WL. split; [exact K|reflexivity].
Qed.

(* ---------- Shannon *)
Lemma shannon_from_spec p fuel : forall l, (exists m, l <= m <= l + fuel /\ (1 <= p * inject_Z (2 ^ Z.of_nat m))%Q) ->
  let r := shannon_from fuel p l in l <= r /\ (1 <= p * inject_Z (2 ^ Z.of_nat r))%Q /\
  forall m, l <= m < r -> (p * inject_Z (2 ^ Z.of_nat m) < 1)%Q.
Proof.
  induction fuel as [|f IH]; intros l (m & Hm & H); cbn [shannon_from].
  - replace m with l in H by lia. split; [lia|]. split; [exact H|]. intros; lia.
  - destruct (Qle_bool 1 (p * inject_Z (2 ^ Z.of_nat l))) eqn:E.
    + apply Qle_bool_iff in E. split; [lia|]. split; [exact E|]. intros; lia.
    + assert (E' : (p * inject_Z (2 ^ Z.of_nat l) < 1)%Q). { apply Qnot_le_lt. intros C. apply Qle_bool_iff in C. congruence. }
      destruct (IH (S l)) as (A & B & C).
      { exists m. split; [|exact H]. destruct (Nat.eq_dec l m) as [->|]; [|lia]. exfalso. lra. }
      split; [lia|]. split; [exact B|]. intros q Hq. destruct (Nat.eq_dec q l) as [->|]; [exact E'|apply C; lia].
Qed.
Lemma pow2_size d : (Zpos d < 2 ^ Z.of_nat (Pos.size_nat d))%Z.
Proof.
  induction d as [d IH|d IH|]; cbn [Pos.size_nat]; try reflexivity;
  rewrite Nat2Z.inj_succ, Z.pow_succ_r by lia; lia.
Qed.
Lemma shannon_length_spec p : (0 < p)%Q ->
  1 <= shannon_length p /\ (1 <= p * inject_Z (2 ^ Z.of_nat (shannon_length p)))%Q /\
  forall m, 1 <= m < shannon_length p -> (p * inject_Z (2 ^ Z.of_nat m) < 1)%Q.
Proof.
  intros Hp. unfold shannon_length. apply shannon_from_spec. exists (Pos.size_nat (Qden p)).
  assert (1 <= Pos.size_nat (Qden p)) by (destruct (Qden p); cbn; lia).
  split; [lia|]. destruct p as [n d]. unfold Qlt, Qle in *. cbn [Qnum Qden Qmult inject_Z] in *.
  pose proof (pow2_size d). rewrite Pos.mul_1_r. nia.
Qed.
Lemma kterm_le_prob p l : (1 <= p * inject_Z (2 ^ Z.of_nat l))%Q -> (kterm 2 l <= p)%Q.
Proof.
  intros H. unfold kterm. change (Z.of_N 2) with 2%Z.
  assert (P : (0 < inject_Z (2 ^ Z.of_nat l))%Q).
  { change 0%Q with (inject_Z 0). rewrite <- Zlt_Qlt. apply Z.pow_pos_nonneg; lia. }
  apply Qmult_lt_0_le_reg_r with (inject_Z (2 ^ Z.of_nat l)); [exact P|].
  rewrite (Qmult_comm (/ _)), Qmult_inv_r; [exact H|]. intros E. rewrite E in P. apply (Qlt_irrefl _ P).
Qed.
Lemma shannon_kraft ps : Forall (fun p => (0 < p)%Q) ps -> (kraft_sum 2 (map shannon_length ps) <= qsum ps)%Q.
Proof.
  induction 1 as [|p ps Hp _ IH]; [apply Qle_refl|]. cbn [map]. rewrite kraft_cons. change (qsum (p :: ps)) with (p + qsum ps)%Q.
  apply Qplus_le_compat; [|exact IH]. apply kterm_le_prob. apply shannon_length_spec; auto.
Qed.
Lemma shannon_make_spec pmf k : 2 <= length pmf -> 1 <= k -> Forall (fun p => (0 < p)%Q) pmf -> (qsum pmf <= 1)%Q ->
  exists c ws, shannon_make pmf k = Some c /\ good_code c (N.of_nat (length pmf)) k ws /\
    map (@length N) (f2v_codewords c) = map shannon_length (outer_power pmf k).
Proof.
  intros H2 Hk HP HS. assert (L := outer_power_length pmf k Hk). assert (G := pow_ge_2 _ k H2 Hk).
  assert (HO : Forall (fun p => (0 < p)%Q) (outer_power pmf k)).
  { apply Forall_outer; auto. intros a b Ha Hb. rewrite <- (Qmult_0_l b). apply Qmult_lt_compat_r; auto. }
  set (ls := map shannon_length (outer_power pmf k)).
  assert (Hpos : Forall (fun l => 0 < l) ls).
  { unfold ls. rewrite Forall_map. eapply Forall_impl; [|exact HO]. cbn. intros p Hp. destruct (shannon_length_spec p Hp). lia. }
  assert (LL : length ls = length (outer_power pmf k)) by apply map_length.
  destruct (proj2 (canonical_kraft 2 ls ltac:(lia) ltac:(intros E; rewrite E in LL; cbn in LL; lia) Hpos)) as [ws Ews].
  { eapply Qle_trans; [apply shannon_kraft; exact HO|]. apply qsum_outer_le; auto.
    eapply Forall_impl; [|exact HP]. cbn. intros; apply Qlt_le_weak; auto. }
  pose proof (canonical_lengths 2 ltac:(lia) _ ws Ews) as WL.
  assert (LW : length ws = length ls) by (rewrite <- WL, map_length; reflexivity).
  destruct (make_good (N.of_nat (length pmf)) k ws) as (c & Ec & Gc); auto; [lia|lia| | | |].
  - exact (canonical_range 2 ltac:(lia) ls ws Ews).
  - rewrite <- WL, Forall_map in Hpos. eapply Forall_impl; [|exact Hpos]. intros [|x w] Hw; [cbn in Hw; lia|discriminate].
  - exact (canonical_PF 2 ltac:(lia) ls ws Ews Hpos).
  - exists c, ws. unfold shannon_make.
    replace (forallb (fun p => negb (Qle_bool p 0)) pmf) with true.
    2:{ symmetry. apply forallb_forall. intros p Hp. rewrite Forall_forall in HP. apply negb_true_iff.
        destruct (Qle_bool p 0) eqn:E; auto. apply Qle_bool_iff in E. specialize (HP p Hp). exfalso. lra. }
    fold ls. rewrite Ews. split; [exact Ec|]. split; [exact Gc|].
    rewrite (gc_words _ _ _ _ Gc). exact WL.
Qed.

(* ---------- Tunstall *)
Section TunstallProof.
  Variable pop : list tnode -> option (tnode * list tnode).
  Hypothesis Hpop : forall h, h <> [] -> exists x r, pop h = Some (x, r) /\ Permutation h (x :: r).
  Variable pmf : list Q.
  Notation Sz := (N.of_nat (length pmf)).
  Hypothesis H2 : 2 <= length pmf.

  Record TInv (h : list tnode) : Prop := {
    ti_pf : PF (map fst h);
    ti_ne : Forall (fun w => w <> []) (map fst h);
    ti_rg : Forall (fun w => Forall (fun x => (x < Sz)%N) w) (map fst h);
    ti_cov : covering (map fst h) Sz
  }.
  Lemma TInv_perm h h' : Permutation h h' -> TInv h -> TInv h'.
  Proof.
    intros P [A B C D]. pose proof (Permutation_map fst P) as PM. split.
    - eapply PF_perm; eauto.
    - rewrite <- PM; auto.
    - rewrite <- PM; auto.
    - intros f Hf. destruct (D f Hf) as (w & Hw & S). exists w. split; auto. eapply Permutation_in; eauto.
  Qed.
  Definition expand (x : tnode) : list tnode := map (fun sq => (fst x ++ [fst sq], (snd x * snd sq)%Q)) (combine (range_N Sz) pmf).
  Lemma range_N_length n : length (range_N n) = N.to_nat n.
  Proof. unfold range_N. rewrite map_length, seq_length. reflexivity. Qed.
  Lemma combine_range_fst : map fst (combine (range_N Sz) pmf) = range_N Sz.
  Proof. apply map_fst_combine'. rewrite range_N_length. lia. Qed.
  Lemma expand_words x : map fst (expand x) = map (fun s => fst x ++ [s]) (range_N Sz).
  Proof. unfold expand. rewrite map_map. cbn [fst]. rewrite <- combine_range_fst at 2. rewrite map_map. reflexivity. Qed.
  Lemma expand_length x : length (expand x) = length pmf.
  Proof. unfold expand. rewrite map_length, combine_length, range_N_length. lia. Qed.

  Lemma prefix_snoc_inv w v s : prefix w (v ++ [s]) -> prefix w v \/ w = v ++ [s].
  Proof.
    intros [r E]. destruct r as [|y r'] using rev_ind.
    - right. rewrite app_nil_r in E. auto.
    - left. rewrite app_assoc in E. apply app_inj_tail in E as [E _]. exists r'. exact E.
  Qed.
  Lemma incomp_snoc w v s : incomp w v -> incomp w (v ++ [s]).
  Proof.
    intros [A B]. split; intros P.
    - apply prefix_snoc_inv in P as [P|P]; [auto|]. apply B. exists [s]. exact P.
    - apply B. eapply prefix_trans; [|exact P]. exists [s]; reflexivity.
  Qed.
  Lemma incomp_last w a b : a <> b -> incomp (w ++ [a]) (w ++ [b]).
  Proof. intros H. split; intros [r E]; rewrite <- app_assoc in E; apply app_inv_head in E; cbn in E; congruence. Qed.
  Lemma FOP_NoDup {A} (R : A -> A -> Prop) l : NoDup l -> (forall a b, a <> b -> R a b) -> ForallOrdPairs R l.
  Proof.
    induction 1 as [|x l Hx _ IH]; intros H; constructor; auto. rewrite Forall_forall. intros y Hy. apply H. intros ->; auto.
  Qed.

  Lemma grow_step x r : TInv (x :: r) -> TInv (r ++ expand x).
  Proof.
    clear Hpop pop. intros [A B C D]. cbn [map] in *. inversion A as [|? ? A1 A2]; subst.
    inversion B as [|? ? B1 B2]; subst. inversion C as [|? ? C1 C2]; subst. split.
    - rewrite map_app, expand_words. apply FOP_app; [exact A2| |].
      + apply (FOP_map _ _ (fun a b => a <> b)); [intros; apply incomp_last; auto|]. apply FOP_NoDup; [apply range_N_NoDup|auto].
      + intros a b Ha Hb. apply in_map_iff in Hb as [s [<- _]]. apply incomp_snoc. apply incomp_sym.
        rewrite Forall_forall in A1. auto.
    - rewrite map_app, expand_words. apply Forall_app. split; auto. rewrite Forall_map, Forall_forall. intros s _ E.
      apply app_eq_nil in E as [_ E]. discriminate.
    - rewrite map_app, expand_words. apply Forall_app. split; auto. rewrite Forall_map, Forall_forall. intros s Hs.
      apply Forall_app. split; auto. constructor; auto. apply in_range_N; auto.
    - rewrite map_app, expand_words. intros f Hf. destruct (D f Hf) as (w & [<-|Hw] & S).
      + exists (fst x ++ [f (length (fst x))]). split.
        * apply in_or_app. right. apply in_map_iff. exists (f (length (fst x))). split; auto. apply in_range_N. auto.
        * intros i y E. destruct (Nat.lt_ge_cases i (length (fst x))) as [Hi|Hi].
          -- rewrite nth_error_app1 in E by auto. apply S. exact E.
          -- rewrite nth_error_app2 in E by auto. destruct (i - length (fst x)) as [|j] eqn:Ei; cbn in E.
             ++ replace i with (length (fst x)) by lia. congruence.
             ++ destruct j; discriminate.
      + exists w. split; auto. apply in_or_app; auto.
  Qed.
  Lemma grow_spec K : forall h, h <> [] -> TInv h ->
    exists h', tunstall_grow pop pmf K h = Some h' /\ TInv h' /\ length h' = length h + K * (length pmf - 1).
  Proof.
    induction K as [|K IH]; intros h Hn I; cbn [tunstall_grow].
    - exists h. repeat split; auto; apply I.
    - destruct (Hpop h Hn) as ([w p] & r & E & P). rewrite E. fold (expand (w, p)).
      apply (TInv_perm _ _ P) in I. apply grow_step in I.
      destruct (IH (r ++ expand (w, p))) as (h' & E' & I' & L'); auto.
      { intros Z. apply (f_equal (@length tnode)) in Z. rewrite app_length, expand_length in Z. cbn in Z. lia. }
      exists h'. split; [exact E'|]. split; [exact I'|]. rewrite L', app_length, expand_length.
      apply Permutation_length in P. cbn [length] in P. lia.
  Qed.
  Definition first_heap : list tnode := map (fun sp => ([fst sp], snd sp)) (combine (range_N Sz) pmf).
  Lemma first_words : map fst first_heap = map (fun s => [s]) (range_N Sz).
  Proof. unfold first_heap. rewrite map_map. cbn [fst]. rewrite <- combine_range_fst at 2. rewrite map_map. reflexivity. Qed.
  Lemma first_TInv : TInv first_heap.
  Proof.
    split; rewrite first_words.
    - apply (FOP_map _ _ (fun a b => a <> b)); [intros; apply incomp_diff; auto|]. apply FOP_NoDup; [apply range_N_NoDup|auto].
    - rewrite Forall_map, Forall_forall. discriminate.
    - rewrite Forall_map, Forall_forall. intros s Hs. repeat constructor. apply in_range_N; auto.
    - intros f Hf. exists [f 0]. split; [apply in_map_iff; exists (f 0); split; auto; apply in_range_N; auto|].
      intros [|[|i]] y E; cbn in E; congruence.
  Qed.
  Lemma first_length : length first_heap = length pmf.
  Proof. unfold first_heap. rewrite map_length, combine_length, range_N_length. lia. Qed.

  Lemma tunstall_K_bounds n : (Sz <= 2 ^ N.of_nat n)%N ->
    (N.of_nat (length pmf + tunstall_K (length pmf) n * (length pmf - 1)) <= 2 ^ N.of_nat n)%N /\
    (2 ^ N.of_nat n <= N.of_nat (length pmf + tunstall_K (length pmf) n * (length pmf - 1) + (length pmf - 1)))%N.
  Proof.
    intros H. unfold tunstall_K.
    assert (EP : Z.of_N (2 ^ N.of_nat n) = (2 ^ Z.of_nat n)%Z).
    { rewrite N2Z.inj_pow, nat_N_Z. reflexivity. }
    rewrite <- EP. clear EP. set (M := (2 ^ N.of_nat n)%N) in *.
    set (d := (Z.of_nat (length pmf) - 1)%Z).
    replace (Z.of_N M - Z.of_nat (length pmf) + d - 1)%Z with (Z.of_N M - Z.of_nat (length pmf) + (d - 1))%Z by lia.
    set (x := (Z.of_N M - Z.of_nat (length pmf))%Z). assert (0 <= x)%Z by lia. assert (1 <= d)%Z by lia.
    pose proof (Z.div_mod (x + (d - 1)) d ltac:(lia)) as DM. pose proof (Z.mod_pos_bound (x + (d - 1)) d ltac:(lia)) as MB.
    set (c := ((x + (d - 1)) / d)%Z) in *. set (K := Z.to_nat (c - 1)).
    assert (0 <= c)%Z by nia.
    assert (EK : (Z.of_nat K = Z.max 0 (c - 1))%Z) by lia.
    assert (EL : (Z.of_nat (length pmf + K * (length pmf - 1)) = Z.of_nat (length pmf) + Z.of_nat K * d)%Z) by nia.
    split.
    - apply N2Z.inj_le. rewrite nat_N_Z, EL. nia.
    - apply N2Z.inj_le. rewrite nat_N_Z, Nat2Z.inj_add, EL. nia.
  Qed.

  Lemma insert_lex_perm x l : Permutation (x :: l) (insert_lex x l).
  Proof.
    induction l as [|y l IH]; cbn [insert_lex]; auto. destruct (word_leb x y); auto.
    rewrite perm_swap. constructor. exact IH.
  Qed.
  Lemma sort_lex_perm l : Permutation l (sort_lex l).
  Proof.
    unfold sort_lex. induction l as [|x l IH]; cbn [fold_right]; auto.
    eapply Permutation_trans; [|apply insert_lex_perm]. constructor. exact IH.
  Qed.
  Lemma combine_short {A B} (a : list A) (b : list B) : length b <= length a ->
    map fst (combine a b) = firstn (length b) a /\ map snd (combine a b) = b.
  Proof.
    revert b; induction a as [|x a IH]; intros [|y b] H; cbn in *; try lia; auto.
    destruct (IH b ltac:(lia)) as [-> ->]. auto.
  Qed.
  Lemma NoDup_firstn {A} n (l : list A) : NoDup l -> NoDup (firstn n l).
  Proof. intros H. revert n; induction H as [|x l Hx _ IH]; intros [|n]; cbn; constructor; auto.
    intros C. apply Hx. rewrite <- (firstn_skipn n l). apply in_or_app; auto. Qed.

  Lemma tunstall_finish h n : (Sz <= 2 ^ N.of_nat n)%N -> TInv h -> (N.of_nat (length h) <= 2 ^ N.of_nat n)%N ->
    (2 ^ N.of_nat n <= N.of_nat (length h + (length pmf - 1)))%N ->
    exists c, v2f_make 2 Sz n (dict_of_pairs (combine (tuples 2 n) (sort_lex (map fst h)))) = Some c /\
      v2f_src c = Sz /\ v2f_tgt c = 2%N /\ v2f_n c = n /\
      (N.of_nat (length (v2f_sourcewords c)) <= 2 ^ N.of_nat n)%N /\
      (2 ^ N.of_nat n < N.of_nat (length (v2f_sourcewords c)) + Sz)%N /\
      prefix_free_words (v2f_sourcewords c) /\ covers_every_sequence (v2f_sourcewords c) Sz /\
      v2f_is_prefix_free c = true /\ v2f_is_fully_covering c = Some true /\
      forall input, Forall (fun x => (x < Sz)%N) input ->
        exists out pad, v2f_encode c input = Some out /\ v2f_decode c out = Some (input ++ pad).
  Proof.
    clear Hpop pop. intros Hn I B1 B2.
    set (ws := sort_lex (map fst h)).
    assert (PW : Permutation (map fst h) ws) by apply sort_lex_perm.
    assert (LW : length ws = length h) by (rewrite <- (Permutation_length PW), map_length; reflexivity).
    assert (LT : length ws <= length (tuples 2 n)).
    { pose proof (tuples_length 2 n). lia. }
    destruct (combine_short (tuples 2 n) ws LT) as [CK CV].
    destruct I as [IP IN IR IC].
    assert (WP : PF ws) by (eapply PF_perm; eauto).
    assert (WN : Forall (fun w => w <> []) ws) by (rewrite <- PW; auto).
    assert (WR : Forall (fun w => Forall (fun x => (x < Sz)%N) w) ws) by (rewrite <- PW; auto).
    assert (WC : covering ws Sz).
    { intros f Hf. destruct (IC f Hf) as (w & Hw & S). exists w; split; auto. eapply Permutation_in; eauto. }
    assert (PFt : is_prefix_free ws = true) by (apply is_prefix_free_PF; rewrite filter_non_empty_id; auto).
    assert (FC : is_fully_covering ws Sz = Some true) by (apply is_fully_covering_iff; auto).
    assert (N1 : 1 <= n).
    { destruct n; [|lia]. change (2 ^ N.of_nat 0)%N with 1%N in Hn. lia. }
    set (m := combine (tuples 2 n) ws) in *.
    assert (KN : NoDup (keys m)). { unfold keys. rewrite CK. apply NoDup_firstn. apply tuples_NoDup. }
    assert (EM : v2f_make 2 Sz n (dict_of_pairs m) = Some {| v2f_tgt := 2; v2f_src := Sz; v2f_n := n; v2f_map := m |}).
    { rewrite dict_of_pairs_fresh by exact KN. unfold v2f_make.
      replace (2 <? 2)%N with false by reflexivity. destruct (N.ltb_spec Sz 2) as [|_]; [lia|].
      destruct (Nat.ltb_spec n 1) as [|_]; [lia|].
      replace (incl_b (map fst m) (tuples 2 n)) with true.
      2:{ symmetry. apply forallb_forall. intros w Hw. apply mem_In. rewrite CK in Hw.
          rewrite <- (firstn_skipn (length ws) (tuples 2 n)). apply in_or_app; auto. }
      cbn [negb]. rewrite CV.
      replace (forallb _ ws) with true; [reflexivity|]. symmetry. apply forallb_forall. intros w Hw.
      rewrite Forall_forall in WN, WR. apply andb_true_intro. split.
      - apply forallb_forall. intros x Hx. specialize (WR w Hw). rewrite Forall_forall in WR. apply N.ltb_lt; auto.
      - specialize (WN w Hw). destruct w; [congruence|reflexivity]. }
    eexists. split.
    { exact EM. }
    unfold v2f_sourcewords, v2f_is_prefix_free, v2f_is_fully_covering, v2f_sourcewords.
    cbn [v2f_src v2f_tgt v2f_n v2f_map]. rewrite CV, LW.
    split; [reflexivity|]. split; [reflexivity|]. split; [reflexivity|]. split; [exact B1|]. split; [lia|].
    split; [exact (proj1 (is_prefix_free_iff ws WN) PFt)|]. split; [exact WC|]. split; [exact PFt|]. split; [exact FC|].
    intros input Hi.
    destruct (v2f_round_trip 2 Sz n m {| v2f_tgt := 2; v2f_src := Sz; v2f_n := n; v2f_map := m |} input) as (out & pad & sw & A & B & _); auto.
    - rewrite <- (dict_of_pairs_fresh m KN) at 1. exact EM.
    - unfold v2f_is_fully_covering, v2f_sourcewords. cbn [v2f_src v2f_map]. rewrite CV. exact FC.
    - unfold v2f_is_prefix_free, v2f_sourcewords. cbn [v2f_src v2f_map]. rewrite CV. exact PFt.
    - exists out, pad. auto.
  Qed.
  Lemma tunstall_spec n : (Sz <= 2 ^ N.of_nat n)%N ->
    exists c, tunstall_make pop pmf n = Some c /\
      v2f_src c = Sz /\ v2f_tgt c = 2%N /\ v2f_n c = n /\
      (N.of_nat (length (v2f_sourcewords c)) <= 2 ^ N.of_nat n)%N /\
      (2 ^ N.of_nat n < N.of_nat (length (v2f_sourcewords c)) + Sz)%N /\
      prefix_free_words (v2f_sourcewords c) /\ covers_every_sequence (v2f_sourcewords c) Sz /\
      v2f_is_prefix_free c = true /\ v2f_is_fully_covering c = Some true /\
      forall input, Forall (fun x => (x < Sz)%N) input ->
        exists out pad, v2f_encode c input = Some out /\ v2f_decode c out = Some (input ++ pad).
  Proof.
    intros Hn. destruct (tunstall_K_bounds n Hn) as [B1 B2].
    destruct (grow_spec (tunstall_K (length pmf) n) first_heap) as (h & E & I & L).
    { intros Z. pose proof first_length as FL. rewrite Z in FL. cbn in FL. lia. }
    { apply first_TInv. }
    rewrite first_length in L. rewrite <- L in B1, B2.
    destruct (tunstall_finish h n Hn I B1 ltac:(lia)) as (c & Ec & R). exists c. split; [|exact R].
    unfold tunstall_make. destruct (N.ltb_spec (2 ^ N.of_nat n) Sz) as [|_]; [lia|].
    destruct (Nat.leb_spec (length pmf) 1) as [|_]; [lia|].
    fold first_heap. rewrite E. exact Ec.
  Qed.
End TunstallProof.

(* ---------- block probabilities *)
Lemma flat_map_flat_map {A B C} (f : A -> list B) (g : B -> list C) l :
  flat_map g (flat_map f l) = flat_map (fun x => flat_map g (f x)) l.
Proof. induction l as [|x l IH]; cbn [flat_map]; auto. rewrite flat_map_app, IH. reflexivity. Qed.
Lemma flat_map_map {A B C} (f : A -> B) (g : B -> list C) l : flat_map g (map f l) = flat_map (fun x => g (f x)) l.
Proof. induction l as [|x l IH]; cbn [flat_map map]; auto. rewrite IH. reflexivity. Qed.
Lemma map_flat_map {A B C} (f : A -> list B) (g : B -> C) l : map g (flat_map f l) = flat_map (fun x => map g (f x)) l.
Proof. induction l as [|x l IH]; cbn [flat_map]; auto. rewrite map_app, IH. reflexivity. Qed.
Lemma tuples_snoc c k : tuples c (S k) = flat_map (fun t => map (fun s => t ++ [s]) (range_N c)) (tuples c k).
Proof.
  induction k as [|k IH].
  - cbn [tuples flat_map map app]. rewrite app_nil_r. generalize (range_N c) as l. intros l. induction l as [|x l IHl]; cbn; auto; f_equal; exact IHl.
  - change (tuples c (S (S k))) with (flat_map (fun s => map (cons s) (tuples c (S k))) (range_N c)).
    transitivity (flat_map (fun s => flat_map (fun t => map (fun s' => (s :: t) ++ [s']) (range_N c)) (tuples c k)) (range_N c)).
    + apply flat_map_ext. intros s. rewrite IH, map_flat_map. apply flat_map_ext. intros t. rewrite map_map. reflexivity.
    + change (tuples c (S k)) with (flat_map (fun s => map (cons s) (tuples c k)) (range_N c)).
      rewrite flat_map_flat_map. apply flat_map_ext. intros s. rewrite flat_map_map. reflexivity.
Qed.
Lemma block_prob_snoc pmf t s : (block_prob pmf (t ++ [s]) == block_prob pmf t * nth (N.to_nat s) pmf 0)%Q.
Proof. unfold block_prob. induction t as [|x t IH]; cbn [app fold_right]; [ring|]. rewrite IH. ring. Qed.
Lemma range_nth pmf : map (fun s => nth (N.to_nat s) pmf 0%Q) (range_N (N.of_nat (length pmf))) = pmf.
Proof.
  unfold range_N. rewrite map_map, Nat2N.id. etransitivity; [|apply (wt_list pmf)].
  apply map_ext. intros i. rewrite Nat2N.id. reflexivity.
Qed.
Lemma Forall2_flat_map {A B C D} (R : A -> B -> Prop) (S : C -> D -> Prop) (f : A -> list C) (g : B -> list D) l l' :
  Forall2 R l l' -> (forall a b, R a b -> Forall2 S (f a) (g b)) -> Forall2 S (flat_map f l) (flat_map g l').
Proof. induction 1 as [|a b l l' H _ IH]; intros HS; cbn [flat_map]; [constructor|]. apply Forall2_app; auto. Qed.
Lemma Forall2_map_same {A B C} (R : B -> C -> Prop) (f : A -> B) (g : A -> C) l : (forall a, R (f a) (g a)) -> Forall2 R (map f l) (map g l).
Proof. intros H; induction l; cbn; constructor; auto. Qed.
Lemma outer_power_blocks pmf k : 1 <= k ->
  Forall2 Qeq (outer_power pmf k) (map (block_prob pmf) (tuples (N.of_nat (length pmf)) k)).
Proof.
  destruct k as [|k]; [lia|]. intros _. induction k as [|k IH].
  - cbn [outer_power tuples]. rewrite map_flat_map. cbn [map].
    rewrite <- (range_nth pmf) at 1. generalize (range_N (N.of_nat (length pmf))) as l. intros l.
    induction l as [|s l IHl]; cbn [map flat_map app]; constructor; auto.
    unfold block_prob; cbn [fold_right]. ring.
  - rewrite outer_power_S, tuples_snoc, map_flat_map.
    assert (G : Forall2 (fun a t => (a == block_prob pmf t)%Q) (outer_power pmf (S k)) (tuples (N.of_nat (length pmf)) (S k))).
    { revert IH. generalize (outer_power pmf (S k)) as a, (tuples (N.of_nat (length pmf)) (S k)) as b. intros a b H.
      revert a H. induction b as [|y b IHb]; intros a H; inversion H; subst; constructor; auto. }
    apply (Forall2_flat_map _ _ _ _ _ _ G). intros a t Ea. rewrite map_map.
    rewrite <- (range_nth pmf) at 1. rewrite map_map. apply Forall2_map_same. intros s.
    rewrite block_prob_snoc, Ea. reflexivity.
Qed.
Lemma expected_length_wd p q ws : Forall2 Qeq p q -> (expected_length p ws == expected_length q ws)%Q.
Proof.
  intros H. revert ws. induction H as [|a b p q Ha _ IH]; intros [|w ws]; cbn [expected_length]; try reflexivity.
  rewrite Ha, IH. reflexivity.
Qed.
