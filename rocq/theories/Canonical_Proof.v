From Verif Require Import Common Prefix_Model Prefix_Proof Cover_Proof.
Local Open Scope N_scope.

Lemma to_lsb_length n b w : length (to_symbols_lsb n b w) = w.
Proof. revert n; induction w as [|w IH]; intros n; cbn; auto. Qed.
Lemma its_length n b w : length (integer_to_symbols n b w) = w.
Proof. unfold integer_to_symbols. rewrite rev_length. apply to_lsb_length. Qed.

Lemma to_lsb_range n b w : b <> 0 -> Forall (fun x => x < b) (to_symbols_lsb n b w).
Proof. intros H. revert n; induction w as [|w IH]; intros n; cbn; constructor; auto. apply N.mod_lt; auto. Qed.
Lemma its_range n b w : b <> 0 -> Forall (fun x => x < b) (integer_to_symbols n b w).
Proof. intros H. unfold integer_to_symbols. apply Forall_rev_iff, to_lsb_range; auto. Qed.

Lemma s2i_snoc s x b : symbols_to_integer (s ++ [x]) b = symbols_to_integer s b * b + x.
Proof. unfold symbols_to_integer. rewrite fold_left_app. reflexivity. Qed.

Lemma s2i_app s r b : symbols_to_integer (s ++ r) b = symbols_to_integer s b * b ^ N.of_nat (length r) + symbols_to_integer r b.
Proof.
  induction r as [|x r IH] using rev_ind.
  - rewrite app_nil_r. cbn [length]. change (N.of_nat 0) with 0. rewrite N.pow_0_r. unfold symbols_to_integer at 3; cbn. lia.
  - rewrite app_assoc, !s2i_snoc, IH, app_length. cbn [length].
    rewrite Nat.add_1_r, Nat2N.inj_succ, N.pow_succ_r'. lia.
Qed.

Lemma s2i_bound s b : b <> 0 -> Forall (fun x => x < b) s -> symbols_to_integer s b < b ^ N.of_nat (length s).
Proof.
  intros Hb. induction s as [|x s IH] using rev_ind; intros H; [cbn; lia|].
  apply Forall_app in H as [H1 H2]. inversion H2; subst. specialize (IH H1).
  rewrite s2i_snoc, app_length. cbn [length]. rewrite Nat.add_1_r, Nat2N.inj_succ, N.pow_succ_r'. nia.
Qed.

Lemma s2i_its n b w : 2 <= b -> symbols_to_integer (integer_to_symbols n b w) b = n mod b ^ N.of_nat w.
Proof.
  intros Hb. unfold integer_to_symbols. revert n; induction w as [|w IH]; intros n.
  - cbn. rewrite N.mod_1_r; reflexivity.
  - cbn [to_symbols_lsb rev]. rewrite s2i_snoc, IH, Nat2N.inj_succ, N.pow_succ_r'.
    rewrite (N.mod_mul_r n b) by (try apply N.pow_nonzero; lia). lia.
Qed.

Lemma its_s2i s b : 2 <= b -> Forall (fun x => x < b) s -> integer_to_symbols (symbols_to_integer s b) b (length s) = s.
Proof.
  intros Hb. unfold integer_to_symbols. induction s as [|x s IH] using rev_ind; intros H; [reflexivity|].
  apply Forall_app in H as [H1 H2]. inversion H2; subst.
  rewrite app_length; cbn [length]. rewrite Nat.add_1_r. cbn [to_symbols_lsb rev].
  rewrite s2i_snoc. rewrite N.add_comm at 2. rewrite N.mod_add by lia. rewrite N.mod_small by auto.
  rewrite N.add_comm, N.div_add by lia. rewrite N.div_small, N.add_0_l by auto. rewrite IH by auto. reflexivity.
Qed.

Definition wlen (w : word) : nat := length w.
(* ------------------------------------------------------- canonical_code *)
Section Canonical.
Variable base : N.
Hypothesis Hbase : 2 <= base.
Variable lengths : list nat.

Definition occ (l : list nat) (x : nat) : N := N.of_nat (count_occ Nat.eq_dec l x).

Lemma occ_filter l x : (0 < x)%nat -> count_occ Nat.eq_dec (filter (fun y => Nat.ltb 0 y) l) x = count_occ Nat.eq_dec l x.
Proof.
  intros H. induction l as [|y l IH]; cbn [filter count_occ]; auto. destruct (Nat.ltb_spec 0 y).
  - cbn [count_occ]. destruct (Nat.eq_dec y x); congruence.
  - destruct (Nat.eq_dec y x); auto. lia.
Qed.
Lemma count_len_pos x : (0 < x)%nat -> count_len lengths x = occ lengths x.
Proof. intros H. unfold count_len, occ. rewrite occ_filter; auto. Qed.
Lemma count_len_0 : count_len lengths 0 = 0.
Proof.
  unfold count_len. assert (count_occ Nat.eq_dec (filter (fun x => Nat.ltb 0 x) lengths) 0%nat = 0%nat) as ->; auto.
  apply count_occ_not_In. intros H. apply filter_In in H as [_ H]. discriminate.
Qed.

Lemma start_mono l d : (start_int base lengths l + count_len lengths l) * base ^ N.of_nat d <=
  start_int base lengths (l + d) + count_len lengths (l + d).
Proof.
  induction d as [|d IH].
  - rewrite Nat.add_0_r. cbn [N.of_nat]. rewrite N.pow_0_r. lia.
  - rewrite Nat.add_succ_r, Nat2N.inj_succ, N.pow_succ_r'. cbn [start_int]. nia.
Qed.

Lemma start_gap l d : (0 < d)%nat -> (start_int base lengths l + count_len lengths l) * base ^ N.of_nat d <= start_int base lengths (l + d).
Proof.
  intros H. destruct d as [|d]; [lia|]. rewrite Nat.add_succ_r, Nat2N.inj_succ, N.pow_succ_r'. cbn [start_int].
  pose proof (start_mono l d). nia.
Qed.

Definition ksum (L : nat) (ls : list nat) : N := fold_right (fun l acc => base ^ N.of_nat (L - l) + acc) 0 ls.

Lemma ksum_filter_step L ls : (0 < L)%nat ->
  ksum L (filter (fun x => Nat.ltb 0 x && Nat.leb x L) ls) =
  base * ksum (L - 1) (filter (fun x => Nat.ltb 0 x && Nat.leb x (L - 1)) ls) + occ ls L.
Proof.
  intros HL. unfold occ. induction ls as [|x ls IH]; [cbn; lia|].
  cbn [filter count_occ]. destruct (Nat.ltb_spec 0 x) as [Hx|Hx]; cbn [andb].
  - destruct (Nat.leb_spec x L) as [H1|H1].
    + destruct (Nat.eq_dec x L) as [->|Hne].
      * destruct (Nat.leb_spec L (L - 1)); [lia|]. cbn [ksum fold_right]. fold (ksum L (filter (fun x => Nat.ltb 0 x && Nat.leb x L) ls)).
        rewrite IH, Nat.sub_diag. cbn [N.of_nat]. rewrite N.pow_0_r. lia.
      * destruct (Nat.leb_spec x (L - 1)); [|lia]. cbn [ksum fold_right].
        fold (ksum L (filter (fun x => Nat.ltb 0 x && Nat.leb x L) ls)).
        fold (ksum (L - 1) (filter (fun x => Nat.ltb 0 x && Nat.leb x (L - 1)) ls)).
        rewrite IH. replace (L - x)%nat with (S (L - 1 - x)) by lia. rewrite Nat2N.inj_succ, N.pow_succ_r'. lia.
    + destruct (Nat.leb_spec x (L - 1)); [lia|]. destruct (Nat.eq_dec x L); [lia|]. apply IH.
  - destruct (Nat.eq_dec x L); [lia|]. apply IH.
Qed.

Lemma start_ksum L : start_int base lengths L + count_len lengths L =
  ksum L (filter (fun x => Nat.ltb 0 x && Nat.leb x L) lengths).
Proof.
  induction L as [|L IH].
  - cbn [start_int]. rewrite count_len_0. assert (filter (fun x => Nat.ltb 0 x && Nat.leb x 0) lengths = []) as ->; auto.
    induction lengths as [|x l IH']; cbn; auto. destruct x; cbn; auto.
  - rewrite ksum_filter_step by lia. replace (S L - 1)%nat with L by lia. rewrite <- IH.
    cbn [start_int]. rewrite (count_len_pos (S L)) by lia. lia.
Qed.

(* the state of the counters during assignment *)
Lemma incr_length l ints : length (incr l ints) = length ints.
Proof. revert l; induction ints as [|x r IH]; intros [|l]; cbn; auto. Qed.
Lemma incr_nth l ints i : (i < length ints)%nat -> nth i (incr l ints) 0 = nth i ints 0 + (if Nat.eqb i l then 1 else 0).
Proof.
  revert l i; induction ints as [|x r IH]; intros l i H; cbn in H; [lia|].
  destruct l, i; cbn; try lia. rewrite IH by lia. reflexivity.
Qed.

Lemma assign_length ints ls : length (assign_words base ints ls) = length ls.
Proof. revert ints; induction ls as [|l ls IH]; intros ints; cbn; auto. Qed.

Lemma assign_nth ls : forall ints x l, (forall q, In q ls -> (q < length ints)%nat) -> nth_error ls x = Some l ->
  nth_error (assign_words base ints ls) x = Some (integer_to_symbols (nth l ints 0 + occ (firstn x ls) l) base l).
Proof.
  induction ls as [|l0 ls IH]; intros ints x l Hb H; [destruct x; discriminate|].
  destruct x as [|x].
  - cbn in *. inversion H; subst. unfold occ; cbn. rewrite N.add_0_r. reflexivity.
  - cbn [assign_words nth_error] in *. rewrite IH with (l := l); auto.
    + f_equal. f_equal. rewrite incr_nth by (apply Hb; right; eapply nth_error_In; eauto).
      unfold occ. cbn [firstn count_occ]. destruct (Nat.eqb_spec l l0) as [->|Hne].
      * destruct (Nat.eq_dec l0 l0); [lia|congruence].
      * destruct (Nat.eq_dec l0 l); [congruence|lia].
    + intros q Hq. rewrite incr_length. apply Hb; right; auto.
Qed.

Lemma occ_firstn_lt ls x l : nth_error ls x = Some l -> occ (firstn x ls) l + 1 <= occ ls l.
Proof.
  unfold occ. revert x; induction ls as [|a ls IH]; intros [|x] H; cbn in H; try discriminate.
  - inversion H; subst. cbn. destruct (Nat.eq_dec l l); [lia|congruence].
  - specialize (IH _ H). cbn. destruct (Nat.eq_dec a l); lia.
Qed.

Lemma occ_firstn_lt2 ls x y l : (x < y)%nat -> nth_error ls x = Some l -> occ (firstn x ls) l + 1 <= occ (firstn y ls) l.
Proof.
  intros Hxy H. assert (E : firstn x ls = firstn x (firstn y ls)) by (rewrite firstn_firstn; f_equal; lia).
  rewrite E. apply occ_firstn_lt.
  rewrite <- (firstn_skipn y ls) in H. rewrite nth_error_app1 in H; auto.
  rewrite firstn_length. assert (x < length ls)%nat; [|lia].
  rewrite (firstn_skipn y ls) in H. apply nth_error_Some; congruence.
Qed.

Definition cw_int (x l : nat) : N := start_int base lengths l + occ (firstn x lengths) l.

Lemma ints_nth l : (l <= list_max lengths)%nat -> nth l (map (start_int base lengths) (seq 0 (S (list_max lengths)))) 0 = start_int base lengths l.
Proof. intros H. rewrite nth_map_seq by lia. reflexivity. Qed.

Lemma in_list_max l : In l lengths -> (l <= list_max lengths)%nat.
Proof. intros H. pose proof (proj1 (list_max_le lengths (list_max lengths)) (Nat.le_refl _)) as F. rewrite Forall_forall in F; auto. Qed.

Lemma canonical_nth ws x l : canonical_code lengths base = Some ws -> nth_error lengths x = Some l ->
  nth_error ws x = Some (integer_to_symbols (cw_int x l) base l).
Proof.
  intros H Hx. unfold canonical_code in H. destruct lengths as [|l0 ls] eqn:EL; [discriminate|].
  rewrite <- EL in *. clear EL. destruct (base <? 2); [discriminate|]. cbv zeta in H.
  match type of H with (if ?c then _ else _) = _ => destruct c; [discriminate|] end.
  match type of H with Some ?x = Some ?y => assert (E : x = y) by congruence; rewrite <- E; clear E H end.
  rewrite assign_nth with (l := l); auto.
  - unfold cw_int. rewrite ints_nth; auto. apply in_list_max. eapply nth_error_In; eauto.
  - intros q Hq. rewrite map_length, seq_length. apply in_list_max in Hq. lia.
Qed.

Lemma canonical_kraft_iff : lengths <> [] ->
  (exists ws, canonical_code lengths base = Some ws) <->
  ksum (list_max lengths) (filter (fun x => Nat.ltb 0 x) lengths) <= base ^ N.of_nat (list_max lengths).
Proof.
  intros NE. unfold canonical_code. destruct lengths as [|l0 ls] eqn:EL; [congruence|]. rewrite <- EL in *. clear EL.
  destruct (N.ltb_spec base 2); [lia|]. cbv zeta. rewrite ints_nth by lia. rewrite start_ksum.
  assert (E : filter (fun x => Nat.ltb 0 x && Nat.leb x (list_max lengths)) lengths = filter (fun x => Nat.ltb 0 x) lengths).
  { apply filter_ext_in. intros a Ha. apply in_list_max in Ha. rewrite (proj2 (Nat.leb_le _ _) Ha), andb_true_r. reflexivity. }
  rewrite E. destruct (N.ltb_spec (base ^ N.of_nat (list_max lengths)) (ksum (list_max lengths) (filter (fun x => Nat.ltb 0 x) lengths))).
  - split; [intros [ws Hw]; discriminate|lia].
  - split; [auto|]. intros _. eauto.
Qed.

Lemma cw_int_upper x l : (0 < l)%nat -> nth_error lengths x = Some l -> cw_int x l + 1 <= start_int base lengths l + count_len lengths l.
Proof. intros H Hx. unfold cw_int. rewrite count_len_pos by auto. pose proof (occ_firstn_lt _ _ _ Hx). lia. Qed.

Lemma cw_int_bound ws x l : canonical_code lengths base = Some ws -> (0 < l)%nat -> nth_error lengths x = Some l ->
  cw_int x l < base ^ N.of_nat l.
Proof.
  intros H Hl Hx. pose proof (cw_int_upper x l Hl Hx) as U.
  assert (K : start_int base lengths (list_max lengths) + count_len lengths (list_max lengths) <= base ^ N.of_nat (list_max lengths)).
  { unfold canonical_code in H. destruct lengths as [|l0 ls] eqn:EL; [discriminate|]. rewrite <- EL in *. clear EL.
    destruct (base <? 2); [discriminate|]. cbv zeta in H. rewrite ints_nth in H by lia.
    match type of H with (if ?c then _ else _) = _ => destruct c eqn:E; [discriminate|] end.
    apply N.ltb_ge in E. exact E. }
  assert (Hm : (l <= list_max lengths)%nat) by (apply in_list_max; eapply nth_error_In; eauto).
  pose proof (start_mono l (list_max lengths - l)) as M. replace (l + (list_max lengths - l))%nat with (list_max lengths) in M by lia.
  replace (base ^ N.of_nat (list_max lengths)) with (base ^ N.of_nat l * base ^ N.of_nat (list_max lengths - l)) in K.
  2:{ rewrite <- N.pow_add_r. f_equal. lia. }
  assert (base ^ N.of_nat (list_max lengths - l) <> 0) by (apply N.pow_nonzero; lia). nia.
Qed.

Lemma canonical_lengths ws : canonical_code lengths base = Some ws -> map wlen ws = lengths.
Proof.
  intros H. apply (nth_ext _ _ 0%nat 0%nat).
  - rewrite map_length. unfold canonical_code in H. destruct lengths as [|l0 ls] eqn:EL; [discriminate|]. rewrite <- EL in *.
    destruct (base <? 2); [discriminate|]. cbv zeta in H.
    match type of H with (if ?c then _ else _) = _ => destruct c; [discriminate|] end. match type of H with Some ?x = Some ?y => assert (E : x = y) by congruence; rewrite <- E; clear E H end; apply assign_length.
  - intros i Hi. rewrite map_length in Hi.
    assert (Hlen : length ws = length lengths).
    { unfold canonical_code in H. destruct lengths as [|l0 ls] eqn:EL; [discriminate|]. rewrite <- EL in *.
      destruct (base <? 2); [discriminate|]. cbv zeta in H.
      match type of H with (if ?c then _ else _) = _ => destruct c; [discriminate|] end. match type of H with Some ?x = Some ?y => assert (E : x = y) by congruence; rewrite <- E; clear E H end; apply assign_length. }
    destruct (nth_error lengths i) as [l|] eqn:E; [|apply nth_error_None in E; lia].
    pose proof (canonical_nth ws i l H E) as W.
    change 0%nat with (wlen []) at 1. rewrite map_nth. unfold wlen.
    apply nth_error_nth with (d := []) in W. rewrite W, its_length. apply nth_error_nth with (d := 0%nat) in E. congruence.
Qed.

Lemma canonical_range ws : canonical_code lengths base = Some ws -> Forall (fun w : word => Forall (fun x => x < base) w) ws.
Proof.
  intros H. apply Forall_forall. intros w Hw. apply In_nth_error in Hw as [x Hx].
  assert (E : nth_error (map wlen ws) x = Some (length w)) by (apply (map_nth_error wlen); auto).
  rewrite (canonical_lengths ws H) in E. rewrite (canonical_nth _ _ _ H E) in Hx. inversion Hx as [Hx'].
  rewrite Hx'. rewrite <- Hx'. apply its_range. lia.
Qed.

Lemma canonical_PF ws : canonical_code lengths base = Some ws -> Forall (fun l => (0 < l)%nat) lengths -> PF ws.
Proof.
  intros H Hpos. apply PF_positions. intros i j a b Hij Ha Hb [r Hr].
  assert (Ei : nth_error lengths i = Some (length a)).
  { rewrite <- (canonical_lengths ws H). apply (map_nth_error wlen); auto. }
  assert (Ej : nth_error lengths j = Some (length b)).
  { rewrite <- (canonical_lengths ws H). apply (map_nth_error wlen); auto. }
  rewrite (canonical_nth _ _ _ H Ei) in Ha. rewrite (canonical_nth _ _ _ H Ej) in Hb.
  inversion Ha as [Ha']. inversion Hb as [Hb']. clear Ha Hb.
  rewrite Forall_forall in Hpos.
  assert (Pa : (0 < length a)%nat) by (apply Hpos; eapply nth_error_In; eauto).
  assert (Pb : (0 < length b)%nat) by (apply Hpos; eapply nth_error_In; eauto).
  pose proof (cw_int_bound ws i _ H Pa Ei) as Ba. pose proof (cw_int_bound ws j _ H Pb Ej) as Bb.
  assert (Sa : symbols_to_integer a base = cw_int i (length a)).
  { rewrite <- Ha' at 1. rewrite s2i_its, N.mod_small by auto. reflexivity. }
  assert (Sb : symbols_to_integer b base = cw_int j (length b)).
  { rewrite <- Hb' at 1. rewrite s2i_its, N.mod_small by auto. reflexivity. }
  assert (Rr : symbols_to_integer r base < base ^ N.of_nat (length r)).
  { apply s2i_bound; [lia|]. assert (Forall (fun x => x < base) b) as Fb by (rewrite <- Hb'; apply its_range; lia).
    rewrite Hr in Fb. apply Forall_app in Fb. tauto. }
  assert (Sr : symbols_to_integer b base = symbols_to_integer a base * base ^ N.of_nat (length r) + symbols_to_integer r base) by (rewrite Hr; apply s2i_app).
  assert (Lb : length b = (length a + length r)%nat) by (rewrite Hr; apply app_length).
  destruct r as [|x r].
  - cbn [length] in Lb. rewrite Nat.add_0_r in Lb. rewrite app_nil_r in Hr. subst b.
    assert (cw_int i (length a) = cw_int j (length a)) as C by congruence. unfold cw_int in C.
    destruct (Nat.lt_trichotomy i j) as [L|[L|L]]; [|congruence|].
    + pose proof (occ_firstn_lt2 _ _ _ _ L Ei). lia.
    + pose proof (occ_firstn_lt2 _ _ _ _ L Ej). lia.
  - set (d := length (x :: r)) in *. assert (Hd : (0 < d)%nat) by (unfold d; cbn; lia).
    pose proof (start_gap (length a) d Hd) as G. rewrite <- Lb in G.
    pose proof (cw_int_upper i (length a) Pa Ei) as U.
    assert (start_int base lengths (length b) <= cw_int j (length b)) by (unfold cw_int; lia).
    rewrite Sa, Sb in Sr. assert (base ^ N.of_nat d <> 0) by (apply N.pow_nonzero; lia). nia.
Qed.
End Canonical.
