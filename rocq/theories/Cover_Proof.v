From Verif Require Import Common Prefix_Model Prefix_Proof.

(* ------------------------------------------------------------- trie facts *)
Fixpoint walk (t : trie) (w : word) : option trie :=
  match w with
  | [] => Some t
  | s :: r => match find_child s (children t) with None => None | Some c => walk c r end
  end.

Lemma find_set_same s t c : find_child s (set_child s t c) = Some t.
Proof.
  induction c as [|[s' t'] c IH]; cbn; [rewrite N.eqb_refl; auto|].
  destruct (N.eqb_spec s s') as [->|Hne]; cbn; [rewrite N.eqb_refl; auto|].
  destruct (N.eqb_spec s s'); [congruence|auto].
Qed.

Lemma find_set_other s s' t c : s <> s' -> find_child s (set_child s' t c) = find_child s c.
Proof.
  intros H. induction c as [|[q t'] c IH]; cbn.
  - destruct (N.eqb_spec s s'); congruence.
  - destruct (N.eqb_spec s' q) as [->|Hne]; cbn.
    + destruct (N.eqb_spec s q); congruence.
    + destruct (N.eqb_spec s q); auto.
Qed.

(* node existence and end marks after one insertion *)
Lemma walk_insert w : forall t p, (exists n, walk (trie_insert w t) p = Some n) <-> (exists n, walk t p = Some n) \/ prefix p w.
Proof.
  induction w as [|s w IH]; intros t p.
  - cbn [trie_insert]. destruct p as [|x p]; cbn.
    + split; eauto.
    + split; [auto|]. intros [H|[r H]]; [auto|discriminate].
  - destruct p as [|x p]; [cbn; split; eauto; intros _; right; exists (s :: w); auto|].
    cbn [trie_insert walk children].
    destruct (N.eq_dec x s) as [->|Hne].
    + rewrite find_set_same. rewrite IH.
      destruct (find_child s (children t)) as [c|] eqn:E.
      * split; (intros [H|[r H]]; [left; auto|right]); [exists r; cbn; congruence|exists r; cbn in H; congruence].
      * split.
        -- intros [[n H]|[r H]]; right.
           ++ destruct p as [|y p]; [exists w; auto|cbn in H; discriminate].
           ++ exists r; cbn; congruence.
        -- intros [[n H]|[r H]]; [discriminate|]. right. exists r. cbn in H; congruence.
    + rewrite find_set_other by auto. split; [auto|]. intros [H|[r H]]; auto. cbn in H. congruence.
Qed.

Lemma end_insert w : forall t p, (exists n, walk (trie_insert w t) p = Some n /\ is_end n = true) <->
  (exists n, walk t p = Some n /\ is_end n = true) \/ p = w.
Proof.
  induction w as [|s w IH]; intros t p.
  - cbn [trie_insert]. destruct p as [|x p]; cbn.
    + split; [auto|]. intros _. eexists; split; reflexivity.
    + split; [auto|]. intros [H|H]; [auto|discriminate].
  - destruct p as [|x p].
    + cbn [trie_insert walk]. split.
      * intros [n [H1 H2]]. inversion H1; subst. left. exists t; auto.
      * intros [[n [H1 H2]]|H]; [|discriminate]. inversion H1; subst. eexists; split; [reflexivity|auto].
    + cbn [trie_insert walk children]. destruct (N.eq_dec x s) as [->|Hne].
      * rewrite find_set_same, IH. destruct (find_child s (children t)) as [c|] eqn:E.
        -- split; (intros [H|H]; [left; auto|right]); congruence.
        -- split.
           ++ intros [[n [H1 H2]]| ->]; [|right; auto]. destruct p; cbn in H1; [inversion H1; subst; discriminate|discriminate].
           ++ intros [[n [H1 H2]]|H]; [discriminate|right; congruence].
      * rewrite find_set_other by auto. split; [auto|]. intros [H|H]; [auto|congruence].
Qed.

Lemma build_fold ws : forall t p,
  ((exists n, walk (fold_left (fun t w => trie_insert w t) ws t) p = Some n) <->
   (exists n, walk t p = Some n) \/ exists w, In w ws /\ prefix p w) /\
  ((exists n, walk (fold_left (fun t w => trie_insert w t) ws t) p = Some n /\ is_end n = true) <->
   (exists n, walk t p = Some n /\ is_end n = true) \/ In p ws).
Proof.
  induction ws as [|w ws IH]; intros t p; cbn [fold_left].
  - split; split; auto.
    + intros [H|[w [[] _]]]; auto.
    + intros [H|[]]; auto.
  - destruct (IH (trie_insert w t) p) as [H1 H2]. split.
    + rewrite H1, walk_insert. split.
      * intros [[H|H]|[w' [Hw H]]]; auto; right; eauto; [exists w|exists w']; cbn; auto.
      * intros [H|[w' [[<-|Hw] H]]]; auto; right; eauto.
    + rewrite H2, end_insert. cbn. split; [intros [[H|H]|H]|intros [H|[H|H]]]; auto.
Qed.

Lemma build_walk ws p : (exists n, walk (build_trie ws) p = Some n) <-> p = [] \/ exists w, In w ws /\ prefix p w.
Proof.
  unfold build_trie. rewrite (proj1 (build_fold ws (Node false []) p)). split; (intros [H|H]; [left|right; auto]).
  - destruct p; auto. destruct H as [m H]; discriminate.
  - subst; cbn; eauto.
Qed.

Lemma build_end ws p n : walk (build_trie ws) p = Some n -> is_end n = true <-> In p ws.
Proof.
  intros Hw. pose proof (proj2 (build_fold ws (Node false []) p)) as H. split.
  - intros He. destruct (proj1 H) as [[m [H1 H2]]|H1]; auto.
    + exists n; auto.
    + destruct p; cbn in H1; [inversion H1; subst; discriminate|discriminate].
  - intros Hin. destruct (proj2 H (or_intror Hin)) as [m [H1 H2]]. fold (build_trie ws) in H1. congruence.
Qed.

Lemma walk_snoc p : forall t n s, walk t p = Some n -> walk t (p ++ [s]) = find_child s (children n).
Proof.
  induction p as [|x p IH]; intros t n s H; cbn in *.
  - inversion H; subst. destruct (find_child s (children n)); auto.
  - destruct (find_child x (children t)); [auto|discriminate].
Qed.

(* ----------------------------------------------------------- the DFS loop *)
Inductive Cov (card : N) : trie -> Prop :=
| Cov_intro t : (forall s, (s < card)%N -> exists c, find_child s (children t) = Some c /\ (is_end c = true \/ Cov card c)) -> Cov card t.

Inductive Bad (card : N) : trie -> Prop :=
| Bad_missing t s : (s < card)%N -> find_child s (children t) = None -> Bad card t
| Bad_child t s c : (s < card)%N -> find_child s (children t) = Some c -> is_end c = false -> Bad card c -> Bad card t.

Lemma in_range_N s n : In s (range_N n) <-> (s < n)%N.
Proof.
  unfold range_N. rewrite in_map_iff. split.
  - intros [i [<- H]]. apply in_seq in H. lia.
  - intros H. exists (N.to_nat s). split; [lia|]. apply in_seq. lia.
Qed.

Lemma push_none l t st : push_children l t st = None -> exists s, In s l /\ find_child s (children t) = None.
Proof.
  revert st; induction l as [|s l IH]; intros st H; cbn in H; [discriminate|].
  destruct (find_child s (children t)) eqn:E; [|exists s; split; [left|]; auto].
  destruct (IH _ H) as [s' [H1 H2]]. exists s'; split; [right|]; auto.
Qed.

Lemma push_some l t st st' : push_children l t st = Some st' ->
  (forall s, In s l -> exists c, find_child s (children t) = Some c /\ (is_end c = true \/ In c st')) /\
  (forall c, In c st' -> In c st \/ exists s, In s l /\ find_child s (children t) = Some c /\ is_end c = false) /\
  incl st st'.
Proof.
  revert st; induction l as [|s l IH]; intros st H; cbn in H.
  - inversion H; subst. repeat split; auto; [intros s []|intros x; auto].
  - destruct (find_child s (children t)) as [c|] eqn:E; [|discriminate].
    destruct (IH _ H) as (H1 & H2 & H3). repeat split.
    + intros s' [<-|Hs']; [|auto]. exists c. split; auto. destruct (is_end c) eqn:E2; auto.
      right; apply H3; left; auto.
    + intros c' Hc'. destruct (H2 _ Hc') as [Hin|[s' [? [? ?]]]].
      * destruct (is_end c) eqn:E2; [left; auto|]. destruct Hin as [<-|Hin]; [|left; auto].
        right. exists s. cbn; auto.
      * right. exists s'. cbn; auto.
    + intros x Hx. apply H3. destruct (is_end c); [auto|right; auto].
Qed.

Lemma cover_true card fuel : forall st, cover_loop fuel card st = Some true -> Forall (Cov card) st.
Proof.
  induction fuel as [|f IH]; intros [|t st] H; cbn in H; try discriminate; try constructor.
  - destruct (push_children (range_N card) t st) as [st'|] eqn:E; [|discriminate].
    apply IH in H. rewrite Forall_forall in H. destruct (push_some _ _ _ _ E) as (H1 & _ & _).
    constructor. intros s Hs. destruct (H1 s) as [c [Hc1 Hc2]]; [apply in_range_N; auto|].
    exists c; split; auto. destruct Hc2; auto.
  - destruct (push_children (range_N card) t st) as [st'|] eqn:E; [|discriminate].
    apply IH in H. rewrite Forall_forall in *. destruct (push_some _ _ _ _ E) as (_ & _ & H3). auto.
Qed.

Lemma cover_false card fuel : forall st, cover_loop fuel card st = Some false -> exists t, In t st /\ Bad card t.
Proof.
  induction fuel as [|f IH]; intros [|t st] H; cbn in H; try discriminate.
  destruct (push_children (range_N card) t st) as [st'|] eqn:E.
  - apply IH in H as [c [Hc HB]]. destruct (push_some _ _ _ _ E) as (_ & H2 & _).
    destruct (H2 _ Hc) as [Hin|[s [Hs [H3 H4]]]]; [exists c; split; [right|]; auto|].
    exists t. split; [left; auto|]. apply in_range_N in Hs. eapply Bad_child; eauto.
  - apply push_none in E as [s [Hs E]]. apply in_range_N in Hs. exists t. split; [left; auto|]. eapply Bad_missing; eauto.
Qed.

(* fuel *)
Fixpoint kids_size (c : list (N * trie)) : nat := match c with [] => 0 | (_, t) :: r => trie_size t + kids_size r end.
Lemma trie_size_eq e c : trie_size (Node e c) = S (kids_size c).
Proof. reflexivity. Qed.
Definition stack_size (st : list trie) : nat := fold_right (fun t a => trie_size t + a) 0 st.

Fixpoint remove_child (s : N) (c : list (N * trie)) :=
  match c with [] => [] | (s', t) :: r => if N.eqb s s' then r else (s', t) :: remove_child s r end.

Lemma find_remove s c t : find_child s c = Some t -> kids_size c = trie_size t + kids_size (remove_child s c).
Proof.
  induction c as [|[s' t'] c IH]; cbn; [discriminate|]. destruct (N.eqb s s'); intros H.
  - inversion H; subst; auto.
  - rewrite (IH H). cbn. lia.
Qed.

Lemma find_remove_other s s' c : s <> s' -> find_child s' (remove_child s c) = find_child s' c.
Proof.
  intros H. induction c as [|[q t'] c IH]; cbn; auto. destruct (N.eqb_spec s q) as [->|]; cbn.
  - destruct (N.eqb_spec s' q); congruence.
  - destruct (N.eqb s' q); auto.
Qed.

Lemma push_size l : NoDup l -> forall t st st', push_children l t st = Some st' ->
  stack_size st' <= stack_size st + kids_size (children t).
Proof.
  induction 1 as [|s l Hs Hl IH]; intros t st st' H; cbn in H; [inversion H; lia|].
  destruct (find_child s (children t)) as [c|] eqn:E; [|discriminate].
  set (t' := Node (is_end t) (remove_child s (children t))).
  assert (push_children l t' (if is_end c then st else c :: st) = Some st') as H'.
  { rewrite <- H. clear -Hs. generalize (if is_end c then st else c :: st) as q. revert Hs.
    induction l as [|x l IH]; intros Hs q; cbn; auto. cbn in Hs.
    rewrite find_remove_other by (intros ->; tauto). destruct (find_child x (children t)); auto. }
  apply IH in H'. cbn [children t'] in H'. rewrite (find_remove _ _ _ E).
  destruct (is_end c); cbn [stack_size fold_right] in *; fold (stack_size st) in *; lia.
Qed.

Lemma range_N_NoDup n : NoDup (range_N n).
Proof. unfold range_N. apply FinFun.Injective_map_NoDup; [|apply seq_NoDup]. intros x y H; lia. Qed.

Lemma cover_terminates card fuel : forall st, stack_size st <= fuel -> cover_loop fuel card st <> None.
Proof.
  induction fuel as [|f IH]; intros [|t st] H; cbn; try discriminate.
  - destruct t; cbn in H; lia.
  - destruct (push_children (range_N card) t st) as [st'|] eqn:E; [|discriminate].
    apply IH. pose proof (push_size _ (range_N_NoDup card) _ _ _ E) as L.
    destruct t as [e c]; cbn [stack_size fold_right] in H; rewrite trie_size_eq in H; fold (stack_size st) in H.
    cbn [children] in L. lia.
Qed.

(* ------------------------------------------------------------------- spec *)
(* f, read as an infinite source sequence, starts with the word w *)
Definition starts_with (f : nat -> N) (w : word) : Prop := forall i x, nth_error w i = Some x -> f i = x.
Definition covering (words : list word) (card : N) : Prop :=
  forall f, (forall i, (f i < card)%N) -> exists w, In w words /\ starts_with f w.

Definition fprefix (f : nat -> N) (n : nat) : word := map f (seq 0 n).
Lemma fprefix_S f n : fprefix f (S n) = fprefix f n ++ [f n].
Proof. unfold fprefix. rewrite seq_S, map_app; reflexivity. Qed.
Lemma fprefix_starts f n : starts_with f (fprefix f n).
Proof.
  unfold fprefix. intros i x H.
  assert (i < n) by (rewrite <- (seq_length n 0), <- (map_length f); apply nth_error_Some; congruence).
  erewrite map_nth_error in H by (apply nth_error_seq; lia). cbn in H; congruence.
Qed.
Lemma starts_fprefix f w : starts_with f w -> w = fprefix f (length w).
Proof.
  intros H. apply (list_ext 0%N); unfold fprefix; [rewrite map_length, seq_length; auto|].
  intros i Hi. rewrite nth_map_seq by auto. symmetry. apply H.
  apply nth_error_nth' with (d := 0%N) in Hi. exact Hi.
Qed.

Lemma fprefix_prefix f n m : n <= m -> prefix (fprefix f n) (fprefix f m).
Proof.
  induction 1 as [|m H IH]; [apply prefix_refl|]. rewrite fprefix_S. eapply prefix_trans; [exact IH|]. eexists; reflexivity.
Qed.

Lemma Cov_covers ws card f t : (forall i, (f i < card)%N) -> Cov card t -> forall n, walk (build_trie ws) (fprefix f n) = Some t ->
  exists w, In w ws /\ starts_with f w.
Proof.
  intros Hf HC. 
  assert (K : forall t, Cov card t -> forall n, walk (build_trie ws) (fprefix f n) = Some t -> exists w, In w ws /\ starts_with f w).
  { clear t HC. fix IH 2. intros t HC n Hw. destruct HC as [t HC].
    destruct (HC (f n) (Hf n)) as [c [Hc Hor]].
    assert (Hw' : walk (build_trie ws) (fprefix f (S n)) = Some c).
    { rewrite fprefix_S, (walk_snoc _ _ _ _ Hw). exact Hc. }
    destruct Hor as [He|HC'].
    - apply (build_end _ _ _ Hw') in He. exists (fprefix f (S n)). split; auto. apply fprefix_starts.
    - exact (IH c HC' (S n) Hw'). }
  exact (K t HC).
Qed.

Lemma Bad_uncovered ws card t : Bad card t -> forall p, walk (build_trie ws) p = Some t ->
  Forall (fun x => (x < card)%N) p -> (forall q, prefix q p -> ~ In q ws) ->
  exists q, Forall (fun x => (x < card)%N) q /\ q <> [] /\ forall w, In w ws -> ~ prefix q w /\ ~ prefix w q.
Proof.
  induction 1 as [t s Hs Hn|t s c Hs Hc He HB IH]; intros p Hp Hr Hnp.
  - exists (p ++ [s]). split; [apply Forall_app; auto|]. split; [destruct p; discriminate|].
    intros w Hw. split.
    + intros P. assert (exists n, walk (build_trie ws) (p ++ [s]) = Some n) as [n Hn'].
      { apply build_walk. right. eauto. }
      rewrite (walk_snoc _ _ _ _ Hp) in Hn'. congruence.
    + intros [r P]. destruct r as [|x r] using rev_ind.
      * rewrite app_nil_r in P. assert (exists n, walk (build_trie ws) (p ++ [s]) = Some n) as [n Hn'].
        { apply build_walk. right. exists w. split; auto. exists []. rewrite app_nil_r; auto. }
        rewrite (walk_snoc _ _ _ _ Hp) in Hn'. congruence.
      * rewrite app_assoc in P. apply app_inj_tail in P as [P _]. apply (Hnp w); auto. exists r; auto.
  - apply (IH (p ++ [s])).
    + rewrite (walk_snoc _ _ _ _ Hp); auto.
    + apply Forall_app; auto.
    + intros q [r Hq] Hin. destruct r as [|x r] using rev_ind.
      * rewrite app_nil_r in Hq. subst q.
        assert (Hw : walk (build_trie ws) (p ++ [s]) = Some c) by (rewrite (walk_snoc _ _ _ _ Hp); auto).
        apply (build_end _ _ _ Hw) in Hin. congruence.
      * rewrite app_assoc in Hq. apply app_inj_tail in Hq as [Hq _]. apply (Hnp q); auto. exists r; auto.
Qed.

Lemma is_fully_covering_total ws card : exists b, is_fully_covering ws card = Some b.
Proof.
  unfold is_fully_covering. destruct (cover_loop _ _ _) eqn:E; eauto. exfalso.
  eapply cover_terminates; [|exact E]. cbn. lia.
Qed.

Lemma is_fully_covering_iff ws card : Forall (fun w => w <> []) ws ->
  is_fully_covering ws card = Some true <-> covering ws card.
Proof.
  intros NE. split.
  - intros H f Hf. unfold is_fully_covering in H. apply cover_true in H. inversion H; subst.
    eapply (Cov_covers ws card f); eauto. instantiate (1 := 0). reflexivity.
  - intros H. destruct (is_fully_covering_total ws card) as [[|] E]; auto. exfalso.
    unfold is_fully_covering in E. apply cover_false in E as [t [[<-|[]] HB]].
    destruct (Bad_uncovered ws card _ HB []) as [q [Hq1 [Hq2 Hq3]]]; auto.
    { intros q [r Hr] Hin. destruct q; [|discriminate]. rewrite Forall_forall in NE. apply (NE _ Hin); auto. }
    assert (Hc : (0 < card)%N). { destruct q; [congruence|]. inversion Hq1; subst. lia. }
    destruct (H (fun i => nth i q 0%N)) as [w [Hw1 Hw2]].
    { intros i. destruct (le_lt_dec (length q) i) as [Hi|Hi]; [rewrite nth_overflow by auto; auto|].
      rewrite Forall_forall in Hq1. apply Hq1, nth_In; auto. }
    destruct (Hq3 w Hw1) as [N1 N2].
    assert (S1 : starts_with (fun i => nth i q 0%N) q).
    { intros i x Hx. apply nth_error_nth with (d := 0%N) in Hx; auto. }
    apply starts_fprefix in S1, Hw2. 
    set (g := fun i => nth i q 0%N) in *. clearbody g.
    destruct (le_lt_dec (length q) (length w)) as [L|L].
    + apply N1. rewrite S1, Hw2. apply fprefix_prefix; lia.
    + apply N2. rewrite S1, Hw2. apply fprefix_prefix; lia.
Qed.
