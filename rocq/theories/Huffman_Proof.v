(* Huffman trees: structure, prefix-freeness, Kraft equality. *)
From Verif Require Import Common Prefix_Model Prefix_Proof Canonical_Proof Parse_Proof Spec_Lossless Kraft_Proof PmfCodes_Model.
From Coq Require Import QArith Qfield Lqa Permutation.
Local Open Scope nat_scope.

(* ---------- heappop *)
Lemma hlt_le pol a b : hlt pol a b = true -> (nprob a <= nprob b)%Q.
Proof.
  unfold hlt, hkey; cbn [fst snd]. destruct (Qcompare_spec (nprob a) (nprob b)) as [E|L|G]; intros H; try discriminate.
  - rewrite E; apply Qle_refl.
  - apply Qlt_le_weak; exact L.
Qed.
Lemma hlt_false_le pol a b : hlt pol a b = false -> (nprob b <= nprob a)%Q.
Proof.
  unfold hlt, hkey; cbn [fst snd]. destruct (Qcompare_spec (nprob a) (nprob b)) as [E|L|G]; intros H; try discriminate.
  - rewrite E; apply Qle_refl.
  - apply Qlt_le_weak; exact G.
Qed.

Lemma heappop_spec pol h : h <> [] -> exists x r, heappop pol h = Some (x, r) /\ Permutation h (x :: r) /\
  Forall (fun y => (nprob x <= nprob y)%Q) r.
Proof.
  induction h as [|a h IH]; [congruence|]. intros _. cbn [heappop]. destruct h as [|b h].
  - exists a, []. repeat split; auto.
  - destruct IH as (x & r & E & P & F); [discriminate|]. rewrite E. destruct (hlt pol x a) eqn:L.
    + exists x, (a :: r). repeat split.
      * rewrite P. apply perm_swap.
      * constructor; [eapply hlt_le; eauto|exact F].
    + exists a, (b :: h). repeat split; auto. rewrite P. apply hlt_false_le in L.
      constructor; [exact L|]. eapply Forall_impl; [|exact F]. cbn. intros y Hy. eapply Qle_trans; eauto.
Qed.

(* ---------- abstract trees *)
Inductive btree := BLeaf (i : nat) | BNode (t0 t1 : btree).
Fixpoint paths (t : btree) : list (nat * word) :=
  match t with
  | BLeaf i => [(i, [])]
  | BNode t0 t1 => map (fun ip => (fst ip, 0%N :: snd ip)) (paths t0) ++ map (fun ip => (fst ip, 1%N :: snd ip)) (paths t1)
  end.
Fixpoint leaves (t : btree) : list nat :=
  match t with BLeaf i => [i] | BNode t0 t1 => leaves t0 ++ leaves t1 end.

Lemma paths_leaves t : map fst (paths t) = leaves t.
Proof.
  induction t as [i|t0 IH0 t1 IH1]; cbn [paths leaves map]; auto.
  rewrite map_app, !map_map. cbn [fst]. f_equal; [exact IH0|exact IH1].
Qed.

Lemma incomp_cons x a b : incomp a b -> incomp (x :: a) (x :: b).
Proof.
  unfold incomp, prefix. intros [H1 H2]. split; intros [r E]; cbn in E.
  - apply H1. exists r. congruence.
  - apply H2. exists r. congruence.
Qed.
Lemma incomp_diff x y a b : x <> y -> incomp (x :: a) (y :: b).
Proof. intros H. unfold incomp, prefix. split; intros [r E]; cbn in E; congruence. Qed.

Lemma FOP_app {A} (R : A -> A -> Prop) l1 l2 : ForallOrdPairs R l1 -> ForallOrdPairs R l2 ->
  (forall a b, In a l1 -> In b l2 -> R a b) -> ForallOrdPairs R (l1 ++ l2).
Proof.
  induction 1 as [|x l H1 H IH]; intros H2 Hc; cbn; auto. constructor.
  - rewrite Forall_app. split; auto. rewrite Forall_forall. intros y Hy. apply Hc; [left; auto|auto].
  - apply IH; auto. intros a b Ha Hb. apply Hc; [right; auto|auto].
Qed.
Lemma FOP_map {A B} (f : A -> B) (R : B -> B -> Prop) (S : A -> A -> Prop) l :
  (forall a b, S a b -> R (f a) (f b)) -> ForallOrdPairs S l -> ForallOrdPairs R (map f l).
Proof.
  intros H. induction 1 as [|x l H1 H2 IH]; cbn; constructor; auto.
  rewrite Forall_map. eapply Forall_impl; [|exact H1]. cbn. auto.
Qed.

Lemma paths_PF t : PF (map snd (paths t)).
Proof.
  unfold PF. induction t as [i|t0 IH0 t1 IH1]; cbn [paths map]; [repeat constructor|].
  rewrite map_app, !map_map. cbn [snd]. apply FOP_app.
  - rewrite <- (map_map snd (fun w => 0%N :: w)). apply (FOP_map _ incomp incomp); [|exact IH0]. intros; apply incomp_cons; auto.
  - rewrite <- (map_map snd (fun w => 1%N :: w)). apply (FOP_map _ incomp incomp); [|exact IH1]. intros; apply incomp_cons; auto.
  - intros a b Ha Hb. apply in_map_iff in Ha as [[i w] [<- _]]. apply in_map_iff in Hb as [[j v] [<- _]].
    apply incomp_diff. discriminate.
Qed.

Lemma paths_binary t : Forall (fun ip => Forall (fun x => (x < 2)%N) (snd ip)) (paths t).
Proof.
  induction t as [i|t0 IH0 t1 IH1]; cbn [paths]; [repeat constructor|].
  apply Forall_app. split; rewrite Forall_map; eapply Forall_impl; try eassumption; cbn [snd]; intros a Ha; constructor; auto; lia.
Qed.

Definition kterm (b : N) (x : nat) : Q := (/ inject_Z (Z.of_N b ^ Z.of_nat x))%Q.
Lemma kraft_cons b x l : kraft_sum b (x :: l) = (kterm b x + kraft_sum b l)%Q.
Proof. reflexivity. Qed.
Lemma kraft_nil b : kraft_sum b [] = 0%Q.
Proof. reflexivity. Qed.
Lemma kraft_app b l1 l2 : (kraft_sum b (l1 ++ l2) == kraft_sum b l1 + kraft_sum b l2)%Q.
Proof.
  induction l1 as [|x l1 IH]; cbn [app].
  - rewrite kraft_nil. ring.
  - rewrite !kraft_cons, IH. ring.
Qed.
Lemma kraft_perm b l1 l2 : Permutation l1 l2 -> (kraft_sum b l1 == kraft_sum b l2)%Q.
Proof.
  induction 1 as [|x l l' P IH|x y l|l l' l'' P1 IH1 P2 IH2]; rewrite ?kraft_cons; try reflexivity.
  - rewrite IH. reflexivity.
  - ring.
  - rewrite IH1. exact IH2.
Qed.
Lemma kterm_S x : (kterm 2 (S x) == kterm 2 x / 2)%Q.
Proof.
  unfold kterm. rewrite Nat2Z.inj_succ, Z.pow_succ_r by lia. rewrite inject_Z_mult.
  change (inject_Z (Z.of_N 2)) with 2%Q. field. apply inject_pow_nz. lia.
Qed.
Lemma kraft_S ls : (kraft_sum 2 (map S ls) == kraft_sum 2 ls / 2)%Q.
Proof.
  induction ls as [|x ls IH]; cbn [map]; [rewrite kraft_nil; reflexivity|].
  rewrite !kraft_cons, IH, kterm_S. field.
Qed.
Lemma paths_kraft t : (kraft_sum 2 (map (fun ip => length (snd ip)) (paths t)) == 1)%Q.
Proof.
  induction t as [i|t0 IH0 t1 IH1]; cbn [paths map]; [reflexivity|].
  rewrite map_app, !map_map. cbn [snd length].
  rewrite kraft_app.
  rewrite <- (map_map (fun ip : nat * word => length (snd ip)) S (paths t0)).
  rewrite <- (map_map (fun ip : nat * word => length (snd ip)) S (paths t1)).
  rewrite !kraft_S, IH0, IH1. reflexivity.
Qed.

(* ---------- links *)
Definition keeps (l l' : list link) : Prop :=
  forall i p b, nth_error l i = Some (Some (p, b)) -> nth_error l' i = Some (Some (p, b)).

Lemma set_link_length i v l : length (set_link i v l) = length l.
Proof. revert i; induction l as [|x l IH]; intros [|i]; cbn; auto. Qed.
Lemma set_link_same i v l : i < length l -> nth_error (set_link i v l) i = Some v.
Proof. revert i; induction l as [|x l IH]; intros [|i] H; cbn in *; try lia; auto. apply IH; lia. Qed.
Lemma set_link_other i j v l : i <> j -> nth_error (set_link i v l) j = nth_error l j.
Proof. revert i j; induction l as [|x l IH]; intros [|i] [|j] H; cbn; auto; try lia. Qed.
Lemma set_link_keeps i v l : nth_error l i = Some None -> keeps l (set_link i v l).
Proof. intros H j p b E. destruct (Nat.eq_dec i j); [congruence|]. rewrite set_link_other; auto. Qed.
Lemma app_keeps l x : keeps l (l ++ x).
Proof. intros i p b E. rewrite nth_error_app1; auto. apply nth_error_Some; congruence. Qed.
Lemma keeps_trans a b c : keeps a b -> keeps b c -> keeps a c.
Proof. intros H1 H2 i p x E. auto. Qed.

Inductive rep (links : list link) : nat -> btree -> Prop :=
| rep_leaf i : rep links i (BLeaf i)
| rep_node r r0 r1 t0 t1 : rep links r0 t0 -> rep links r1 t1 ->
    nth_error links r0 = Some (Some (r, 0%N)) -> nth_error links r1 = Some (Some (r, 1%N)) ->
    rep links r (BNode t0 t1).
Lemma rep_keeps l l' r t : keeps l l' -> rep l r t -> rep l' r t.
Proof. intros K. induction 1; [constructor|econstructor; eauto]. Qed.

Definition monotone (links : list link) : Prop :=
  forall i p b, nth_error links i = Some (Some (p, b)) -> i < p < length links.

(* following parents upwards *)
Inductive up (links : list link) : nat -> word -> nat -> Prop :=
| up_nil i : up links i [] i
| up_cons i p b bs r : nth_error links i = Some (Some (p, b)) -> up links p bs r -> up links i (b :: bs) r.
Lemma up_snoc links i bs r r' b : up links i bs r -> nth_error links r = Some (Some (r', b)) -> up links i (bs ++ [b]) r'.
Proof. induction 1; cbn; intros; econstructor; eauto. constructor. Qed.

Lemma rep_up links r t : rep links r t -> forall i w, In (i, w) (paths t) -> up links i (rev w) r.
Proof.
  induction 1 as [i|r r0 r1 t0 t1 H0 IH0 H1 IH1 L0 L1]; intros j w Hin; cbn [paths] in Hin.
  - destruct Hin as [E|[]]. injection E as <- <-. constructor.
  - apply in_app_or in Hin as [Hin|Hin]; apply in_map_iff in Hin as [[j' w'] [E Hin]]; cbn [fst snd] in E; injection E as <- <-.
    + cbn [rev]. eapply up_snoc; eauto.
    + cbn [rev]. eapply up_snoc; eauto.
Qed.

Lemma up_length links i bs r : monotone links -> up links i bs r -> length bs + i <= r.
Proof. intros M. induction 1 as [|i p b bs r E U IH]; cbn; [lia|]. specialize (M _ _ _ E). lia. Qed.
Lemma up_walk links i bs r : up links i bs r -> nth_error links r = Some None ->
  forall fuel, length bs <= fuel -> walk_up fuel links i = Some bs.
Proof.
  induction 1 as [i|i p b bs r E U IH]; intros Hr fuel HL.
  - destruct fuel; cbn; rewrite Hr; reflexivity.
  - cbn in HL. destruct fuel as [|f]; [lia|]. cbn [walk_up]. rewrite E, IH by (auto; lia). reflexivity.
Qed.

(* ---------- the loop *)
Definition wt (pmf : list Q) (i : nat) : Q := nth i pmf 0%Q.
Fixpoint tweight (pmf : list Q) (t : btree) : Q :=
  match t with BLeaf i => wt pmf i | BNode t0 t1 => (tweight pmf t0 + tweight pmf t1)%Q end.

Section Loop.
Variables (pmf : list Q) (pol : hpolicy).

Definition good_entry (links : list link) (e : hnode * btree) : Prop :=
  rep links (nidx (fst e)) (snd e) /\ nth_error links (nidx (fst e)) = Some None /\
  (nprob (fst e) == tweight pmf (snd e))%Q.
Definition Inv (links : list link) (F : list (hnode * btree)) : Prop :=
  Forall (good_entry links) F /\ NoDup (map (fun e => nidx (fst e)) F) /\
  Permutation (flat_map (fun e => leaves (snd e)) F) (seq 0 (length pmf)) /\ monotone links.

Lemma Inv_perm links F F' : Permutation F F' -> Inv links F -> Inv links F'.
Proof.
  intros P (H1 & H2 & H3 & H4). split; [|split; [|split; [|exact H4]]].
  - eapply Permutation_Forall; eauto.
  - eapply Permutation_NoDup; [apply Permutation_map; exact P|exact H2].
  - rewrite <- H3. symmetry. apply Permutation_flat_map. exact P.
Qed.

Definition merged (links : list link) (e0 e1 : hnode * btree) : hnode * btree :=
  ({| nidx := length links; nprob := (nprob (fst e0) + nprob (fst e1))%Q; nleaf := false |}, BNode (snd e0) (snd e1)).
Definition relinked (links : list link) (n0 n1 : hnode) : list link :=
  set_link (nidx n0) (Some (length links, 0%N)) (set_link (nidx n1) (Some (length links, 1%N)) links) ++ [None].

Lemma Inv_step links e1 e0 F : Inv links (e1 :: e0 :: F) -> Inv (relinked links (fst e0) (fst e1)) (merged links e0 e1 :: F).
Proof.
  intros (HG & HN & HP & HM).
  inversion HG as [|? ? G1 HG1]; subst. inversion HG1 as [|? ? G0 HGF]; subst.
  inversion HN as [|? ? N1 HN1]; subst. inversion HN1 as [|? ? N0 HNF]; subst.
  destruct G1 as (R1 & L1 & W1). destruct G0 as (R0 & L0 & W0).
  destruct e0 as [n0 t0]; destruct e1 as [n1 t1]; cbn [fst snd] in *.
  set (l1 := set_link (nidx n1) (Some (length links, 1%N)) links).
  assert (Hne : nidx n1 <> nidx n0) by (intros E; apply N1; cbn; left; auto).
  assert (B1 : nidx n1 < length links) by (apply nth_error_Some; congruence).
  assert (B0 : nidx n0 < length links) by (apply nth_error_Some; congruence).
  assert (L0' : nth_error l1 (nidx n0) = Some None) by (unfold l1; rewrite set_link_other; auto).
  set (l0 := set_link (nidx n0) (Some (length links, 0%N)) l1).
  assert (K : keeps links (l0 ++ [None])).
  { eapply keeps_trans; [apply (set_link_keeps (nidx n1)); exact L1|]. fold l1.
    eapply keeps_trans; [apply (set_link_keeps (nidx n0)); exact L0'|]. apply app_keeps. }
  assert (LEN : length l0 = length links) by (unfold l0, l1; rewrite !set_link_length; auto).
  assert (E0 : nth_error (l0 ++ [None]) (nidx n0) = Some (Some (length links, 0%N))).
  { rewrite nth_error_app1 by lia. unfold l0. apply set_link_same. unfold l1. rewrite set_link_length; auto. }
  assert (E1 : nth_error (l0 ++ [None]) (nidx n1) = Some (Some (length links, 1%N))).
  { rewrite nth_error_app1 by lia. unfold l0. rewrite set_link_other by auto. apply set_link_same; auto. }
  unfold relinked. fold l1. fold l0. split; [|split; [|split]].
  - constructor.
    + unfold good_entry, merged; cbn [fst snd nidx nprob]. split; [|split].
      * apply (rep_node _ _ (nidx n0) (nidx n1)); auto; eapply rep_keeps; eauto.
      * rewrite nth_error_app2 by lia. rewrite LEN, Nat.sub_diag. reflexivity.
      * cbn [tweight]. rewrite W0, W1. reflexivity.
    + rewrite Forall_forall in *. intros [n t] Hin. specialize (HGF _ Hin). destruct HGF as (R & L & W). cbn [fst snd] in *.
      unfold good_entry; cbn [fst snd]. split; [|split].
      * eapply rep_keeps; eauto.
      * assert (nidx n <> nidx n1) by (intros E; apply N1; right; apply in_map_iff; exists (n, t); auto).
        assert (nidx n <> nidx n0) by (intros E; apply N0; apply in_map_iff; exists (n, t); auto).
        rewrite nth_error_app1 by (rewrite LEN; apply nth_error_Some; congruence).
        unfold l0, l1. rewrite !set_link_other by auto. exact L.
      * exact W.
  - cbn [map merged fst nidx]. constructor; auto. intros Hin. apply in_map_iff in Hin as [[n t] [E Hin]]. cbn in E.
    rewrite Forall_forall in HGF. destruct (HGF _ Hin) as (_ & L & _). cbn in L.
    assert (nidx n < length links) by (apply nth_error_Some; congruence). lia.
  - cbn [flat_map merged snd leaves]. cbn [flat_map snd] in HP. rewrite <- HP, !app_assoc.
    apply Permutation_app_tail, Permutation_app_comm.
  - intros i p b E. rewrite app_length, LEN; cbn [length].
    assert (i < length (l0 ++ [None])) as Hi by (apply nth_error_Some; congruence). rewrite app_length, LEN in Hi. cbn in Hi.
    destruct (Nat.eq_dec i (length links)) as [->|Hil].
    { rewrite nth_error_app2, LEN, Nat.sub_diag in E by lia. discriminate. }
    rewrite nth_error_app1 in E by lia. unfold l0 in E.
    destruct (Nat.eq_dec (nidx n0) i) as [<-|Hi0].
    { rewrite set_link_same in E by (unfold l1; rewrite set_link_length; lia). injection E as <- <-. lia. }
    rewrite set_link_other in E by auto. unfold l1 in E.
    destruct (Nat.eq_dec (nidx n1) i) as [<-|Hi1].
    { rewrite set_link_same in E by lia. injection E as <- <-. lia. }
    rewrite set_link_other in E by auto. specialize (HM _ _ _ E). lia.
Qed.

(* merging the two lightest trees *)
Inductive merges : list (hnode * btree) -> btree -> Prop :=
| m_one n t : merges [(n, t)] t
| m_step e1 e0 F F' m T : Permutation F (e1 :: e0 :: F') ->
    Forall (fun e => (tweight pmf (snd e1) <= tweight pmf (snd e))%Q) (e0 :: F') ->
    Forall (fun e => (tweight pmf (snd e0) <= tweight pmf (snd e))%Q) F' ->
    snd m = BNode (snd e0) (snd e1) -> merges (m :: F') T -> merges F T.

Lemma loop_spec fuel : forall links F, F <> [] -> length F <= fuel + 1 -> Inv links F ->
  exists links' n T, huffman_loop fuel pol links (map fst F) = Some links' /\ Inv links' [(n, T)] /\ merges F T.
Proof.
  induction fuel as [|fuel IH]; intros links F NE HL HI.
  - destruct F as [|[n t] [|? ?]]; cbn in HL; try lia; [congruence|].
    exists links, n, t. split; [reflexivity|]. split; [exact HI|constructor].
  - destruct F as [|[n t] [|e F]]; [congruence| |].
    { exists links, n, t. cbn [huffman_loop map fst]. split; [reflexivity|]. split; [exact HI|constructor]. }
    set (G := (n, t) :: e :: F) in *. 
    assert (Hh : map fst G <> []) by (unfold G; discriminate).
    destruct (heappop_spec pol (map fst G) Hh) as (x1 & h1 & E1 & P1 & M1).
    symmetry in P1. destruct (Permutation_map_inv _ _ P1) as [G1 [EG1 PG1]].
    destruct G1 as [|e1 G1]; [discriminate|]. cbn [map] in EG1. injection EG1 as -> ->.
    assert (Hl1 : length G1 = S (length F)).
    { apply Permutation_length in PG1. unfold G in PG1. cbn in PG1. lia. }
    assert (Hh1 : map fst G1 <> []) by (destruct G1; [cbn in Hl1; lia|discriminate]).
    destruct (heappop_spec pol (map fst G1) Hh1) as (x0 & h0 & E0 & P0 & M0).
    symmetry in P0. destruct (Permutation_map_inv _ _ P0) as [G0 [EG0 PG0]].
    destruct G0 as [|e0 G0]; [discriminate|]. cbn [map] in EG0. injection EG0 as -> ->.
    assert (PG : Permutation G (e1 :: e0 :: G0)).
    { etransitivity; [exact PG1|]. constructor. exact PG0. }
    pose proof (Inv_perm _ _ _ PG HI) as HI'. pose proof (Inv_step _ _ _ _ HI') as HI2.
    destruct (IH (relinked links (fst e0) (fst e1)) (merged links e0 e1 :: G0)) as (links' & nn & T & EL & HIf & HMg); auto; [discriminate| |].
    { apply Permutation_length in PG. cbn [length] in *. lia. }
    exists links', nn, T. split; [|split]; auto.
    + unfold G at 1. cbn [map]. cbn [huffman_loop]. change (fst (n, t) :: fst e :: map fst F) with (map fst G).
      rewrite E1, E0. cbn [nidx]. exact EL.
    + destruct HI' as (HG & _). inversion HG as [|? ? (_ & _ & W1) HG1]; subst. inversion HG1 as [|? ? (_ & _ & W0) HGF]; subst.
      assert (HW : forall e, In e (e0 :: G0) -> (nprob (fst e) == tweight pmf (snd e))%Q).
      { intros e' He. rewrite Forall_forall in HG1. apply (HG1 e' He). }
      apply (m_step e1 e0 _ G0 (merged links e0 e1)); auto.
      * apply Forall_forall. intros e' He. rewrite <- W1, <- HW by auto. rewrite Forall_forall in M1. apply M1.
        apply in_map. eapply Permutation_in; [symmetry; exact PG0|exact He].
      * apply Forall_forall. intros e' He. rewrite <- W0, <- HW by (right; auto). rewrite Forall_forall in M0. apply M0.
        apply in_map. exact He.
Qed.

Definition start : list (hnode * btree) :=
  map (fun i => ({| nidx := i; nprob := wt pmf i; nleaf := true |}, BLeaf i)) (seq 0 (length pmf)).

Lemma leaf_nodes_start : leaf_nodes pmf = map fst start.
Proof.
  unfold leaf_nodes, start, wt. rewrite map_map. cbn [fst].
  assert (G : forall l s (g : nat -> Q), (forall i, i < length l -> nth i l 0%Q = g (s + i)) ->
    map (fun ip : nat * Q => {| nidx := fst ip; nprob := snd ip; nleaf := true |}) (combine (seq s (length l)) l) =
    map (fun i => {| nidx := i; nprob := g i; nleaf := true |}) (seq s (length l))).
  { induction l as [|q l IH]; intros s g H; cbn [length seq combine map]; auto. f_equal.
    - cbn [fst snd]. specialize (H 0). cbn in H. rewrite Nat.add_0_r in H. rewrite H by lia. reflexivity.
    - apply IH. intros i Hi. specialize (H (S i)). cbn [nth length] in H. rewrite H by lia. f_equal; lia. }
  apply (G pmf 0 (fun i => nth i pmf 0%Q)). intros; reflexivity.
Qed.

Lemma start_Inv : Inv (map (fun _ => None) pmf) start.
Proof.
  unfold start, Inv. split; [|split; [|split]].
  - rewrite Forall_map, Forall_forall. intros i Hi. apply in_seq in Hi. unfold good_entry; cbn [fst snd nidx nprob tweight].
    split; [constructor|]. split; [|reflexivity].
    destruct (nth_error pmf i) as [q|] eqn:E; [exact (map_nth_error (fun _ => None) _ _ E)|]. apply nth_error_None in E. lia.
  - rewrite map_map. cbn [fst nidx]. rewrite map_id. apply seq_NoDup.
  - rewrite flat_map_concat_map, map_map. cbn [snd leaves].
    rewrite <- (flat_map_concat_map (fun x => [x])). 
    assert (flat_map (fun x : nat => [x]) (seq 0 (length pmf)) = seq 0 (length pmf)) as ->; [|reflexivity].
    induction (seq 0 (length pmf)) as [|a l IH]; cbn; congruence.
  - intros i p b E. assert (i < length pmf) as Hi.
    { rewrite <- (map_length (fun _ : Q => @None (nat * N)) pmf). apply nth_error_Some. congruence. }
    destruct (nth_error pmf i) as [q|] eqn:E'; [|apply nth_error_None in E'; lia].
    rewrite (map_nth_error (fun _ => None) _ _ E') in E. discriminate.
Qed.
End Loop.

Lemma huffman_tree_spec pmf pol : pmf <> [] -> exists links n T, huffman_tree pmf pol = Some links /\
  Inv pmf links [(n, T)] /\ merges pmf (start pmf) T.
Proof.
  intros NE. unfold huffman_tree. rewrite leaf_nodes_start.
  apply loop_spec; [|unfold start; rewrite map_length, seq_length; lia|apply start_Inv].
  unfold start. destruct pmf; [congruence|discriminate].
Qed.

(* the word of leaf i *)
Fixpoint lookup_path (i : nat) (l : list (nat * word)) : word :=
  match l with [] => [] | (j, w) :: r => if i =? j then w else lookup_path i r end.

Lemma lookup_in i l : In i (map fst l) -> In (i, lookup_path i l) l.
Proof.
  induction l as [|[j w] l IH]; cbn; [tauto|]. intros [->|H].
  - rewrite Nat.eqb_refl. left; reflexivity.
  - destruct (Nat.eqb_spec i j); [subst; left; reflexivity|right; auto].
Qed.
Lemma lookup_map l : NoDup (map fst l) -> map (fun i => lookup_path i l) (map fst l) = map snd l.
Proof.
  induction l as [|[j w] l IH]; cbn [map fst snd]; intros H; auto. inversion H as [|? ? H1 H2]; subst.
  f_equal; [cbn; rewrite Nat.eqb_refl; reflexivity|]. rewrite <- IH by auto. apply map_ext_in. intros i Hi. cbn.
  destruct (Nat.eqb_spec i j); [subst; tauto|reflexivity].
Qed.

Definition tree_words (n : nat) (T : btree) : list word := map (fun i => lookup_path i (paths T)) (seq 0 n).

Lemma sequence_some {A B} (f : A -> option B) (g : A -> B) l : (forall x, In x l -> f x = Some (g x)) ->
  sequence (map f l) = Some (map g l).
Proof.
  induction l as [|x l IH]; intros H; cbn; auto. rewrite (H x) by (left; auto). rewrite IH; auto.
  intros y Hy. apply H; right; auto.
Qed.

Lemma Inv_single_perm pmf links n T : Inv pmf links [(n, T)] -> Permutation (leaves T) (seq 0 (length pmf)).
Proof. intros (_ & _ & H & _). cbn in H. rewrite app_nil_r in H. exact H. Qed.

Lemma tree_codewords_spec pmf links n T : Inv pmf links [(n, T)] ->
  tree_codewords links (length pmf) = Some (tree_words (length pmf) T).
Proof.
  intros HI. pose proof (Inv_single_perm _ _ _ _ HI) as HP. destruct HI as (HG & _ & _ & HM).
  inversion HG as [|? ? (R & L & _) _]; subst. cbn [fst snd] in *.
  apply sequence_some. intros i Hi.
  assert (Hin : In (i, lookup_path i (paths T)) (paths T)).
  { apply lookup_in. rewrite paths_leaves. eapply Permutation_in; [symmetry; exact HP|exact Hi]. }
  pose proof (rep_up _ _ _ R _ _ Hin) as U. pose proof (up_length _ _ _ _ HM U) as UL.
  assert (nidx n < length links) by (apply nth_error_Some; congruence).
  rewrite (up_walk _ _ _ _ U L) by lia. rewrite rev_involutive. reflexivity.
Qed.

(* ---------- tree_lengths *)
Lemma set_nat_length i v l : length (set_nat i v l) = length l.
Proof. revert i; induction l as [|x l IH]; intros [|i]; cbn; auto. Qed.
Lemma set_nat_same i v l : i < length l -> nth i (set_nat i v l) 0 = v.
Proof. revert i; induction l as [|x l IH]; intros [|i] H; cbn in *; try lia; auto. apply IH; lia. Qed.
Lemma set_nat_other i j v l : i <> j -> nth j (set_nat i v l) 0 = nth j l 0.
Proof. revert i j; induction l as [|x l IH]; intros [|i] [|j] H; cbn; auto; try lia. Qed.

Definition depth_step (links : list link) := (fun depths i => match nth_error links i with
                                | Some (Some (p, _)) => set_nat i (nth p depths 0 + 1) depths
                                | _ => depths
                                end).
Lemma depth_loop links k : monotone links -> k <= length links ->
  let d := fold_left (depth_step links) (rev (seq k (length links - k))) (repeat 0 (length links)) in
  length d = length links /\ (forall i, i < k -> nth i d 0 = 0) /\
  forall i bs r, k <= i -> up links i bs r -> nth_error links r = Some None -> nth i d 0 = length bs.
Proof.
  intros M Hk. remember (length links - k) as m eqn:Em. revert k Hk Em.
  induction m as [|m IH]; intros k Hk Em d.
  - cbn in d. subst d. split; [apply repeat_length|]. split.
    + intros i Hi. rewrite nth_repeat. reflexivity.
    + intros i bs r Hi U Hr. exfalso. inversion U; subst.
      * assert (r < length links) by (apply nth_error_Some; congruence). lia.
      * assert (i < length links) by (apply nth_error_Some; congruence). lia.
  - subst d. cbn [seq rev]. rewrite fold_left_app. cbn [fold_left].
    destruct (IH (S k) ltac:(lia) ltac:(lia)) as (HL & Hz & Hd).
    set (d := fold_left (depth_step links) (rev (seq (S k) m)) (repeat 0 (length links))) in *.
    unfold depth_step. destruct (nth_error links k) as [[[p b]|]|] eqn:E.
    + split; [rewrite set_nat_length; auto|]. split.
      * intros i Hi. rewrite set_nat_other by lia. apply Hz; lia.
      * intros i bs r Hi U Hr. pose proof (M _ _ _ E) as Hp. destruct (Nat.eq_dec i k) as [->|].
        -- rewrite set_nat_same by lia. inversion U as [|? p' b' bs' ? E' U']; subst; [congruence|].
           assert (p' = p /\ b' = b) as [-> ->] by (split; congruence). cbn [length]. rewrite (Hd p bs' r) by (auto; lia). lia.
        -- rewrite set_nat_other by lia. apply (Hd _ bs r); auto; lia.
    + split; [auto|]. split; [intros i Hi; apply Hz; lia|].
      intros i bs r Hi U Hr. destruct (Nat.eq_dec i k) as [->|]; [|apply (Hd _ bs r); auto; lia].
      inversion U; subst; [cbn; apply Hz; lia|congruence].
    + apply nth_error_None in E. lia.
Qed.

Lemma tree_lengths_spec pmf links n T : Inv pmf links [(n, T)] -> 
  tree_lengths links (length pmf) = map wlen (tree_words (length pmf) T).
Proof.
  intros HI. pose proof (Inv_single_perm _ _ _ _ HI) as HP. destruct HI as (HG & _ & _ & HM).
  inversion HG as [|? ? (R & L & _) _]; subst. cbn [fst snd] in *.
  destruct (depth_loop links 0 HM ltac:(lia)) as (HL & _ & Hd). rewrite Nat.sub_0_r in *.
  unfold tree_lengths. fold (depth_step links).
  assert (U : forall i, i < length pmf -> exists bs, up links i bs (nidx n) /\ length bs = length (lookup_path i (paths T))).
  { intros i Hi. assert (Hin : In (i, lookup_path i (paths T)) (paths T)).
    { apply lookup_in. rewrite paths_leaves. eapply Permutation_in; [symmetry; exact HP|]. apply in_seq; lia. }
    exists (rev (lookup_path i (paths T))). split; [apply (rep_up _ _ _ R _ _ Hin)|apply rev_length]. }
  assert (B : length pmf <= length links).
  { destruct (length pmf) as [|m] eqn:Em; [lia|]. destruct (U m ltac:(lia)) as [bs [Ub _]].
    pose proof (up_length _ _ _ _ HM Ub). assert (nidx n < length links) by (apply nth_error_Some; congruence). lia. }
  apply (list_ext 0).
  - rewrite firstn_length, HL. unfold tree_words. rewrite !map_length, seq_length. lia.
  - rewrite firstn_length, HL. intros i Hi.
    assert (Hi' : i < length pmf) by lia. destruct (U i Hi') as [bs [Ub Lb]].
    unfold tree_words. rewrite map_map, nth_map_seq by lia.
    assert (E : forall (l : list nat) m, i < m -> nth i (firstn m l) 0 = nth i l 0).
    { clear. intros l m. revert l m; induction i as [|i IH]; intros [|x l] [|m] H; cbn; try lia; auto. apply IH; lia. }
    rewrite E by lia. rewrite (Hd i bs (nidx n)) by (auto; lia). exact Lb.
Qed.

Lemma paths_leaf_nonempty t : 2 <= length (leaves t) -> Forall (fun ip => snd ip <> []) (paths t).
Proof.
  destruct t as [i|t0 t1]; cbn; [lia|]. intros _. apply Forall_app. split; rewrite Forall_map, Forall_forall; cbn; discriminate.
Qed.

Lemma tree_words_perm n T : Permutation (leaves T) (seq 0 n) -> Permutation (tree_words n T) (map snd (paths T)).
Proof.
  intros HP. rewrite <- lookup_map.
  - rewrite paths_leaves. unfold tree_words. apply Permutation_map. symmetry; exact HP.
  - rewrite paths_leaves. eapply Permutation_NoDup; [symmetry; exact HP|apply seq_NoDup].
Qed.

Lemma tree_words_facts n T : 2 <= n -> Permutation (leaves T) (seq 0 n) ->
  length (tree_words n T) = n /\ PF (tree_words n T) /\ Forall (fun w => w <> []) (tree_words n T) /\
  Forall (fun w => Forall (fun x => (x < 2)%N) w) (tree_words n T) /\
  (kraft_sum 2 (map wlen (tree_words n T)) == 1)%Q.
Proof.
  intros Hn HP. pose proof (tree_words_perm _ _ HP) as PW. split; [|split; [|split; [|split]]].
  - unfold tree_words. rewrite map_length, seq_length; auto.
  - eapply PF_perm; [symmetry; exact PW|apply paths_PF].
  - eapply Permutation_Forall; [symmetry; exact PW|]. rewrite Forall_map. apply paths_leaf_nonempty.
    apply Permutation_length in HP. rewrite seq_length in HP. lia.
  - eapply Permutation_Forall; [symmetry; exact PW|]. rewrite Forall_map. apply paths_binary.
  - rewrite (kraft_perm 2 _ (map wlen (map snd (paths T)))) by (apply Permutation_map; exact PW).
    rewrite map_map. apply paths_kraft.
Qed.
