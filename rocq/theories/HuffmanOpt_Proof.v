(* Optimality of the merging procedure of Huffman_Proof among all length assignments with Kraft sum at most 1. *)
From Verif Require Import Common Prefix_Model Prefix_Proof Canonical_Proof Parse_Proof Spec_Lossless Kraft_Proof PmfCodes_Model Huffman_Proof.
From Coq Require Import QArith Qfield Lqa Permutation.
Local Open Scope nat_scope.

Definition qn (n : nat) : Q := inject_Z (Z.of_nat n).
Lemma qn_S n : (qn (S n) == qn n + 1)%Q.
Proof. unfold qn. rewrite Nat2Z.inj_succ, <- Z.add_1_r, inject_Z_plus. reflexivity. Qed.
Lemma qn_le a b : a <= b -> (qn a <= qn b)%Q.
Proof. intros H. unfold qn. rewrite <- Zle_Qle. lia. Qed.
Lemma qn_nonneg a : (0 <= qn a)%Q.
Proof. change 0%Q with (qn 0). apply qn_le; lia. Qed.

Fixpoint cost (P : list (Q * nat)) : Q :=
  match P with [] => 0%Q | (w, l) :: r => (w * qn l + cost r)%Q end.
Lemma cost_app P P' : (cost (P ++ P') == cost P + cost P')%Q.
Proof. induction P as [|[w l] P IH]; cbn [app cost]; [ring|]. rewrite IH. ring. Qed.
Lemma cost_perm P P' : Permutation P P' -> (cost P == cost P')%Q.
Proof.
  induction 1 as [|[w l] P P' H IH|[w l] [w' l'] P|P1 P2 P3 H1 IH1 H2 IH2]; cbn [cost]; try reflexivity.
  - rewrite IH. reflexivity.
  - ring.
  - rewrite IH1. exact IH2.
Qed.

(* give the lightest weight the greatest length *)
Lemma raise_max x lx P : Forall (fun wl => (x <= fst wl)%Q) P ->
  exists L P', map fst P' = map fst P /\ Permutation (L :: map snd P') (lx :: map snd P) /\
    Forall (fun wl => snd wl <= L) P' /\ (x * qn L + cost P' <= x * qn lx + cost P)%Q.
Proof.
  induction 1 as [|[y ly] P Hy HP IH].
  - exists lx, []. repeat split; auto. apply Qle_refl.
  - destruct IH as (L & P' & E1 & E2 & E3 & E4). cbn [fst] in Hy.
    destruct (Nat.le_gt_cases ly L) as [C|C].
    + exists L, ((y, ly) :: P'). cbn [map fst snd cost]. split; [congruence|]. split; [|split].
      * etransitivity; [apply perm_swap|]. etransitivity; [apply perm_skip, E2|]. apply perm_swap.
      * constructor; auto.
      * lra.
    + exists ly, ((y, L) :: P'). cbn [map fst snd cost]. split; [congruence|]. split; [|split].
      * etransitivity; [apply perm_skip, E2|]. apply perm_swap.
      * constructor; [cbn; lia|]. eapply Forall_impl; [|exact E3]. cbn; intros; lia.
      * assert (HL : (qn L <= qn ly)%Q) by (apply qn_le; lia).
        assert ((0 <= (y - x) * (qn ly - qn L))%Q) by (apply Qmult_le_0_compat; lra).
        assert (((y - x) * (qn ly - qn L) == y * qn ly - y * qn L - x * qn ly + x * qn L)%Q) by ring. lra.
Qed.

Lemma kterm_pos b x : (2 <= b)%N -> (0 < kterm b x)%Q.
Proof.
  intros H. unfold kterm. apply Qinv_lt_0_compat. change 0%Q with (inject_Z 0). rewrite <- Zlt_Qlt.
  apply Z.pow_pos_nonneg; lia.
Qed.
Lemma kraft_nonneg b l : (2 <= b)%N -> (0 <= kraft_sum b l)%Q.
Proof.
  intros H. induction l as [|x l IH]; [rewrite kraft_nil; apply Qle_refl|]. rewrite kraft_cons.
  pose proof (kterm_pos b x H). lra.
Qed.

(* if the greatest length strictly exceeds the others it can be lowered to the second greatest *)
Lemma lower_max La Lb ls : Lb <= La -> Forall (fun l => l <= Lb) ls ->
  (kraft_sum 2 (La :: Lb :: ls) <= 1)%Q -> 1 <= Lb /\ (kraft_sum 2 (Lb :: Lb :: ls) <= 1)%Q.
Proof.
  intros H1 H2 K.
  assert (K2 : (kraft_sum 2 (Lb :: Lb :: ls) <= 1)%Q).
  { destruct (Nat.eq_dec La Lb) as [<-|]; [exact K|].
    assert (HF : Forall (fun l => l <= Lb) (Lb :: ls)) by (constructor; auto).
    pose proof (kraft_scale 2 Lb (Lb :: ls) ltac:(lia) HF) as E.
    set (M := ksum 2 Lb (Lb :: ls)) in *.
    set (B := inject_Z (Z.of_N 2 ^ Z.of_nat Lb)) in *.
    assert (PB : (0 < B)%Q) by (unfold B; change 0%Q with (inject_Z 0); rewrite <- Zlt_Qlt; apply Z.pow_pos_nonneg; lia).
    rewrite kraft_cons in K. pose proof (kterm_pos 2 La ltac:(lia)) as PA.
    assert (S1 : (kraft_sum 2 (Lb :: ls) < 1)%Q) by lra.
    assert (S2 : (inject_Z (Z.of_N M) < B)%Q).
    { rewrite <- E. rewrite <- (Qmult_1_l B) at 2. apply Qmult_lt_compat_r; auto. }
    unfold B in S2. rewrite <- Zlt_Qlt in S2.
    assert (S3 : (inject_Z (Z.of_N M) + 1 <= B)%Q).
    { change 1%Q with (inject_Z 1). rewrite <- inject_Z_plus. unfold B. rewrite <- Zle_Qle. lia. }
    rewrite kraft_cons.
    apply (Qmult_le_r _ _ B PB). rewrite Qmult_plus_distr_l, E.
    assert (kterm 2 Lb * B == 1)%Q as ->.
    { unfold kterm, B. rewrite Qmult_comm. apply Qmult_inv_r. apply inject_pow_nz. lia. }
    rewrite Qmult_1_l. rewrite Qplus_comm. exact S3. }
  split; [|exact K2].
  destruct Lb as [|Lb]; [|lia]. exfalso. rewrite !kraft_cons in K2.
  assert (kterm 2 0 == 1)%Q as E by reflexivity. rewrite E in K2. pose proof (kraft_nonneg 2 ls ltac:(lia)). lra.
Qed.

Lemma map_fst_combine' {A B} (l : list A) (l' : list B) : length l = length l' -> map fst (combine l l') = l.
Proof. revert l'; induction l as [|x l IH]; intros [|y l'] H; cbn in *; try lia; auto. f_equal; auto. Qed.
Lemma map_snd_combine' {A B} (l : list A) (l' : list B) : length l = length l' -> map snd (combine l l') = l'.
Proof. revert l'; induction l as [|x l IH]; intros [|y l'] H; cbn in *; try lia; auto. f_equal; auto. Qed.

Lemma merge_step a la b lb P : (0 <= a)%Q -> (a <= b)%Q -> Forall (fun wl => (a <= fst wl)%Q) P ->
  Forall (fun wl => (b <= fst wl)%Q) P ->
  (kraft_sum 2 (la :: lb :: map snd P) <= 1)%Q ->
  exists l' P', map fst P' = map fst P /\ (kraft_sum 2 (l' :: map snd P') <= 1)%Q /\
    ((a + b) * qn l' + (a + b) + cost P' <= a * qn la + b * qn lb + cost P)%Q.
Proof.
  intros Ha Hab HaP HbP K.
  assert (HF : Forall (fun wl => (a <= fst wl)%Q) ((b, lb) :: P)) by (constructor; auto).
  destruct (raise_max a la _ HF) as (La & Q1 & E1 & E2 & E3 & E4).
  destruct Q1 as [|[b' lb1] P1]; [discriminate|]. cbn [map fst snd] in E1, E2. injection E1 as -> E1.
  assert (HF1 : Forall (fun wl => (b <= fst wl)%Q) P1).
  { rewrite Forall_forall in HbP |- *. intros wl Hwl.
    assert (In (fst wl) (map fst P)) as Hin by (rewrite <- E1; apply in_map; auto).
    apply in_map_iff in Hin as [wl' [Ew Hin]]. rewrite <- Ew. apply HbP; auto. }
  destruct (raise_max b lb1 _ HF1) as (Lb & P2 & F1 & F2 & F3 & F4).
  inversion E3 as [|? ? Hlb E3']; subst. cbn [snd] in Hlb.
  assert (HLb : Lb <= La).
  { assert (In Lb (lb1 :: map snd P1)) as Hin by (eapply Permutation_in; [exact F2|left; reflexivity]).
    destruct Hin as [<-|Hin]; [auto|]. apply in_map_iff in Hin as [wl [<- Hin]].
    rewrite Forall_forall in E3'. apply E3'; auto. }
  assert (K1 : (kraft_sum 2 (La :: Lb :: map snd P2) <= 1)%Q).
  { rewrite (kraft_perm 2 _ (la :: lb :: map snd P)); [exact K|].
    etransitivity; [apply perm_skip, F2|]. exact E2. }
  assert (HF2 : Forall (fun l => l <= Lb) (map snd P2)) by (rewrite Forall_map; exact F3).
  destruct (lower_max La Lb (map snd P2) HLb HF2 K1) as [Hpos K2].
  destruct Lb as [|l']; [lia|]. exists l', P2. split; [congruence|]. split.
  - rewrite !kraft_cons in K2. rewrite kraft_cons. rewrite kterm_S in K2.
    assert ((kterm 2 l' / 2 + kterm 2 l' / 2 == kterm 2 l')%Q) by field. lra.
  - cbn [cost] in E4. pose proof (qn_le _ _ HLb) as HQ. rewrite !qn_S in *.
    assert ((a * (qn l' + 1) <= a * qn La)%Q).
    { rewrite !(Qmult_comm a). apply Qmult_le_compat_r; auto. }
    assert (((a + b) * qn l' + (a + b) == a * (qn l' + 1) + b * (qn l' + 1))%Q) by ring. lra.
Qed.

(* expected depth of a tree *)
Fixpoint inner (pmf : list Q) (t : btree) : Q :=
  match t with
  | BLeaf _ => 0%Q
  | BNode t0 t1 => (inner pmf t0 + inner pmf t1 + (tweight pmf t0 + tweight pmf t1))%Q
  end.
Definition path_cost (pmf : list Q) (l : list (nat * word)) : Q := cost (map (fun ip => (wt pmf (fst ip), length (snd ip))) l).

Lemma path_cost_cons pmf (x : N) l : (path_cost pmf (map (fun ip => (fst ip, x :: snd ip)) l) ==
  path_cost pmf l + qsum (map (fun ip => wt pmf (fst ip)) l))%Q.
Proof.
  unfold path_cost. rewrite map_map. cbn [fst snd length].
  induction l as [|[i w] l IH]; cbn [map cost fst snd qsum fold_right]; [ring|].
  fold (qsum (map (fun ip : nat * word => wt pmf (fst ip)) l)). rewrite IH, qn_S. ring.
Qed.
Lemma qsum_app l l' : (qsum (l ++ l') == qsum l + qsum l')%Q.
Proof.
  induction l as [|x l IH]; cbn [app qsum fold_right].
  - fold (qsum l'). ring.
  - fold (qsum (l ++ l')). fold (qsum l). rewrite IH. ring.
Qed.
Lemma tweight_leaves pmf t : (qsum (map (fun ip => wt pmf (fst ip)) (paths t)) == tweight pmf t)%Q.
Proof.
  rewrite <- (map_map fst (wt pmf)), paths_leaves. induction t as [i|t0 IH0 t1 IH1]; cbn [leaves tweight].
  - cbn. ring.
  - rewrite map_app, qsum_app, IH0, IH1. reflexivity.
Qed.
Lemma inner_paths pmf t : (path_cost pmf (paths t) == inner pmf t)%Q.
Proof.
  induction t as [i|t0 IH0 t1 IH1].
  - cbn [paths inner]. unfold path_cost. cbn [map cost fst snd length]. unfold qn. cbn. ring.
  - cbn [paths inner]. unfold path_cost. rewrite map_app, cost_app. fold (path_cost pmf (map (fun ip => (fst ip, 0%N :: snd ip)) (paths t0))).
    fold (path_cost pmf (map (fun ip => (fst ip, 1%N :: snd ip)) (paths t1))).
    rewrite !path_cost_cons, IH0, IH1, !tweight_leaves. ring.
Qed.

Lemma tweight_nonneg pmf t : Forall (fun p => (0 <= p)%Q) pmf -> (0 <= tweight pmf t)%Q.
Proof.
  intros H. induction t as [i|t0 IH0 t1 IH1]; cbn [tweight]; [|lra].
  unfold wt. destruct (nth_in_or_default i pmf 0%Q) as [Hin| ->]; [|apply Qle_refl].
  rewrite Forall_forall in H. apply H; auto.
Qed.

Definition lcost (pmf : list Q) (P : list ((hnode * btree) * nat)) : Q := cost (map (fun el => (tweight pmf (snd (fst el)), snd el)) P).
Definition isum (pmf : list Q) (F : list (hnode * btree)) : Q := qsum (map (fun e => inner pmf (snd e)) F).

Lemma qsum_perm l l' : Permutation l l' -> (qsum l == qsum l')%Q.
Proof.
  induction 1 as [|x l l' H IH|x y l|l1 l2 l3 H1 IH1 H2 IH2]; cbn [qsum fold_right]; try reflexivity.
  - fold (qsum l). fold (qsum l'). rewrite IH. reflexivity.
  - fold (qsum l). ring.
  - rewrite IH1. exact IH2.
Qed.

Lemma merges_optimal pmf F T : Forall (fun p => (0 <= p)%Q) pmf -> merges pmf F T ->
  forall P, map fst P = F -> (kraft_sum 2 (map snd P) <= 1)%Q -> (inner pmf T <= lcost pmf P + isum pmf F)%Q.
Proof.
  intros HN. induction 1 as [n t|e1 e0 F F' m T HP HM1 HM0 Hm HMg IH]; intros P EP K.
  - destruct P as [|[e l] [|? ?]]; try discriminate. cbn in EP. injection EP as ->.
    unfold lcost, isum. cbn [map cost fst snd qsum fold_right].
    pose proof (tweight_nonneg pmf t HN). pose proof (qn_nonneg l).
    assert ((0 <= tweight pmf t * qn l)%Q) by (apply Qmult_le_0_compat; auto). lra.
  - rewrite <- EP in HP. symmetry in HP. destruct (Permutation_map_inv _ _ HP) as [P1 [E1 PP]].
    destruct P1 as [|[e1' l1] [|[e0' l0] P1]]; try discriminate. cbn [map fst] in E1. injection E1 as <- <- ->.
    assert (K1 : (kraft_sum 2 (l1 :: l0 :: map snd (map (fun el => (tweight pmf (snd (fst el)), snd el)) P1)) <= 1)%Q).
    { rewrite map_map. cbn [snd]. rewrite (kraft_perm 2 _ (map snd P)); [exact K|].
      symmetry. apply (Permutation_map snd) in PP. exact PP. }
    inversion HM1 as [|? ? H10 H1F]; subst.
    destruct (merge_step (tweight pmf (snd e1)) l1 (tweight pmf (snd e0)) l0
      (map (fun el => (tweight pmf (snd (fst el)), snd el)) P1)) as (l' & P' & Q1 & Q2 & Q3); auto.
    { apply tweight_nonneg; auto. }
    { rewrite Forall_map. cbn [fst]. rewrite Forall_map in H1F. exact H1F. }
    { rewrite Forall_map. cbn [fst]. rewrite Forall_map in HM0. exact HM0. }
    rewrite map_map in Q1. cbn [fst] in Q1.
    set (P2 := (m, l') :: combine (map fst P1) (map snd P')).
    assert (LEN : length (map fst P1) = length (map snd P')).
    { apply (f_equal (@length Q)) in Q1. rewrite !map_length in Q1 |- *. lia. }
    assert (EP2 : map fst P2 = m :: map fst P1) by (unfold P2; cbn [map fst]; rewrite map_fst_combine' by auto; reflexivity).
    assert (ES2 : map snd P2 = l' :: map snd P') by (unfold P2; cbn [map snd]; rewrite map_snd_combine' by auto; reflexivity).
    specialize (IH P2 EP2). rewrite ES2 in IH. specialize (IH Q2).
    eapply Qle_trans; [exact IH|].
    assert (CE : (lcost pmf P2 == (tweight pmf (snd e0) + tweight pmf (snd e1)) * qn l' + cost P')%Q).
    { unfold lcost, P2. cbn [map cost fst snd]. rewrite Hm. cbn [tweight].
      assert (EE : map (fun el : hnode * btree * nat => (tweight pmf (snd (fst el)), snd el)) (combine (map fst P1) (map snd P')) = P').
      { clear -Q1. revert P' Q1; induction P1 as [|[e l] P1 IH]; intros [|[w l2] P'] E; cbn in *; try discriminate; auto.
        injection E as E1 E2. rewrite IH by auto. congruence. }
      rewrite EE. reflexivity. }
    rewrite CE.
    assert (C1 : (lcost pmf P == tweight pmf (snd e1) * qn l1 + tweight pmf (snd e0) * qn l0 +
       cost (map (fun el => (tweight pmf (snd (fst el)), snd el)) P1))%Q).
    { unfold lcost. rewrite (cost_perm _ _ (Permutation_map _ PP)). cbn [map cost fst snd]. ring. }
    rewrite C1.
    assert (C2 : (isum pmf (map fst P) == inner pmf (snd e1) + inner pmf (snd e0) + isum pmf (map fst P1))%Q).
    { unfold isum. rewrite (qsum_perm _ _ (Permutation_map _ (Permutation_map fst PP))). cbn [map fst qsum fold_right].
      fold (qsum (map (fun e => inner pmf (snd e)) (map fst P1))). ring. }
    rewrite C2.
    assert (C3 : (isum pmf (m :: map fst P1) == inner pmf (snd e1) + inner pmf (snd e0) + (tweight pmf (snd e0) + tweight pmf (snd e1)) + isum pmf (map fst P1))%Q).
    { unfold isum. cbn [map qsum fold_right]. fold (qsum (map (fun e => inner pmf (snd e)) (map fst P1))). rewrite Hm. cbn [inner]. ring. }
    rewrite C3. lra.
Qed.

(* ---------- the code words *)
Lemma wt_list pmf : map (wt pmf) (seq 0 (length pmf)) = pmf.
Proof.
  apply (list_ext 0%Q); [rewrite map_length, seq_length; auto|].
  rewrite map_length, seq_length. intros i Hi. rewrite nth_map_seq by auto. reflexivity.
Qed.

Lemma combine_map {A B C D} (f : A -> C) (g : B -> D) l l' : combine (map f l) (map g l') = map (fun ab => (f (fst ab), g (snd ab))) (combine l l').
Proof. revert l'; induction l as [|a l IH]; intros [|b l']; cbn; auto. f_equal; auto. Qed.
Lemma combine_same {A} (l : list A) : combine l l = map (fun a => (a, a)) l.
Proof. induction l as [|a l IH]; cbn; congruence. Qed.

Lemma tree_words_cost pmf T : Permutation (leaves T) (seq 0 (length pmf)) ->
  (cost (combine pmf (map wlen (tree_words (length pmf) T))) == inner pmf T)%Q.
Proof.
  intros HP. rewrite <- inner_paths. unfold path_cost.
  rewrite <- (wt_list pmf) at 1. unfold tree_words. rewrite map_map, combine_map, combine_same, map_map. cbn [fst snd].
  rewrite (cost_perm _ (map (fun a => (wt pmf a, wlen (lookup_path a (paths T)))) (leaves T)))
    by (apply Permutation_map; symmetry; exact HP).
  rewrite <- paths_leaves, map_map.
  assert (ND : NoDup (map fst (paths T))).
  { rewrite paths_leaves. eapply Permutation_NoDup; [symmetry; exact HP|apply seq_NoDup]. }
  assert (E : map (fun x : nat * list N => (wt pmf (fst x), wlen (lookup_path (fst x) (paths T)))) (paths T) =
     map (fun ip : nat * list N => (wt pmf (fst ip), length (snd ip))) (paths T)); [|rewrite E; reflexivity].
  apply map_ext_in. intros [i w] Hin. cbn [fst snd]. f_equal. unfold wlen. f_equal.
  clear -ND Hin. induction (paths T) as [|[j v] l IH]; [destruct Hin|]. cbn in *. inversion ND; subst.
  destruct Hin as [E|Hin]; [injection E as -> ->; rewrite Nat.eqb_refl; reflexivity|].
  destruct (Nat.eqb_spec i j) as [->|]; [|auto]. exfalso. apply H1. apply in_map_iff. exists (j, w); auto.
Qed.

Lemma huffman_optimal pmf T ls : Forall (fun p => (0 <= p)%Q) pmf -> merges pmf (start pmf) T ->
  Permutation (leaves T) (seq 0 (length pmf)) -> length ls = length pmf -> (kraft_sum 2 ls <= 1)%Q ->
  (cost (combine pmf (map wlen (tree_words (length pmf) T))) <= cost (combine pmf ls))%Q.
Proof.
  intros HN HM HP HL K. rewrite tree_words_cost by auto.
  assert (EL : length (start pmf) = length ls) by (unfold start; rewrite map_length, seq_length; lia).
  pose proof (merges_optimal pmf _ _ HN HM (combine (start pmf) ls)) as O.
  rewrite map_fst_combine', map_snd_combine' in O by auto. specialize (O eq_refl K).
  eapply Qle_trans; [exact O|].
  assert (Z : (isum pmf (start pmf) == 0)%Q).
  { unfold isum, start. rewrite map_map. cbn [snd inner]. clear.
    induction (seq 0 (length pmf)) as [|x l IH]; [reflexivity|]. cbn [map qsum fold_right].
    fold (qsum (map (fun _ : nat => 0%Q) l)). rewrite IH. reflexivity. }
  rewrite Z.
  assert (E : lcost pmf (combine (start pmf) ls) = cost (combine pmf ls)).
  { transitivity (cost (map (fun ab : nat * nat => (wt pmf (fst ab), snd ab)) (combine (seq 0 (length pmf)) ls))).
    - unfold lcost, start. f_equal. transitivity (map (fun el : hnode * btree * nat => (tweight pmf (snd (fst el)), snd el)) (combine (map (fun i => ({| nidx := i; nprob := wt pmf i; nleaf := true |}, BLeaf i)) (seq 0 (length pmf))) (map (fun x => x) ls)));
      [rewrite map_id; reflexivity|rewrite combine_map, map_map; reflexivity].
    - f_equal. transitivity (combine (map (wt pmf) (seq 0 (length pmf))) (map (fun x => x) ls));
      [rewrite combine_map; reflexivity|rewrite wt_list, map_id; reflexivity]. }
  rewrite E, Qplus_0_r. apply Qle_refl.
Qed.
