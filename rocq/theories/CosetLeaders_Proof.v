(* The breadth-first search of coset_leaders and coset_leader_weight_distribution. *)
From Verif Require Import Common Bits_Model Bits_Proof Vec_Model Vec_Proof LinAlg_Model Linear_Spec
  LinAlg_Proof XRref_Proof Null_Proof BlockCode_Model Code_Spec BlockCode_Proof.
Local Open Scope nat_scope.

Lemma bits_to_int_vxor a b : length a = length b ->
  bits_to_int (vxor a b) LSB_first = N.lxor (bits_to_int a LSB_first) (bits_to_int b LSB_first).
Proof.
  intros L. apply N.bits_inj. intros i. rewrite <- (Nnat.N2Nat.id i).
  rewrite N.lxor_spec, !bits_to_int_testbit, nth_vxor; auto.
Qed.

Lemma upd_flip j v n : length v = n -> j < n -> upd j (negb (nth j v false)) v = vxor v (unit_vec n j).
Proof.
  intros L H. apply vec_ext; rewrite upd_length, ?vxor_length; rewrite ?unit_vec_length; auto. intros i Hi.
  rewrite nth_upd, nth_vxor, nth_unit_vec by (rewrite ?unit_vec_length; lia).
  destruct (i =? j) eqn:E; [apply Nat.eqb_eq in E; subst; destruct (nth j v false)|destruct (nth i v false)]; auto.
Qed.

Lemma weight_unit n j : j < n -> weight (unit_vec n j) = 1.
Proof.
  revert j; induction n as [|n IH]; intros j H; [lia|]. destruct j as [|j].
  - rewrite unit_vec_0. unfold weight. cbn. f_equal. apply weight_zeros.
  - rewrite unit_vec_S. unfold weight. cbn. apply IH. lia.
Qed.

(* removing a one *)
Lemma weight_remove v w : weight v = S w -> exists j, j < length v /\ weight (vxor v (unit_vec (length v) j)) = w.
Proof.
  revert w; induction v as [|[] v IH]; intros w H; unfold weight in H; cbn in H.
  - discriminate.
  - exists 0. cbn [length]. split; [lia|]. rewrite unit_vec_0. cbn. rewrite vxor_zeros_r by auto. unfold weight; cbn. lia.
  - destruct (IH w H) as (j & Hj & E). exists (S j). cbn [length]. split; [lia|]. rewrite unit_vec_S. exact E.
Qed.

Definition trues (l : list bool) : nat := length (filter (fun b => b) l).

Lemma trues_upd i l : i < length l -> nth i l true = false -> trues (upd i true l) = S (trues l).
Proof.
  unfold trues. revert i; induction l as [|[] l IH]; intros [|i] H E; cbn in *; try lia; try discriminate; auto.
  - f_equal. apply IH; auto; lia.
  - apply IH; auto; lia.
Qed.

Lemma trues_all l : trues l = length l -> forall i, nth i l true = true.
Proof.
  unfold trues. assert (B : forall l : list bool, length (filter (fun b => b) l) <= length l).
  { intros x; induction x as [|[] x IH]; cbn; lia. }
  induction l as [|[] l IH]; cbn; intros H i.
  - destruct i; auto.
  - destruct i; auto.
  - specialize (B l). lia.
Qed.

Lemma trues_all_conv l : (forall i, i < length l -> nth i l true = true) -> trues l = length l.
Proof.
  unfold trues. induction l as [|b l IH]; cbn; intros H; auto. pose proof (H 0 ltac:(lia)) as Q. cbn in Q. subst b.
  cbn. f_equal. apply IH. intros i Hi. apply (H (S i)). lia.
Qed.

Section Search.
Variable C : block_code.
Hypothesis OK : check_ok C.
Let n := bc_n C.
Let m := bc_m C.
Let H := bc_H C.

Definition syn (v : vec) : N := bits_to_int (matvec (bc_H C) v) LSB_first.

Lemma syn_bound v : (syn v < 2 ^ N.of_nat m)%N.
Proof.
  unfold syn. pose proof (bits_to_int_bound (matvec (bc_H C) v) LSB_first) as B.
  rewrite matvec_length in B. destruct (ok_H C OK) as [_ L]. rewrite L in B. exact B.
Qed.

Lemma syn_bound_nat v : N.to_nat (syn v) < 2 ^ m.
Proof. pose proof (syn_bound v) as B. rewrite <- pow2_N in B. lia. Qed.

Lemma syn_vxor u v : length u = length v -> syn (vxor u v) = N.lxor (syn u) (syn v).
Proof. intros L. unfold syn. rewrite matvec_vxor by auto. apply bits_to_int_vxor. rewrite !matvec_length; auto. Qed.

Lemma H_cols_length : length (H_cols C) = n.
Proof. unfold H_cols. rewrite map_length, transpose_length; auto. Qed.

Lemma nth_H_cols j : j < n -> nth j (H_cols C) 0%N = syn (unit_vec n j).
Proof.
  intros Hj. unfold H_cols. rewrite (map_ext_nth _ _ []) by auto. rewrite nth_transpose by auto.
  unfold syn. f_equal. destruct (ok_H C OK) as [W L]. apply vec_ext; rewrite column_length, ?matvec_length; auto.
  intros i Hi. rewrite nth_column, nth_matvec. rewrite (dot_unit_r n); auto. apply wf_nth; auto.
Qed.

Lemma syn_zero : syn (zeros n) = 0%N.
Proof.
  unfold syn. rewrite matvec_zeros. apply N.bits_inj. intros i. rewrite <- (Nnat.N2Nat.id i).
  rewrite bits_to_int_testbit, nth_zeros. rewrite N.bits_0. auto.
Qed.

Lemma syn_onto s : (s < 2 ^ N.of_nat m)%N -> exists v, length v = n /\ syn v = s.
Proof.
  intros B. destruct (ok_check_onto C OK (int_to_bits s m LSB_first)) as (r & Lr & E); [apply int_to_bits_length|].
  exists r. split; auto. unfold syn. rewrite <- (ok_check C OK) by auto. rewrite E. apply bits_int_round_trip; auto.
Qed.

Definition reach (w : nat) (s : N) : Prop := exists v, length v = n /\ weight v <= w /\ syn v = s.
Definition minw (s : N) (w : nat) : Prop :=
  (exists v, length v = n /\ syn v = s /\ weight v = w) /\ (forall v, length v = n -> syn v = s -> w <= weight v).
Definition inR (s : N) : Prop := (s < 2 ^ N.of_nat m)%N.
Definition vis (b : bfs) (s : N) : bool := nth (N.to_nat s) (visited b) true.
Definition ld (b : bfs) (s : N) : vec := nth (N.to_nat s) (leaders b) [].

Definition is_leader (s : N) (l : vec) : Prop :=
  length l = n /\ syn l = s /\ forall v, length v = n -> syn v = s -> weight l <= weight v.

Record J (w : nat) (b : bfs) : Prop := {
  J_lv : length (visited b) = 2 ^ m;
  J_ll : length (leaders b) = 2 ^ m;
  J_ld : forall s, inR s -> vis b s = true -> is_leader s (ld b s) /\ weight (ld b s) <= S w;
  J_reach : forall s, reach w s -> vis b s = true;
  J_nd : NoDup (next b);
  J_next : forall s, In s (next b) <-> inR s /\ vis b s = true /\ weight (ld b s) = S w;
  J_count : count b = trues (visited b) }.

Definition grows (b b' : bfs) : Prop := forall s, inR s -> vis b s = true -> vis b' s = true /\ ld b' s = ld b s.

Lemma inR_nat s : inR s -> N.to_nat s < 2 ^ m.
Proof. unfold inR. rewrite <- pow2_N. lia. Qed.

Lemma inR_lxor a b : inR a -> inR b -> inR (N.lxor a b).
Proof.
  intros Ha Hb. destruct (syn_onto a Ha) as (u & Lu & <-), (syn_onto b Hb) as (v & Lv & <-).
  rewrite <- syn_vxor by congruence. apply syn_bound.
Qed.

Lemma inR_syn v : inR (syn v).
Proof. apply syn_bound. Qed.

Lemma visit_spec w b s j : J w b -> inR s -> vis b s = true -> weight (ld b s) = w -> j < n ->
  let h := nth j (H_cols C) 0%N in
  let b' := visit s j h b in
  J w b' /\ grows b b' /\ vis b' (N.lxor s h) = true /\
  (b' = b \/ count b' = S (count b)).
Proof.
  intros HJ Rs Vs Ws Hj h b'. pose proof HJ as [Lv Ll Hld Hr Hnd Hnx Hc].
  assert (Eh : h = syn (unit_vec n j)) by (apply nth_H_cols; auto).
  assert (Rh : inR h) by (rewrite Eh; apply inR_syn).
  set (s0 := N.lxor s h) in *. assert (Rs0 : inR s0) by (apply inR_lxor; auto).
  pose proof (inR_nat _ Rs0) as B0. pose proof (inR_nat _ Rs) as Bs.
  unfold b', visit. fold s0. fold (vis b s0) (ld b s). destruct (vis b s0) eqn:V0.
  - split; auto. split; [intros x Rx Vx; auto|]. split; auto.
  - destruct (Hld s Rs Vs) as [(Lds & Sds & Mds) _].
    set (l0 := upd j (negb (nth j (ld b s) false)) (ld b s)).
    assert (El0 : l0 = vxor (ld b s) (unit_vec n j)) by (apply upd_flip; auto).
    assert (Ll0 : length l0 = n) by (unfold l0; rewrite upd_length; auto).
    assert (Sl0 : syn l0 = s0).
    { rewrite El0, syn_vxor by (rewrite unit_vec_length; auto). rewrite Sds, <- Eh. auto. }
    assert (Wl0 : weight l0 <= S w).
    { rewrite El0. etransitivity; [apply weight_vxor_le; rewrite unit_vec_length; auto|]. rewrite weight_unit by auto. lia. }
    assert (Min : forall v, length v = n -> syn v = s0 -> S w <= weight v).
    { intros v Lv' Sv. destruct (le_lt_dec (S w) (weight v)) as [Q|Q]; auto. exfalso.
      rewrite (Hr s0) in V0; [discriminate|]. exists v. split; auto. split; auto. lia. }
    assert (W0 : weight l0 = S w) by (specialize (Min l0 Ll0 Sl0); lia).
    set (b1 := {| visited := _; leaders := _; next := _; count := _ |}).
    assert (V1 : forall x, inR x -> vis b1 x = if N.eqb x s0 then true else vis b x).
    { intros x Rx. unfold vis, b1. cbn [visited]. rewrite nth_upd by lia.
      destruct (N.eqb x s0) eqn:Q.
      - apply N.eqb_eq in Q. subst x. rewrite Nat.eqb_refl. auto.
      - apply N.eqb_neq in Q. rewrite (proj2 (Nat.eqb_neq _ _)); auto. lia. }
    assert (D1 : forall x, inR x -> ld b1 x = if N.eqb x s0 then l0 else ld b x).
    { intros x Rx. unfold ld, b1. cbn [leaders]. rewrite nth_upd by lia.
      destruct (N.eqb x s0) eqn:Q.
      - apply N.eqb_eq in Q. subst x. rewrite Nat.eqb_refl. auto.
      - apply N.eqb_neq in Q. rewrite (proj2 (Nat.eqb_neq _ _)); auto. lia. }
    split; [|split; [|split]].
    + constructor.
      * unfold b1; cbn [visited]. rewrite upd_length; auto.
      * unfold b1; cbn [leaders]. rewrite upd_length; auto.
      * intros x Rx. rewrite V1, D1 by auto. destruct (N.eqb x s0) eqn:Q; [|auto]. intros _.
        apply N.eqb_eq in Q. subst x. split; [|lia]. split; auto. split; auto. intros v Lv' Sv. rewrite W0. auto.
      * intros x Rx. assert (inR x) by (destruct Rx as (v & _ & _ & <-); apply inR_syn).
        rewrite V1 by auto. destruct (N.eqb x s0); auto.
      * unfold b1; cbn [next]. apply NoDup_app_intro; auto; [repeat constructor; auto|].
        intros x Hx [<-|[]]. apply Hnx in Hx as (_ & Vx & _). congruence.
      * intros x. unfold b1 at 1. cbn [next]. rewrite in_app_iff, Hnx. cbn [In]. split.
        -- intros [(Rx & Vx & Wx)|[<-|[]]].
           ++ split; auto. rewrite V1, D1 by auto. destruct (N.eqb x s0) eqn:Q; auto.
           ++ split; auto. rewrite V1, D1, N.eqb_refl by auto. auto.
        -- intros (Rx & Vx & Wx). rewrite V1 in Vx by auto. rewrite D1 in Wx by auto.
           destruct (N.eqb x s0) eqn:Q; [apply N.eqb_eq in Q; auto|auto].
      * unfold b1. cbn [count visited]. rewrite trues_upd by (auto; rewrite Lv; auto). lia.
    + intros x Rx Vx. rewrite V1, D1 by auto. destruct (N.eqb x s0) eqn:Q; auto.
      apply N.eqb_eq in Q. subst. congruence.
    + rewrite V1, N.eqb_refl by auto. auto.
    + right. reflexivity.
Qed.

Lemma grows_refl b : grows b b.
Proof. intros x; auto. Qed.
Lemma grows_trans a b c : grows a b -> grows b c -> grows a c.
Proof. intros H1 H2 x Rx Vx. destruct (H1 x Rx Vx) as [V E]. destruct (H2 x Rx V) as [V' E']. split; congruence. Qed.

Definition out (r : bfs + bfs) : bfs := match r with inl b => b | inr b => b end.

Lemma visit_cols_spec w s : inR s -> forall cols j b, J w b -> vis b s = true -> weight (ld b s) = w ->
  cols = skipn j (H_cols C) -> count b < 2 ^ m ->
  let r := visit_cols m s j cols b in
  J w (out r) /\ grows b (out r) /\
  (match r with
   | inl b' => count b' < 2 ^ m /\ forall i, j <= i < n -> vis b' (N.lxor s (nth i (H_cols C) 0%N)) = true
   | inr b' => count b' = 2 ^ m
   end).
Proof.
  intros Rs. induction cols as [|h cols IH]; intros j b HJ Vs Ws Ec Hc; cbn [visit_cols].
  - cbn. split; auto. split; [apply grows_refl|]. split; auto. intros i Hi.
    apply (f_equal (@length _)) in Ec. rewrite skipn_length, H_cols_length in Ec. cbn in Ec. lia.
  - assert (Hj : j < n).
    { apply (f_equal (@length _)) in Ec. rewrite skipn_length, H_cols_length in Ec. cbn in Ec. lia. }
    assert (Eh : h = nth j (H_cols C) 0%N).
    { apply (f_equal (fun l => nth 0 l 0%N)) in Ec. rewrite nth_skipn' in Ec. cbn in Ec. rewrite Nat.add_0_r in Ec. auto. }
    assert (Et : cols = skipn (S j) (H_cols C)).
    { apply (f_equal (@tl _)) in Ec. cbn [tl] in Ec. rewrite Ec. clear. revert j. induction (H_cols C) as [|x l IHl]; intros [|j]; auto.
      change (tl (skipn j l) = skipn (S j) l). apply IHl. }
    subst h. destruct (visit_spec w b s j HJ Rs Vs Ws Hj) as (HJ' & G' & V' & Cc). cbn zeta in *.
    set (b' := visit s j (nth j (H_cols C) 0%N) b) in *.
    destruct (negb (count b' =? count b) && (count b' =? 2 ^ m)) eqn:Q.
    + cbn [out]. split; auto. split; auto. apply andb_true_iff in Q as [_ Q]. apply Nat.eqb_eq in Q. auto.
    + assert (Hc' : count b' < 2 ^ m).
      { destruct Cc as [->|Cc]; auto. apply andb_false_iff in Q as [Q|Q].
        - apply negb_false_iff, Nat.eqb_eq in Q. lia.
        - apply Nat.eqb_neq in Q. lia. }
      destruct (G' s Rs Vs) as [Vs' Es'].
      destruct (IH (S j) b' HJ' Vs') as (I1 & I2 & I3); auto; [rewrite Es'; auto|].
      cbn zeta in *. split; auto. split; [eapply grows_trans; eauto|].
      destruct (visit_cols m s (S j) cols b') as [b2|b2]; auto. destruct I3 as [I3 I4]. split; auto.
      intros i Hi. destruct (Nat.eq_dec i j) as [->|]; [|apply I4; lia].
      apply I2; auto. apply inR_lxor; auto. rewrite nth_H_cols by auto. apply inR_syn.
Qed.

Lemma visit_all_spec w : forall syns b, J w b -> (forall s, In s syns -> inR s /\ vis b s = true /\ weight (ld b s) = w) ->
  count b < 2 ^ m ->
  let r := visit_all m (H_cols C) syns b in
  J w (out r) /\ grows b (out r) /\
  (match r with
   | inl b' => count b' < 2 ^ m /\ forall s i, In s syns -> i < n -> vis b' (N.lxor s (nth i (H_cols C) 0%N)) = true
   | inr b' => count b' = 2 ^ m
   end).
Proof.
  induction syns as [|s syns IH]; intros b HJ HS Hc; cbn [visit_all].
  - cbn. split; auto. split; [apply grows_refl|]. split; auto.
  - destruct (HS s (or_introl eq_refl)) as (Rs & Vs & Ws).
    destruct (visit_cols_spec w s Rs (H_cols C) 0 b HJ Vs Ws eq_refl Hc) as (I1 & I2 & I3). cbn zeta in *.
    destruct (visit_cols m s 0 (H_cols C) b) as [b1|b1]; cbn [out] in *; [|split; auto].
    destruct I3 as [I3 I4].
    destruct (IH b1 I1) as (K1 & K2 & K3); auto.
    { intros x Hx. destruct (HS x (or_intror Hx)) as (Rx & Vx & Wx). destruct (I2 x Rx Vx) as [V E].
      rewrite E. auto. }
    cbn zeta in *. split; auto. split; [eapply grows_trans; eauto|].
    destruct (visit_all m (H_cols C) syns b1) as [b2|b2]; auto. destruct K3 as [K3 K4]. split; auto.
    intros x i [<-|Hx] Hi; [|apply K4; auto].
    apply K2; [|apply I4; lia]. apply inR_lxor; auto. rewrite nth_H_cols by auto. apply inR_syn.
Qed.

(* state at the head of the outer loop, level w *)
Record Head (w : nat) (syns : list N) (b : bfs) : Prop := {
  Hd_lv : length (visited b) = 2 ^ m;
  Hd_ll : length (leaders b) = 2 ^ m;
  Hd_vis : forall s, inR s -> (vis b s = true <-> reach w s);
  Hd_ld : forall s, inR s -> vis b s = true -> is_leader s (ld b s);
  Hd_nd : NoDup syns;
  Hd_syns : forall s, In s syns <-> inR s /\ minw s w;
  Hd_count : count b = trues (visited b);
  Hd_lt : count b < 2 ^ m }.

Definition clear_next (b : bfs) : bfs := {| visited := visited b; leaders := leaders b; next := []; count := count b |}.

Lemma reach_leader w s l : is_leader s l -> (reach w s <-> weight l <= w).
Proof.
  intros (L & S & M). split.
  - intros (v & Lv & Wv & Sv). specialize (M v Lv Sv). lia.
  - intros Hw. exists l. auto.
Qed.

Lemma minw_leader w s l : is_leader s l -> (minw s w <-> weight l = w).
Proof.
  intros (L & S & M). split.
  - intros [(v & Lv & Sv & Wv) Mv]. specialize (M v Lv Sv). specialize (Mv l L S). lia.
  - intros <-. split; [exists l; auto|auto].
Qed.

Lemma head_J w syns b : Head w syns b -> J w (clear_next b) /\
  (forall s, In s syns -> inR s /\ vis (clear_next b) s = true /\ weight (ld (clear_next b) s) = w).
Proof.
  intros [Lv Ll Hv Hl Nd Hs Hc Hlt]. split.
  - constructor; auto.
    + intros s Rs Vs. assert (Ls := Hl s Rs Vs). split; [exact Ls|].
      apply Hv in Vs; auto. apply (reach_leader w s (ld b s) Ls) in Vs. change (ld (clear_next b) s) with (ld b s). lia.
    + intros s Rc. apply Hv; auto. destruct Rc as (v & _ & _ & <-). apply inR_syn.
    + constructor.
    + intros s. cbn [next clear_next In]. split; [intros []|]. intros (Rs & Vs & Ws). 
      assert (Vs' := Vs). apply Hv in Vs'; auto. apply (reach_leader w s (ld b s)) in Vs'; [|apply Hl; auto].
      change (ld (clear_next b) s) with (ld b s) in Ws. lia.
  - intros s Hin. apply Hs in Hin as [Rs Ms]. split; auto.
    assert (V : vis b s = true).
    { apply Hv; auto. destruct Ms as [(v & Lv' & Sv & Wv) _]. exists v. repeat split; auto; lia. }
    split; auto. apply (minw_leader w s); auto. apply Hl; auto.
Qed.

Lemma level_complete w syns b b' : Head w syns b -> J w b' -> grows (clear_next b) b' ->
  count b' < 2 ^ m -> (forall s i, In s syns -> i < n -> vis b' (N.lxor s (nth i (H_cols C) 0%N)) = true) ->
  Head (S w) (next b') b'.
Proof.
  intros HH HJ G Hc HP. pose proof HJ as [Lv Ll Hld Hr Hnd Hnx Hcount]. destruct HH as [Lv0 Ll0 Hv0 Hl0 Nd0 Hs0 Hc0 Hlt0].
  assert (RV : forall s, reach (S w) s -> vis b' s = true).
  { intros s (v & Lv' & Wv & Sv). destruct (le_lt_dec (weight v) w) as [Q|Q]; [apply Hr; exists v; auto|].
    destruct (weight_remove v w) as (j & Hj & E); [lia|]. rewrite Lv' in *.
    set (v' := vxor v (unit_vec n j)) in *.
    assert (Lv2 : length v' = n) by (unfold v'; rewrite vxor_length; auto; rewrite unit_vec_length; auto).
    assert (Ev : v = vxor v' (unit_vec n j)).
    { unfold v'. rewrite vxor_cancel_r; auto. rewrite unit_vec_length; auto. }
    assert (Es : s = N.lxor (syn v') (nth j (H_cols C) 0%N)).
    { rewrite nth_H_cols by auto. rewrite <- syn_vxor by (rewrite unit_vec_length; auto). congruence. }
    assert (Rv' : reach w (syn v')) by (exists v'; repeat split; auto; lia).
    assert (V' : vis b (syn v') = true) by (apply Hv0; auto; apply inR_syn).
    pose proof (Hl0 _ (inR_syn v') V') as Lead.
    destruct (Nat.eq_dec (weight (ld b (syn v'))) w) as [Z|Z].
    - rewrite Es. apply HP; auto. apply Hs0. split; [apply inR_syn|]. apply (minw_leader w _ _ Lead); auto.
    - (* a lighter representative *)
      assert (Z' : weight (ld b (syn v')) < w).
      { destruct Lead as (_ & _ & M). specialize (M v' Lv2 eq_refl). lia. }
      apply Hr. exists (vxor (ld b (syn v')) (unit_vec n j)). destruct Lead as (LL & SS & _).
      split; [rewrite vxor_length; auto; rewrite unit_vec_length; auto|]. split.
      + etransitivity; [apply weight_vxor_le; rewrite unit_vec_length; auto|]. rewrite weight_unit by auto. lia.
      + rewrite syn_vxor by (rewrite unit_vec_length; auto). rewrite SS, Es, nth_H_cols; auto. }
  constructor; auto.
  - intros s Rs. split; [|apply RV]. intros V. destruct (Hld s Rs V) as [Lead Wl].
    apply (reach_leader (S w) s _ Lead). auto.
  - intros s Rs V. apply Hld; auto.
  - intros s. rewrite Hnx. split.
    + intros (Rs & V & Ws). split; auto. apply (minw_leader _ s (ld b' s)); auto. apply Hld; auto.
    + intros (Rs & Ms). split; auto.
      assert (V : vis b' s = true).
      { apply RV. destruct Ms as [(v & Lv' & Sv & Wv) _]. exists v. repeat split; auto; lia. }
      split; auto. apply (minw_leader (S w) s); auto. apply Hld; auto.
Qed.

Lemma head_bound w syns b : Head w syns b -> w < n.
Proof.
  intros HH. destruct (le_lt_dec n w) as [Q|Q]; auto. exfalso.
  destruct HH as [Lv Ll Hv Hl Nd Hs Hc Hlt].
  assert (T : trues (visited b) = length (visited b)).
  { apply trues_all_conv. intros i Hi. rewrite Lv in Hi.
    assert (R : inR (N.of_nat i)) by (unfold inR; rewrite <- pow2_N; lia).
    destruct (syn_onto _ R) as (v & Lv' & Sv).
    assert (V : vis b (N.of_nat i) = true).
    { apply Hv; auto. exists v. repeat split; auto. pose proof (weight_le v). lia. }
    unfold vis in V. rewrite Nnat.Nat2N.id in V. auto. }
  lia.
Qed.

(* specification of the final table *)
Definition table_ok (lds : list vec) : Prop :=
  length lds = 2 ^ m /\ forall s, inR s -> is_leader s (nth (N.to_nat s) lds []).

Lemma return_table w b' : J w b' -> count b' = 2 ^ m -> table_ok (leaders b').
Proof.
  intros [Lv Ll Hld Hr Hnd Hnx Hc] E. split; auto. intros s Rs. apply Hld; auto.
  unfold vis. apply trues_all. lia.
Qed.

Lemma bfs_loop_spec : forall fuel w syns b, Head w syns b -> n <= w + fuel ->
  exists lds, bfs_loop m (H_cols C) fuel syns b = Some lds /\ table_ok lds.
Proof.
  induction fuel as [|f IH]; intros w syns b HH Hf.
  - exfalso. pose proof (head_bound w syns b HH). lia.
  - destruct (head_J w syns b HH) as [HJ HS].
    destruct (visit_all_spec w syns (clear_next b) HJ HS (Hd_lt _ _ _ HH)) as (I1 & I2 & I3). cbn zeta in *.
    cbn [bfs_loop]. fold (clear_next b).
    destruct (visit_all m (H_cols C) syns (clear_next b)) as [b'|b'] eqn:E; cbn [out] in *.
    + destruct I3 as [I3 I4]. apply (IH (S w)); [|lia]. apply (level_complete w syns b); auto.
    + exists (leaders b'). split; auto. apply (return_table w); auto.
Qed.

Lemma init_head : m <> 0 -> Head 0 [0%N] (bfs_init m n).
Proof.
  intros Hm. assert (P : 1 < 2 ^ m). { destruct m as [|m']; [congruence|]. cbn. pose proof (Nat.pow_nonzero 2 m'). lia. }
  assert (L : forall s, inR s -> ld (bfs_init m n) s = zeros n).
  { intros s Rs. unfold ld. cbn [leaders bfs_init]. pose proof (inR_nat s Rs). rewrite (nth_indep _ _ (zeros n)) by (rewrite repeat_length; auto).
    apply nth_repeat. }
  assert (V : forall s, inR s -> (vis (bfs_init m n) s = true <-> s = 0%N)).
  { intros s Rs. unfold vis. cbn [visited bfs_init]. pose proof (inR_nat s Rs). rewrite nth_upd by (rewrite repeat_length; lia).
    destruct (N.to_nat s =? 0) eqn:Q.
    - apply Nat.eqb_eq in Q. split; auto. intros _. lia.
    - apply Nat.eqb_neq in Q. rewrite (nth_indep _ _ false) by (rewrite repeat_length; auto).
      rewrite nth_repeat. split; [discriminate|]. intros ->. lia. }
  assert (W0 : forall v, length v = n -> weight v = 0 -> v = zeros n).
  { intros v Lv Wv. apply weight_zero in Wv. rewrite Lv in Wv. auto. }
  constructor; cbn [visited leaders count bfs_init]; rewrite ?upd_length, ?repeat_length; auto.
  - intros s Rs. rewrite V by auto. split.
    + intros ->. exists (zeros n). rewrite zeros_length, weight_zeros. repeat split; auto. apply syn_zero.
    + intros (v & Lv & Wv & <-). rewrite (W0 v) by (auto; lia). apply syn_zero.
  - intros s Rs Vs. rewrite L by auto. apply V in Vs; auto. subst s. split; [apply zeros_length|]. split; [apply syn_zero|].
    intros; rewrite weight_zeros; lia.
  - constructor; auto. constructor.
  - intros s. cbn. split.
    + intros [<-|[]]. split; [unfold inR; rewrite <- pow2_N; lia|]. split.
      * exists (zeros n). rewrite zeros_length, weight_zeros. repeat split; auto. apply syn_zero.
      * intros; lia.
    + intros (Rs & (v & Lv & <- & Wv) & _). left. rewrite (W0 v) by auto. symmetry. apply syn_zero.
  - rewrite trues_upd.
    + f_equal. unfold trues. generalize (2 ^ m). induction n0 as [|x IH]; cbn; auto.
    + rewrite repeat_length. lia.
    + rewrite (nth_indep _ _ false) by (rewrite repeat_length; lia). apply nth_repeat.
Qed.

Theorem coset_leaders_ok : m <> 0 -> exists lds, coset_leaders C = Some lds /\ table_ok lds.
Proof.
  intros Hm. unfold coset_leaders, coset_leaders_fuel.
  apply (bfs_loop_spec n 0); [apply init_head; auto|lia].
Qed.

(* more fuel changes nothing *)
Lemma bfs_loop_more f f' syns b lds : bfs_loop m (H_cols C) f syns b = Some lds -> f <= f' ->
  bfs_loop m (H_cols C) f' syns b = Some lds.
Proof.
  revert f' syns b. induction f as [|f IH]; intros [|f'] syns b E L; cbn in *; try discriminate; try lia.
  destruct (visit_all _ _ _ _); auto. apply IH; auto; lia.
Qed.

(* ---- weight distribution of the leaders ---- *)
Definition same (b bd : bfs) : Prop := visited b = visited bd /\ next b = next bd /\ count b = count bd.

Lemma visit_same s j h b bd : same b bd -> same (visit s j h b) (visit_d s h bd).
Proof.
  intros (E1 & E2 & E3). unfold visit, visit_d. rewrite E1. destruct (nth _ _ _); [repeat split; auto|].
  repeat split; cbn; congruence.
Qed.

Definition same_r (r rd : bfs + bfs) : Prop :=
  match r, rd with inl b, inl bd => same b bd | inr b, inr bd => same b bd | _, _ => False end.

Lemma visit_cols_same s cols : forall j b bd, same b bd -> same_r (visit_cols m s j cols b) (visit_cols_d m s cols bd).
Proof.
  induction cols as [|h cols IH]; intros j b bd E; cbn; auto.
  pose proof (visit_same s j h b bd E) as E'. destruct E as (_ & _ & E3). pose proof E' as (_ & _ & E3').
  rewrite E3, E3'. destruct (_ && _); cbn; auto.
Qed.

Lemma visit_all_same cols syns : forall b bd, same b bd -> same_r (visit_all m cols syns b) (visit_all_d m cols syns bd).
Proof.
  induction syns as [|s syns IH]; intros b bd E; cbn; auto.
  pose proof (visit_cols_same s cols 0 b bd E) as E'.
  destruct (visit_cols m s 0 cols b), (visit_cols_d m s cols bd); cbn in *; auto; tauto.
Qed.

Lemma minw_unique s a b : minw s a -> minw s b -> a = b.
Proof.
  intros [(v & Lv & Sv & Wv) Mv] [(u & Lu & Su & Wu) Mu]. specialize (Mv u Lu Su). specialize (Mu v Lv Sv). lia.
Qed.

(* the number of syndromes whose lightest word has weight w *)
Definition level_count (w c : nat) : Prop := exists l, NoDup l /\ length l = c /\ forall s, In s l <-> inR s /\ minw s w.

Lemma level_count_unique w a b : level_count w a -> level_count w b -> a = b.
Proof. intros (l & N1 & <- & H1) (l' & N2 & <- & H2). apply Nat.le_antisymm; apply NoDup_incl_length; auto; intros x Hx; [apply H2, H1|apply H1, H2]; auto. Qed.

Lemma bfs_loop_d_spec : forall fuel w syns b bd dist, Head w syns b -> visited b = visited bd -> count b = count bd ->
  n <= w + fuel -> length dist = n + 1 ->
  (forall i, i < w -> level_count i (nth i dist 0)) -> (forall i, w <= i -> nth i dist 0 = 0) ->
  exists d, bfs_loop_d m (H_cols C) fuel syns w dist bd = Some d /\ length d = n + 1 /\
    forall i, i <= n -> level_count i (nth i d 0).
Proof.
  induction fuel as [|f IH]; intros w syns b bd dist HH Ev Ec Hf Ld Hlt Hge.
  - exfalso. pose proof (head_bound w syns b HH). lia.
  - pose proof (head_bound w syns b HH) as Hw.
    destruct (head_J w syns b HH) as [HJ HS].
    destruct (visit_all_spec w syns (clear_next b) HJ HS (Hd_lt _ _ _ HH)) as (I1 & I2 & I3). cbn zeta in *.
    cbn [bfs_loop_d]. rewrite Ld. rewrite (proj2 (Nat.leb_gt (n + 1) w)) by lia. fold (clear_next bd).
    pose proof (visit_all_same (H_cols C) syns (clear_next b) (clear_next bd)) as SR.
    specialize (SR ltac:(repeat split; cbn; auto)).
    assert (Lw : level_count w (length syns)).
    { exists syns. split; [apply (Hd_nd _ _ _ HH)|]. split; auto. apply (Hd_syns _ _ _ HH). }
    destruct (visit_all m (H_cols C) syns (clear_next b)) as [b'|b'], (visit_all_d m (H_cols C) syns (clear_next bd)) as [bd'|bd'];
      cbn [out same_r] in *; try tauto; destruct SR as (S1 & S2 & S3).
    + destruct I3 as [I3 I4]. rewrite <- S2.
      apply (IH (S w) (next b') b' bd'); auto; try lia.
      * apply (level_complete w syns b); auto.
      * rewrite upd_length; auto.
      * intros i Hi. rewrite nth_upd by lia. destruct (i =? w) eqn:Q; [apply Nat.eqb_eq in Q; subst; auto|].
        apply Nat.eqb_neq in Q. apply Hlt; lia.
      * intros i Hi. rewrite nth_upd by lia. rewrite (proj2 (Nat.eqb_neq _ _)) by lia. apply Hge; lia.
    + rewrite (proj2 (Nat.leb_gt (n + 1) (w + 1))) by lia. eexists. split; [reflexivity|].
      rewrite !upd_length. split; auto. intros i Hi. rewrite !nth_upd by (rewrite ?upd_length; lia).
      pose proof (return_table w b' I1 I3) as [_ TT].
      assert (AllV : forall s, inR s -> vis b' s = true).
      { intros s Rs. unfold vis. apply trues_all. rewrite (J_lv _ _ I1), <- (J_count _ _ I1). auto. }
      assert (Bd : forall s v, inR s -> minw s v -> v <= S w).
      { intros s v Rs Ms. destruct (J_ld _ _ I1 s Rs (AllV s Rs)) as [Ld' Wd'].
        apply (minw_leader v s _ Ld') in Ms. lia. }
      destruct (i =? w + 1) eqn:Q1; [|destruct (i =? w) eqn:Q2].
      * apply Nat.eqb_eq in Q1. subst i. rewrite <- S2. exists (next b'). split; [apply (J_nd _ _ I1)|]. split; auto.
        intros s. rewrite (J_next _ _ I1). split.
        -- intros (Rs & V & Ws). split; auto. apply (minw_leader (w + 1) s (ld b' s)); [apply (J_ld _ _ I1); auto|lia].
        -- intros (Rs & Ms). split; auto. split; auto.
           apply (minw_leader (w + 1) s (ld b' s)) in Ms; [lia|]. apply (J_ld _ _ I1); auto.
      * apply Nat.eqb_eq in Q2. subst i. auto.
      * apply Nat.eqb_neq in Q1, Q2. destruct (lt_dec i w) as [Z|Z]; [apply Hlt; auto|].
        rewrite Hge by lia. exists []. split; [constructor|]. split; auto. cbn. intros s. split; [tauto|].
        intros (Rs & Ms). specialize (Bd s i Rs Ms). lia.
Qed.

Lemma table_level_count lds w : table_ok lds -> level_count w (length (filter (fun l => weight l =? w) lds)).
Proof.
  intros [L T]. set (f := fun i => weight (nth i lds []) =? w).
  exists (map N.of_nat (filter f (seq 0 (2 ^ m)))). split; [|split].
  - apply NoDup_map_inj_in; [intros x y _ _ E; lia|]. apply NoDup_filter, seq_NoDup.
  - rewrite map_length. rewrite <- L. clear - f. unfold f.
    assert (G : forall l, length (filter (fun i => weight (nth i l []) =? w) (seq 0 (length l))) = length (filter (fun l => weight l =? w) l)).
    { induction l as [|x l IH]; auto. cbn [length seq filter]. cbn [nth].
      assert (E : length (filter (fun i => weight (nth i (x :: l) []) =? w) (seq 1 (length l))) = length (filter (fun l => weight l =? w) l)).
      { rewrite <- IH. rewrite <- seq_shift. clear. induction (seq 0 (length l)) as [|a t IHt]; auto.
        cbn [map filter nth]. destruct (weight (nth a l []) =? w); cbn [length]; auto. }
      destruct (weight x =? w); cbn [length]; auto. }
    apply G.
  - intros s. rewrite in_map_iff. split.
    + intros (i & <- & Hi). apply filter_In in Hi as [Hi Fi]. apply in_seq in Hi. apply Nat.eqb_eq in Fi.
      assert (R : inR (N.of_nat i)) by (unfold inR; rewrite <- pow2_N; lia). split; auto.
      specialize (T _ R). rewrite Nnat.Nat2N.id in T. apply (minw_leader w _ _ T); auto.
    + intros (R & Ms). exists (N.to_nat s). split; [lia|]. apply filter_In. split.
      * apply in_seq. pose proof (inR_nat s R). lia.
      * apply Nat.eqb_eq. apply (minw_leader w s); auto.
Qed.

Theorem clwd_ok cached : m <> 0 -> exists d lds, coset_leader_weight_distribution C cached = Some d /\
  coset_leaders C = Some lds /\ table_ok lds /\ length d = n + 1 /\
  forall w, w <= n -> nth w d 0 = length (filter (fun l => weight l =? w) lds).
Proof.
  intros Hm. destruct (coset_leaders_ok Hm) as (lds & E & T). unfold coset_leader_weight_distribution. destruct cached.
  - rewrite E. cbn. eexists; exists lds. split; [reflexivity|]. split; auto. split; auto.
    rewrite bincount_spec.
    + rewrite map_length, seq_length. split; auto. intros w Hw.
      rewrite (nth_map_seq (fun w => count_occ Nat.eq_dec (map vsum lds) w)) by lia.
      clear. induction lds as [|c l IH]; cbn; auto. rewrite vsum_weight.
      destruct (Nat.eq_dec (weight c) w) as [Q|Q].
      * rewrite (proj2 (Nat.eqb_eq _ _) Q). cbn. rewrite IH; auto.
      * rewrite (proj2 (Nat.eqb_neq _ _) Q). auto.
    + intros x Hx. apply in_map_iff in Hx as (v & <- & Hv). rewrite vsum_weight.
      apply In_nth with (d := []) in Hv as (i & Hi & <-). destruct T as [L T]. rewrite L in Hi.
      assert (R : inR (N.of_nat i)) by (unfold inR; rewrite <- pow2_N; lia).
      specialize (T _ R). rewrite Nnat.Nat2N.id in T. destruct T as (Ln & _). unfold n in Ln. rewrite <- Ln. apply weight_le.
  - destruct (bfs_loop_d_spec n 0 [0%N] (bfs_init m n) (bfs_init m n) (repeat 0 (n + 1))) as (d & Ed & Ld & Hd); auto; try lia.
    + apply init_head; auto.
    + apply repeat_length.
    + intros i _. destruct (lt_dec i (n + 1)); [|rewrite nth_overflow by (rewrite repeat_length; lia); auto].
      apply nth_repeat.
    + exists d, lds. split; auto. split; auto. split; auto. split; auto.
      intros w Hw. apply (level_count_unique w); [apply Hd; auto|apply table_level_count; auto].
Qed.

End Search.
