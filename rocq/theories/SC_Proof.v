(* Successive-cancellation decoding of polar codes. *)
From Coq Require Import Reals Lra Psatz.
From Verif Require Import Common Vec_Model Vec_Proof LinAlg_Model LinAlg_Proof BlockCode_Model Systematic_Proof Polar_Model Polar_Proof SC_Model.
Local Open Scope nat_scope.

(* ---- boxplus ---- *)
Section Boxplus.
Local Open Scope R_scope.

Lemma half_abs p : 1 + exp (- Rabs p) = exp (- Rabs p / 2) * (exp (p / 2) + exp (- (p / 2))).
Proof.
  rewrite Rmult_plus_distr_l, <- !exp_plus. destruct (Rle_dec 0 p) as [H|H].
  - rewrite Rabs_right by lra. replace (- p / 2 + p / 2) with 0 by field. replace (- p / 2 + - (p / 2)) with (- p) by field. rewrite exp_0. lra.
  - rewrite Rabs_left by lra. replace (- - p / 2 + p / 2) with p by field. replace (- - p / 2 + - (p / 2)) with 0 by field.
    replace (- - p) with p by ring. rewrite exp_0. lra.
Qed.

Lemma sign_min a b : Rsign a * Rsign b * Rmin (Rabs a) (Rabs b) = (Rabs (a + b) - Rabs (a - b)) / 2.
Proof.
  unfold Rsign, Rmin, Rabs. repeat destruct (Rlt_dec _ _); repeat destruct (Rcase_abs _); repeat destruct (Rle_dec _ _); lra.
Qed.

(* the L-value of the modulo-2 sum: P(X+Y = 0) / P(X+Y = 1) *)
Lemma boxplus_exp a b : exp (boxplus a b) = (1 + exp (a + b)) / (exp a + exp b).
Proof.
  assert (E0 : forall x y z, exp (x + y - z) = exp x * exp y / exp z).
  { intros x y z. unfold Rminus, Rdiv. rewrite !exp_plus, exp_Ropp. auto. }
  unfold boxplus. rewrite sign_min, E0.
  assert (P : forall x, 0 < 1 + exp x) by (intros x; pose proof (exp_pos x); lra).
  rewrite !exp_ln by auto. rewrite !half_abs.
  set (p := a + b). set (q := a - b).
  assert (E1 : exp ((Rabs p - Rabs q) / 2) = exp (Rabs p / 2) / exp (Rabs q / 2)).
  { unfold Rdiv. rewrite <- exp_Ropp, <- exp_plus. f_equal. field. }
  assert (E2 : forall x, exp (- Rabs x / 2) = / exp (Rabs x / 2)).
  { intros x. rewrite <- exp_Ropp. f_equal. field. }
  rewrite E1, !E2.
  assert (N : 1 + exp p = exp (p / 2) * (exp (p / 2) + exp (- (p / 2)))).
  { rewrite Rmult_plus_distr_l, <- !exp_plus. replace (p / 2 + p / 2) with p by field. replace (p / 2 + - (p / 2)) with 0 by field. rewrite exp_0. lra. }
  assert (D : exp a + exp b = exp (p / 2) * (exp (q / 2) + exp (- (q / 2)))).
  { rewrite Rmult_plus_distr_l, <- !exp_plus. unfold p, q. f_equal; f_equal; field. }
  rewrite N, D. pose proof (exp_pos (Rabs p / 2)). pose proof (exp_pos (Rabs q / 2)). pose proof (exp_pos (p / 2)).
  pose proof (exp_pos (q / 2)). pose proof (exp_pos (- (q / 2))). field. repeat split; lra.
Qed.

Lemma boxplus_sign a b : boxplus a b > 0 <-> (0 < a /\ 0 < b) \/ (a < 0 /\ b < 0).
Proof.
  assert (E : (exp (boxplus a b) - 1) * (exp a + exp b) = (exp a - 1) * (exp b - 1)).
  { rewrite boxplus_exp, exp_plus. pose proof (exp_pos a). pose proof (exp_pos b). field. lra. }
  assert (Pos : 0 < exp a + exp b) by (pose proof (exp_pos a); pose proof (exp_pos b); lra).
  assert (S : forall x, (0 < x <-> 0 < exp x - 1) /\ (x < 0 <-> exp x - 1 < 0)).
  { intros x. rewrite <- exp_0. split; split; intros H.
    - pose proof (exp_increasing 0 x H). lra.
    - apply exp_lt_inv. lra.
    - pose proof (exp_increasing x 0 H). lra.
    - apply exp_lt_inv. lra. }
  destruct (S a) as [Sa Sa']. destruct (S b) as [Sb Sb']. destruct (S (boxplus a b)) as [Sx _]. unfold Rgt.
  rewrite Sx, Sa, Sa', Sb, Sb'. set (x := exp (boxplus a b) - 1) in *. set (y := exp a - 1) in *. set (z := exp b - 1) in *. clearbody x y z.
  split.
  - intros H. assert (0 < y * z) by (rewrite <- E; nra). destruct (Rlt_dec 0 y); [left|right]; nra.
  - intros [[H1 H2]|[H1 H2]]; assert (0 < y * z) by nra; nra.
Qed.

Lemma boxplus_neg_l a b : boxplus (- a) b = - boxplus a b.
Proof.
  unfold boxplus. replace (- a + b) with (- (a - b)) by ring. replace (- a - b) with (- (a + b)) by ring. rewrite !Rabs_Ropp.
  replace (Rsign (- a)) with (- Rsign a); [ring|]. unfold Rsign. repeat destruct (Rlt_dec _ _); lra.
Qed.

Lemma boxplus_sign_neg a b : boxplus a b < 0 <-> (0 < a /\ b < 0) \/ (a < 0 /\ 0 < b).
Proof.
  pose proof (boxplus_sign (- a) b) as H. rewrite boxplus_neg_l in H. split; intros Q.
  - assert (G : - boxplus a b > 0) by lra. apply H in G. lra.
  - assert (G : - boxplus a b > 0) by (apply H; lra). lra.
Qed.
End Boxplus.

(* ---- recursion ---- *)
Section Rec.
Variables (mu : nat) (frozen : list nat).

Fixpoint sc_rec (h index : nat) (msg : list R) : vec * list R :=
  match h with
  | 0 => (if existsb (Nat.eqb index) frozen then [false] else map neg msg, msg)
  | S h' =>
    let l := firstn (2 ^ h') msg in let r := skipn (2 ^ h') msg in
    let '(a, la) := sc_rec h' (index * 2) (map2 boxplus l r) in
    let '(b, lb) := sc_rec h' (index * 2 + 1) (g_node l r a) in
    (vxor a b ++ b, la ++ lb)
  end.

Definition inside (d i : nat) (k : nat * nat) : Prop :=
  d <= fst k /\ i * 2 ^ (fst k - d) <= snd k < (i + 1) * 2 ^ (fst k - d).

Lemma node_eqb_true a b : node_eqb a b = true <-> a = b.
Proof.
  unfold node_eqb. destruct a, b. cbn. rewrite andb_true_iff, !Nat.eqb_eq. split; [intros [-> ->]; auto|intros E; inversion E; auto].
Qed.
Lemma dict_same {V} (d : nat * nat -> option V) k v : dict_set d k v k = Some v.
Proof. unfold dict_set. rewrite (proj2 (node_eqb_true k k)); auto. Qed.
Lemma dict_other {V} (d : nat * nat -> option V) k v x : x <> k -> dict_set d k v x = d x.
Proof. intros N. unfold dict_set. destruct (node_eqb x k) eqn:E; auto. apply node_eqb_true in E. contradiction. Qed.

Fixpoint steps (h : nat) : nat := match h with 0 => 1 | S h' => 3 + 2 * steps h' end.

Lemma map2_length {A B C} (f : A -> B -> C) a b : length a = length b -> length (map2 f a b) = length a.
Proof. revert b; induction a as [|x a IH]; intros [|y b] L; cbn in *; auto; lia. Qed.
Lemma g_node_length r s b : length r = length s -> length b = length r -> length (g_node r s b) = length r.
Proof. intros L1 L2. unfold g_node. rewrite map2_length; rewrite combine_length; lia. Qed.

Lemma halves_R h (msg : list R) : length msg = 2 ^ S h -> length (firstn (2 ^ h) msg) = 2 ^ h /\ length (skipn (2 ^ h) msg) = 2 ^ h.
Proof. intros L. cbn in L. rewrite firstn_length, skipn_length. lia. Qed.

Lemma sc_rec_length h : forall index msg, length msg = 2 ^ h -> length (fst (sc_rec h index msg)) = 2 ^ h /\ length (snd (sc_rec h index msg)) = 2 ^ h.
Proof.
  induction h as [|h IH]; intros index msg L; cbn [sc_rec].
  - split; auto. cbn [fst]. destruct (existsb _ _); auto. rewrite map_length; auto.
  - destruct (halves_R h msg L) as [L1 L2].
    destruct (IH (index * 2) (map2 boxplus (firstn (2 ^ h) msg) (skipn (2 ^ h) msg))) as [A1 A2]; [rewrite map2_length; congruence|].
    destruct (sc_rec h (index * 2) _) as [a la]. cbn [fst snd] in *.
    destruct (IH (index * 2 + 1) (g_node (firstn (2 ^ h) msg) (skipn (2 ^ h) msg) a)) as [B1 B2]; [rewrite g_node_length; congruence|].
    destruct (sc_rec h (index * 2 + 1) _) as [b lb]. cbn [fst snd] in *. rewrite !app_length, vxor_length by congruence. cbn; lia.
Qed.

Lemma inside_self d i : inside d i (d, i).
Proof. unfold inside. cbn [fst snd]. rewrite Nat.sub_diag. cbn. lia. Qed.

Lemma inside_child d i c k : c < 2 -> inside (d + 1) (i * 2 + c) k -> inside d i k /\ k <> (d, i).
Proof.
  intros Hc [H1 H2]. destruct k as [d' i']. unfold inside in *. cbn [fst snd] in *.
  replace (2 ^ (d' - d)) with (2 * 2 ^ (d' - (d + 1))) by (rewrite <- Nat.pow_succ_r'; f_equal; lia).
  set (P := 2 ^ (d' - (d + 1))) in *. split; [nia|]. intros E. inversion E. lia.
Qed.
Lemma inside_disj d i k : inside (d + 1) (i * 2) k -> inside (d + 1) (i * 2 + 1) k -> False.
Proof. intros [H1 H2] [H3 H4]. set (P := 2 ^ (fst k - (d + 1))) in *. nia. Qed.

(* the loop, started at a node whose subtree has no decisions, finishes the subtree *)
Lemma sc_run h : forall depth index st msg fuel, depth + h = mu -> sc_active st = Some (depth, index) ->
  sc_beliefs st (depth, index) = Some msg -> length msg = 2 ^ h ->
  (forall k, inside depth index k -> sc_decisions st k = None) ->
  exists st', sc_loop mu frozen (steps h + fuel) st = sc_loop mu frozen fuel st' /\
    sc_active st' = parent depth index /\
    sc_decisions st' (depth, index) = Some (fst (sc_rec h index msg)) /\
    sc_beliefs st' (depth, index) = Some msg /\
    (forall j, j < 2 ^ h -> sc_beliefs st' (mu, index * 2 ^ h + j) = Some [nth j (snd (sc_rec h index msg)) 0%R]) /\
    (forall k, ~ inside depth index k -> sc_beliefs st' k = sc_beliefs st k /\ sc_decisions st' k = sc_decisions st k).
Proof.
  induction h as [|h IH]; intros depth index st msg fuel Hd Ha Hb Lm Hn.
  - assert (D : depth = mu) by lia. cbn [steps sc_rec fst snd]. change (1 + fuel) with (S fuel). cbn [sc_loop]. rewrite Ha.
    eexists. split; [reflexivity|]. unfold sc_step. rewrite (proj2 (Nat.eqb_eq depth mu) D). cbn [sc_active sc_beliefs sc_decisions]. rewrite Hb.
    split; [auto|]. split; [apply dict_same|]. split; [auto|]. split.
    + intros j Hj. cbn in Hj. destruct j; [|lia]. cbn [Nat.pow]. rewrite Nat.mul_1_r, Nat.add_0_r, <- D, Hb.
      destruct msg as [|x [|y msg]]; try discriminate. reflexivity.
    + intros k Nk. split; auto. apply dict_other. intros ->. apply Nk. apply inside_self.
  - destruct (halves_R h msg Lm) as [L1 L2]. cbn [steps]. cbn [sc_rec].
    set (l := firstn (2 ^ h) msg) in *. set (r := skipn (2 ^ h) msg) in *.
    assert (ND : (depth =? mu) = false) by (apply Nat.eqb_neq; lia).
    assert (Half : length msg / 2 = 2 ^ h) by (rewrite Lm, Nat.pow_succ_r', Nat.mul_comm, Nat.div_mul; lia).
    (* step L *)
    replace (3 + 2 * steps h + fuel) with (S (steps h + (S (steps h + S fuel)))) by lia.
    cbn [sc_loop]. rewrite Ha. unfold sc_step at 1. rewrite ND, Hb.
    rewrite (Hn (depth + 1, index * 2)); [|pose proof (inside_self (depth + 1) (index * 2)) as Q; rewrite <- (Nat.add_0_r (index * 2)) in Q at 1; apply (inside_child depth index 0) in Q; [tauto|lia]].
    set (stL := {| sc_active := _ |}).
    assert (EL : stL = {| sc_active := Some (depth + 1, index * 2); sc_beliefs := dict_set (sc_beliefs st) (depth + 1, index * 2) (map2 boxplus l r); sc_decisions := sc_decisions st |}).
    { unfold stL. rewrite Half. reflexivity. }
    destruct (IH (depth + 1) (index * 2) stL (map2 boxplus l r) (S (steps h + S fuel))) as (st1 & R1 & A1 & D1 & B1 & F1 & K1).
    { lia. } { rewrite EL; auto. } { rewrite EL. apply dict_same. } { rewrite map2_length; congruence. }
    { intros k Hk. rewrite EL. cbn. apply Hn. rewrite <- (Nat.add_0_r (index * 2)) in Hk. apply (inside_child depth index 0) in Hk; [tauto|lia]. }
    rewrite R1. clear R1.
    destruct (sc_rec_length h (index * 2) (map2 boxplus l r)) as [La Lla]; [rewrite map2_length; congruence|].
    destruct (sc_rec h (index * 2) (map2 boxplus l r)) as [a la] eqn:Ea. cbn [fst snd] in *.
    assert (Par : parent (depth + 1) (index * 2) = Some (depth, index)).
    { rewrite Nat.add_1_r. cbn [parent]. rewrite Nat.div_mul; auto. }
    assert (NP : ~ inside (depth + 1) (index * 2) (depth, index)) by (unfold inside; cbn; lia).
    destruct (K1 _ NP) as [KB1 KD1].
    assert (NR : ~ inside (depth + 1) (index * 2) (depth + 1, index * 2 + 1)).
    { unfold inside; cbn [fst snd]. rewrite Nat.sub_diag. cbn. lia. }
    destruct (K1 _ NR) as [_ KDR]. 
    assert (Bst1 : sc_beliefs st1 (depth, index) = Some msg).
    { rewrite KB1, EL. cbn. rewrite dict_other; auto. intros E; inversion E; lia. }
    assert (DR : sc_decisions st1 (depth + 1, index * 2 + 1) = None).
    { rewrite KDR, EL. cbn. apply Hn. apply (inside_child depth index 1); [lia|]. apply inside_self. }
    (* step R *)
    cbn [sc_loop]. rewrite A1, Par. unfold sc_step at 1. rewrite ND, Bst1, D1, DR, Half. fold l r.
    set (stR := {| sc_active := _ |}).
    destruct (IH (depth + 1) (index * 2 + 1) stR (g_node l r a) (S fuel)) as (st2 & R2 & A2 & D2 & B2 & F2 & K2).
    { lia. } { reflexivity. } { unfold stR. cbn. apply dict_same. } { rewrite g_node_length; congruence. }
    { intros k Hk. unfold stR. cbn. destruct (K1 k) as [_ Q]; [intros Hk'; eapply inside_disj; eauto|]. rewrite Q, EL. cbn. apply Hn.
      apply (inside_child depth index 1) in Hk; [tauto|lia]. }
    rewrite R2. clear R2.
    destruct (sc_rec h (index * 2 + 1) (g_node l r a)) as [b lb] eqn:Eb. cbn [fst snd] in *.
    assert (Par2 : parent (depth + 1) (index * 2 + 1) = Some (depth, index)).
    { rewrite Nat.add_1_r. cbn [parent]. rewrite Nat.add_comm, Nat.div_add by lia. auto. }
    assert (NP2 : ~ inside (depth + 1) (index * 2 + 1) (depth, index)) by (unfold inside; cbn; lia).
    destruct (K2 _ NP2) as [KB2 _].
    assert (NL : ~ inside (depth + 1) (index * 2 + 1) (depth + 1, index * 2)).
    { unfold inside; cbn [fst snd]. rewrite Nat.sub_diag. cbn. lia. }
    destruct (K2 _ NL) as [_ KDL].
    assert (Bst2 : sc_beliefs st2 (depth, index) = Some msg).
    { rewrite KB2. unfold stR. cbn. rewrite dict_other; auto. intros E; inversion E; lia. }
    assert (DL : sc_decisions st2 (depth + 1, index * 2) = Some a) by (rewrite KDL; unfold stR; cbn; auto).
    (* step U *)
    cbn [sc_loop]. rewrite A2, Par2. eexists. split; [reflexivity|]. unfold sc_step. rewrite ND, Bst2, DL, D2. cbn [sc_active sc_beliefs sc_decisions].
    split; [auto|]. split; [apply dict_same|]. split; [exact Bst2|]. split.
    + intros j Hj. destruct (Nat.lt_ge_cases j (2 ^ h)) as [Hlt|Hge].
      * rewrite app_nth1 by lia. specialize (F1 j Hlt). replace (index * 2 ^ S h + j) with (index * 2 * 2 ^ h + j) by (cbn; lia).
        destruct (K2 (mu, index * 2 * 2 ^ h + j)) as [Q _].
        { intros Q. eapply inside_disj; [|exact Q]. unfold inside. cbn [fst snd]. replace (mu - (depth + 1)) with h by lia. split; [lia|]. nia. }
        rewrite Q. unfold stR. cbn [sc_beliefs]. rewrite dict_other; auto. intros E. assert (E1 : mu = depth + 1) by (inversion E; auto).
        assert (h = 0) by lia. subst h. cbn in *. inversion E. lia.
      * rewrite app_nth2 by lia. rewrite Lla. specialize (F2 (j - 2 ^ h)). replace (index * 2 ^ S h + j) with ((index * 2 + 1) * 2 ^ h + (j - 2 ^ h)) by (cbn; nia).
        apply F2. cbn in Hj. lia.
    + intros k Nk.
      assert (NkL : ~ inside (depth + 1) (index * 2) k).
      { intros Q. apply Nk. rewrite <- (Nat.add_0_r (index * 2)) in Q. apply (inside_child depth index 0) in Q; [tauto|lia]. }
      assert (NkR : ~ inside (depth + 1) (index * 2 + 1) k).
      { intros Q. apply Nk. apply (inside_child depth index 1) in Q; [tauto|lia]. }
      destruct (K1 k NkL) as [P1 P2]. destruct (K2 k NkR) as [P3 P4]. split.
      * rewrite P3. unfold stR. cbn [sc_beliefs]. rewrite dict_other, P1, EL; [cbn [sc_beliefs]; apply dict_other|]; intros ->; [apply NkL|apply NkR]; apply inside_self.
      * rewrite dict_other by (intros ->; apply Nk; apply inside_self). rewrite P4. unfold stR. cbn [sc_decisions]. rewrite P2, EL. auto.
Qed.

(* ---- noiseless input ---- *)
Definition agrees (x : R) (b : bool) : Prop := if b then (x < 0)%R else (0 < x)%R.

Lemma agrees_f l r c d : Forall2 agrees l (vxor c d) -> Forall2 agrees r d -> length c = length d -> Forall2 agrees (map2 boxplus l r) c.
Proof.
  revert r c d; induction l as [|x l IH]; intros r c d H1 H2 L.
  - inversion H1 as [E|]. destruct c, d; cbn in *; try lia; try discriminate. inversion H2. constructor.
  - destruct c as [|y c], d as [|z d]; cbn [vxor length] in *; inversion H1; subst; try lia. inversion H2; subst. cbn [map2]. constructor; [|eapply IH; eauto].
    unfold agrees in *. destruct y, z; cbn [xorb] in *; try (apply boxplus_sign_neg; tauto); apply boxplus_sign; tauto.
Qed.

Lemma agrees_g l r c d : Forall2 agrees l (vxor c d) -> Forall2 agrees r d -> length c = length d -> Forall2 agrees (g_node l r c) d.
Proof.
  unfold g_node. revert r c d; induction l as [|x l IH]; intros r c d H1 H2 L.
  - inversion H1 as [E|]. destruct c, d; cbn in *; try lia; try discriminate. constructor.
  - destruct c as [|y c], d as [|z d]; cbn [vxor length] in *; inversion H1; subst; try lia. inversion H2; subst. cbn [map2 combine]. constructor; [|eapply IH; eauto].
    unfold agrees in *. destruct y, z; cbn [xorb] in *; lra.
Qed.

Lemma Forall2_len {A B} (P : A -> B -> Prop) l l' : Forall2 P l l' -> length l = length l'.
Proof. induction 1; cbn; auto. Qed.

Lemma Forall2_split {A B} (P : A -> B -> Prop) l x y : Forall2 P l (x ++ y) -> Forall2 P (firstn (length x) l) x /\ Forall2 P (skipn (length x) l) y.
Proof.
  intros H. apply Forall2_app_inv_r in H as (l1 & l2 & H1 & H2 & ->). pose proof (Forall2_len _ _ _ H1) as L. rewrite <- L.
  rewrite firstn_app, skipn_app, Nat.sub_diag, firstn_all, skipn_all. cbn [firstn skipn app]. rewrite app_nil_r. auto.
Qed.

Lemma agrees_neg x b : agrees x b -> neg x = b.
Proof. unfold agrees, neg. destruct b; destruct (Rlt_dec x 0); auto; lra. Qed.

Lemma sc_noiseless h : forall index x msg, length x = 2 ^ h ->
  (forall j, j < 2 ^ h -> In (index * 2 ^ h + j) frozen -> nth j x false = false) ->
  Forall2 agrees msg (ptrans h x) ->
  fst (sc_rec h index msg) = ptrans h x /\ Forall2 agrees (snd (sc_rec h index msg)) x.
Proof.
  induction h as [|h IH]; intros index x msg L F A.
  - destruct x as [|b [|c x]]; try discriminate. cbn [ptrans sc_rec fst snd] in *. split; auto.
    inversion A as [|y ? m ? Hy Hm]; subst. inversion Hm; subst. cbn [map]. rewrite (agrees_neg y b Hy).
    destruct (existsb (Nat.eqb index) frozen) eqn:E; auto. apply existsb_exists in E as (i & Hi & Ei). apply Nat.eqb_eq in Ei. subst i.
    specialize (F 0). cbn in F. rewrite Nat.mul_1_r, Nat.add_0_r in F. rewrite F; auto.
  - destruct (split_half h x L) as (a & b & -> & La & Lb). rewrite ptrans_S in * by auto.
    pose proof (ptrans_length h a La) as Ta. pose proof (ptrans_length h b Lb) as Tb.
    apply Forall2_split in A as [A1 A2]. rewrite vxor_length, Ta in A1, A2 by congruence.
    cbn [sc_rec]. set (l := firstn (2 ^ h) msg) in *. set (r := skipn (2 ^ h) msg) in *.
    destruct (IH (index * 2) a (map2 boxplus l r)) as [E1 V1]; auto.
    { intros j Hj Hin. specialize (F j). rewrite app_nth1 in F by lia. apply F; [cbn; lia|]. replace (index * 2 ^ S h + j) with (index * 2 * 2 ^ h + j) by (cbn; lia). auto. }
    { eapply agrees_f; eauto. congruence. }
    destruct (sc_rec h (index * 2) (map2 boxplus l r)) as [a' la]. cbn [fst snd] in E1, V1. subst a'.
    destruct (IH (index * 2 + 1) b (g_node l r (ptrans h a))) as [E2 V2]; auto.
    { intros j Hj Hin. specialize (F (2 ^ h + j)). rewrite app_nth2 in F by lia. rewrite La in F. replace (2 ^ h + j - 2 ^ h) with j in F by lia.
      apply F; [cbn; lia|]. replace (index * 2 ^ S h + (2 ^ h + j)) with ((index * 2 + 1) * 2 ^ h + j) by (cbn; nia). auto. }
    { eapply agrees_g; eauto. congruence. }
    destruct (sc_rec h (index * 2 + 1) _) as [b' lb]. cbn [fst snd] in *. subst b'. split; auto. apply Forall2_app; auto.
Qed.

Lemma steps_bound h : steps h + 3 = 4 * 2 ^ h.
Proof. induction h as [|h IH]; cbn [steps]; [cbn; lia|]. cbn [Nat.pow]. lia. Qed.

(* the decoder terminates on every input and returns the leaf beliefs of the recursion *)
Lemma sc_decode_rec msg fuel : length msg = 2 ^ mu -> 4 * 2 ^ mu <= fuel ->
  sc_decode_soft mu frozen fuel msg = Some (map (fun i => nth i (snd (sc_rec mu 0 msg)) 0%R) (polar_active mu frozen)).
Proof.
  intros L Hf. unfold sc_decode_soft. pose proof (steps_bound mu) as SB. set (st0 := {| sc_active := _ |}).
  destruct (sc_run mu 0 0 st0 msg (fuel - steps mu)) as (st' & R & A & _ & _ & F & _); auto.
  replace (steps mu + (fuel - steps mu)) with fuel in R by lia. rewrite R. cbn [parent] in A.
  assert (E : sc_loop mu frozen (fuel - steps mu) st' = Some st') by (destruct (fuel - steps mu); cbn [sc_loop]; rewrite A; auto).
  rewrite E. f_equal. apply map_ext_in. intros i Hi. apply (act_lt mu frozen) in Hi. specialize (F i Hi). cbn [Nat.mul Nat.add] in F. rewrite F. auto.
Qed.

Lemma sc_noiseless_decode u msg fuel : length u = length (polar_active mu frozen) -> 4 * 2 ^ mu <= fuel ->
  Forall2 agrees msg (polar_encode mu (polar_active mu frozen) u) ->
  exists out, sc_decode_soft mu frozen fuel msg = Some out /\ Forall2 agrees out u.
Proof.
  intros Lu Hf A. unfold polar_encode in A. fold (place mu frozen u) in A. pose proof (place_length mu frozen u) as Lp.
  rewrite polar_transform_spec in A by auto.
  assert (Lm : length msg = 2 ^ mu) by (rewrite (Forall2_len _ _ _ A); apply ptrans_length; auto).
  rewrite sc_decode_rec by auto. eexists. split; [reflexivity|].
  destruct (sc_noiseless mu 0 (place mu frozen u) msg Lp) as [_ V]; auto.
  - intros j Hj Hin. cbn [Nat.mul Nat.add] in Hin. apply place_frozen. intros Q. apply (not_pivots_props (2 ^ mu) frozen) in Q. tauto.
  - rewrite <- (place_gather mu frozen u Lu) at 1. unfold gather.
    set (x := place mu frozen u) in *. set (lv := snd (sc_rec mu 0 msg)) in *.
    assert (G : forall l, (forall i, In i l -> i < 2 ^ mu) -> Forall2 agrees (map (fun i => nth i lv 0%R) l) (map (fun i => nth i x false) l)).
    { induction l as [|i l IH]; intros B; cbn [map]; constructor; [|apply IH; intros; apply B; right; auto].
      assert (Hi : i < length x) by (rewrite Lp; apply B; left; auto). clear - V Hi. revert i Hi. induction V as [|p q lv x Hpq V IH]; intros [|i] Hi; cbn in *; try lia; auto. apply IH; lia. }
    apply G. intros i. apply act_lt.
Qed.
End Rec.
