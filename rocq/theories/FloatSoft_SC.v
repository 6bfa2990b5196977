(** Successive cancellation with rounded beliefs. *)
Set Warnings "-ambiguous-paths".
From Coq Require Import Reals Lra Psatz.
From Flocq Require Import Core.
From Verif Require Import Common Vec_Model Vec_Proof LinAlg_Model LinAlg_Proof BlockCode_Model Systematic_Proof Polar_Model Polar_Proof SC_Model Float_Model FloatViterbi_Spec FloatSoft_Model FloatSoft_Spec SC_Proof.
From Coquelicot Require Rcomplements.
From Verif Require FloatShannon_Proof FloatFano_Proof FloatConst_Proof FloatSoft_Proof.
Local Open Scope nat_scope.

Section Rec.
Variables (fexp flog1p : R -> R) (mu : nat) (frozen : list nat).
Fixpoint frec (h index : nat) (msg : list R) : vec * list R :=
  match h with
  | 0 => (if existsb (Nat.eqb index) frozen then [false] else map neg msg, msg)
  | S h' =>
    let l := firstn (2 ^ h') msg in let r := skipn (2 ^ h') msg in
    let '(a, la) := frec h' (index * 2) (map2 (float_boxplus fexp flog1p) l r) in
    let '(b, lb) := frec h' (index * 2 + 1) (float_g_node l r a) in
    (vxor a b ++ b, la ++ lb)
  end.


Lemma float_g_node_length r s b : length r = length s -> length b = length r -> length (float_g_node r s b) = length r.
Proof. intros L1 L2. unfold float_g_node. rewrite map2_length; rewrite combine_length; lia. Qed.
Lemma frec_length h : forall index msg, length msg = 2 ^ h -> length (fst (frec h index msg)) = 2 ^ h /\ length (snd (frec h index msg)) = 2 ^ h.
Proof.
  induction h as [|h IH]; intros index msg L; cbn [frec].
  - split; auto. cbn [fst]. destruct (existsb _ _); auto. rewrite map_length; auto.
  - destruct (halves_R h msg L) as [L1 L2].
    destruct (IH (index * 2) (map2 (float_boxplus fexp flog1p) (firstn (2 ^ h) msg) (skipn (2 ^ h) msg))) as [A1 A2]; [rewrite map2_length; congruence|].
    destruct (frec h (index * 2) _) as [a la]. cbn [fst snd] in *.
    destruct (IH (index * 2 + 1) (float_g_node (firstn (2 ^ h) msg) (skipn (2 ^ h) msg) a)) as [B1 B2]; [rewrite float_g_node_length; congruence|].
    destruct (frec h (index * 2 + 1) _) as [b lb]. cbn [fst snd] in *. rewrite !app_length, vxor_length by congruence. cbn; lia.
Qed.

Lemma frun h : forall depth index st msg fuel, depth + h = mu -> sc_active st = Some (depth, index) ->
  sc_beliefs st (depth, index) = Some msg -> length msg = 2 ^ h ->
  (forall k, inside depth index k -> sc_decisions st k = None) ->
  exists st', float_sc_loop fexp flog1p mu frozen (steps h + fuel) st = float_sc_loop fexp flog1p mu frozen fuel st' /\
    sc_active st' = parent depth index /\
    sc_decisions st' (depth, index) = Some (fst (frec h index msg)) /\
    sc_beliefs st' (depth, index) = Some msg /\
    (forall j, j < 2 ^ h -> sc_beliefs st' (mu, index * 2 ^ h + j) = Some [nth j (snd (frec h index msg)) 0%R]) /\
    (forall k, ~ inside depth index k -> sc_beliefs st' k = sc_beliefs st k /\ sc_decisions st' k = sc_decisions st k).
Proof.
  induction h as [|h IH]; intros depth index st msg fuel Hd Ha Hb Lm Hn.
  - assert (D : depth = mu) by lia. cbn [steps frec fst snd]. change (1 + fuel) with (S fuel). cbn [float_sc_loop]. rewrite Ha.
    eexists. split; [reflexivity|]. unfold float_sc_step. rewrite (proj2 (Nat.eqb_eq depth mu) D). cbn [sc_active sc_beliefs sc_decisions]. rewrite Hb.
    split; [auto|]. split; [apply dict_same|]. split; [auto|]. split.
    + intros j Hj. cbn in Hj. destruct j; [|lia]. cbn [Nat.pow]. rewrite Nat.mul_1_r, Nat.add_0_r, <- D, Hb.
      destruct msg as [|x [|y msg]]; try discriminate. reflexivity.
    + intros k Nk. split; auto. apply dict_other. intros ->. apply Nk. apply inside_self.
  - destruct (halves_R h msg Lm) as [L1 L2]. cbn [steps]. cbn [frec].
    set (l := firstn (2 ^ h) msg) in *. set (r := skipn (2 ^ h) msg) in *.
    assert (ND : (depth =? mu) = false) by (apply Nat.eqb_neq; lia).
    assert (Half : length msg / 2 = 2 ^ h) by (rewrite Lm, Nat.pow_succ_r', Nat.mul_comm, Nat.div_mul; lia).
    
    replace (3 + 2 * steps h + fuel) with (S (steps h + (S (steps h + S fuel)))) by lia.
    cbn [float_sc_loop]. rewrite Ha. unfold float_sc_step at 1. rewrite ND, Hb.
    rewrite (Hn (depth + 1, index * 2)); [|pose proof (inside_self (depth + 1) (index * 2)) as Q; rewrite <- (Nat.add_0_r (index * 2)) in Q at 1; apply (inside_child depth index 0) in Q; [tauto|lia]].
    set (stL := {| sc_active := _ |}).
    assert (EL : stL = {| sc_active := Some (depth + 1, index * 2); sc_beliefs := dict_set (sc_beliefs st) (depth + 1, index * 2) (map2 (float_boxplus fexp flog1p) l r); sc_decisions := sc_decisions st |}).
    { unfold stL. rewrite Half. reflexivity. }
    destruct (IH (depth + 1) (index * 2) stL (map2 (float_boxplus fexp flog1p) l r) (S (steps h + S fuel))) as (st1 & R1 & A1 & D1 & B1 & F1 & K1).
    { lia. } { rewrite EL; auto. } { rewrite EL. apply dict_same. } { rewrite map2_length; congruence. }
    { intros k Hk. rewrite EL. cbn. apply Hn. rewrite <- (Nat.add_0_r (index * 2)) in Hk. apply (inside_child depth index 0) in Hk; [tauto|lia]. }
    rewrite R1. clear R1.
    destruct (frec_length h (index * 2) (map2 (float_boxplus fexp flog1p) l r)) as [La Lla]; [rewrite map2_length; congruence|].
    destruct (frec h (index * 2) (map2 (float_boxplus fexp flog1p) l r)) as [a la] eqn:Ea. cbn [fst snd] in *.
    assert (Par : parent (depth + 1) (index * 2) = Some (depth, index)).
    { rewrite Nat.add_1_r. cbn [parent]. rewrite Nat.div_mul; auto. }
    assert (NP : ~ inside (depth + 1) (index * 2) (depth, index)) by (unfold inside; cbn; lia).
    destruct (K1 _ NP) as [KB1 KD1].
    assert (NR : ~ inside (depth + 1) (index * 2) (depth + 1, index * 2 + 1)).
    { unfold inside; cbn [fst snd]. rewrite Nat.sub_diag. cbn. lia. }
    destruct (K1 _ NR) as [_ KDR]. 
    assert (Bst1 : sc_beliefs st1 (depth, index) = Some msg).
    { rewrite KB1, EL. cbn. rewrite dict_other; auto. intros E; inversion E; lia. }
    assert (DR : sc_decisions st1 (depth + 1, index * 2 + 1) = None).
    { rewrite KDR, EL. cbn. apply Hn. apply (inside_child depth index 1); [lia|]. apply inside_self. }
    
    cbn [float_sc_loop]. rewrite A1, Par. unfold float_sc_step at 1. rewrite ND, Bst1, D1, DR, Half. fold l r.
    set (stR := {| sc_active := _ |}).
    destruct (IH (depth + 1) (index * 2 + 1) stR (float_g_node l r a) (S fuel)) as (st2 & R2 & A2 & D2 & B2 & F2 & K2).
    { lia. } { reflexivity. } { unfold stR. cbn. apply dict_same. } { rewrite float_g_node_length; congruence. }
    { intros k Hk. unfold stR. cbn. destruct (K1 k) as [_ Q]; [intros Hk'; eapply inside_disj; eauto|]. rewrite Q, EL. cbn. apply Hn.
      apply (inside_child depth index 1) in Hk; [tauto|lia]. }
    rewrite R2. clear R2.
    destruct (frec h (index * 2 + 1) (float_g_node l r a)) as [b lb] eqn:Eb. cbn [fst snd] in *.
    assert (Par2 : parent (depth + 1) (index * 2 + 1) = Some (depth, index)).
    { rewrite Nat.add_1_r. cbn [parent]. rewrite Nat.add_comm, Nat.div_add by lia. auto. }
    assert (NP2 : ~ inside (depth + 1) (index * 2 + 1) (depth, index)) by (unfold inside; cbn; lia).
    destruct (K2 _ NP2) as [KB2 _].
    assert (NL : ~ inside (depth + 1) (index * 2 + 1) (depth + 1, index * 2)).
    { unfold inside; cbn [fst snd]. rewrite Nat.sub_diag. cbn. lia. }
    destruct (K2 _ NL) as [_ KDL].
    assert (Bst2 : sc_beliefs st2 (depth, index) = Some msg).
    { rewrite KB2. unfold stR. cbn. rewrite dict_other; auto. intros E; inversion E; lia. }
    assert (DL : sc_decisions st2 (depth + 1, index * 2) = Some a) by (rewrite KDL; unfold stR; cbn; auto).
    
    cbn [float_sc_loop]. rewrite A2, Par2. eexists. split; [reflexivity|]. unfold float_sc_step. rewrite ND, Bst2, DL, D2. cbn [sc_active sc_beliefs sc_decisions].
    split; [auto|]. split; [apply dict_same|]. split; [exact Bst2|]. split.
    + intros j Hj. destruct (Nat.lt_ge_cases j (2 ^ h)) as [Hlt|Hge].
      * rewrite app_nth1 by lia. specialize (F1 j Hlt). replace (index * 2 ^ S h + j) with (index * 2 * 2 ^ h + j) by (cbn; lia).
        destruct (K2 (mu, index * 2 * 2 ^ h + j)) as [Q _].
        { intros Q. eapply inside_disj; [|exact Q]. unfold inside. cbn [fst snd]. replace (mu - (depth + 1)) with h by lia. split; [lia|]. nia. }
        rewrite Q. unfold stR. cbn [sc_beliefs]. rewrite dict_other; auto. intros E. assert (E1 : mu = depth + 1) by (inversion E; auto).
        assert (h = 0) by lia. subst h. cbn in *. inversion E. lia.
      * rewrite app_nth2 by lia. rewrite Lla. specialize (F2 (j - 2 ^ h)). replace (index * 2 ^ S h + j) with ((index * 2 + 1) * 2 ^ h + (j - 2 ^ h)) by (cbn; nia).
        apply F2. cbn in Hj. lia.
    + intros k Nk.
      assert (NkL : ~ inside (depth + 1) (index * 2) k).
      { intros Q. apply Nk. rewrite <- (Nat.add_0_r (index * 2)) in Q. apply (inside_child depth index 0) in Q; [tauto|lia]. }
      assert (NkR : ~ inside (depth + 1) (index * 2 + 1) k).
      { intros Q. apply Nk. apply (inside_child depth index 1) in Q; [tauto|lia]. }
      destruct (K1 k NkL) as [P1 P2]. destruct (K2 k NkR) as [P3 P4]. split.
      * rewrite P3. unfold stR. cbn [sc_beliefs]. rewrite dict_other, P1, EL; [cbn [sc_beliefs]; apply dict_other|]; intros ->; [apply NkL|apply NkR]; apply inside_self.
      * rewrite dict_other by (intros ->; apply Nk; apply inside_self). rewrite P4. unfold stR. cbn [sc_decisions]. rewrite P2, EL. auto.
Qed.



Hypothesis Hexp : forall x, (x <= 0)%R -> (0 <= fexp x <= 1)%R.
Hypothesis Hlog : forall p, (0 <= p <= 1)%R -> (0 <= flog1p p <= 1)%R.
Lemma boxplus_clear n a b c d : (Z.of_nat (S n) < 2 ^ 53)%Z -> received_for (INR (S n)) a (xorb c d) -> received_for (INR (S n)) b d ->
  received_for (INR n) (float_boxplus fexp flog1p a b) c.
Proof.
  intros HN HA HB. unfold float_boxplus. set (l1 := flog1p (fexp (- Rabs (binary64 (a + b))))). set (l2 := flog1p (fexp (- Rabs (binary64 (a - b))))).
  assert (L1 : (0 <= l1 <= 1)%R) by (apply Hlog, Hexp; pose proof (Rabs_pos (binary64 (a + b))); lra).
  assert (L2 : (0 <= l2 <= 1)%R) by (apply Hlog, Hexp; pose proof (Rabs_pos (binary64 (a - b))); lra).
  set (s := (Rsign a * Rsign b * Rmin (Rabs a) (Rabs b))%R). rewrite S_INR in HA, HB. pose proof (pos_INR n) as P.
  assert (S1 : if c then (s <= - (INR n + 1))%R else (INR n + 1 <= s)%R).
  { unfold received_for in HA, HB. unfold s, Rsign, Rmin, Rabs. destruct c, d; cbn [xorb] in HA; repeat destruct (Rlt_dec _ _); repeat destruct (Rcase_abs _); repeat destruct (Rle_dec _ _); lra. }
  clearbody s l1 l2. unfold received_for.
  pose proof (FloatShannon_Proof.binary64_nat n ltac:(lia)) as B0. pose proof (FloatShannon_Proof.binary64_nat (S n) HN) as B1. rewrite S_INR in B1.
  destruct c.
  - assert (E1 : (binary64 (s + l1) <= - INR n)%R).
    { rewrite <- B0, <- FloatConst_Proof.b64_opp. apply FloatShannon_Proof.binary64_mono. lra. }
    assert (E2 : (binary64 (binary64 (s + l1) - l2) <= - INR n)%R).
    { rewrite <- B0 at 1. rewrite <- FloatConst_Proof.b64_opp. apply FloatShannon_Proof.binary64_mono. lra. }
    lra.
  - assert (E1 : (INR n + 1 <= binary64 (s + l1))%R). { rewrite <- B1. apply FloatShannon_Proof.binary64_mono. lra. }
    rewrite <- B0. apply FloatShannon_Proof.binary64_mono. lra.
Qed.
Lemma g_clear n x y c d : (Z.of_nat (S n) < 2 ^ 53)%Z -> received_for (INR (S n)) x (xorb c d) -> received_for (INR (S n)) y d ->
  received_for (INR n) (binary64 (y + (if c then -1 else 1) * x)) d.
Proof.
  intros HN HA HB. unfold received_for in *. rewrite S_INR in HA, HB. pose proof (pos_INR n) as P.
  pose proof (FloatShannon_Proof.binary64_nat n ltac:(lia)) as B0. destruct d.
  - rewrite <- FloatConst_Proof.b64_opp, <- B0. apply FloatShannon_Proof.binary64_mono. destruct c; cbn [xorb] in HA; lra.
  - rewrite <- B0. apply FloatShannon_Proof.binary64_mono. destruct c; cbn [xorb] in HA; lra.
Qed.
Lemma clear_f n l r c d : (Z.of_nat (S n) < 2 ^ 53)%Z -> clear_word (INR (S n)) l (vxor c d) -> clear_word (INR (S n)) r d -> length c = length d -> clear_word (INR n) (map2 (float_boxplus fexp flog1p) l r) c.
Proof.
  intros HN. revert r c d; induction l as [|x l IH]; intros r c d H1 H2 L.
  - inversion H1 as [E|]. destruct c, d; cbn in *; try lia; try discriminate. inversion H2. constructor.
  - destruct c as [|y c], d as [|z d]; cbn [vxor length] in *; inversion H1; subst; try lia. inversion H2; subst. cbn [map2]. constructor; [|eapply IH; eauto].
    eapply boxplus_clear; eauto.
Qed.
Lemma clear_g n l r c d : (Z.of_nat (S n) < 2 ^ 53)%Z -> clear_word (INR (S n)) l (vxor c d) -> clear_word (INR (S n)) r d -> length c = length d -> clear_word (INR n) (float_g_node l r c) d.
Proof.
  intros HN. unfold float_g_node. revert r c d; induction l as [|x l IH]; intros r c d H1 H2 L.
  - inversion H1 as [E|]. destruct c, d; cbn in *; try lia; try discriminate. constructor.
  - destruct c as [|y c], d as [|z d]; cbn [vxor length] in *; inversion H1; subst; try lia. inversion H2; subst. cbn [map2 combine]. constructor; [|eapply IH; eauto].
    apply g_clear; auto.
Qed.
Lemma clear_neg n x b : received_for (INR (S n)) x b -> neg x = b.
Proof. unfold received_for, neg. rewrite S_INR. pose proof (pos_INR n). destruct b; destruct (Rlt_dec x 0); auto; lra. Qed.
Lemma fnoiseless k h : (Z.of_nat (h + S k) < 2 ^ 53)%Z -> forall index x msg, length x = 2 ^ h ->
  (forall j, j < 2 ^ h -> In (index * 2 ^ h + j) frozen -> nth j x false = false) ->
  clear_word (INR (h + S k)) msg (ptrans h x) ->
  fst (frec h index msg) = ptrans h x /\ clear_word (INR (S k)) (snd (frec h index msg)) x.
Proof.
  unfold clear_word. induction h as [|h IH]; intros HN index x msg L F A.
  - destruct x as [|b [|c x]]; try discriminate. cbn [ptrans frec fst snd Nat.add] in *. split; auto.
    inversion A as [|y ? m ? Hy Hm]; subst. inversion Hm; subst. cbn [map]. rewrite (clear_neg _ y b Hy).
    destruct (existsb (Nat.eqb index) frozen) eqn:E; auto. apply existsb_exists in E as (i & Hi & Ei). apply Nat.eqb_eq in Ei. subst i.
    specialize (F 0). cbn in F. rewrite Nat.mul_1_r, Nat.add_0_r in F. rewrite F; auto.
  - specialize (IH ltac:(lia)). cbn [Nat.add] in A. destruct (split_half h x L) as (a & b & -> & La & Lb). rewrite ptrans_S in * by auto.
    pose proof (ptrans_length h a La) as Ta. pose proof (ptrans_length h b Lb) as Tb.
    apply Forall2_split in A as [A1 A2]. rewrite vxor_length, Ta in A1, A2 by congruence.
    cbn [frec]. set (l := firstn (2 ^ h) msg) in *. set (r := skipn (2 ^ h) msg) in *.
    destruct (IH (index * 2) a (map2 (float_boxplus fexp flog1p) l r)) as [E1 V1]; auto.
    { intros j Hj Hin. specialize (F j). rewrite app_nth1 in F by lia. apply F; [cbn; lia|]. replace (index * 2 ^ S h + j) with (index * 2 * 2 ^ h + j) by (cbn; lia). auto. }
    { eapply clear_f; eauto. congruence. }
    destruct (frec h (index * 2) (map2 (float_boxplus fexp flog1p) l r)) as [a' la]. cbn [fst snd] in E1, V1. subst a'.
    destruct (IH (index * 2 + 1) b (float_g_node l r (ptrans h a))) as [E2 V2]; auto.
    { intros j Hj Hin. specialize (F (2 ^ h + j)). rewrite app_nth2 in F by lia. rewrite La in F. replace (2 ^ h + j - 2 ^ h) with j in F by lia.
      apply F; [cbn; lia|]. replace (index * 2 ^ S h + (2 ^ h + j)) with ((index * 2 + 1) * 2 ^ h + j) by (cbn; nia). auto. }
    { eapply clear_g; eauto. congruence. }
    destruct (frec h (index * 2 + 1) _) as [b' lb]. cbn [fst snd] in *. subst b'. split; auto. apply Forall2_app; auto.
Qed.

Lemma fdecode_rec msg fuel : length msg = 2 ^ mu -> 4 * 2 ^ mu <= fuel ->
  float_sc_soft fexp flog1p mu frozen fuel msg = Some (map (fun i => nth i (snd (frec mu 0 msg)) 0%R) (polar_active mu frozen)).
Proof.
  intros L Hf. unfold float_sc_soft. pose proof (steps_bound mu) as SB. set (st0 := {| sc_active := _ |}).
  destruct (frun mu 0 0 st0 msg (fuel - steps mu)) as (st' & R & A & _ & _ & F & _); auto.
  replace (steps mu + (fuel - steps mu)) with fuel in R by lia. rewrite R. cbn [parent] in A.
  assert (E : float_sc_loop fexp flog1p mu frozen (fuel - steps mu) st' = Some st') by (destruct (fuel - steps mu); cbn [float_sc_loop]; rewrite A; auto).
  rewrite E. f_equal. apply map_ext_in. intros i Hi. apply (act_lt mu frozen) in Hi. specialize (F i Hi). cbn [Nat.mul Nat.add] in F. rewrite F. auto.
Qed.

Lemma fnoiseless_decode k u msg fuel : (Z.of_nat (mu + S k) < 2 ^ 53)%Z -> length u = length (polar_active mu frozen) -> 4 * 2 ^ mu <= fuel ->
  clear_word (INR (mu + S k)) msg (polar_encode mu (polar_active mu frozen) u) ->
  exists out, float_sc_soft fexp flog1p mu frozen fuel msg = Some out /\ clear_word (INR (S k)) out u.
Proof.
  intros HN Lu Hf A. unfold clear_word in A. unfold polar_encode in A. fold (place mu frozen u) in A. pose proof (place_length mu frozen u) as Lp.
  rewrite polar_transform_spec in A by auto.
  assert (Lm : length msg = 2 ^ mu) by (rewrite (Forall2_len _ _ _ A); apply ptrans_length; auto).
  rewrite fdecode_rec by auto. eexists. split; [reflexivity|].
  destruct (fnoiseless k mu HN 0 (place mu frozen u) msg Lp) as [_ V]; auto.
  - intros j Hj Hin. cbn [Nat.mul Nat.add] in Hin. apply place_frozen. intros Q. apply (not_pivots_props (2 ^ mu) frozen) in Q. tauto.
  - rewrite <- (place_gather mu frozen u Lu) at 1. unfold gather.
    set (x := place mu frozen u) in *. set (lv := snd (frec mu 0 msg)) in *.
    assert (G : forall l, (forall i, In i l -> i < 2 ^ mu) -> Forall2 (received_for (INR (S k))) (map (fun i => nth i lv 0%R) l) (map (fun i => nth i x false) l)).
    { induction l as [|i l IH]; intros B; cbn [map]; constructor; [|apply IH; intros; apply B; right; auto].
      assert (Hi : i < length x) by (rewrite Lp; apply B; left; auto). clear - V Hi. revert i Hi. induction V as [|p q lv x Hpq V IH]; intros [|i] Hi; cbn in *; try lia; auto. apply IH; lia. }
    apply G. intros i. apply act_lt.
Qed.
End Rec.

(** ** weak L-values: with correctly rounded elementary functions boxplus returns 0 on every pair of values of magnitude 2^-60 *)
Local Open Scope R_scope.
Definition rnd_exp (x : R) : R := binary64 (exp x).
Definition rnd_log1p (x : R) : R := binary64 (ln (1 + x)).
Lemma half_bpow : bpow radix2 (0 - 1) = / 2.
Proof. change (0 - 1)%Z with (- Z.of_nat 1)%Z. rewrite FloatFano_Proof.bpow_neg. lra. Qed.
Lemma near_grid y m : / 2 <= y < 1 -> Rabs (y - IZR m * / 2 ^ 53) < / 2 ^ 54 -> binary64 y = IZR m * / 2 ^ 53.
Proof.
  intros Y H. unfold binary64, round.
  assert (E : cexp radix2 (FLT_exp (-1074) 53) y = (-53)%Z).
  { unfold cexp. rewrite (mag_unique radix2 y 0); [reflexivity|]. rewrite Rabs_right by lra. rewrite half_bpow. change (bpow radix2 0) with 1. lra. }
  unfold scaled_mantissa, F2R. rewrite E. cbn [Fnum Fexp]. replace (- -53)%Z with 53%Z by lia.
  assert (B : bpow radix2 53 = 2 ^ 53) by (rewrite <- (FloatShannon_Proof.bpow_pow 53); reflexivity).
  assert (B' : bpow radix2 (-53) = / 2 ^ 53) by (rewrite <- (FloatFano_Proof.bpow_neg 53); reflexivity).
  rewrite B, B'. assert (P : 0 < 2 ^ 53) by (apply pow_lt; lra). f_equal. f_equal. apply Znearest_imp.
  replace (y * 2 ^ 53 - IZR m) with ((y - IZR m * / 2 ^ 53) * 2 ^ 53) by (field; lra). rewrite Rabs_mult, (Rabs_right (2 ^ 53)) by lra.
  assert (X : / 2 ^ 54 * 2 ^ 53 = / 2) by (change (2 ^ 54) with (2 * 2 ^ 53); field; lra). rewrite <- X. apply Rmult_lt_compat_r; auto.
Qed.
Lemma near_one y : 1 - / 2 ^ 59 <= y <= 1 -> binary64 y = 1.
Proof.
  intros Y. destruct (Req_dec y 1) as [->|N]; [apply (FloatShannon_Proof.binary64_pow 0)|].
  assert (P : 0 < 2 ^ 53) by (apply pow_lt; lra). assert (S : / 2 ^ 59 < / 2 ^ 54) by (apply Rinv_lt_contravar; [apply Rmult_lt_0_compat; apply pow_lt; lra|apply Rlt_pow; [lra|lia]]).
  assert (S2 : / 2 ^ 54 <= / 2) by (apply Rinv_le_contravar; [lra|]; apply Rle_trans with (2 ^ 1); [lra|]; apply Rle_pow; [lra|lia]).
  assert (Z53 : IZR (2 ^ 53) = 2 ^ 53) by (change (2 ^ 53)%Z with (2 ^ Z.of_nat 53)%Z; rewrite <- pow_IZR; reflexivity).
  rewrite (near_grid y (2 ^ 53)); [|lra|]; rewrite Z53, Rinv_r by lra; [reflexivity|]. rewrite Rabs_left1; lra.
Qed.
Lemma ln2_bounds : 5 / 8 <= ln 2 <= 7 / 8.
Proof.
  assert (E1 : exp 1 <= 3) by apply exp_le_3. assert (E2 : 2 < exp 1) by (pose proof (exp_ineq1 1 ltac:(lra)); lra).
  assert (P : forall n, exp (INR n) = exp 1 ^ n).
  { induction n as [|n IH]; [apply exp_0|]. rewrite S_INR, exp_plus, IH. cbn [pow]. ring. }
  assert (L8 : 8 * ln 2 = ln (2 ^ 8)) by (rewrite ln_pow by lra; cbn [INR]; lra).
  split.
  - enough (5 <= 8 * ln 2) by lra. rewrite L8. rewrite <- (ln_exp 5). apply Rcomplements.ln_le; [apply exp_pos|]. replace 5 with (INR 5) by (cbn; lra). rewrite P.
    apply Rle_trans with (3 ^ 5); [apply pow_incr; lra|lra].
  - enough (ln 2 <= 7 / 8) by lra. apply Rmult_le_reg_l with 8; [lra|]. rewrite L8. replace (8 * (7 / 8)) with 7 by lra.
    rewrite <- (ln_exp 7). apply Rcomplements.ln_le; [apply pow_lt; lra|]. replace 7 with (INR 7) by (cbn; lra). rewrite P.
    assert (E3 : 5 / 2 <= exp 1). { replace 1 with (/ 2 + / 2) by lra. rewrite exp_plus. assert (Q : forall x, 0 <= x -> 1 + x + 0 <= exp x) by (intros x Hx; pose proof (exp_ineq1_le x); lra).
      assert (E4 : 8 / 5 <= exp (/ 2)). { replace (/ 2) with (/ 4 + / 4) by lra. rewrite exp_plus. replace (/ 4) with (/ 8 + / 8) by lra. rewrite exp_plus. pose proof (Q (/ 8) ltac:(lra)). set (z := exp (/ 8)) in *. assert (9 / 8 * (9 / 8) <= z * z) by nra. set (w := z * z) in *. nra. }
      set (z := exp (/ 2)) in *. nra. }
    apply Rle_trans with ((5 / 2) ^ 7); [lra|]. apply pow_incr. lra.
Qed.
Lemma rnd_ln2 : exists m, rnd_log1p 1 = IZR m * / 2 ^ 53 /\ 5 / 8 <= rnd_log1p 1 <= 7 / 8.
Proof.
  destruct ln2_bounds as [L1 L2]. unfold rnd_log1p. replace (1 + 1) with 2 by lra.
  exists (Znearest (fun x => negb (Z.even x)) (ln 2 * 2 ^ 53)). split.
  - assert (P : 0 < 2 ^ 53) by (apply pow_lt; lra). pose proof (Znearest_half (fun x => negb (Z.even x)) (ln 2 * 2 ^ 53)) as H.
    unfold binary64, round. assert (E : cexp radix2 (FLT_exp (-1074) 53) (ln 2) = (-53)%Z).
    { unfold cexp. rewrite (mag_unique radix2 (ln 2) 0); [reflexivity|]. rewrite Rabs_right by lra. rewrite half_bpow. change (bpow radix2 0) with 1. lra. }
    unfold scaled_mantissa, F2R. rewrite E. cbn [Fnum Fexp]. replace (- -53)%Z with 53%Z by lia.
    rewrite <- (FloatFano_Proof.bpow_neg 53), <- (FloatShannon_Proof.bpow_pow 53). reflexivity.
  - assert (F : forall k, binary64 (IZR k / 8) = IZR k / 8 \/ (Z.abs k >= 2 ^ 53)%Z).
    { intros k. destruct (Z_lt_ge_dec (Z.abs k) (2 ^ 53)) as [G|G]; [left|right; exact G]. apply FloatSoft_Proof.binary64_id.
      replace (IZR k / 8) with (IZR k * bpow radix2 (-3)) by (change (bpow radix2 (-3)) with (/ 8); unfold Rdiv; try reflexivity). apply FloatSoft_Proof.fixed_format; [lia|exact G]. }
    destruct (F 5%Z) as [F5|F5]; [|lia]. destruct (F 7%Z) as [F7|F7]; [|lia]. rewrite <- F5, <- F7. split; apply FloatShannon_Proof.binary64_mono; assumption.
Qed.
Lemma weak_boxplus a b : Rabs a = / 2 ^ 60 -> Rabs b = / 2 ^ 60 -> float_boxplus rnd_exp rnd_log1p a b = 0.
Proof.
  intros Ha Hb. assert (Pt : 0 < / 2 ^ 60) by (apply Rinv_0_lt_compat, pow_lt; lra). set (t := / 2 ^ 60) in *.
  assert (T59 : / 2 ^ 59 = 2 * t) by (unfold t; change (2 ^ 60) with (2 * 2 ^ 59); field; apply pow_nonzero; lra).
  assert (T54 : / 2 ^ 54 = 64 * t). { unfold t. replace (2 ^ 60) with (64 * 2 ^ 54) by (change 60%nat with (6 + 54)%nat; rewrite pow_add; set (z := 2 ^ 54); lra). field. }
  assert (B59 : binary64 (2 * t) = 2 * t) by (rewrite <- T59; apply FloatFano_Proof.b64_pow_neg; lia).
  assert (X1 : rnd_exp (- Rabs (binary64 (a + b))) = 1 /\ rnd_exp (- Rabs (binary64 (a - b))) = 1).
  { assert (G : forall z, z = 0 \/ z = 2 * t \/ z = - (2 * t) -> rnd_exp (- Rabs (binary64 z)) = 1).
    { intros z Hz. apply near_one. assert (Y : 0 <= Rabs (binary64 z) <= 2 * t).
      { destruct Hz as [->|[->| ->]]; [rewrite FloatFano_Proof.b64_0, Rabs_R0; lra|rewrite B59, Rabs_right; lra|rewrite FloatConst_Proof.b64_opp, B59, Rabs_Ropp, Rabs_right; lra]. }
      pose proof (exp_ineq1_le (- Rabs (binary64 z))) as X. split; [lra|]. rewrite <- exp_0. destruct (Req_dec (Rabs (binary64 z)) 0) as [Z0|Z0]; [rewrite Z0, Ropp_0; lra|]. left. apply exp_increasing. lra. }
    split; apply G; revert Ha Hb; unfold Rabs; repeat destruct (Rcase_abs _); intros; lra. }
  destruct X1 as [X1 X2]. unfold float_boxplus. rewrite X1, X2. destruct rnd_ln2 as (m & Em & Lm). set (L := rnd_log1p 1) in *.
  set (s := Rsign a * Rsign b * Rmin (Rabs a) (Rabs b)).
  assert (Hs : Rabs s = t).
  { unfold s. rewrite Ha, Hb. rewrite Rmin_left by lra. unfold Rsign. revert Ha Hb. unfold Rabs. repeat destruct (Rlt_dec _ _); repeat destruct (Rcase_abs _); intros; lra. }
  assert (E : binary64 (s + L) = L).
  { assert (T8 : t <= / 16). { unfold t. apply Rinv_le_contravar; [lra|]. replace 16 with (2 ^ 4) by lra. apply Rle_pow; [lra|lia]. }
    assert (Sb : - t <= s <= t) by (apply Rabs_le_inv; lra).
    rewrite Em at 2. apply near_grid; [lra|]. rewrite <- Em. replace (s + L - L) with s by ring. rewrite Hs, T54. lra. }
  rewrite E, Rminus_diag_eq by reflexivity. apply FloatFano_Proof.b64_0.
Qed.
