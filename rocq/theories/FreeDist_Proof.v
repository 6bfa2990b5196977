From Verif Require Import Common Bits_Model Vec_Model Vec_Proof LinAlg_Model LinAlg_Proof BlockCode_Model FSM_Model FSM_Spec Conv_Model Conv_Spec Conv_Proof.
From Verif Require Bits_Proof.
Local Open Scope nat_scope.

(* ---- the heap ---- *)
Lemma heap_min_spec a h : In (heap_min a h) (a :: h) /\ forall b, In b (a :: h) -> fst (heap_min a h) <= fst b.
Proof.
  revert a; induction h as [|b h IH]; intros a; cbn [heap_min]; [split; [left; auto|intros b [->|[]]; auto]|].
  unfold pair_leb at 1 2. destruct (IH a) as [I1 M1]. destruct (IH b) as [I2 M2].
  destruct ((fst a <? fst b) || ((fst a =? fst b) && (snd a <=? snd b))) eqn:E.
  - split; [destruct I1; [left; auto|right; right; auto]|]. intros x [->|[->|I]]; [apply M1; left; auto| |apply M1; right; auto].
    transitivity (fst a); [apply M1; left; auto|]. apply orb_true_iff in E as [E|E]; [apply Nat.ltb_lt in E; lia|apply andb_true_iff in E as [E _]; apply Nat.eqb_eq in E; lia].
  - split; [right; auto|]. intros x [->|[->|I]]; [|apply M2; left; auto|apply M2; right; auto].
    transitivity (fst b); [apply M2; left; auto|]. apply orb_false_iff in E as [E _]. apply Nat.ltb_ge in E. auto.
Qed.
Lemma heap_remove_in a b h : In b (heap_remove a h) -> In b h.
Proof. induction h as [|x h IH]; cbn [heap_remove]; auto. destruct (_ && _); [right; auto|]. intros [->|I]; [left; auto|right; auto]. Qed.
Lemma heap_remove_keep a b h : In b h -> b <> a -> In b (heap_remove a h).
Proof.
  induction h as [|x h IH]; cbn [heap_remove]; auto. intros [->|I] N.
  - destruct ((fst a =? fst b) && (snd a =? snd b)) eqn:E; [|left; auto]. apply andb_true_iff in E as [E1 E2]. apply Nat.eqb_eq in E1, E2. destruct a, b; cbn in *; subst; congruence.
  - destruct (_ && _); auto. right. auto.
Qed.

Definition nonterm (e : nat * nat) : bool := negb ((snd e =? 0) && (0 <? fst e)).
Definition pend (h : list (nat * nat)) : nat := length (filter nonterm h).
Lemma pend_remove a h : In a h -> nonterm a = true -> S (pend (heap_remove a h)) = pend h.
Proof.
  unfold pend. induction h as [|x h IH]; intros I NT; [destruct I|]. cbn [heap_remove].
  destruct ((fst a =? fst x) && (snd a =? snd x)) eqn:E.
  - apply andb_true_iff in E as [E1 E2]. apply Nat.eqb_eq in E1, E2. assert (x = a) by (destruct a, x; cbn in *; congruence). subst. cbn [filter]. rewrite NT. reflexivity.
  - destruct I as [->|I]; [rewrite !Nat.eqb_refl in E; discriminate|]. cbn [filter]. destruct (nonterm x); cbn [length]; rewrite IH by auto; reflexivity.
Qed.

Section FD.
Context (M : mealy) (OKM : mealy_ok M).
Local Notation ns := (num_states M).
Local Notation ni := (num_input_symbols M).
Local Notation nx := (fsm_next M).
Local Notation bc s x := (bit_count (fsm_out M s x)).

Lemma nx_lt s x : s < ns -> x < ni -> nx s x < ns.
Proof. destruct OKM as (_ & _ & _ & H). auto. Qed.

(* walks from state 0 with their output weight *)
Inductive walk : nat -> nat -> Prop :=
| walk_0 : walk 0 0
| walk_S s w x : walk s w -> x < ni -> walk (nx s x) (w + bc s x).
(* walks that, once their weight is positive, only leave states without a weightless walk *)
Inductive gwalk : nat -> nat -> Prop :=
| gwalk_0 : gwalk 0 0
| gwalk_S s w x : gwalk s w -> x < ni -> (w = 0 \/ ~ walk s 0) -> gwalk (nx s x) (w + bc s x).

Definition best_le (best : list (option nat)) s w := exists b, nth s best None = Some b /\ b <= w.
Definition covered (heap : list (nat * nat)) (best : list (option nat)) s w :=
  best_le best s w /\ (s = 0 -> 0 < w -> exists w', In (w', 0) heap /\ 0 < w' <= w).
Definition expanded heap best s b := forall x, x < ni -> covered heap best (nx s x) (b + bc s x).

Record sound (heap : list (nat * nat)) (best : list (option nat)) : Prop := {
  sd_len : length best = ns;
  sd_heap : forall w s, In (w, s) heap -> walk s w /\ s < ns;
  sd_best : forall s b, nth s best None = Some b -> walk s b }.
Record inv heap best : Prop := {
  iv_sound : sound heap best;
  iv_start : In (0, 0) heap \/ expanded heap best 0 0;
  iv_best : forall s b, nth s best None = Some b -> In (b, s) heap \/ expanded heap best s b }.

(* ordering of the search states: heap grows, best decreases *)
Definition ext (st st' : list (nat * nat) * list (option nat)) : Prop :=
  (forall e, In e (fst st) -> In e (fst st')) /\ (forall s w, best_le (snd st) s w -> best_le (snd st') s w).
Lemma covered_ext h b h' b' s w : ext (h, b) (h', b') -> covered h b s w -> covered h' b' s w.
Proof. intros [E1 E2] [C1 C2]. split; [apply E2; auto|]. intros Z P. destruct (C2 Z P) as (w' & I & L). exists w'. split; auto. Qed.

(* measure *)
Definition nones (best : list (option nat)) : nat := length (filter (fun o => match o with None => true | _ => false end) best).
Definition total (best : list (option nat)) : nat := fold_right Nat.add 0 (map (fun o => match o with Some b => b | None => 0 end) best).
Definition dec (b b' : list (option nat)) : Prop := nones b' < nones b \/ (nones b' = nones b /\ total b' < total b).
Lemma upd_measure best s w : s < length best -> match nth s best None with None => True | Some b => w < b end -> dec best (upd s (Some w) best).
Proof.
  unfold dec, nones, total. revert s. induction best as [|o best IH]; intros [|s] L H; cbn in L; try lia.
  - cbn [nth] in H. cbn [upd]. destruct o as [b|]; cbn [filter map fold_right length]; lia.
  - cbn [nth] in H. cbn [upd]. specialize (IH s ltac:(lia) H). destruct o as [b|]; cbn [filter map fold_right length]; lia.
Qed.

Lemma relax_spec w s x heap best : sound heap best -> walk s w -> s < ns -> x < ni ->
  let '(heap', best') := fd_relax M w s (heap, best) x in
  sound heap' best' /\ ext (heap, best) (heap', best') /\ covered heap' best' (nx s x) (w + bc s x) /\
  (forall s' b, nth s' best' None = Some b -> nth s' best None = Some b \/ In (b, s') heap') /\
  (dec best best' \/ (best' = best /\ pend heap' = pend heap)).
Proof.
  intros [SL SH SB] W Hs Hx. unfold fd_relax. set (s1 := nx s x). set (w1 := w + bc s x).
  assert (H1 : s1 < ns) by (apply nx_lt; auto). assert (W1 : walk s1 w1) by (apply walk_S; auto).
  assert (Lb : s1 < length best) by lia.
  destruct (match nth s1 best None with None => true | Some b => w1 <? b end) eqn:E.
  - assert (B : forall s' w', best_le best s' w' -> best_le (upd s1 (Some w1) best) s' w').
    { intros s' w' (b & Eb & Lb'). destruct (Nat.eq_dec s' s1) as [->|N].
      - exists w1. rewrite nth_upd, Nat.eqb_refl by auto. split; auto. rewrite Eb in E. apply Nat.ltb_lt in E. lia.
      - exists b. rewrite nth_upd by auto. destruct (Nat.eqb_spec s' s1); [congruence|auto]. }
    split; [|split; [|split; [|split]]].
    + constructor; [rewrite upd_length; auto| |].
      * intros w' s' [[= <- <-]|I]; auto.
      * intros s' b Eb. rewrite nth_upd in Eb by auto. destruct (Nat.eqb_spec s' s1); [injection Eb as <-; subst; auto|auto].
    + split; cbn [fst snd]; auto. intros e I. right; auto.
    + split.
      * exists w1. rewrite nth_upd, Nat.eqb_refl by auto. auto.
      * intros Z P. exists w1. split; [left; congruence|lia].
    + intros s' b Eb. rewrite nth_upd in Eb by auto. destruct (Nat.eqb_spec s' s1); [injection Eb as <-; subst; right; left; auto|left; auto].
    + left. apply upd_measure; auto. destruct (nth s1 best None); auto. apply Nat.ltb_lt; auto.
  - assert (BL : best_le best s1 w1).
    { destruct (nth s1 best None) as [b|] eqn:Eb; [|discriminate]. exists b. split; auto. apply Nat.ltb_ge in E. auto. }
    destruct ((s1 =? 0) && (0 <? w1)) eqn:F.
    + apply andb_true_iff in F as [F1 F2]. apply Nat.eqb_eq in F1. apply Nat.ltb_lt in F2. split; [|split; [|split; [|split]]].
      * constructor; auto. intros w' s' [[= <- <-]|I]; auto. split; [rewrite <- F1; auto|lia].
      * split; cbn [fst snd]; auto. intros e I. right; auto.
      * split; auto. intros _ _. exists w1. split; [left; auto|lia].
      * intros s' b Eb. auto.
      * right. split; auto. unfold pend. cbn [filter]. unfold nonterm at 1. cbn [fst snd]. rewrite Nat.eqb_refl. apply Nat.ltb_lt in F2. rewrite F2. reflexivity.
    + split; [|split; [|split; [|split]]].
      * constructor; auto.
      * split; auto.
      * split; auto. intros -> P. rewrite Nat.eqb_refl in F. apply Nat.ltb_lt in P. rewrite P in F. discriminate.
      * auto.
      * auto.
Qed.

Lemma ext_trans a b c : ext a b -> ext b c -> ext a c.
Proof. intros [A1 A2] [B1 B2]. split; auto. Qed.
Lemma dec_trans_l a b c : dec a b -> dec b c \/ b = c -> dec a c.
Proof. unfold dec. intros H [K| <-]; lia. Qed.

Lemma relax_all w s xs heap best : sound heap best -> walk s w -> s < ns -> Forall (fun x => x < ni) xs ->
  let '(heap', best') := fold_left (fd_relax M w s) xs (heap, best) in
  sound heap' best' /\ ext (heap, best) (heap', best') /\ (forall x, In x xs -> covered heap' best' (nx s x) (w + bc s x)) /\
  (forall s' b, nth s' best' None = Some b -> nth s' best None = Some b \/ In (b, s') heap') /\
  (dec best best' \/ (best' = best /\ pend heap' = pend heap)).
Proof.
  intros SD W Hs F. revert heap best SD. induction F as [|x xs Hx F IH]; intros heap best SD; cbn [fold_left].
  - split; auto. split; [split; auto|]. split; [intros x []|]. split; auto.
  - pose proof (relax_spec w s x heap best SD W Hs Hx) as R. destruct (fd_relax M w s (heap, best) x) as [h1 b1]. destruct R as (S1 & E1 & C1 & N1 & D1).
    specialize (IH h1 b1 S1). destruct (fold_left (fd_relax M w s) xs (h1, b1)) as [h2 b2]. destruct IH as (S2 & E2 & C2 & N2 & D2).
    split; auto. split; [eapply ext_trans; eauto|]. split; [|split].
    + intros y [->|I]; [eapply covered_ext; eauto|auto].
    + intros s' b Eb. destruct (N2 s' b Eb) as [Eb'|I]; auto. destruct (N1 s' b Eb') as [|I]; auto. right. apply E2. auto.
    + destruct D1 as [D1|[-> P1]], D2 as [D2|[-> P2]]; auto.
      * left. eapply dec_trans_l; eauto.
      * right. split; auto. congruence.
Qed.

Lemma step_inv heap best w s : inv heap best -> In (w, s) heap -> nonterm (w, s) = true ->
  let '(heap', best') := fold_left (fd_relax M w s) (seq 0 ni) (heap_remove (w, s) heap, best) in
  inv heap' best' /\ (dec best best' \/ (best' = best /\ pend heap' < pend heap)).
Proof.
  intros [SD ST BE] I NT. pose proof SD as [SL SH SB]. destruct (SH w s I) as [W Hs].
  assert (SD' : sound (heap_remove (w, s) heap) best).
  { constructor; auto. intros w' s' I'. apply SH. eapply heap_remove_in; eauto. }
  assert (F : Forall (fun x => x < ni) (seq 0 ni)) by (apply Forall_forall; intros x Ix; apply in_seq in Ix; lia).
  pose proof (relax_all w s (seq 0 ni) _ best SD' W Hs F) as R. pose proof (pend_remove (w, s) heap I NT) as PR.
  destruct (fold_left _ _ _) as [h2 b2]. destruct R as (S2 & E2 & C2 & N2 & D2).
  assert (X : forall s' b, expanded heap best s' b -> expanded h2 b2 s' b).
  { intros s' b E x Hx. destruct (E x Hx) as [B C]. apply (covered_ext (heap_remove (w, s) heap) best); auto. split; auto.
    intros Z P. destruct (C Z P) as (w' & I' & L). exists w'. split; auto. apply heap_remove_keep; auto. intros EQ. injection EQ as E1' E2'. subst s w'.
    unfold nonterm in NT. cbn [fst snd] in NT. rewrite Nat.eqb_refl in NT. destruct L as [L _]. apply Nat.ltb_lt in L. rewrite L in NT. discriminate. }
  assert (Xs : expanded h2 b2 s w) by (intros x Hx; apply C2, in_seq; lia).
  split; [constructor; auto|].
  - destruct ST as [ST|ST]; auto. destruct (Nat.eq_dec w 0) as [->|N1].
    + destruct (Nat.eq_dec s 0) as [->|N2']; auto. left. apply E2. cbn [fst]. apply heap_remove_keep; congruence.
    + left. apply E2. cbn [fst]. apply heap_remove_keep; congruence.
  - intros s' b Eb. destruct (N2 s' b Eb) as [Eb'|I']; auto. destruct (BE s' b Eb') as [I'|X']; auto.
    destruct (Nat.eq_dec b w) as [->|N1]; [destruct (Nat.eq_dec s' s) as [->|N2']; auto|]; left; apply E2; cbn [fst]; apply heap_remove_keep; congruence.
  - destruct D2 as [D2|[D2 P2]]; auto. right. split; auto. lia.
Qed.

Lemma frontier heap best s w : inv heap best -> gwalk s w ->
  (exists e, In e heap /\ fst e <= w) \/ (exists b, b <= w /\ walk s b /\ expanded heap best s b).
Proof.
  intros [[SL SH SB] ST BE] G. induction G as [|s w x G IH Hx Good].
  - destruct ST as [I|X]; [left; exists (0, 0); auto|right; exists 0; split; [auto|split; [apply walk_0|auto]]].
  - destruct IH as [(e & I & L)|(b & L & W & X)]; [left; exists e; split; auto; lia|].
    destruct (X x Hx) as [(b1 & E1 & L1) _]. destruct (BE _ _ E1) as [I|X1]; [left; exists (b1, nx s x); cbn [fst]; split; auto; lia|].
    right. exists b1. split; [lia|]. split; auto.
Qed.
Lemma frontier_final heap best w : inv heap best -> gwalk 0 w -> 0 < w -> exists e, In e heap /\ fst e <= w.
Proof.
  intros V G P. inversion G as [|s w0 x G' Hx Good E1 E2]; [lia|].
  destruct (frontier heap best s w0 V G') as [(e & I & L)|(b & L & W & X)]; [exists e; split; auto; lia|].
  destruct (X x Hx) as [_ C]. rewrite E1 in C. specialize (C eq_refl).
  destruct (Nat.eq_dec (b + bc s x) 0) as [Z|NZ].
  - assert (b = 0) by lia. subst b. rewrite E1 in Good. destruct Good as [->|NW]; [lia|exfalso; apply NW; exact W].
  - destruct C as (w' & I & L'); [lia|]. exists (w', 0). split; auto. cbn [fst]. lia.
Qed.

Definition fd_spec (r : option nat) : Prop :=
  match r with
  | Some w => walk 0 w /\ 0 < w /\ forall w', gwalk 0 w' -> 0 < w' -> w <= w'
  | None => forall w', gwalk 0 w' -> w' = 0
  end.
Lemma fd_loop_sound fuel : forall heap best r, inv heap best -> fd_loop M fuel heap best = Some r -> fd_spec r.
Proof.
  induction fuel as [|fuel IH]; intros [|a h] best r V E; cbn [fd_loop] in E; try discriminate.
  - injection E as <-. cbn. intros w' G. destruct w'; auto. destruct (frontier_final [] best (S w') V G) as (e & [] & _). lia.
  - injection E as <-. cbn. intros w' G. destruct w'; auto. destruct (frontier_final [] best (S w') V G) as (e & [] & _). lia.
  - destruct (heap_min_spec a h) as [Im Mm]. destruct (heap_min a h) as [w s] eqn:Em.
    destruct ((s =? 0) && (0 <? w)) eqn:T.
    + injection E as <-. apply andb_true_iff in T as [T1 T2]. apply Nat.eqb_eq in T1. apply Nat.ltb_lt in T2. subst s.
      destruct V as [SD ST BE]. pose proof SD as [SL SH SB]. cbn [fd_spec]. split; [apply SH; auto|]. split; auto. intros w' G P.
      destruct (frontier_final (a :: h) best w') as (e & I & L); auto. { constructor; auto. } specialize (Mm e I). cbn [fst] in Mm. lia.
    + pose proof (step_inv (a :: h) best w s V Im) as ST. unfold nonterm in ST. cbn [fst snd] in ST. rewrite T in ST. specialize (ST eq_refl).
      destruct (fold_left _ _ _) as [h2 b2]. destruct ST as [V2 _]. eapply IH; eauto.
Qed.
Lemma fd_loop_terminates heap best : inv heap best -> exists fuel, fd_loop M fuel heap best <> None.
Proof.
  remember (nones best) as a eqn:Ea. revert heap best Ea. induction a as [a IHa] using lt_wf_ind. intros heap best. remember (total best) as b eqn:Eb. revert heap best Eb.
  induction b as [b IHb] using lt_wf_ind. intros heap best Eb. remember (pend heap) as p eqn:Ep. revert heap best Ep Eb.
  induction p as [p IHp] using lt_wf_ind. intros heap best Ep Eb Ea V. destruct heap as [|e h]; [exists 0; cbn; discriminate|].
  destruct (heap_min_spec e h) as [Im Mm]. destruct (heap_min e h) as [w s] eqn:Em. destruct ((s =? 0) && (0 <? w)) eqn:T.
  - exists 1. cbn [fd_loop]. rewrite Em, T. discriminate.
  - pose proof (step_inv (e :: h) best w s V Im) as ST. unfold nonterm in ST. cbn [fst snd] in ST. rewrite T in ST. specialize (ST eq_refl).
    assert (G : forall h2 b2, fold_left (fd_relax M w s) (seq 0 ni) (heap_remove (w, s) (e :: h), best) = (h2, b2) ->
       (exists fuel, fd_loop M fuel h2 b2 <> None) -> exists fuel, fd_loop M fuel (e :: h) best <> None).
    { intros h2 b2 E2 (fuel & N). exists (S fuel). cbn [fd_loop]. rewrite Em, T. cbv zeta. rewrite E2. exact N. }
    destruct (fold_left _ _ _) as [h2 b2]. destruct ST as [V2 D]. apply (G h2 b2 eq_refl). unfold dec in D. destruct D as [[D|[D1 D2]]|[-> D]].
    + apply (IHa (nones b2)); auto. lia.
    + apply (IHb (total b2)); auto; lia.
    + apply (IHp (pend h2)); auto. lia.
Qed.
Lemma init_inv : inv [(0, 0)] (repeat None ns).
Proof.
  assert (N : forall s, nth s (repeat (None : option nat) ns) None = None) by (intros s; generalize ns as m; revert s; induction s; destruct m; cbn; auto).
  constructor; [constructor| |].
  - apply repeat_length.
  - intros w s [[= <- <-]|[]]. split; [constructor|]. destruct OKM; auto.
  - intros s b E. rewrite N in E. discriminate.
  - left. left. auto.
  - intros s b E. rewrite N in E. discriminate.
Qed.
Lemma fd_total : (exists fuel, free_distance_fsm M fuel <> None) /\ forall fuel r, free_distance_fsm M fuel = Some r -> fd_spec r.
Proof. split; [apply fd_loop_terminates, init_inv|]. intros fuel r. apply fd_loop_sound, init_inv. Qed.
End FD.

(* ---- linear machines ---- *)
Definition hw (v : vec) : nat := length (filter (fun b => b) v).
Lemma hw_app a b : hw (a ++ b) = hw a + hw b.
Proof. unfold hw. rewrite filter_app, app_length. reflexivity. Qed.
Lemma hw_zero v : hw v = 0 -> v = zeros (length v).
Proof. unfold hw, zeros. induction v as [|[] v IH]; cbn; intros H; [auto|discriminate|f_equal; auto]. Qed.
Lemma hw_zeros n : hw (zeros n) = 0.
Proof. unfold hw, zeros. induction n; cbn; auto. Qed.

Lemma bit_count_bitsn v : bit_count (bitsn v) = hw v.
Proof.
  unfold bit_count, bitsn. rewrite N2Nat.id. set (a := bits_to_int v LSB_first).
  assert (T : forall i, i < length v -> N.testbit a (N.of_nat i) = nth i v false) by (intros; apply Bits_Proof.bits_to_int_testbit).
  assert (U : forall i, N.size_nat a <= i \/ length v <= i -> N.testbit a (N.of_nat i) = false).
  { intros i [H|H].
    - destruct a as [|p]; [apply N.bits_0|]. apply N.bits_above_log2.
      assert (E : N.size_nat (N.pos p) = S (N.to_nat (N.log2 (N.pos p)))).
      { rewrite <- N2Nat.inj_succ, <- N.size_log2 by discriminate. cbn [N.size N.size_nat]. clear. induction p; cbn; try (rewrite IHp, Pos2Nat.inj_succ); auto. }
      lia.
    - pose proof (Bits_Proof.bits_to_int_bound v LSB_first) as B. fold a in B. apply N.mod_small in B. rewrite <- B. apply N.mod_pow2_bits_high. lia. }
  assert (G : forall m, (forall i, m <= i -> N.testbit a (N.of_nat i) = false) -> forall j, length (filter (fun i => N.testbit a (N.of_nat i)) (seq 0 (m + j))) = length (filter (fun i => N.testbit a (N.of_nat i)) (seq 0 m))).
  { intros m Hm j. rewrite seq_app, filter_app, app_length. assert (Z : filter (fun i => N.testbit a (N.of_nat i)) (seq (0 + m) j) = []).
    { cbn [Nat.add]. assert (forall j s, m <= s -> filter (fun i => N.testbit a (N.of_nat i)) (seq s j) = []).
      { induction j0 as [|j0 IH]; intros s0 Hs0; cbn [seq filter]; auto. rewrite Hm by auto. apply IH. lia. } apply H. lia. }
    rewrite Z. cbn. lia. }
  transitivity (length (filter (fun i => N.testbit a (N.of_nat i)) (seq 0 (length v)))).
  - destruct (Nat.le_ge_cases (N.size_nat a) (length v)) as [L|L].
    + replace (length v) with (N.size_nat a + (length v - N.size_nat a)) by lia. rewrite G; auto.
    + replace (N.size_nat a) with (length v + (N.size_nat a - length v)) by lia. rewrite G; auto.
  - rewrite (filter_ext_in _ (fun i => nth i v false)) by (intros i I; apply in_seq in I; apply T; lia). clear. unfold hw.
    induction v as [|x v IH]; [reflexivity|]. cbn [length seq filter nth]. rewrite <- seq_shift.
    assert (K : forall l, length (filter (fun i => nth i (x :: v) false) (map S l)) = length (filter (fun i => nth i v false) l)).
    { induction l as [|y l IHl]; [reflexivity|]. cbn [map filter]. change (nth (S y) (x :: v) false) with (nth y v false). destruct (nth y v false); cbn [length]; rewrite IHl; auto. }
    destruct x; cbn [length]; rewrite K, IH; reflexivity.
Qed.

Section Linear.
Context (c : conv) (OK : conv_ok c).
Local Notation d := (cv_deg c).
Local Notation k := (cv_k c).
Local Notation n := (cv_n c).
Local Notation M := (conv_fsm c).
Definition end_of us := snd (conv_run c us (zeros d)).
Definition out_of us := concat (fst (conv_run c us (zeros d))).
Definition wt us := hw (out_of us).

Lemma end_length us : length (end_of us) = d.
Proof. apply run_state_length; auto. apply zeros_length. Qed.
Lemma end_snoc us u : end_of (us ++ [u]) = conv_next c (end_of us) u.
Proof. unfold end_of. rewrite run_snoc. reflexivity. Qed.
Lemma wt_snoc us u : wt (us ++ [u]) = wt us + hw (conv_output c (end_of us) u).
Proof. unfold wt, out_of. rewrite run_snoc. cbn [fst]. rewrite concat_app, hw_app. cbn [concat]. rewrite app_nil_r. reflexivity. Qed.
Lemma bitsn_zeros m : bitsn (zeros m) = 0.
Proof.
  unfold bitsn. replace (bits_to_int (zeros m) LSB_first) with 0%N; auto. symmetry. unfold bits_to_int. apply N.bits_inj. intros i. rewrite N.bits_0.
  change (N.testbit (bits_to_int (zeros m) LSB_first) i = false). rewrite <- (N2Nat.id i). rewrite Bits_Proof.bits_to_int_testbit. apply nth_zeros.
Qed.
Lemma step_fsm s u : length s = d -> length u = k -> bitsn u < num_input_symbols M /\
  fsm_next M (bitsn s) (bitsn u) = bitsn (conv_next c s u) /\ bit_count (fsm_out M (bitsn s) (bitsn u)) = hw (conv_output c s u).
Proof.
  intros Ls Lu. assert (Hs : bitsn s < 2 ^ d) by (rewrite <- Ls; apply bitsn_bound). assert (Hu : bitsn u < 2 ^ k) by (rewrite <- Lu; apply bitsn_bound).
  rewrite (fsm_num_inputs c). rewrite (fsm_next_spec c), (fsm_out_spec c) by auto. rewrite !nbits_bitsn by auto. rewrite bit_count_bitsn. auto.
Qed.
Lemma walk_of us : blocks k us -> walk M (bitsn (end_of us)) (wt us).
Proof.
  induction us as [|u us IH] using rev_ind; intros B.
  - unfold end_of, wt, out_of. cbn. rewrite bitsn_zeros. constructor.
  - apply Forall_app in B as [B Bu]. inversion Bu; subst. destruct (step_fsm (end_of us) u (end_length us) H1) as (Hx & En & Eo).
    rewrite end_snoc, wt_snoc, <- En, <- Eo. constructor; auto.
Qed.
Lemma of_walk s w : walk M s w -> exists us, blocks k us /\ s = bitsn (end_of us) /\ w = wt us.
Proof.
  induction 1 as [|s w x W (us & B & -> & ->) Hx].
  - exists []. split; [constructor|]. unfold end_of, wt, out_of. cbn. rewrite bitsn_zeros. auto.
  - rewrite (fsm_num_inputs c) in Hx. exists (us ++ [nbits k x]). assert (Lx : length (nbits k x) = k) by apply nbits_length.
    split; [apply Forall_app; split; auto|]. destruct (step_fsm (end_of us) (nbits k x) (end_length us) Lx) as (_ & En & Eo).
    rewrite bitsn_nbits in En, Eo by auto. rewrite end_snoc, wt_snoc, En, Eo. auto.
Qed.
Lemma bitsn_inj u v : length u = length v -> bitsn u = bitsn v -> u = v.
Proof. intros L E. rewrite <- (nbits_bitsn u (length v) L), E. apply nbits_bitsn. reflexivity. Qed.

(* states reached by a weightless walk *)
Definition free z := exists us, blocks k us /\ end_of us = z /\ wt us = 0.
Lemma free_walk us : walk M (bitsn (end_of us)) 0 <-> free (end_of us).
Proof.
  split.
  - intros W. apply of_walk in W as (us' & B & E & Ew). exists us'. split; auto. split; auto. apply bitsn_inj in E; [auto|rewrite !end_length; auto].
  - intros (us' & B & E & Ew). rewrite <- E, <- Ew. apply walk_of. auto.
Qed.
Lemma next_zero : conv_next c (zeros d) (zeros k) = zeros d.
Proof. destruct OK as [_ _ [WA LA] [WB LB] _ _]. unfold conv_next. rewrite !vecmat_zeros by auto. apply vxor_zeros_r, zeros_length. Qed.
Lemma output_zero : conv_output c (zeros d) (zeros k) = zeros n.
Proof. destruct OK as [_ _ _ _ [WC LC] [WD LD]]. unfold conv_output. rewrite !vecmat_zeros by auto. apply vxor_zeros_r, zeros_length. Qed.
Definition pad m us := repeat (zeros k) m ++ us.
Lemma pad_run m us : end_of (pad m us) = end_of us /\ wt (pad m us) = wt us /\ out_of (pad m us) = concat (repeat (zeros n) m) ++ out_of us.
Proof.
  unfold end_of, wt, out_of, pad. induction m as [|m (E & W & O)]; [auto|]. cbn [repeat app conv_run]. cbv zeta. rewrite next_zero, output_zero.
  destruct (conv_run c (repeat (zeros k) m ++ us) (zeros d)) as [vs s]. cbn [fst snd concat] in *. rewrite O. split; auto. split.
  - rewrite hw_app, hw_zeros. rewrite <- O. auto.
  - rewrite app_assoc. reflexivity.
Qed.
Lemma pad_blocks m us : blocks k us -> blocks k (pad m us).
Proof. intros B. apply Forall_app. split; auto. apply Forall_forall. intros x I. apply repeat_spec in I. subst. apply zeros_length. Qed.
Lemma add_run us vs : blocks k us -> blocks k vs -> length us = length vs ->
  end_of (badd us vs) = vxor (end_of us) (end_of vs) /\ out_of (badd us vs) = vxor (out_of us) (out_of vs).
Proof.
  intros B B' L. unfold end_of, out_of. pose proof (run_linear c OK us vs (zeros d) (zeros d) B B' L (zeros_length d) (zeros_length d)) as R.
  rewrite vxor_self, zeros_length in R. rewrite R. cbn [fst snd]. split; auto.
  apply (concat_badd n); try apply run_blocks; auto. rewrite !run_length. auto.
Qed.
Lemma badd_blocks us vs : blocks k us -> blocks k vs -> length us = length vs -> blocks k (badd us vs).
Proof. revert vs; induction us; intros [|v vs] B B' L; cbn in *; try lia; [constructor|]. inversion B; inversion B'; subst. constructor; [rewrite vxor_length; congruence|]. apply IHus; auto. Qed.
Lemma out_length us : length (out_of us) = length us * n.
Proof. unfold out_of. rewrite (blocks_concat_length n) by (apply run_blocks; auto). rewrite run_length. auto. Qed.
(* adding a weightless walk does not change the output *)
Lemma add_free us vs : blocks k us -> blocks k vs -> length us = length vs -> wt vs = 0 ->
  end_of (badd us vs) = vxor (end_of us) (end_of vs) /\ wt (badd us vs) = wt us.
Proof.
  intros B B' L Z. destruct (add_run us vs B B' L) as [E O]. split; auto. unfold wt. rewrite O. apply hw_zero in Z. rewrite Z.
  rewrite vxor_zeros_r; auto. rewrite !out_length. lia.
Qed.
Lemma free_add a b : free a -> free b -> free (vxor a b).
Proof.
  intros (us & B & <- & W) (vs & B' & <- & W'). exists (badd (pad (length vs) us) (pad (length us) vs)).
  destruct (pad_run (length vs) us) as (E1 & E2 & _). destruct (pad_run (length us) vs) as (F1 & F2 & _).
  assert (L : length (pad (length vs) us) = length (pad (length us) vs)) by (unfold pad; rewrite !app_length, !repeat_length; lia).
  destruct (add_free _ _ (pad_blocks (length vs) us B) (pad_blocks (length us) vs B') L) as [E W0]; [lia|].
  split; [apply badd_blocks; auto using pad_blocks|]. rewrite E, W0, E1, F1. split; auto. lia.
Qed.
Lemma badd_app a b a' b' : length a = length a' -> badd (a ++ b) (a' ++ b') = badd a a' ++ badd b b'.
Proof. revert a'; induction a as [|x a IH]; intros [|y a'] L; cbn in *; try lia; auto. f_equal. apply IH. lia. Qed.

Definition clean us := forall p q, us = p ++ q -> q <> [] -> wt p = 0 \/ ~ free (end_of p).
Lemma gwalk_of us : blocks k us -> clean us -> gwalk M (bitsn (end_of us)) (wt us).
Proof.
  induction us as [|u us IH] using rev_ind; intros B C.
  - unfold end_of, wt, out_of. cbn. rewrite bitsn_zeros. constructor.
  - apply Forall_app in B as [B Bu]. inversion Bu; subst. destruct (step_fsm (end_of us) u (end_length us) H1) as (Hx & En & Eo).
    rewrite end_snoc, wt_snoc, <- En, <- Eo. constructor; auto.
    + apply IH; auto. intros p q E N. apply (C p (q ++ [u])); [rewrite E, app_assoc; auto|destruct q; discriminate].
    + destruct (C us [u] eq_refl) as [Z|F]; [discriminate|auto|]. right. rewrite free_walk. auto.
Qed.
Lemma wt_app p q : wt p <= wt (p ++ q).
Proof. unfold wt, out_of. rewrite run_app. cbn [fst]. rewrite concat_app, hw_app. lia. Qed.

Lemma clean_closed us : blocks k us -> free (end_of us) -> 0 < wt us -> ~ ~ exists w, gwalk M 0 w /\ 0 < w <= wt us.
Proof.
  remember (length us) as m eqn:Em. revert us Em. induction m as [m IH] using lt_wf_ind. intros us Em B F P NN.
  assert (Dec : ~ ~ ((exists p q, us = p ++ q /\ q <> [] /\ 0 < wt p /\ free (end_of p)) \/ ~ (exists p q, us = p ++ q /\ q <> [] /\ 0 < wt p /\ free (end_of p)))) by tauto.
  apply Dec. intros [(p & q & E & Nq & Pp & Fp)|NP].
  - subst us. apply Forall_app in B as [B _]. apply (IH (length p)) with (us := p); auto.
    + subst m. rewrite app_length. destruct q; [congruence|cbn; lia].
    + intros (w & G & L). apply NN. exists w. split; auto. pose proof (wt_app p q). lia.
  - destruct F as (vs & B' & Ev & Wv). set (X := pad (length vs) us). set (Y := pad (length us) vs).
    destruct (pad_run (length vs) us) as (E1 & E2 & _). destruct (pad_run (length us) vs) as (F1 & F2 & _). fold X in E1, E2. fold Y in F1, F2.
    assert (L : length X = length Y) by (unfold X, Y, pad; rewrite !app_length, !repeat_length; lia).
    pose proof (pad_blocks (length vs) us B) as BX. pose proof (pad_blocks (length us) vs B') as BY. fold X in BX. fold Y in BY.
    destruct (add_free X Y BX BY L) as [E W]; [lia|].
    apply NN. exists (wt us). split; [|lia]. rewrite <- E2, <- W.
    replace 0 with (bitsn (end_of (badd X Y))).
    2:{ rewrite E, E1, F1, Ev, vxor_self. apply bitsn_zeros. }
    apply gwalk_of; [apply badd_blocks; auto|]. intros p q Epq Nq.
    (* split X and Y at the length of p *)
    remember (length p) as t eqn:Et. assert (Lt : t <= length X) by (rewrite <- (badd_length X Y L), Epq, app_length; lia).
    pose proof (firstn_skipn t X) as SX. pose proof (firstn_skipn t Y) as SY.
    assert (LX : length (firstn t X) = t) by (rewrite firstn_length; lia). assert (LY : length (firstn t Y) = t) by (rewrite firstn_length; lia).
    assert (Ep : p = badd (firstn t X) (firstn t Y) /\ q = badd (skipn t X) (skipn t Y)).
    { rewrite <- SX, <- SY, badd_app in Epq by lia. apply app_inj_len in Epq as [-> ->]; auto. rewrite badd_length; lia. }
    clear Et. destruct Ep as [-> ->].
    assert (Bx : blocks k (firstn t X)) by (rewrite <- SX in BX; apply Forall_app in BX; tauto).
    assert (By : blocks k (firstn t Y)) by (rewrite <- SY in BY; apply Forall_app in BY; tauto).
    assert (Wy : wt (firstn t Y) = 0) by (pose proof (wt_app (firstn t Y) (skipn t Y)); rewrite SY in *; lia).
    destruct (add_free (firstn t X) (firstn t Y) Bx By) as [Ee We]; [lia|auto|]. rewrite We, Ee.
    destruct (Nat.eq_dec (wt (firstn t X)) 0) as [Z|NZ]; [left; auto|right]. intros Fr.
    assert (Fx : free (end_of (firstn t X))).
    { assert (Fy : free (end_of (firstn t Y))) by (exists (firstn t Y); auto). pose proof (free_add _ _ Fr Fy) as G. rewrite vxor_cancel_r in G; auto. rewrite !end_length. auto. }
    assert (tb : length vs <= t).
    { destruct (Nat.le_gt_cases (length vs) t); auto. exfalso. apply NZ. unfold X, pad. rewrite firstn_app, repeat_length.
      replace (t - length vs) with 0 by lia. cbn [firstn]. rewrite app_nil_r. 
      assert (G : forall j i, firstn i (repeat (zeros k) j) = repeat (zeros k) (Nat.min i j)) by (induction j; intros [|i]; cbn [firstn repeat Nat.min]; auto; rewrite IHj; auto).
      rewrite G. destruct (pad_run (Nat.min t (length vs)) []) as (_ & W0 & _). unfold pad in W0. rewrite app_nil_r in W0. rewrite W0. reflexivity. }
    apply NP. exists (firstn (t - length vs) us), (skipn (t - length vs) us). split; [symmetry; apply firstn_skipn|].
    assert (EX : firstn t X = pad (length vs) (firstn (t - length vs) us)).
    { unfold X, pad. rewrite firstn_app, repeat_length. f_equal. apply firstn_all2. rewrite repeat_length. auto. }
    destruct (pad_run (length vs) (firstn (t - length vs) us)) as (H1 & H2 & _). rewrite <- EX in H1, H2. split; [|split; [lia|rewrite <- H1; auto]].
    intros EZ. apply Nq. unfold X, pad. rewrite skipn_app, repeat_length, EZ. rewrite skipn_all2 by (rewrite repeat_length; auto). reflexivity.
Qed.
Lemma free_distance_spec r : fd_spec M r ->
  match r with
  | Some w => (exists us, blocks k us /\ end_of us = zeros d /\ wt us = w /\ 0 < w) /\
              (forall us, blocks k us -> end_of us = zeros d -> 0 < wt us -> w <= wt us)
  | None => forall us, blocks k us -> end_of us = zeros d -> wt us = 0
  end.
Proof.
  assert (F0 : free (zeros d)) by (exists []; repeat split; constructor).
  destruct r as [w|]; cbn [fd_spec].
  - intros (W & P & G). split.
    + apply of_walk in W as (us & B & E & Ew). exists us. split; auto. split; auto. apply bitsn_inj; [rewrite end_length, zeros_length; auto|]. rewrite bitsn_zeros. auto.
    + intros us B E Pu. destruct (Nat.le_gt_cases w (wt us)) as [|GT]; auto. exfalso. apply (clean_closed us B); [rewrite E; auto|auto|].
      intros (w' & Gw & L). specialize (G w' Gw). lia.
  - intros G us B E. destruct (Nat.eq_dec (wt us) 0) as [|NZ]; auto. exfalso. apply (clean_closed us B); [rewrite E; auto|lia|].
    intros (w' & Gw & L). specialize (G w' Gw). lia.
Qed.
End Linear.
