(* Repetition, single-parity-check, Cordaro-Wagner and Golay codes; perfect codes. *)
From Coq Require Import Permutation.
From Verif Require Import Common Bits_Model Vec_Model Vec_Proof LinAlg_Model Linear_Spec
  LinAlg_Proof XRref_Proof Null_Proof BlockCode_Model Code_Spec BlockCode_Proof CosetLeaders_Proof Decoders_Proof
  Systematic_Proof ClassicCodes_Model Hamming_Proof.
Local Open Scope nat_scope.

Lemma ones_length n : length (ones n) = n.
Proof. apply repeat_length. Qed.
Lemma weight_ones n : weight (ones n) = n.
Proof. induction n; cbn [ones repeat]; auto. rewrite weight_cons. fold (ones n). lia. Qed.

Lemma weight_complement v : weight (vxor v (ones (length v))) = length v - weight v.
Proof.
  induction v as [|b v IH]; auto. cbn [length ones repeat vxor]. fold (ones (length v)).
  rewrite !weight_cons, IH. pose proof (weight_le v). destruct b; cbn [xorb]; lia.
Qed.

Lemma covering_unique C a b : is_covering_radius C a -> is_covering_radius C b -> a = b.
Proof.
  assert (G : forall a b, is_covering_radius C a -> is_covering_radius C b -> a <= b).
  { intros x y [_ (r & Lr & H)] [H' _]. destruct (H' r Lr) as (c & Hc & D). specialize (H c Hc). lia. }
  intros. apply Nat.le_antisymm; apply G; auto.
Qed.

Lemma covering_radius_value C cached rho : valid_code C -> bc_m C <> 0 -> is_covering_radius C rho ->
  covering_radius C cached = Some rho.
Proof.
  intros V Hm H. destruct (covering_radius_spec C cached V Hm) as (r & E & H'). rewrite E. f_equal. eapply covering_unique; eauto.
Qed.

(* ---- perfect codes ---- *)
Definition ball_size (n t : nat) : nat := list_sum (map (comb n) (seq 0 (t + 1))).
Definition ball (n t : nat) : list vec := flat_map (combs n) (seq 0 (t + 1)).

Lemma ball_length n t : length (ball n t) = ball_size n t.
Proof.
  unfold ball, ball_size. generalize (seq 0 (t + 1)) as l. induction l as [|x l IH]; cbn [flat_map map list_sum fold_right]; auto.
  rewrite app_length, combs_length, IH. auto.
Qed.
Lemma in_ball n t v : In v (ball n t) <-> length v = n /\ weight v <= t.
Proof.
  unfold ball. rewrite in_flat_map. split.
  - intros (w & Hw & Hv). apply in_seq in Hw. apply in_combs in Hv. lia.
  - intros [L W]. exists (weight v). rewrite in_seq, in_combs. lia.
Qed.
Lemma ball_NoDup n t : NoDup (ball n t).
Proof.
  apply NoDup_flat_map_disj; [apply seq_NoDup|intros; apply combs_NoDup|].
  intros x y b _ _ Hx Hy. apply in_combs in Hx. apply in_combs in Hy. lia.
Qed.

Lemma perfect C d t : valid_code C -> is_minimum_distance C d -> 2 * t + 1 <= d -> ball_size (bc_n C) t = 2 ^ bc_m C ->
  is_covering_radius C t.
Proof.
  intros V D Hd B. pose proof (ok_checker C V) as K. pose proof (ok_encoder C V) as E.
  pose proof D as D'. apply minimum_weight_distance in D as (_ & (x & Cx & Wx) & Dm); auto.
  split.
  - assert (S : incl (words (bc_m C)) (map (bc_check C) (ball (bc_n C) t))).
    { apply NoDup_length_incl.
      - apply NoDup_map_inj_in; [|apply ball_NoDup]. intros u v Hu Hv Ec. apply in_ball in Hu as [Lu Wu]. apply in_ball in Hv as [Lv Wv].
        apply coset_codeword in Ec; auto. pose proof (weight_vxor_le u v ltac:(congruence)) as T.
        destruct (Nat.eq_dec (weight (vxor u v)) 0) as [Z|Z].
        + apply hdist_zero in Z; congruence.
        + specialize (Dm _ Ec Z). lia.
      - rewrite map_length, words_length, ball_length. lia.
      - intros s Hs. apply in_map_iff in Hs as (v & <- & Hv). apply in_ball in Hv as [Lv _]. apply in_words. apply check_length; auto. }
    intros r Lr. assert (Hin : In (bc_check C r) (map (bc_check C) (ball (bc_n C) t))).
    { apply S. apply in_words. apply check_length; auto. }
    apply in_map_iff in Hin as (e & Ee & He). apply in_ball in He as [Le We].
    exists (vxor r e). split.
    + apply coset_codeword; auto.
    + unfold hdist. rewrite vxor_cancel by congruence. auto.
  - assert (Hn : d <= bc_n C). { rewrite <- Wx. rewrite <- (codeword_length C x) by auto. apply weight_le. }
    exists (ones t ++ zeros (bc_n C - t)). set (r := ones t ++ _).
    assert (Lr : length r = bc_n C) by (unfold r; rewrite app_length, ones_length, zeros_length; lia).
    assert (Wr : weight r = t) by (unfold r; rewrite weight_app, weight_ones, weight_zeros; lia).
    split; auto. intros c Hc. assert (Lc : length c = bc_n C) by (apply codeword_length; auto).
    destruct (Nat.eq_dec (weight c) 0) as [Z|Z].
    + apply weight_zero in Z. rewrite Z, Lc. unfold hdist. rewrite vxor_zeros_r by auto. lia.
    + specialize (Dm c Hc Z). pose proof (weight_vxor_le r (vxor r c)) as T. rewrite vxor_length in T by congruence.
      specialize (T eq_refl). rewrite vxor_cancel in T by congruence. unfold hdist. lia.
Qed.

(* ---- repeated assignment ---- *)
Lemma nth_fold_upd (g F : nat -> nat) l : forall d w, (forall i, In i l -> g i < length d) ->
  nth w (fold_left (fun d i => upd (g i) (F (g i)) d) l d) 0 =
  if existsb (fun i => g i =? w) l then F w else nth w d 0.
Proof.
  induction l as [|i l IH]; intros d w B; cbn [fold_left existsb]; auto.
  rewrite IH by (intros; rewrite upd_length; apply B; right; auto).
  rewrite nth_upd by (apply B; left; auto).
  destruct (existsb (fun i0 => g i0 =? w) l); [rewrite orb_true_r; auto|]. rewrite orb_false_r.
  rewrite (Nat.eqb_sym w). destruct (g i =? w) eqn:E; auto. apply Nat.eqb_eq in E. subst; auto.
Qed.

Lemma fold_upd_length (g F : nat -> nat) l : forall d, length (fold_left (fun d i => upd (g i) (F i) d) l d) = length d.
Proof. induction l as [|i l IH]; intros d; cbn [fold_left]; auto. rewrite IH, upd_length; auto. Qed.

(* ---- repetition ---- *)
Lemma row_space_single n r v : length r = n -> (row_space n [r] v <-> v = zeros n \/ v = r).
Proof.
  intros L. rewrite row_space_iff by (repeat constructor; auto). split.
  - intros (c & Lc & <-). destruct c as [|b [|? ?]]; cbn in Lc; try lia. destruct b; cbn [vecmat]; [right|left; auto].
    apply vxor_zeros_r; auto.
  - intros [->| ->]; [exists [false]|exists [true]]; split; auto. apply vxor_zeros_r; auto.
Qed.

Lemma independent_single n r : length r = n -> weight r <> 0 -> independent n [r].
Proof.
  intros L W c Lc H. destruct c as [|b [|? ?]]; cbn in Lc; try lia. destruct b; auto. exfalso. apply W.
  cbn [vecmat] in H. rewrite vxor_zeros_r in H by auto. rewrite H. apply weight_zeros.
Qed.

Lemma repetition_code n : 1 <= n -> exists C, RepetitionCode n = Some C /\ bc_n C = n /\ bc_k C = 1 /\ valid_code C /\
  (forall v, is_codeword C v <-> v = zeros n \/ v = ones n).
Proof.
  intros Hn. unfold RepetitionCode. replace (1 <=? n) with true by (symmetry; apply Nat.leb_le; auto).
  destruct (code_of_generator_valid n [ones n]) as (C & E & A & B & G & V & Cw).
  - repeat constructor. apply ones_length.
  - apply independent_single; [apply ones_length|rewrite weight_ones; lia].
  - cbn; lia.
  - exists C. repeat (split; [assumption|]). intros v. rewrite Cw. apply row_space_single. apply ones_length.
Qed.

Lemma repetition_distance n C : 1 <= n -> RepetitionCode n = Some C -> is_minimum_distance C n.
Proof.
  intros Hn E. destruct (repetition_code n Hn) as (C' & E' & A & B & V & Cw). rewrite E in E'. injection E' as <-.
  apply minimum_weight_distance; [apply V|]. split; [lia|]. split.
  - exists (ones n). rewrite Cw, weight_ones. auto.
  - intros v Hv N. apply Cw in Hv as [->| ->]; [rewrite weight_zeros in N; lia|rewrite weight_ones; auto].
Qed.

Lemma leaders_NoDup C lds : leaders_spec C lds -> NoDup lds.
Proof.
  intros [L H]. apply (NoDup_nth lds []). intros i j Hi Hj E. rewrite L in *.
  apply (message_inj (bc_m C)); auto. destruct (H i Hi) as (_ & <- & _). destruct (H j Hj) as (_ & <- & _). congruence.
Qed.

Lemma in_leaders C lds v : leaders_spec C lds -> In v lds ->
  length v = bc_n C /\ forall r, length r = bc_n C -> bc_check C r = bc_check C v -> weight v <= weight r.
Proof.
  intros [L H] Hv. apply In_nth_row in Hv as (i & Hi & <-). rewrite L in Hi. destruct (H i Hi) as (A & B & D).
  split; auto. intros r Lr E. apply D; congruence.
Qed.

Lemma leader_of C lds v : check_ok C -> leaders_spec C lds -> length v = bc_n C ->
  exists l, In l lds /\ length l = bc_n C /\ bc_check C l = bc_check C v /\ weight l <= weight v.
Proof.
  intros K [L H] Lv. destruct (syndrome_index C v K Lv) as (Hi & Ei). cbn zeta in *. set (i := N.to_nat _) in *.
  destruct (H i Hi) as (A & B & D). exists (nth i lds []). split; [apply nth_In; lia|]. split; auto. split; [congruence|]. apply D; congruence.
Qed.

Ltac Zify.zify_post_hook ::= Z.to_euclidean_division_equations.

Lemma repetition_clwd n C cached : 2 <= n -> RepetitionCode n = Some C ->
  coset_leader_weight_distribution C cached = Some (repetition_coset_leader_weight_distribution n).
Proof.
  intros Hn EC. destruct (repetition_code n ltac:(lia)) as (C' & E' & An & Bk & V & Cw). rewrite EC in E'. injection E' as <-.
  pose proof (ok_params C V) as Pm. assert (Hm : bc_m C <> 0) by lia.
  pose proof (ok_checker C V) as K. pose proof (ok_encoder C V) as OE.
  destruct (clwd_ok C K cached Hm) as (d & lds & E & EL & _ & Ld & Hd).
  destruct (coset_leaders_spec C K Hm) as (lds' & EL' & LS). rewrite EL in EL'. injection EL' as <-.
  rewrite E. f_equal. pose proof (leaders_NoDup C lds LS) as ND. rewrite An in *.
  assert (Lc : length (repetition_coset_leader_weight_distribution n) = n + 1).
  { unfold repetition_coset_leader_weight_distribution. destruct (n mod 2 =? 0); rewrite ?upd_length;
      rewrite (fold_upd_length (fun w => w) (comb n)), repeat_length; auto. }
  assert (ones_cw : is_codeword C (ones n)) by (apply Cw; auto).
  (* a coset is a complementary pair *)
  assert (Co : forall u v, length u = n -> length v = n -> bc_check C u = bc_check C v -> u = v \/ u = vxor v (ones n)).
  { intros u v Lu Lv Ec. apply coset_codeword in Ec; auto; try congruence. apply Cw in Ec as [Ec|Ec].
    - left. apply vxor_eq_zeros; congruence.
    - right. rewrite <- Ec, (vxor_comm u v), vxor_cancel; congruence. }
  assert (Cc : forall v, length v = n -> bc_check C (vxor v (ones n)) = bc_check C v).
  { intros v Lv. apply coset_codeword; auto; try (rewrite ?vxor_length; rewrite ?ones_length; congruence).
    rewrite (vxor_comm (vxor _ _)), vxor_cancel; auto. rewrite ones_length; auto. }
  apply (nth_ext _ _ 0 0); [congruence|]. rewrite Ld. intros w Hw. rewrite Hd by lia.
  assert (Lead : forall v, In v lds -> length v = n /\ 2 * weight v <= n).
  { intros v Hv. destruct (in_leaders C lds v LS Hv) as [L M]. rewrite An in L, M. split; auto.
    specialize (M (vxor v (ones n))). rewrite <- L in M at 1. rewrite vxor_length in M by (rewrite ones_length; auto).
    specialize (M L (Cc v L)). rewrite <- L in M at 1. rewrite weight_complement in M. pose proof (weight_le v). lia. }
  assert (CD : nth w (repetition_coset_leader_weight_distribution n) 0 =
    if 2 * w <? n then comb n w else if 2 * w =? n then comb n w / 2 else 0).
  { unfold repetition_coset_leader_weight_distribution.
    set (f := fold_left _ _ _).
    assert (Lf : length f = n + 1) by (unfold f; rewrite (fold_upd_length (fun w => w) (comb n)), repeat_length; auto).
    assert (Nf : nth w f 0 = if existsb (fun i => i =? w) (seq 0 ((n + 1) / 2)) then comb n w else 0).
    { unfold f. rewrite (nth_fold_upd (fun w => w) (comb n)).
      - rewrite nth_repeat. auto.
      - intros i Hi. apply in_seq in Hi. rewrite repeat_length. lia. }
    assert (Ex : existsb (fun i => i =? w) (seq 0 ((n + 1) / 2)) = (w <? (n + 1) / 2)).
    { apply eq_true_iff_eq. rewrite existsb_exists, Nat.ltb_lt. split.
      - intros (i & Hi & Ei). apply in_seq in Hi. apply Nat.eqb_eq in Ei. lia.
      - intros H. exists w. rewrite in_seq, Nat.eqb_eq. lia. }
    rewrite Ex in Nf. destruct (n mod 2 =? 0) eqn:Em.
    - apply Nat.eqb_eq in Em. rewrite nth_upd by lia. destruct (w =? n / 2) eqn:Ew.
      + apply Nat.eqb_eq in Ew. assert (E2 : 2 * w = n) by lia. rewrite E2, Nat.ltb_irrefl, Nat.eqb_refl, Ew. auto.
      + apply Nat.eqb_neq in Ew. rewrite Nf. destruct (w <? (n + 1) / 2) eqn:A1.
        * apply Nat.ltb_lt in A1. replace (2 * w <? n) with true; auto. symmetry. apply Nat.ltb_lt. lia.
        * apply Nat.ltb_ge in A1. replace (2 * w <? n) with false by (symmetry; apply Nat.ltb_ge; lia).
          replace (2 * w =? n) with false; auto. symmetry. apply Nat.eqb_neq. lia.
    - apply Nat.eqb_neq in Em. rewrite Nf. destruct (w <? (n + 1) / 2) eqn:A1.
      + apply Nat.ltb_lt in A1. replace (2 * w <? n) with true; auto. symmetry. apply Nat.ltb_lt. lia.
      + apply Nat.ltb_ge in A1. replace (2 * w <? n) with false by (symmetry; apply Nat.ltb_ge; lia).
        replace (2 * w =? n) with false; auto. symmetry. apply Nat.eqb_neq. lia. }
  rewrite CD.
  set (F := filter (fun l => weight l =? w) lds).
  assert (NF : NoDup F) by (apply NoDup_filter; auto).
  assert (IF : forall v, In v F <-> In v lds /\ weight v = w) by (intros v; unfold F; rewrite filter_In, Nat.eqb_eq; tauto).
  destruct (2 * w <? n) eqn:E1.
  - apply Nat.ltb_lt in E1. apply (has_card_unique (fun v => length v = n /\ weight v = w)); [|apply count_weight].
    exists F. split; auto. split; auto. intros v. rewrite IF. split.
    + intros [H W]. split; auto. apply Lead; auto.
    + intros [L W]. split; auto. destruct (leader_of C lds v K LS ltac:(congruence)) as (l & Hl & Ll & Cl & Wl).
      destruct (Co l v) as [->|El]; auto; try congruence. exfalso. rewrite El in Wl. rewrite <- L in Wl at 1.
      rewrite weight_complement in Wl. lia.
  - apply Nat.ltb_ge in E1. destruct (2 * w =? n) eqn:E2.
    + apply Nat.eqb_eq in E2. assert (T : length (F ++ map (fun v => vxor v (ones n)) F) = comb n w).
      { apply (has_card_unique (fun v => length v = n /\ weight v = w)); [|apply count_weight].
        exists (F ++ map (fun v => vxor v (ones n)) F). split; [|split; auto].
        - assert (LF : forall v, In v F -> length v = n) by (intros v Hv; apply IF in Hv as [Hv _]; apply Lead in Hv; tauto).
          apply NoDup_app_intro; auto.
          + apply NoDup_map_inj_in; auto. intros x y Hx Hy Exy. apply LF in Hx. apply LF in Hy.
            rewrite <- (vxor_cancel_r (ones n) x), <- (vxor_cancel_r (ones n) y), Exy; auto; rewrite ones_length; auto.
          + intros v Hv Hv'. apply in_map_iff in Hv' as (u & Eu & Hu).
            (* v and its complement would be leaders of the same coset *)
            pose proof (LF u Hu) as Lu. pose proof (LF v Hv) as Lv. apply IF in Hv as [Hv _]. apply IF in Hu as [Hu _].
            assert (Ec : bc_check C v = bc_check C u) by (rewrite <- Eu; auto).
            destruct LS as [LL HH]. apply In_nth_row in Hv as (i & Hi & Ei). apply In_nth_row in Hu as (j & Hj & Ej).
            rewrite LL in Hi, Hj. assert (i = j).
            { apply (message_inj (bc_m C)); auto. destruct (HH i Hi) as (_ & <- & _). destruct (HH j Hj) as (_ & <- & _). congruence. }
            subst j. rewrite Ei in Ej. subst u.
            assert (Z : nth 0 (vxor v (ones n)) false = nth 0 v false) by congruence.
            rewrite nth_vxor in Z by (rewrite ones_length; auto). 
            assert (Z1 : nth 0 (ones n) false = true) by (destruct n; [lia|reflexivity]).
            rewrite Z1 in Z. destruct (nth 0 v false); discriminate.
        - intros v. rewrite in_app_iff, IF, in_map_iff. split.
          + intros [[H W]|(u & <- & Hu)].
            * apply Lead in H. tauto.
            * apply IF in Hu as [Hu Wu]. apply Lead in Hu as [Lu _]. rewrite vxor_length by (rewrite ones_length; auto).
              split; auto. rewrite <- Lu at 1. rewrite weight_complement. lia.
          + intros [L W]. destruct (leader_of C lds v K LS ltac:(congruence)) as (l & Hl & Ll & Cl & Wl).
            destruct (Co l v) as [->|El]; auto; try congruence.
            right. exists l. split; [rewrite El; apply vxor_cancel_r; rewrite ones_length; auto|]. apply IF. split; auto.
            rewrite El. rewrite <- L at 1. rewrite weight_complement. lia. }
      rewrite app_length, map_length in T. rewrite <- T. lia.
    + apply Nat.eqb_neq in E2. destruct F as [|v F'] eqn:EF; auto. exfalso.
      assert (Hv : In v (v :: F')) by (left; auto). apply IF in Hv as [Hv W]. apply Lead in Hv. lia.
Qed.

(* ---- single parity check ---- *)
Lemma spc_code n : 1 <= n -> exists C, SingleParityCheckCode n = Some C /\ bc_n C = n /\ bc_m C = 1 /\ valid_code C /\
  (forall v, is_codeword C v <-> length v = n /\ Nat.even (weight v) = true).
Proof.
  intros Hn. unfold SingleParityCheckCode. replace (1 <=? n) with true by (symmetry; apply Nat.leb_le; auto).
  destruct (code_of_check_valid n [ones n]) as (C & E & A & B & G & V & Cw & _).
  - repeat constructor. apply ones_length.
  - apply independent_single; [apply ones_length|rewrite weight_ones; lia].
  - cbn; lia.
  - exists C. repeat (split; [assumption|]). intros v. split.
    + intros H. assert (L : length v = n) by (rewrite <- A; apply codeword_length; auto; apply V). split; auto.
      apply Cw in H; auto. specialize (H (ones n) (or_introl eq_refl)). rewrite dot_ones in H by auto. unfold parity in H.
      rewrite <- Nat.negb_odd, H. auto.
    + intros [L W]. apply Cw; auto. intros r [<-|[]]. rewrite dot_ones by auto. unfold parity. rewrite <- Nat.negb_even, W. auto.
Qed.

Lemma spc_distance n C : 2 <= n -> SingleParityCheckCode n = Some C -> is_minimum_distance C 2.
Proof.
  intros Hn E. destruct (spc_code n ltac:(lia)) as (C' & E' & A & B & V & Cw). rewrite E in E'. injection E' as <-.
  apply minimum_weight_distance; [apply V|]. split; [lia|]. split.
  - exists (ones 2 ++ zeros (n - 2)). rewrite Cw, app_length, weight_app, zeros_length, weight_zeros, ones_length, weight_ones.
    repeat split; auto. lia.
  - intros v Hv N. apply Cw in Hv as [L W]. destruct (weight v) as [|[|w]]; [lia|discriminate|lia].
Qed.

Lemma spc_weights n C cached : 1 <= n -> SingleParityCheckCode n = Some C ->
  weight_distribution C cached = spc_codeword_weight_distribution n.
Proof.
  intros Hn E. destruct (spc_code n ltac:(lia)) as (C' & E' & A & B & V & Cw). rewrite E in E'. injection E' as <-.
  pose proof (ok_encoder C V) as OE.
  assert (Lc : length (spc_codeword_weight_distribution n) = n + 1).
  { unfold spc_codeword_weight_distribution. rewrite (fold_upd_length (fun i => 2 * i) (fun i => comb n (2 * i))), repeat_length; auto. }
  assert (Ld : length (weight_distribution C cached) = n + 1).
  { rewrite weight_distribution_spec, map_length, seq_length by auto. congruence. }
  apply (nth_ext _ _ 0 0); [congruence|]. rewrite Ld. intros w Hw. rewrite nth_weight_distribution by (auto; lia).
  unfold spc_codeword_weight_distribution. rewrite (nth_fold_upd (fun i => 2 * i) (comb n)).
  2:{ intros i Hi. apply in_seq in Hi. rewrite repeat_length. lia. }
  rewrite nth_repeat.
  assert (Ex : existsb (fun i => 2 * i =? w) (seq 0 (n / 2 + 1)) = Nat.even w).
  { apply eq_true_iff_eq. rewrite existsb_exists, Nat.even_spec. split.
    - intros (i & Hi & Ei). apply Nat.eqb_eq in Ei. exists i. lia.
    - intros (i & Hi). exists i. rewrite in_seq, Nat.eqb_eq. lia. }
  rewrite Ex. destruct (Nat.even w) eqn:Ev.
  - apply (has_card_unique (fun v => length v = n /\ weight v = w)); [|apply count_weight].
    eexists. split; [|split; [reflexivity|]].
    + apply NoDup_filter. apply codewords_NoDup; auto.
    + intros v. rewrite filter_In, Nat.eqb_eq, in_codewords, Cw. split; [tauto|]. intros [L W]. rewrite W. tauto.
  - destruct (filter _ _) as [|v F] eqn:EF; auto. exfalso.
    assert (Hv : In v (filter (fun v => weight v =? w) (codewords C))) by (rewrite EF; left; auto).
    apply filter_In in Hv as [Hv W]. apply Nat.eqb_eq in W. apply in_codewords, Cw in Hv as [_ H]. congruence.
Qed.

(* ---- Cordaro-Wagner ---- *)
Lemma cw_params n : 2 <= n -> let d := cw_distance n in let q := (n + 1) / 3 in
  0 < d /\ q <= d /\ d <= n /\ d <= n - q /\ d <= n + q - d.
Proof. intros H. unfold cw_distance. cbn zeta. lia. Qed.

Lemma vxor_ones_zeros n : vxor (ones n) (zeros n) = ones n.
Proof. apply vxor_zeros_r, ones_length. Qed.
Lemma vxor_zeros_ones n : vxor (zeros n) (ones n) = ones n.
Proof. apply vxor_zeros_l, ones_length. Qed.
Lemma vxor_ones_ones n : vxor (ones n) (ones n) = zeros n.
Proof. rewrite vxor_self, ones_length; auto. Qed.

Lemma cw_combination n : 2 <= n -> let d := cw_distance n in
  wf n (cordaro_wagner_generator_matrix n) /\
  forall u, length u = 2 -> weight (vecmat n u (cordaro_wagner_generator_matrix n)) =
    match u with [true; true] => d | [true; false] => n - (n + 1) / 3 | [false; true] => n + (n + 1) / 3 - d | _ => 0 end.
Proof.
  intros Hn d. pose proof (cw_params n Hn) as (A & B & D & E & F). fold d in A, B, D, E, F. set (q := (n + 1) / 3) in *.
  unfold cordaro_wagner_generator_matrix. fold d q.
  set (r1 := ones (d - q) ++ zeros q ++ ones (n - d)). set (r2 := zeros (d - q) ++ ones q ++ ones (n - d)).
  assert (L1 : length r1 = n) by (unfold r1; rewrite !app_length, !ones_length, zeros_length; lia).
  assert (L2 : length r2 = n) by (unfold r2; rewrite !app_length, !ones_length, zeros_length; lia).
  split; [repeat constructor; auto|].
  intros [|a [|b [|? ?]]] L; cbn in L; try lia. destruct a, b; cbn [vecmat]; rewrite ?vxor_zeros_r by auto.
  - unfold r1, r2. rewrite vxor_app by (rewrite ones_length, zeros_length; auto).
    rewrite vxor_app by (rewrite ones_length, zeros_length; auto).
    rewrite vxor_ones_zeros, vxor_zeros_ones, vxor_ones_ones, !weight_app, !weight_ones, weight_zeros. lia.
  - unfold r1. rewrite !weight_app, !weight_ones, weight_zeros. lia.
  - unfold r2. rewrite !weight_app, !weight_ones, weight_zeros. lia.
  - apply weight_zeros.
Qed.

Lemma cw_code n : 2 <= n -> exists C, CordaroWagnerCode n = Some C /\ bc_n C = n /\ bc_k C = 2 /\ valid_code C /\
  is_minimum_distance C (cw_distance n).
Proof.
  intros Hn. unfold CordaroWagnerCode. replace (2 <=? n) with true by (symmetry; apply Nat.leb_le; auto).
  destruct (cw_combination n Hn) as [W WT]. pose proof (cw_params n Hn) as (A & B & D & E & F).
  destruct (code_of_generator_valid n (cordaro_wagner_generator_matrix n) W) as (C & EC & An & Bk & G & V & Cw).
  - intros c Lc H. cbn [length cordaro_wagner_generator_matrix] in *. specialize (WT c Lc). rewrite H, weight_zeros in WT.
    destruct c as [|a [|b [|? ?]]]; cbn in Lc; try lia. destruct a, b; try reflexivity; lia.
  - cbn; lia.
  - exists C. repeat (split; [assumption|]). apply minimum_weight_distance; [apply V|]. split; auto.
    assert (CC : forall v, is_codeword C v <-> exists u, length u = 2 /\ vecmat n u (cordaro_wagner_generator_matrix n) = v).
    { intros v. rewrite Cw, row_space_iff by auto. reflexivity. }
    split.
    + exists (vecmat n [true; true] (cordaro_wagner_generator_matrix n)). split; [apply CC; eexists; split; [|reflexivity]; auto|].
      apply (WT [true; true]). auto.
    + intros v Hv N. apply CC in Hv as (u & Lu & <-). rewrite WT in * by auto.
      destruct u as [|a [|b [|? ?]]]; cbn in Lu; try lia. destruct a, b; lia.
Qed.

(* ---- Golay ---- *)
Lemma golay_wf (e : bool) : wf (if e then 12 else 11) (golay_parity_submatrix e).
Proof. destruct e; vm_compute; repeat constructor. Qed.

Lemma golay_code (e : bool) : exists C, GolayCode e = Some C /\ bc_n C = (if e then 24 else 23) /\ bc_k C = 12 /\ valid_code C /\
  is_minimum_distance C (golay_minimum_distance e).
Proof.
  exists (systematic_code (if e then 12 else 11) (golay_parity_submatrix e) (seq 0 12)).
  assert (L : length (golay_parity_submatrix e) = 12) by (destruct e; reflexivity).
  assert (V : valid_code (systematic_code (if e then 12 else 11) (golay_parity_submatrix e) (seq 0 12))).
  { pose proof (left_valid _ _ (golay_wf e)) as V. rewrite L in V. exact V. }
  split; [destruct e; reflexivity|]. split; [destruct e; reflexivity|]. split; [destruct e; reflexivity|]. split; auto.
  apply (minimum_distance_spec _ false); [apply V|]. destruct e; vm_compute; reflexivity.
Qed.
