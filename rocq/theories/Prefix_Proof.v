From Verif Require Import Common Prefix_Model.
From Coq Require Import Permutation.

(* ------------------------------------------------------------ basic facts *)
Lemma word_eqb_spec a b : reflect (a = b) (word_eqb a b).
Proof. unfold word_eqb; destruct (list_eq_dec N.eq_dec a b); constructor; auto. Qed.

Lemma word_eqb_refl a : word_eqb a a = true.
Proof. destruct (word_eqb_spec a a); congruence. Qed.

Lemma mem_In w l : mem w l = true <-> In w l.
Proof.
  unfold mem. rewrite existsb_exists. split.
  - intros [x [H1 H2]]. destruct (word_eqb_spec w x); [subst; auto|discriminate].
  - intros H; exists w; split; auto. apply word_eqb_refl.
Qed.

Lemma mem_nIn w l : mem w l = false <-> ~ In w l.
Proof. rewrite <- mem_In. destruct (mem w l); intuition congruence. Qed.

Definition prefix (w1 w2 : word) : Prop := exists r, w2 = w1 ++ r.

Lemma is_prefix_of_spec w1 w2 : is_prefix_of w1 w2 = true <-> prefix w1 w2.
Proof.
  unfold is_prefix_of, prefix. rewrite andb_true_iff, Nat.leb_le. split.
  - intros [_ H]. destruct (word_eqb_spec (firstn (length w1) w2) w1) as [E|]; [|discriminate].
    exists (skipn (length w1) w2). rewrite <- E at 1. symmetry; apply firstn_skipn.
  - intros [r ->]. rewrite app_length, firstn_app_exact, word_eqb_refl. split; [lia|reflexivity].
Qed.

Lemma prefix_skipn w1 w2 : prefix w1 w2 -> w2 = w1 ++ skipn (length w1) w2.
Proof. intros [r ->]. rewrite skipn_app_exact; reflexivity. Qed.

Lemma prefix_len_eq w1 w2 : prefix w1 w2 -> length w2 <= length w1 -> w1 = w2.
Proof. intros [r ->] H. rewrite app_length in H. destruct r; [rewrite app_nil_r; auto|cbn in H; lia]. Qed.

Lemma prefix_refl w : prefix w w.
Proof. exists []; rewrite app_nil_r; reflexivity. Qed.

Lemma prefix_trans a b c : prefix a b -> prefix b c -> prefix a c.
Proof. intros [r ->] [s ->]. exists (r ++ s). rewrite app_assoc; reflexivity. Qed.

Lemma prefix_comparable a b c : prefix a c -> prefix b c -> prefix a b \/ prefix b a.
Proof.
  revert b c; induction a as [|x a IH]; intros b c Ha Hb; [left; exists b; reflexivity|].
  destruct b as [|y b]; [right; exists (x :: a); reflexivity|].
  destruct Ha as [r ->], Hb as [s Hs]. cbn in Hs. inversion Hs; subst.
  destruct (IH b (a ++ r)) as [[q ->]|[q ->]].
  - exists r; reflexivity.
  - exists s; assumption.
  - left; exists q; reflexivity.
  - right; exists q; reflexivity.
Qed.

(* ---------------------------------------------------------- is_prefix_free *)
(* incomparable words, pairwise *)
Definition incomp (a b : word) : Prop := ~ prefix a b /\ ~ prefix b a.
Definition PF (l : list word) : Prop := ForallOrdPairs incomp l.

Lemma incomp_sym a b : incomp a b -> incomp b a.
Proof. unfold incomp; tauto. Qed.

Lemma PF_perm l l' : Permutation l l' -> PF l -> PF l'.
Proof.
  unfold PF. induction 1 as [|x l l' Hp IH|x y l|l l' l'' H1 IH1 H2 IH2]; intros H.
  - constructor.
  - inversion H; subst. constructor; [|auto].
    rewrite Forall_forall in *. intros z Hz. apply H2. eapply Permutation_in; [symmetry; eauto|auto].
  - inversion H as [|? ? Hy Hxl]; subst. inversion Hxl as [|? ? Hx Hl]; subst.
    inversion Hy; subst. constructor; [constructor; [apply incomp_sym|]; auto|constructor; auto].
  - auto.
Qed.

Lemma insert_perm w l : Permutation (w :: l) (insert_by_len w l).
Proof.
  induction l as [|x l IH]; cbn; [reflexivity|].
  destruct (length w <=? length x); [reflexivity|].
  etransitivity; [apply perm_swap|]. constructor; exact IH.
Qed.

Lemma sort_perm l : Permutation l (sort_by_len l).
Proof.
  induction l as [|x l IH]; cbn; [reflexivity|].
  etransitivity; [|apply insert_perm]. constructor; exact IH.
Qed.

Inductive len_sorted : list word -> Prop :=
| ls_nil : len_sorted []
| ls_cons w l : Forall (fun x => length w <= length x) l -> len_sorted l -> len_sorted (w :: l).

Lemma insert_sorted w l : len_sorted l -> len_sorted (insert_by_len w l).
Proof.
  induction 1 as [|x l Hx Hl IH]; cbn; [repeat constructor|].
  destruct (Nat.leb_spec (length w) (length x)) as [H|H].
  - constructor; [|constructor; auto]. constructor; auto.
    eapply Forall_impl; [|exact Hx]. cbn; lia.
  - constructor; auto. rewrite Forall_forall in *. intros z Hz.
    apply Permutation_in with (l' := w :: l) in Hz; [|symmetry; apply insert_perm].
    destruct Hz as [<-|Hz]; [lia|auto].
Qed.

Lemma sort_sorted l : len_sorted (sort_by_len l).
Proof. induction l; cbn; [constructor|apply insert_sorted; auto]. Qed.

Lemma no_later_spec l : len_sorted l -> no_later_extension l = true <-> PF l.
Proof.
  unfold PF. induction 1 as [|w l Hw Hl IH]; cbn.
  - split; [constructor|reflexivity].
  - rewrite andb_true_iff, negb_true_iff, IH. split.
    + intros [H1 H2]. constructor; auto. rewrite Forall_forall in *. intros x Hx.
      assert (N : ~ prefix w x).
      { intros P. apply is_prefix_of_spec in P.
        assert (existsb (is_prefix_of w) l = true) by (apply existsb_exists; eauto). congruence. }
      split; [exact N|]. intros P. apply N. specialize (Hw _ Hx).
      rewrite (prefix_len_eq _ _ P Hw). apply prefix_refl.
    + intros H. inversion H as [|? ? H1 H2]; subst. split; auto.
      destruct (existsb (is_prefix_of w) l) eqn:E; auto.
      apply existsb_exists in E as [x [Hx P]]. apply is_prefix_of_spec in P.
      rewrite Forall_forall in H1. destruct (H1 _ Hx); tauto.
Qed.

Lemma is_prefix_free_PF l : is_prefix_free l = true <-> PF (filter non_empty l).
Proof.
  unfold is_prefix_free. rewrite no_later_spec by apply sort_sorted.
  split; apply PF_perm; [symmetry|]; apply sort_perm.
Qed.

(* PF in terms of positions *)
Lemma PF_positions l : PF l <-> forall i j a b, i <> j -> nth_error l i = Some a -> nth_error l j = Some b -> ~ prefix a b.
Proof.
  unfold PF. induction l as [|w l IH].
  - split; [intros _ [|i] j a b _ H; discriminate|constructor].
  - split.
    + intros H. inversion H as [|? ? H1 H2]; subst. rewrite Forall_forall in H1. rewrite IH in H2.
      intros [|i] [|j] a b Hij Ha Hb; cbn in *; try lia.
      * inversion Ha; subst. apply nth_error_In in Hb. destruct (H1 _ Hb); auto.
      * inversion Hb; subst. apply nth_error_In in Ha. destruct (H1 _ Ha); auto.
      * eapply H2; [|exact Ha|exact Hb]. lia.
    + intros H. constructor.
      * rewrite Forall_forall. intros x Hx. apply In_nth_error in Hx as [n Hn]. split.
        -- apply (H 0 (S n)); auto.
        -- apply (H (S n) 0); auto.
      * apply IH. intros i j a b Hij Ha Hb. apply (H (S i) (S j)); auto.
Qed.

Lemma filter_non_empty_id l : Forall (fun w => w <> []) l -> filter non_empty l = l.
Proof.
  induction 1 as [|w l Hw Hl IH]; cbn; auto. destruct w; [congruence|cbn]. rewrite IH; auto.
Qed.

Lemma is_prefix_free_iff l : Forall (fun w => w <> []) l ->
  is_prefix_free l = true <->
  (forall i j a b, i <> j -> nth_error l i = Some a -> nth_error l j = Some b -> ~ exists r, b = a ++ r).
Proof. intros H. rewrite is_prefix_free_PF, filter_non_empty_id, PF_positions by exact H. reflexivity. Qed.

Lemma PF_NoDup l : PF l -> NoDup l.
Proof.
  induction 1 as [|w l H1 H2 IH]; constructor; auto.
  rewrite Forall_forall in H1. intros Hin. destruct (H1 _ Hin) as [H _]. apply H, prefix_refl.
Qed.

Lemma PF_In l a b : PF l -> In a l -> In b l -> prefix a b -> a = b.
Proof.
  intros HP Ha Hb P. rewrite PF_positions in HP.
  apply In_nth_error in Ha as [i Hi]. apply In_nth_error in Hb as [j Hj].
  destruct (Nat.eq_dec i j) as [->|Hij]; [congruence|]. exfalso; eapply HP; eauto.
Qed.

(* ------------------------------------------------------- Sardinas-Patterson *)
Lemma dedup_In w l : In w (dedup l) <-> In w l.
Proof.
  induction l as [|x l IH]; cbn; [tauto|].
  destruct (mem x l) eqn:E; cbn; rewrite IH; [|tauto].
  apply mem_In in E. split; [tauto|]. intros [->|H]; auto.
Qed.

Lemma dedup_NoDup l : NoDup (dedup l).
Proof.
  induction l as [|x l IH]; cbn; [constructor|]. destruct (mem x l) eqn:E; auto.
  constructor; auto. rewrite dedup_In. apply mem_nIn; exact E.
Qed.

Lemma dedup_length l : length (dedup l) <= length l.
Proof. induction l as [|x l IH]; cbn; [lia|]. destruct (mem x l); cbn; lia. Qed.

Lemma dedup_full l : NoDup l <-> length (dedup l) = length l.
Proof.
  induction l as [|x l IH]; cbn; [split; [reflexivity|constructor]|].
  destruct (mem x l) eqn:E.
  - apply mem_In in E. split.
    + intros H; inversion H; tauto.
    + intros H. pose proof (dedup_length l); lia.
  - apply mem_nIn in E. cbn. split.
    + intros H; inversion H as [|? ? H1 H2]; subst. apply IH in H2. lia.
    + intros H. constructor; auto. apply IH; lia.
Qed.

Definition dang_pair (c a s : word) : Prop := c <> a /\ (a = c ++ s \/ c = a ++ s).

Lemma dangling_of_spec c a s : In s (dangling_of c a) <-> dang_pair c a s.
Proof.
  unfold dangling_of, dang_pair. destruct (word_eqb_spec c a) as [->|Hne]; [cbn; tauto|].
  destruct (is_prefix_of c a) eqn:E1.
  - apply is_prefix_of_spec in E1 as P. split.
    + intros [<-|[]]. split; auto. left; apply prefix_skipn; auto.
    + intros [_ [->| ->]]; left.
      * apply skipn_app_exact.
      * destruct P as [r Hr]. rewrite <- app_assoc in Hr. assert (s ++ r = []) as Z.
        { apply (app_inv_head a). rewrite app_nil_r; symmetry; exact Hr. }
        destruct s; [|discriminate]. rewrite app_nil_r in Hne; congruence.
  - assert (~ prefix c a) as NP by (rewrite <- is_prefix_of_spec; congruence).
    destruct (is_prefix_of a c) eqn:E2.
    + apply is_prefix_of_spec in E2 as P. split.
      * intros [<-|[]]. split; auto. right; apply prefix_skipn; auto.
      * intros [_ [->| ->]]; [exfalso; apply NP; exists s; auto|]. left. apply skipn_app_exact.
    + assert (~ prefix a c) by (rewrite <- is_prefix_of_spec; congruence).
      split; [intros []|]. intros [_ [->| ->]]; exfalso; [apply NP|apply H]; exists s; auto.
Qed.

Lemma dangling_spec words aug s : In s (dangling words aug) <-> exists c a, In c words /\ In a aug /\ dang_pair c a s.
Proof.
  unfold dangling. rewrite in_flat_map. split.
  - intros [c [Hc H]]. apply in_flat_map in H as [a [Ha H]]. exists c, a.
    rewrite <- dedup_In. rewrite <- dangling_of_spec. auto.
  - intros [c [a [Hc [Ha H]]]]. exists c. rewrite dedup_In. split; auto. apply in_flat_map.
    exists a. split; auto. apply dangling_of_spec; auto.
Qed.

(* the two message factorizations behind a dangling suffix *)
Definition Dang (C : list word) (s : word) : Prop :=
  exists c d u v, In c C /\ In d C /\ c <> d /\ incl u C /\ incl v C /\ concat (c :: u) ++ s = concat (d :: v).

Lemma Dang_step C a c s : Dang C a -> In c C -> dang_pair c a s -> Dang C s.
Proof.
  intros (c1 & d & u & v & Hc1 & Hd & Hne & Hu & Hv & E) Hc [_ [->| ->]].
  - exists c1, d, (u ++ [c]), v. repeat split; auto.
    + intros x Hx. apply in_app_iff in Hx as [Hx|[<-|[]]]; auto.
    + rewrite <- E. cbn [concat]. rewrite concat_app. cbn [concat]. rewrite app_nil_r, <- !app_assoc; reflexivity.
  - exists d, c1, v, (u ++ [a ++ s]). repeat split; auto.
    + intros x Hx. apply in_app_iff in Hx as [Hx|[<-|[]]]; auto.
    + rewrite <- E. cbn [concat]. rewrite concat_app. cbn [concat]. rewrite app_nil_r, <- !app_assoc; reflexivity.
Qed.

Lemma Dang_base C a c s : In a C -> In c C -> dang_pair c a s -> Dang C s.
Proof.
  intros Ha Hc [Hne [->| ->]].
  - exists c, (c ++ s), [], []. cbn. rewrite !app_nil_r. repeat split; auto; intros x [].
  - exists a, (a ++ s), [], []. cbn. rewrite !app_nil_r. repeat split; auto; intros x [].
Qed.

(* unique parsability on words *)
Definition UDw (C : list word) : Prop :=
  forall u v, incl u C -> incl v C -> concat u = concat v -> u = v.

Lemma sp_false fuel C aug : (forall a, In a aug -> In a C \/ Dang C a) ->
  sp_loop fuel C aug = Some false -> ~ UDw C.
Proof.
  revert aug; induction fuel as [|f IH]; intros aug Inv H; cbn [sp_loop] in H.
  - destruct (existsb (fun w => mem w C) (dangling C aug)) eqn:E; [clear H|destruct (forallb _ _); discriminate].
    apply existsb_exists in E as [s [Hs Hm]]. apply mem_In in Hm.
    apply dangling_spec in Hs as (c & a & Hc & Ha & Hp).
    assert (D : Dang C s) by (destruct (Inv a Ha); [apply (Dang_base C a c)|apply (Dang_step C a c)]; assumption).
    destruct D as (c1 & d & u & v & Hc1 & Hd & Hne & Hu & Hv & Heq). intros UD.
    assert (K : c1 :: (u ++ [s]) = d :: v).
    { apply UD.
      - intros x [<-|Hx]; auto. apply in_app_iff in Hx as [Hx|[<-|[]]]; auto.
      - intros x [<-|Hx]; auto.
      - rewrite <- Heq. cbn. rewrite concat_app. cbn. rewrite app_nil_r, app_assoc; reflexivity. }
    inversion K; congruence.
  - destruct (existsb (fun w => mem w C) (dangling C aug)) eqn:E.
    + apply existsb_exists in E as [s [Hs Hm]]. apply mem_In in Hm.
      apply dangling_spec in Hs as (c & a & Hc & Ha & Hp).
      assert (D : Dang C s) by (destruct (Inv a Ha); [apply (Dang_base C a c)|apply (Dang_step C a c)]; assumption).
      destruct D as (c1 & d & u & v & Hc1 & Hd & Hne & Hu & Hv & Heq). intros UD.
      assert (K : c1 :: (u ++ [s]) = d :: v).
      { apply UD.
        - intros x [<-|Hx]; auto. apply in_app_iff in Hx as [Hx|[<-|[]]]; auto.
        - intros x [<-|Hx]; auto.
        - rewrite <- Heq. cbn. rewrite concat_app. cbn. rewrite app_nil_r, app_assoc; reflexivity. }
      inversion K; congruence.
    + destruct (forallb (fun w => mem w aug) (dangling C aug)); [discriminate|].
      apply IH in H; auto. intros a Ha. apply in_app_iff in Ha as [Ha|Ha]; auto.
      apply filter_In in Ha as [Ha _]. apply (proj1 (dedup_In _ _)) in Ha.
      apply dangling_spec in Ha as (c & a' & Hc & Ha' & Hp). right.
      destruct (Inv a' Ha'); [apply (Dang_base C a' c)|apply (Dang_step C a' c)]; assumption.
Qed.

(* a closed augmented set with no dangling codeword *)
Definition closed (C aug : list word) : Prop :=
  incl C aug /\ (forall s, In s (dangling C aug) -> In s aug /\ ~ In s C).

Lemma closed_no_match C aug : Forall (fun w => w <> []) C -> closed C aug ->
  forall n s u v, length s + length (concat u) + length (concat v) <= n ->
  In s (dangling C aug) -> incl u C -> incl v C -> s ++ concat u = concat v -> False.
Proof.
  intros NE [Hinc Hcl]. induction n as [|n IH]; intros s u v Hn Hs Hu Hv E.
  - assert (s = []) by (destruct s; [auto|cbn in Hn; lia]). subst s.
    apply dangling_spec in Hs as (c & a & _ & _ & Hp). destruct Hp as [Hne [Hp|Hp]]; rewrite app_nil_r in Hp; congruence.
  - assert (Sne : s <> []).
    { intros ->. apply dangling_spec in Hs as (c & a & _ & _ & Hp).
      destruct Hp as [Hne [Hp|Hp]]; rewrite app_nil_r in Hp; congruence. }
    destruct (Hcl _ Hs) as [Haug HnC].
    destruct v as [|d v]; [cbn in E; destruct s; [congruence|discriminate]|].
    cbn [concat] in E. assert (Hd : In d C) by (apply Hv; left; auto).
    assert (Hv' : incl v C) by (intros x Hx; apply Hv; right; auto).
    assert (Hsd : d <> s) by (intros ->; tauto).
    assert (dne : d <> []) by (rewrite Forall_forall in NE; auto).
    destruct (prefix_comparable s d (s ++ concat u)) as [[r Hr]|[r Hr]].
    + exists (concat u); auto.
    + exists (concat v); auto.
    + subst d. rewrite <- app_assoc in E. apply app_inv_head in E.
      apply (IH r v u).
      * cbn [concat] in Hn. rewrite !app_length in Hn. destruct s; [congruence|cbn in Hn]; lia.
      * apply dangling_spec. exists (s ++ r), s. repeat split; auto.
      * exact Hv'.
      * exact Hu.
      * symmetry; exact E.
    + subst s. rewrite <- app_assoc in E. apply app_inv_head in E.
      apply (IH r u v); auto.
      * cbn [concat] in Hn. rewrite !app_length in Hn. destruct d; [congruence|cbn in Hn]; lia.
      * apply dangling_spec. exists d, (d ++ r). repeat split; auto.
Qed.

Lemma closed_UD C aug : Forall (fun w => w <> []) C -> closed C aug -> UDw C.
Proof.
  intros NE Hcl. intros u; induction u as [|c u IH]; intros v Hu Hv E.
  - destruct v as [|d v]; auto. exfalso. cbn in E. rewrite Forall_forall in NE.
    assert (d <> []) by (apply NE, Hv; left; auto). destruct d; [congruence|discriminate].
  - destruct v as [|d v].
    + exfalso. cbn in E. rewrite Forall_forall in NE.
      assert (c <> []) by (apply NE, Hu; left; auto). destruct c; [congruence|discriminate].
    + assert (Hc : In c C) by (apply Hu; left; auto). assert (Hd : In d C) by (apply Hv; left; auto).
      assert (Hu' : incl u C) by (intros x Hx; apply Hu; right; auto).
      assert (Hv' : incl v C) by (intros x Hx; apply Hv; right; auto).
      destruct (list_eq_dec N.eq_dec c d) as [->|Hne].
      { f_equal. apply IH; auto. cbn in E. apply app_inv_head in E; exact E. }
      exfalso. cbn [concat] in E. destruct Hcl as [Hinc Hcl'].
      destruct (prefix_comparable c d (c ++ concat u)) as [[r Hr]|[r Hr]].
      * exists (concat u); auto.
      * exists (concat v); auto.
      * subst d. rewrite <- app_assoc in E. apply app_inv_head in E.
        eapply (closed_no_match C aug NE (conj Hinc Hcl')) with (s := r) (u := v) (v := u); eauto.
        apply dangling_spec. exists (c ++ r), c. repeat split; auto.
      * subst c. rewrite <- app_assoc in E. apply app_inv_head in E.
        eapply (closed_no_match C aug NE (conj Hinc Hcl')) with (s := r) (u := u) (v := v); eauto.
        apply dangling_spec. exists d, (d ++ r). repeat split; auto.
Qed.

Lemma sp_true fuel C aug : Forall (fun w => w <> []) C -> incl C aug ->
  sp_loop fuel C aug = Some true -> UDw C.
Proof.
  intros NE. revert aug; induction fuel as [|f IH]; intros aug Hi H; cbn [sp_loop] in H;
  destruct (existsb (fun w => mem w C) (dangling C aug)) eqn:E; try discriminate;
  destruct (forallb (fun w => mem w aug) (dangling C aug)) eqn:E2; try discriminate.
  1,2: apply (closed_UD C aug NE); split; auto; intros s Hs; rewrite forallb_forall in E2;
    (split; [apply mem_In; auto|]); intros HC; apply mem_In in HC;
    assert (existsb (fun w => mem w C) (dangling C aug) = true) by (apply existsb_exists; eauto); congruence.
  apply IH in H; auto. intros x Hx. apply in_app_iff; left; auto.
Qed.

(* termination *)
Definition suffixes (w : word) : list word := map (fun n => skipn n w) (seq 0 (S (length w))).
Definition all_suffixes (C : list word) : list word := flat_map suffixes C.

Lemma all_suffixes_length C : length (all_suffixes C) = total_length C.
Proof.
  unfold all_suffixes, suffixes. induction C as [|w C IH]; cbn [flat_map total_length fold_right]; auto.
  rewrite app_length, map_length, seq_length, IH. reflexivity.
Qed.

Lemma in_all_suffixes C s : In s (all_suffixes C) <-> exists c p, In c C /\ c = p ++ s.
Proof.
  unfold all_suffixes, suffixes. rewrite in_flat_map. split.
  - intros [c [Hc H]]. apply in_map_iff in H as [n [<- _]]. exists c, (firstn n c). split; auto.
    symmetry; apply firstn_skipn.
  - intros [c [p [Hc ->]]]. exists (p ++ s). split; auto. apply in_map_iff. exists (length p).
    split; [apply skipn_app_exact|]. apply in_seq. rewrite app_length; lia.
Qed.

Lemma dangling_suffixes C aug : incl aug (all_suffixes C) -> incl (dangling C aug) (all_suffixes C).
Proof.
  intros H s Hs. apply dangling_spec in Hs as (c & a & Hc & Ha & [_ [->| ->]]).
  - apply H in Ha. apply in_all_suffixes in Ha as (d & p & Hd & ->). apply in_all_suffixes.
    exists (p ++ c ++ s), (p ++ c). split; auto. rewrite app_assoc; auto.
  - apply in_all_suffixes. exists (a ++ s), a. auto.
Qed.

Lemma sp_terminates fuel C aug : NoDup aug -> incl aug (all_suffixes C) ->
  total_length C < length aug + S fuel -> sp_loop fuel C aug <> None.
Proof.
  revert aug; induction fuel as [|f IH]; intros aug ND Hi Hl; cbn [sp_loop];
  destruct (existsb (fun w => mem w C) (dangling C aug)); try discriminate;
  destruct (forallb (fun w => mem w aug) (dangling C aug)) eqn:E; try discriminate.
  - exfalso. pose proof (NoDup_incl_length ND Hi) as L. rewrite all_suffixes_length in L.
    assert (length aug = total_length C) by lia.
    assert (incl (all_suffixes C) aug).
    { apply NoDup_length_incl; auto. rewrite all_suffixes_length; lia. }
    rewrite <- not_true_iff_false in E. apply E. apply forallb_forall. intros s Hs. apply mem_In.
    apply H0. apply (dangling_suffixes C aug Hi). exact Hs.
  - set (nw := filter (fun w => negb (mem w aug)) (dedup (dangling C aug))).
    assert (nw <> []) as NN.
    { intros Z. rewrite <- not_true_iff_false in E. apply E. apply forallb_forall. intros s Hs.
      destruct (mem s aug) eqn:M; auto. exfalso.
      assert (In s nw); [|rewrite Z in H; destruct H].
      unfold nw. apply filter_In. rewrite dedup_In, M. auto. }
    apply IH.
    + assert (NoDup nw) by (apply NoDup_filter, dedup_NoDup).
      assert (forall x, In x nw -> ~ In x aug).
      { intros x Hx. unfold nw in Hx. apply filter_In in Hx as [_ Hx]. apply negb_true_iff in Hx.
        apply mem_nIn; exact Hx. }
      clearbody nw. clear -ND H H0. induction aug as [|a aug IH]; cbn; auto. inversion ND; subst.
      constructor.
      * rewrite in_app_iff. intros [X|X]; [tauto|]. apply (H0 a X). left; auto.
      * apply IH; auto. intros x Hx Hin. apply (H0 x Hx). right; auto.
    + intros x Hx. apply in_app_iff in Hx as [Hx|Hx]; auto. unfold nw in Hx.
      apply filter_In in Hx as [Hx _]. apply (proj1 (dedup_In _ _)) in Hx. apply (dangling_suffixes C aug Hi); auto.
    + rewrite app_length. destruct nw; [congruence|cbn [length]; lia].
Qed.

(* unique parsability on index sequences *)
Definition concat_ix (words : list word) (ix : list nat) : word := concat (map (fun i => nth i words []) ix).
Definition UD (words : list word) : Prop :=
  forall ix jx, Forall (fun i => i < length words) ix -> Forall (fun i => i < length words) jx ->
    concat_ix words ix = concat_ix words jx -> ix = jx.

Lemma UD_iff words : UD words <-> NoDup words /\ UDw words.
Proof.
  split.
  - intros H. split.
    + apply NoDup_nth with (d := []). intros i j Hi Hj E.
      assert ([i] = [j]) as K; [|inversion K; auto].
      apply H; auto. unfold concat_ix; cbn. rewrite E; reflexivity.
    + intros u v Hu Hv E.
      assert (G : forall u, incl u words -> exists ix, Forall (fun i => i < length words) ix /\ map (fun i => nth i words []) ix = u).
      { clear. induction u as [|a u IH]; intros Hu; [exists []; auto|].
        destruct IH as [ix [H1 H2]]; [intros x Hx; apply Hu; right; auto|].
        destruct (In_nth words a []) as [n [Hn1 Hn2]]; [apply Hu; left; auto|].
        exists (n :: ix). split; [constructor; auto|]. cbn. rewrite Hn2, H2; auto. }
      destruct (G u Hu) as [ix [H1 H2]], (G v Hv) as [jx [H3 H4]].
      assert (ix = jx) by (apply H; auto; unfold concat_ix; rewrite H2, H4; auto). congruence.
  - intros [ND HU] ix jx Hi Hj E. unfold concat_ix in E.
    assert (G : forall ix, Forall (fun i => i < length words) ix -> incl (map (fun i => nth i words []) ix) words).
    { clear. intros ix H x Hx. apply in_map_iff in Hx as [i [<- Hi]]. rewrite Forall_forall in H. apply nth_In; auto. }
    apply HU in E; auto. clear G HU. revert jx Hj E. induction Hi as [|i ix Hi Hix IH]; intros [|j jx] Hj E; cbn in E; try discriminate; auto.
    inversion E as [[E1 E2]]. inversion Hj; subst. f_equal; auto.
    eapply NoDup_nth; eauto.
Qed.

Lemma filter_ne_Forall words : Forall (fun w => w <> []) (filter non_empty words).
Proof. apply Forall_forall. intros w H. apply filter_In in H as [_ H]. destruct w; [discriminate|congruence]. Qed.

Lemma is_uniquely_parsable_total words : exists b, is_uniquely_parsable words = Some b.
Proof.
  unfold is_uniquely_parsable. set (ws := filter non_empty words).
  destruct (length (dedup ws) <? length ws); [eauto|].
  assert (sp_loop (total_length ws) ws (dedup ws) <> None) as T.
  { apply sp_terminates; [apply dedup_NoDup| |lia].
    intros x Hx. apply (proj1 (dedup_In _ _)) in Hx. apply in_all_suffixes. exists x, []. auto. }
  destruct (sp_loop _ _ _); [eauto|congruence].
Qed.

Lemma is_uniquely_parsable_filter words : is_uniquely_parsable words = Some true <-> UD (filter non_empty words).
Proof.
  unfold is_uniquely_parsable. set (ws := filter non_empty words). rewrite UD_iff.
  destruct (Nat.ltb_spec (length (dedup ws)) (length ws)) as [H|H].
  - split; [discriminate|]. intros [ND _]. apply dedup_full in ND. lia.
  - assert (ND : NoDup ws) by (apply dedup_full; pose proof (dedup_length ws); lia).
    assert (NE : Forall (fun w => w <> []) ws) by apply filter_ne_Forall.
    assert (Hi : incl ws (dedup ws)) by (intros x Hx; apply dedup_In; auto).
    split.
    + intros E. split; auto. eapply sp_true; eauto.
    + intros [_ U].
      assert (sp_loop (total_length ws) ws (dedup ws) <> None) as T.
      { apply sp_terminates; [apply dedup_NoDup| |lia].
        intros x Hx. apply (proj1 (dedup_In _ _)) in Hx. apply in_all_suffixes. exists x, []. auto. }
      destruct (sp_loop (total_length ws) ws (dedup ws)) as [[|]|] eqn:E; auto; [|congruence].
      exfalso. refine (sp_false _ _ _ _ E U). intros a Ha. left. apply (proj1 (dedup_In _ _)) in Ha; auto.
Qed.

Lemma is_uniquely_parsable_iff words : Forall (fun w => w <> []) words ->
  is_uniquely_parsable words = Some true <-> UD words.
Proof. intros H. rewrite is_uniquely_parsable_filter, filter_non_empty_id by exact H. reflexivity. Qed.

(* prefix-free lists of non-empty words are uniquely parsable *)
Lemma PF_UDw words : Forall (fun w => w <> []) words -> PF words -> UDw words.
Proof.
  intros NE HP u; induction u as [|c u IH]; intros v Hu Hv E.
  - destruct v as [|d v]; auto. exfalso. cbn in E. rewrite Forall_forall in NE.
    assert (d <> []) by (apply NE, Hv; left; auto). destruct d; [congruence|discriminate].
  - destruct v as [|d v].
    + exfalso. cbn in E. rewrite Forall_forall in NE.
      assert (c <> []) by (apply NE, Hu; left; auto). destruct c; [congruence|discriminate].
    + assert (Hc : In c words) by (apply Hu; left; auto). assert (Hd : In d words) by (apply Hv; left; auto).
      cbn in E. assert (c = d).
      { destruct (prefix_comparable c d (c ++ concat u)) as [P|P].
        - exists (concat u); auto.
        - exists (concat v); auto.
        - eapply PF_In; eauto.
        - symmetry; eapply PF_In; eauto. }
      subst d. f_equal. apply IH; [intros x Hx; apply Hu; right; auto|intros x Hx; apply Hv; right; auto|].
      apply app_inv_head in E; exact E.
Qed.

Lemma PF_uniquely_parsable words : Forall (fun w => w <> []) words -> PF words -> is_uniquely_parsable words = Some true.
Proof. intros NE HP. apply is_uniquely_parsable_iff; auto. apply UD_iff. split; [apply PF_NoDup; auto|apply PF_UDw; auto]. Qed.
