(* Rate of variable-to-fixed codes; optimality of Tunstall's dictionary. *)
From Verif Require Import Common Prefix_Model Prefix_Proof Cover_Proof Canonical_Proof Parse_Proof Spec_Lossless Kraft_Proof PmfCodes_Model PmfCodes_Proof Rate_Model.
From Coq Require Import QArith Qabs Qreals Permutation Reals Lra Lia Psatz.
From Verif Require Import FB_Model FB_Proof Info_Spec Info_Sums Info_Proof Rate_Proof Rate_Tree Rate_Internal Rate_Bounds.
Local Open Scope R_scope.

Definition mean_length (p : list R) (ws : list (list N)) : R := Rsum (map (fun w => word_prob p w * INR (length w)) ws).

Lemma word_prob_Q pmf w : Q2R (block_prob pmf w) = word_prob (RL pmf) w.
Proof.
  induction w as [|x w IH]; cbn [block_prob word_prob fold_right]; [apply Q2R_1'|].
  rewrite Q2R_mult. fold (block_prob pmf w). rewrite IH, nth_RL. reflexivity.
Qed.
Lemma qprod_block pmf w : qprod (map (fun x => nth (N.to_nat x) pmf 0%Q) w) = block_prob pmf w.
Proof. induction w as [|x w IH]; [reflexivity|]. cbn [map qprod fold_right block_prob]. fold (qprod (map (fun x => nth (N.to_nat x) pmf 0%Q) w)). rewrite IH. reflexivity. Qed.
Lemma qdot_mean pmf ws : Q2R (qdot (map (fun w => nat_q (length w)) ws) (map (fun w => qprod (map (fun x => nth (N.to_nat x) pmf 0%Q) w)) ws)) = mean_length (RL pmf) ws.
Proof.
  unfold mean_length. induction ws as [|w ws IH]; cbn [map qdot]; [apply Q2R_0'|]. rewrite Q2R_plus, Q2R_mult, Q2R_nat, Rsum_cons, IH, qprod_block, word_prob_Q. lra.
Qed.
Lemma word_prob_nonneg p w : (forall x, In x p -> 0 <= x) -> 0 <= word_prob p w.
Proof.
  intros N. induction w as [|x w IH]; cbn [word_prob fold_right]; [lra|]. apply Rmult_le_pos; [|exact IH].
  destruct (nth_in_or_default (N.to_nat x) p 0) as [H| ->]; [auto|lra].
Qed.
Lemma list_bound (ws : list (list N)) : exists d, forall w, In w ws -> (length w <= d)%nat.
Proof.
  exists (list_max (map (@length N) ws)). intros w Hw. assert (F : Forall (fun k => (k <= list_max (map (@length N) ws))%nat) (map (@length N) ws)) by (apply list_max_le; lia).
  rewrite Forall_forall in F. apply F, in_map, Hw.
Qed.

Lemma mean_length_ge1 p card ws : length p = N.to_nat card -> pmf_list p ->
  (forall w, In w ws -> w <> [] /\ Forall (fun x => (x < card)%N) w) -> PFset ws -> covers_every_sequence ws card -> 1 <= mean_length p ws.
Proof.
  intros LP HP HW PF COV. destruct (list_bound ws) as (d & Hd).
  destruct (complete_identity p card d ws LP HP ltac:(intros w Hw; split; [auto|apply HW; assumption]) PF COV) as [S1 _].
  rewrite <- S1. unfold mean_length. apply pmf_list_iff in HP. destruct HP as [NN _].
  clear - HW NN. induction ws as [|w ws IH]; cbn [map]; [rewrite !Rsum_nil; lra|]. rewrite !Rsum_cons.
  assert (L : Rsum (map (word_prob p) ws) <= Rsum (map (fun w => word_prob p w * INR (length w)) ws)) by (apply IH; intros; apply HW; right; assumption).
  destruct (HW w (or_introl eq_refl)) as [NE _]. assert (1 <= INR (length w)) by (apply (le_INR 1); destruct w; [congruence|cbn; lia]).
  pose proof (word_prob_nonneg p w NN). nra.
Qed.

Lemma v2f_rate_value tgt src n m c pmf tol : (0 <= tol)%Q -> v2f_make tgt src n m = Some c -> N.of_nat (length pmf) = src -> exact_pmf pmf ->
  prefix_free_words (v2f_sourcewords c) -> covers_every_sequence (v2f_sourcewords c) src ->
  exists r, v2f_rate tol c pmf = Some r /\ Q2R r = INR n / mean_length (RL pmf) (v2f_sourcewords c) /\ 1 <= mean_length (RL pmf) (v2f_sourcewords c).
Proof.
  intros HT E L HP PF COV. pose proof (v2f_make_inv _ _ _ _ _ E) as (Ht & Hs & Hn & HK & HV & Ec).
  assert (ES : v2f_sourcewords c = values m) by (rewrite Ec; reflexivity). assert (EN : v2f_n c = n) by (rewrite Ec; reflexivity).
  rewrite Forall_forall in HV.
  assert (ML : 1 <= mean_length (RL pmf) (v2f_sourcewords c)).
  { apply (mean_length_ge1 _ src).
    - rewrite map_length. lia.
    - apply exact_pmf_list; exact HP.
    - intros w Hw. rewrite ES in Hw. destruct (HV w Hw). auto.
    - apply PF_set; exact PF.
    - exact COV. }
  unfold v2f_rate. rewrite exact_pmf_valid by assumption.
  replace (forallb (forallb (fun x => (x <? N.of_nat (length pmf))%N)) (v2f_sourcewords c)) with true.
  2:{ symmetry. apply forallb_forall. intros w Hw. rewrite ES in Hw. destruct (HV w Hw) as [F _]. apply forallb_forall. intros x Hx.
      rewrite Forall_forall in F. apply N.ltb_lt. rewrite L. auto. }
  eexists. split; [reflexivity|]. split; [|exact ML]. unfold Qdiv. rewrite Q2R_mult, EN, Q2R_nat, Q2R_inv, qdot_mean; [reflexivity|].
  intros C. apply Qeq_eqR in C. rewrite qdot_mean, Q2R_0' in C. lra.
Qed.

Lemma pow_ln b n : (2 <= b)%N -> ln (INR (N.to_nat (b ^ N.of_nat n))) = INR n * ln (INR (N.to_nat b)).
Proof.
  intros Hb. assert (P : 0 < INR (N.to_nat b)) by (apply lt_0_INR; lia).
  assert (E : INR (N.to_nat (b ^ N.of_nat n)) = Rpower (INR (N.to_nat b)) (INR n)).
  { rewrite Rpower_pow by exact P. rewrite N2Nat.inj_pow, Nat2N.id, pow_INR. reflexivity. }
  rewrite E. unfold Rpower. apply ln_exp.
Qed.

Lemma leaf_pmf p ws : (forall x, In x p -> 0 <= x) -> Rsum (map (word_prob p) ws) = 1 -> pmf_list (map (word_prob p) ws).
Proof. intros N S. apply pmf_list_iff. split; [|exact S]. intros x Hx. apply in_map_iff in Hx. destruct Hx as (w & <- & _). apply word_prob_nonneg; exact N. Qed.

Lemma v2f_entropy_bound tgt src n m c pmf tol : (0 <= tol)%Q -> v2f_make tgt src n m = Some c -> NoDup (map fst m) ->
  N.of_nat (length pmf) = src -> exact_pmf pmf ->
  prefix_free_words (v2f_sourcewords c) -> covers_every_sequence (v2f_sourcewords c) src ->
  exists r, v2f_rate tol c pmf = Some r /\ H_list (RL pmf) / ln (INR (N.to_nat tgt)) <= Q2R r.
Proof.
  intros HT E ND L HP PF COV. destruct (v2f_rate_value _ _ _ _ _ _ _ HT E L HP PF COV) as (r & Er & V & ML).
  exists r. split; [exact Er|]. rewrite V. pose proof (v2f_make_inv _ _ _ _ _ E) as (Ht & Hs & Hn & HK & HV & Ec).
  assert (ES : v2f_sourcewords c = values m) by (rewrite Ec; reflexivity). rewrite Forall_forall in HV.
  destruct (list_bound (v2f_sourcewords c)) as (d & Hd). pose proof (exact_pmf_list _ HP) as PL.
  destruct (complete_identity (RL pmf) src d (v2f_sourcewords c)) as [S1 S2]; [rewrite map_length; lia|exact PL| |apply PF_set; exact PF|exact COV|].
  { intros w Hw. split; [auto|]. rewrite ES in Hw. apply HV; exact Hw. }
  fold (mean_length (RL pmf) (v2f_sourcewords c)) in S2. assert (PL' := PL). apply pmf_list_iff in PL'. destruct PL' as [NN _].
  pose proof (leaf_pmf _ _ NN S1) as LPm. pose proof (H_max _ _ LPm) as HM. fold (H_list (map (word_prob (RL pmf)) (v2f_sourcewords c))) in HM.
  rewrite H_list_Rsum, map_map in HM. rewrite S2 in HM. rewrite map_length in HM.
  assert (SZ : (N.of_nat (length (v2f_sourcewords c)) <= tgt ^ N.of_nat n)%N).
  { rewrite ES. unfold values. rewrite map_length, <- (map_length fst), <- tuples_length.
    assert ((length (map fst m) <= length (tuples tgt n))%nat); [|lia]. apply NoDup_incl_length; [exact ND|]. intros w Hw. apply HK. exact Hw. }
  assert (LE : ln (INR (length (v2f_sourcewords c))) <= INR n * ln (INR (N.to_nat tgt))).
  { rewrite <- pow_ln by exact Ht. apply ln_mono; [|apply le_INR; lia]. apply lt_0_INR. apply pmf_pos_n in LPm. rewrite map_length in LPm. exact LPm. }
  pose proof (ln_N_pos tgt Ht) as PT. apply div_le_div; [lra|].
  apply (Rmult_le_reg_r (ln (INR (N.to_nat tgt)))); [exact PT|]. replace (H_list (RL pmf) / ln (INR (N.to_nat tgt)) * mean_length (RL pmf) (v2f_sourcewords c) * ln (INR (N.to_nat tgt)))
    with (H_list (RL pmf) * mean_length (RL pmf) (v2f_sourcewords c)) by (field; lra). lra.
Qed.

(* ---------- Tunstall *)
Lemma Rsum_incl (g : list N -> R) a : forall b, NoDup a -> incl a b -> (forall u, In u b -> 0 <= g u) -> Rsum (map g a) <= Rsum (map g b).
Proof.
  induction a as [|u a IH]; intros b ND IN P; cbn [map].
  - rewrite Rsum_nil. apply Rsum_nonneg. intros x Hx. apply in_map_iff in Hx. destruct Hx as (v & <- & Hv). auto.
  - inversion ND as [|? ? Hu ND']; subst. destruct (in_split u b (IN u (or_introl eq_refl))) as (l1 & l2 & ->).
    rewrite map_app, Rsum_app, Rsum_cons. cbn [map]. rewrite Rsum_cons.
    assert (G : Rsum (map g a) <= Rsum (map g (l1 ++ l2))).
    { apply IH; [exact ND'| |].
      - intros v Hv. specialize (IN v (or_intror Hv)). apply in_app_or in IN. apply in_or_app. destruct IN as [|[->|]]; auto. contradiction.
      - intros v Hv. apply P. apply in_app_or in Hv. apply in_or_app. destruct Hv; [left|right; right]; assumption. }
    rewrite map_app, Rsum_app in G. lra.
Qed.
Lemma exchange (P : list N -> R) q a b : 0 <= q -> NoDup a -> (length a <= length b)%nat ->
  (forall u, In u b -> q <= P u) -> (forall u, In u a -> ~ In u b -> P u <= q) -> Rsum (map P a) <= Rsum (map P b).
Proof.
  intros Hq ND L HB HA.
  assert (E : forall l : list (list N), Rsum (map P l) = Rsum (map (fun u => P u - q) l) + INR (length l) * q).
  { induction l as [|u l IH]; cbn [map length]; [rewrite !Rsum_nil; cbn [INR]; lra|]. rewrite !Rsum_cons, IH, S_INR. lra. }
  rewrite !E. apply Rplus_le_compat; [|apply Rmult_le_compat_r; [exact Hq|apply le_INR; exact L]].
  set (f := filter (fun u => if in_dec (list_eq_dec N.eq_dec) u b then true else false) a).
  apply Rle_trans with (Rsum (map (fun u => P u - q) f)).
  - unfold f. clear - HA. induction a as [|u a IH]; cbn [filter map]; [lra|]. rewrite Rsum_cons.
    assert (G : Rsum (map (fun u => P u - q) a) <= Rsum (map (fun u => P u - q) (filter (fun u => if in_dec (list_eq_dec N.eq_dec) u b then true else false) a))) by (apply IH; intros; apply HA; [right|]; assumption).
    destruct (in_dec _ u b) as [|NI]; cbn [map]; [rewrite Rsum_cons; lra|]. specialize (HA u (or_introl eq_refl) NI). lra.
  - apply (Rsum_incl (fun u => P u - q)); [apply NoDup_filter; exact ND| |].
    + intros u Hu. apply filter_In in Hu. destruct Hu as [_ Hu]. destruct (in_dec _ u b); [assumption|discriminate].
    + intros u Hu. specialize (HB u Hu). lra.
Qed.

Lemma dict_set_values k v d w : In w (map snd (dict_set k v d)) -> w = v \/ In w (map snd d).
Proof.
  induction d as [|[k' v'] d IH]; cbn [dict_set map snd]; [intros [<-|[]]; auto|].
  destruct (word_eqb k k'); cbn [map snd]; intros [<-|H]; cbn; auto. destruct (IH H); auto.
Qed.
Lemma dict_of_pairs_values l w : In w (map snd (dict_of_pairs l)) -> In w (map snd l).
Proof.
  unfold dict_of_pairs. assert (G : forall d, In w (map snd (fold_left (fun d kv => dict_set (fst kv) (snd kv) d) l d)) -> In w (map snd l) \/ In w (map snd d)).
  { induction l as [|[k v] l IH]; intros d H; cbn [fold_left map snd] in *; [auto|]. apply IH in H. destruct H as [H|H]; [left; right; exact H|].
    apply dict_set_values in H. cbn. destruct H; auto. }
  intros H. destruct (G [] H) as [|[]]. assumption.
Qed.

Lemma dict_set_keys k v d : (In k (map fst d) -> map fst (dict_set k v d) = map fst d) /\ (~ In k (map fst d) -> map fst (dict_set k v d) = map fst d ++ [k]).
Proof.
  induction d as [|[k' v'] d IH]; cbn [dict_set map fst In]; [tauto|]. unfold word_eqb. destruct (list_eq_dec N.eq_dec k k') as [->|D]; cbn [map fst].
  - split; [reflexivity|tauto].
  - destruct IH as [I1 I2]. split; [intros [E|H]; [congruence|]; f_equal; auto|intros H; cbn [app]; f_equal; apply I2; tauto].
Qed.
Lemma dict_of_pairs_NoDup l : NoDup (map fst (dict_of_pairs l)).
Proof.
  unfold dict_of_pairs. assert (G : forall d, NoDup (map fst d) -> NoDup (map fst (fold_left (fun d kv => dict_set (fst kv) (snd kv) d) l d))).
  { induction l as [|[k v] l IH]; intros d H; cbn [fold_left fst snd]; [exact H|]. apply IH. destruct (dict_set_keys k v d) as [A B].
    destruct (in_dec (list_eq_dec N.eq_dec) k (map fst d)) as [I|I]; [rewrite A by exact I; exact H|]. rewrite B by exact I. apply NoDup_app3; [exact H|repeat constructor; intros []|].
    intros u Hu [->|[]]. contradiction. }
  apply G. constructor.
Qed.

Section Tun.
  Variable pop : list tnode -> option (tnode * list tnode).
  Hypothesis Hpop : forall h, h <> [] -> exists x r, pop h = Some (x, r) /\ Permutation h (x :: r) /\ Forall (fun y => (snd y <= snd x)%Q) r.
  Variables (pmf : list Q) (pmin : Q).
  Hypothesis H2 : (2 <= length pmf)%nat.
  Hypothesis Hmin : Forall (fun p => (0 <= p)%Q /\ (p <= 1)%Q /\ (pmin <= p)%Q) pmf.
  Hypothesis Hmin0 : (0 <= pmin)%Q.

  (* q: probability of the node expanded last *)
  Definition TB (q : Q) (h : list tnode) : Prop :=
    (0 <= q)%Q /\
    forall y, In y h -> (snd y == block_prob pmf (fst y))%Q /\ (0 <= snd y)%Q /\ (snd y <= q)%Q /\ (pmin * q <= snd y)%Q /\
      forall u x r, fst y = u ++ x :: r -> (q <= block_prob pmf u)%Q.

  Lemma in_combine s p : In (s, p) (combine (range_N (N.of_nat (length pmf))) pmf) -> (s < N.of_nat (length pmf))%N /\ nth (N.to_nat s) pmf 0%Q = p /\ In p pmf.
  Proof.
    intros H. apply (In_nth _ _ (0%N, 0%Q)) in H. destruct H as (i & Hi & E). rewrite combine_length, range_N_length in Hi.
    rewrite combine_nth in E by (rewrite range_N_length; lia). injection E as E1 E2.
    assert (Es : s = N.of_nat i). { rewrite <- E1. unfold range_N. rewrite (nth_indep _ 0%N (N.of_nat 0)) by (rewrite map_length, seq_length; lia). rewrite map_nth, seq_nth by lia. reflexivity. }
    split; [lia|]. split; [rewrite Es, Nat2N.id; exact E2|]. rewrite <- E2; apply nth_In; lia.
  Qed.
  Lemma in_expand x y : In y (expand pmf x) -> exists s p, (s < N.of_nat (length pmf))%N /\ nth (N.to_nat s) pmf 0%Q = p /\ In p pmf /\ y = (fst x ++ [s], (snd x * p)%Q).
  Proof.
    unfold expand. intros H. apply in_map_iff in H. destruct H as ((s, p) & <- & H). cbn [fst snd]. apply in_combine in H. exists s, p. tauto.
  Qed.

  Lemma TB_step q x r : TB q (x :: r) -> Forall (fun y => (snd y <= snd x)%Q) r -> TB (snd x) (r ++ expand pmf x).
  Proof.
    intros [Q0 T] F. destruct (T x (or_introl eq_refl)) as (X1 & X2 & X3 & X4 & X5). split; [exact X2|]. intros y Hy. apply in_app_or in Hy. destruct Hy as [Hy|Hy].
    - destruct (T y (or_intror Hy)) as (Y1 & Y2 & Y3 & Y4 & Y5). rewrite Forall_forall in F. repeat (split; [solve [auto]|]). split.
      + apply Qle_trans with (pmin * q)%Q; [|exact Y4]. rewrite !(Qmult_comm pmin). apply Qmult_le_compat_r; assumption.
      + intros u z s E. apply (Qle_trans _ q); [exact X3|]. eapply Y5; eassumption.
    - apply in_expand in Hy. destruct Hy as (s & p & Hs & Ep & Hp & ->). cbn [fst snd]. rewrite Forall_forall in Hmin. destruct (Hmin p Hp) as (P0 & P1 & P2).
      split; [rewrite block_prob_snoc, X1, Ep; reflexivity|]. split; [apply Qmult_le_0_compat; assumption|]. split; [|split].
      + rewrite <- (Qmult_1_r (snd x)) at 2. rewrite !(Qmult_comm (snd x)). apply Qmult_le_compat_r; assumption.
      + rewrite (Qmult_comm (snd x)). apply Qmult_le_compat_r; assumption.
      + intros u z t E. destruct t as [|z' t] using rev_ind.
        * apply app_inj_tail in E. destruct E as [<- _]. rewrite X1. apply Qle_refl.
        * clear IHt. change (z :: t ++ [z']) with ((z :: t) ++ [z']) in E. rewrite app_assoc in E. apply app_inj_tail in E. destruct E as [E _].
          apply (Qle_trans _ q); [exact X3|]. eapply X5; eassumption.
  Qed.
  Lemma TB_perm q h h' : Permutation h h' -> TB q h -> TB q h'.
  Proof. intros P [Q0 T]. split; [exact Q0|]. intros y Hy. apply T. eapply Permutation_in; [apply Permutation_sym; exact P|exact Hy]. Qed.
  Lemma grow_TB K : forall h h' q, h <> [] -> TB q h -> tunstall_grow pop pmf K h = Some h' -> exists q', TB q' h'.
  Proof.
    induction K as [|K IH]; intros h h' q Hn T E; cbn [tunstall_grow] in E; [injection E as <-; eauto|].
    destruct (Hpop h Hn) as ([w p] & r & E1 & P & F). rewrite E1 in E. fold (expand pmf (w, p)) in E.
    apply (IH (r ++ expand pmf (w, p)) h' p); [|exact (TB_step q _ _ (TB_perm q _ _ P T) F)|exact E].
    intros Z. apply (f_equal (@length tnode)) in Z. rewrite app_length, expand_length in Z by exact H2. cbn in Z. lia.
  Qed.
  Lemma first_TB : TB 1 (first_heap pmf).
  Proof.
    split; [discriminate|]. intros y Hy. unfold first_heap in Hy. apply in_map_iff in Hy. destruct Hy as ((s, p) & <- & H). cbn [fst snd].
    apply in_combine in H. destruct H as (Hs & Ep & Hp). rewrite Forall_forall in Hmin. destruct (Hmin p Hp) as (P0 & P1 & P2).
    split; [cbn [block_prob fold_right]; rewrite Ep; ring|]. split; [exact P0|]. split; [exact P1|]. split; [rewrite Qmult_1_r; exact P2|].
    intros u x r E. destruct u as [|a u]; [apply Qle_refl|]. destruct u; discriminate.
  Qed.

  (* the dictionary of TunstallCode: threshold between its proper prefixes and the words at or below its leaves *)
  Lemma tunstall_threshold n c : (N.of_nat (length pmf) <= 2 ^ N.of_nat n)%N -> tunstall_make pop pmf n = Some c ->
    exists q, (0 <= q)%Q /\ forall w, In w (v2f_sourcewords c) -> (block_prob pmf w <= q)%Q /\ (pmin * q <= block_prob pmf w)%Q /\
      forall u x r, w = u ++ x :: r -> (q <= block_prob pmf u)%Q.
  Proof.
    intros Hn E. unfold tunstall_make in E. destruct (_ <? _)%N; [discriminate|]. destruct (length pmf <=? 1)%nat eqn:E1; [discriminate|].
    fold (first_heap pmf) in E.
    assert (FN : first_heap pmf <> []). { intros Z. pose proof (first_length pmf H2) as FL. rewrite Z in FL. cbn in FL. lia. }
    destruct (grow_spec pop ltac:(intros h Hh; destruct (Hpop h Hh) as (x & r & A & B & _); eauto) pmf H2 (tunstall_K (length pmf) n) _ FN (first_TInv pmf H2)) as (h & G & I & L).
    rewrite G in E. destruct (grow_TB _ _ _ _ FN first_TB G) as (q & Q0 & T).
    exists q. split; [exact Q0|]. intros w Hw.
    assert (PW : Permutation (map fst h) (sort_lex (map fst h))) by apply sort_lex_perm.
    apply v2f_make_inv in E. destruct E as (_ & _ & _ & _ & _ & ->). unfold v2f_sourcewords in Hw. cbn [v2f_map] in Hw.
    assert (IW : In w (sort_lex (map fst h))).
    { apply dict_of_pairs_values in Hw. apply in_map_iff in Hw. destruct Hw as ((k, v) & <- & Hkv). apply in_combine_r in Hkv. exact Hkv. }
    apply (Permutation_in _ (Permutation_sym PW)) in IW. apply in_map_iff in IW. destruct IW as (y & <- & Hy).
    destruct (T y Hy) as (Y1 & Y2 & Y3 & Y4 & Y5). rewrite <- Y1. auto.
  Qed.
End Tun.

Lemma exact_le1 pmf : exact_pmf pmf -> Forall (fun p => (0 <= p)%Q /\ (p <= 1)%Q) pmf.
Proof.
  intros [N S]. assert (G : forall l, Forall (fun p => (0 <= p)%Q) l -> forall p, In p l -> (p <= qsum l)%Q).
  { clear. induction 1 as [|a l Ha HF IH]; intros p Hp; [destruct Hp|]. cbn [qsum fold_right]. fold (qsum l). pose proof (qsum_nonneg l HF).
    destruct Hp as [->|Hp]; [|specialize (IH p Hp); apply (Qle_trans _ _ _ IH)]; [rewrite <- (Qplus_0_r p) at 1|rewrite <- (Qplus_0_l (qsum l)) at 1]; apply Qplus_le_compat; assumption || apply Qle_refl. }
  apply Forall_forall. intros p Hp. split; [rewrite Forall_forall in N; auto|]. rewrite <- S. apply G; assumption.
Qed.
Lemma nth_firstn_lt {A} i n (l : list A) d : (i < n)%nat -> nth i (firstn n l) d = nth i l d.
Proof. revert i l. induction n; intros [|i] [|x l] H; cbn; try lia; auto. apply IHn. lia. Qed.
Lemma word_prob_app p u v : word_prob p (u ++ v) = word_prob p u * word_prob p v.
Proof. induction u as [|x u IH]; [cbn [app]; change (word_prob p []) with 1; lra|]. change (nth (N.to_nat x) p 0 * word_prob p (u ++ v) = nth (N.to_nat x) p 0 * word_prob p u * word_prob p v). rewrite IH. lra. Qed.
Lemma word_prob_le1 p w : (forall x, In x p -> 0 <= x <= 1) -> word_prob p w <= 1.
Proof.
  intros N. induction w as [|x w IH]; cbn [word_prob fold_right]; [lra|]. fold (word_prob p w).
  pose proof (word_prob_nonneg p w (fun x H => proj1 (N x H))).
  destruct (nth_in_or_default (N.to_nat x) p 0) as [H0| ->]; [|lra]. specialize (N _ H0). nra.
Qed.

Lemma tunstall_optimal_dict pop pmf n c : 
  (forall h, h <> [] -> exists x r, pop h = Some (x, r) /\ Permutation h (x :: r) /\ Forall (fun y => (snd y <= snd x)%Q) r) ->
  (2 <= length pmf)%nat -> exact_pmf pmf -> (N.of_nat (length pmf) <= 2 ^ N.of_nat n)%N -> tunstall_make pop pmf n = Some c ->
  forall ws, Forall (Forall (fun x => (x < N.of_nat (length pmf))%N)) ws -> prefix_free_words ws -> covers_every_sequence ws (N.of_nat (length pmf)) ->
    (exists j, length ws = 1 + j * (length pmf - 1))%nat /\
    ((length ws <= length (v2f_sourcewords c))%nat -> mean_length (RL pmf) ws <= mean_length (RL pmf) (v2f_sourcewords c)).
Proof.
  intros Hpop H2 HP Hn E ws HW HPF HC. set (card := N.of_nat (length pmf)) in *. set (p := RL pmf).
  assert (Hmin : Forall (fun p => (0 <= p)%Q /\ (p <= 1)%Q /\ (0 <= p)%Q) pmf) by (eapply Forall_impl; [|apply exact_le1; exact HP]; cbn; tauto).
  destruct (tunstall_threshold pop Hpop pmf 0 H2 Hmin (Qle_refl 0) n c Hn E) as (q & Q0 & T).
  destruct (tunstall_spec pop ltac:(intros h Hh; destruct (Hpop h Hh) as (x & r & A & B & _); eauto) pmf H2 n Hn) as (c' & E' & _ & _ & _ & _ & _ & PF & COV & _).
  rewrite E in E'. injection E' as <-. pose proof (exact_pmf_list _ HP) as PL. fold p in PL. assert (NN := PL). apply pmf_list_iff in NN. destruct NN as [NN _].
  assert (LP : length p = N.to_nat card) by (unfold p, card; rewrite map_length; lia).
  assert (HT : forall w, In w (v2f_sourcewords c) -> Forall (fun x => (x < card)%N) w).
  { intros w Hw. unfold tunstall_make in E. destruct (_ <? _)%N; [discriminate|]. destruct (length pmf <=? 1)%nat; [discriminate|]. destruct (tunstall_grow _ _ _ _); [|discriminate].
    apply v2f_make_inv in E. destruct E as (_ & _ & _ & _ & HV & ->). rewrite Forall_forall in HV. apply HV. exact Hw. }
  rewrite Forall_forall in HW. destruct (list_bound ws) as (d & Hd). destruct (list_bound (v2f_sourcewords c)) as (d' & Hd').
  destruct (internal_spec p card d ws LP PL ltac:(auto) (PF_set _ HPF) HC) as (A1 & A2 & A3).
  destruct (internal_spec p card d' _ LP PL (fun w Hw => conj (Hd' w Hw) (HT w Hw)) (PF_set _ PF) COV) as (B1 & B2 & B3).
  assert (EC : INR (N.to_nat card) = INR (length pmf - 1) + 1) by (rewrite <- S_INR; f_equal; unfold card; lia).
  assert (CNT : forall a j, INR a = 1 + (INR (N.to_nat card) - 1) * INR j -> a = (1 + j * (length pmf - 1))%nat).
  { intros a j H. apply INR_eq. rewrite H, EC, plus_INR, mult_INR. cbn [INR]. ring. }
  apply CNT in A3. apply CNT in B3. split; [eauto|]. intros L. unfold mean_length. rewrite A2, B2.
  assert (LI : (length (internal card d ws) <= length (internal card d' (v2f_sourcewords c)))%nat) by nia.
  apply (exchange _ (Q2R q)); [apply Q2R_nonneg; exact Q0|apply internal_NoDup|exact LI| |].
  - intros u Hu. apply B1 in Hu. destruct Hu as (x & r & Hu). unfold p. rewrite <- word_prob_Q. apply Qle_Rle. destruct (T _ Hu) as (_ & _ & T3). eapply T3. reflexivity.
  - intros u Hu NI. apply A1 in Hu. destruct Hu as (x0 & r0 & Hu). apply HW in Hu. apply Forall_app in Hu. destruct Hu as [FU _].
    destruct (COV (fun i => nth i u 0%N)) as (w & Hw & Pw).
    { intros i. destruct (nth_in_or_default i u 0%N) as [H| ->]; [rewrite Forall_forall in FU; auto|unfold card; lia]. }
    assert (PRE : exists r, u = w ++ r).
    { destruct (Nat.le_gt_cases (length w) (length u)) as [LW|LW].
      - exists (skipn (length w) u). rewrite <- (firstn_skipn (length w) u) at 1. f_equal.
        apply (list_ext 0%N). { rewrite firstn_length. lia. }
        intros i Hi. rewrite firstn_length in Hi. rewrite (nth_firstn_lt i) by lia. destruct (nth_error w i) as [y|] eqn:Ey; [|apply nth_error_None in Ey; lia].
        specialize (Pw i y Ey). cbv beta in Pw. rewrite Pw. symmetry. apply nth_error_nth. exact Ey.
      - exfalso. apply NI. apply B1. destruct (skipn (length u) w) as [|x r] eqn:Es.
        { apply (f_equal (@length N)) in Es. rewrite skipn_length in Es. cbn in Es. lia. }
        exists x, r. replace (u ++ x :: r) with w; [exact Hw|]. rewrite <- Es, <- (firstn_skipn (length u) w) at 1. f_equal.
        apply (list_ext 0%N). { rewrite firstn_length. lia. }
        intros i Hi. rewrite firstn_length in Hi. rewrite (nth_firstn_lt i) by lia. destruct (nth_error w i) as [y|] eqn:Ey; [|apply nth_error_None in Ey; lia].
        specialize (Pw i y Ey). cbv beta in Pw. rewrite Pw. apply nth_error_nth. exact Ey. }
    destruct PRE as (r & ->). rewrite word_prob_app. destruct (T w Hw) as (T1 & _). apply Qle_Rle in T1. rewrite word_prob_Q in T1. fold p in T1.
    pose proof (word_prob_nonneg p w NN). assert (word_prob p r <= 1).
    { apply word_prob_le1. intros x Hx. unfold p in Hx. apply in_map_iff in Hx. destruct Hx as (y & <- & Hy). rewrite Forall_forall in Hmin. destruct (Hmin y Hy) as (M1 & M2 & _).
      split; [apply Q2R_nonneg; exact M1|]. rewrite <- Q2R_1'. apply Qle_Rle. exact M2. }
    pose proof (word_prob_nonneg p r NN). nra.
Qed.

Lemma tunstall_entropy pop pmf pmin n c : 
  (forall h, h <> [] -> exists x r, pop h = Some (x, r) /\ Permutation h (x :: r) /\ Forall (fun y => (snd y <= snd x)%Q) r) ->
  (2 <= length pmf)%nat -> exact_pmf pmf -> (0 < pmin)%Q -> Forall (fun p => (pmin <= p)%Q) pmf ->
  (N.of_nat (length pmf) <= 2 ^ N.of_nat n)%N -> tunstall_make pop pmf n = Some c ->
  ln (INR (length (v2f_sourcewords c)) * Q2R pmin) <= H_list (RL pmf) * mean_length (RL pmf) (v2f_sourcewords c).
Proof.
  intros Hpop H2 HP Hm0 Hm Hn E. set (p := RL pmf).
  assert (Hmin : Forall (fun p => (0 <= p)%Q /\ (p <= 1)%Q /\ (pmin <= p)%Q) pmf).
  { apply Forall_forall. intros x Hx. pose proof (exact_le1 _ HP) as F. rewrite Forall_forall in F, Hm. destruct (F x Hx). auto. }
  destruct (tunstall_threshold pop Hpop pmf pmin H2 Hmin (Qlt_le_weak _ _ Hm0) n c Hn E) as (q & Q0 & T).
  destruct (tunstall_spec pop ltac:(intros h Hh; destruct (Hpop h Hh) as (x & r & A & B & _); eauto) pmf H2 n Hn) as (c' & E' & _ & _ & _ & _ & _ & PF & COV & _).
  rewrite E in E'. injection E' as <-. pose proof (exact_pmf_list _ HP) as PL. fold p in PL. assert (NN := PL). apply pmf_list_iff in NN. destruct NN as [NN _].
  assert (HT : forall w, In w (v2f_sourcewords c) -> Forall (fun x => (x < N.of_nat (length pmf))%N) w).
  { intros w Hw. unfold tunstall_make in E. destruct (_ <? _)%N; [discriminate|]. destruct (length pmf <=? 1)%nat; [discriminate|]. destruct (tunstall_grow _ _ _ _); [|discriminate].
    apply v2f_make_inv in E. destruct E as (_ & _ & _ & _ & HV & ->). rewrite Forall_forall in HV. apply HV. exact Hw. }
  destruct (list_bound (v2f_sourcewords c)) as (d & Hd).
  destruct (complete_identity p (N.of_nat (length pmf)) d (v2f_sourcewords c)) as [S1 S2]; [unfold p; rewrite map_length; lia|exact PL|auto|apply PF_set; exact PF|exact COV|].
  fold (mean_length p (v2f_sourcewords c)) in S2. rewrite <- S2. clear S2. set (ws := v2f_sourcewords c) in *.
  assert (TR : forall w, In w ws -> word_prob p w <= Q2R q /\ Q2R pmin * Q2R q <= word_prob p w).
  { intros w Hw. destruct (T w Hw) as (T1 & T2 & _). unfold p. rewrite <- word_prob_Q. rewrite <- Q2R_mult. split; apply Qle_Rle; assumption. }
  apply Q2R_nonneg in Q0. apply Q2R_pos in Hm0. set (x := Q2R q) in *. set (y := Q2R pmin) in *.
  assert (B : INR (length ws) * (y * x) <= 1 /\ (1 <= INR (length ws) * x)).
  { rewrite <- S1. clear - TR. induction ws as [|w ws IH]; cbn [map length]; [rewrite Rsum_nil; cbn [INR]; lra|]. rewrite Rsum_cons, S_INR.
    destruct IH as [I1 I2]; [intros; apply TR; right; assumption|]. destruct (TR w (or_introl eq_refl)). lra. }
  destruct B as [B1 B2]. assert (M0 : 0 < INR (length ws)) by (pose proof (pos_INR (length ws)); nra). assert (X0 : 0 < x) by nra.
  apply Rle_trans with (ln (/ x)).
  - apply ln_mono; [nra|]. apply (Rmult_le_reg_r x); [exact X0|]. rewrite Rinv_l by lra. lra.
  - rewrite <- (Rmult_1_l (ln (/ x))), <- S1. clear - TR NN X0. induction ws as [|w ws IH]; cbn [map]; [rewrite !Rsum_nil; lra|]. rewrite !Rsum_cons, Rmult_plus_distr_r.
    apply Rplus_le_compat; [|apply IH; intros; apply TR; right; assumption]. pose proof (word_prob_nonneg p w NN) as W0. destruct (TR w (or_introl eq_refl)) as [W1 _].
    destruct (Req_dec (word_prob p w) 0) as [->|NZ]; [lra|]. apply Rmult_le_compat_l; [exact W0|]. apply ln_mono; [apply Rinv_0_lt_compat; exact X0|]. apply Rinv_le_contravar; lra.
Qed.
