(* Lists of results, sub-lists of given length: the list functions used by the generator matrices and the minors. *)
From Verif Require Import Common BinPoly_Model Cat_Model ClassicCodes_Model.
Local Open Scope nat_scope.

Lemma all_some_ex {A} (l : list (option A)) : (forall i, i < length l -> exists a, nth i l None = Some a) ->
  exists l', all_some l = Some l' /\ length l' = length l /\ forall i d, i < length l -> nth i l None = Some (nth i l' d).
Proof.
  induction l as [|x l IH]; intros H. { exists []. cbn. repeat split; auto. intros; lia. }
  destruct (H 0) as [a Ea]; [cbn; lia|]. cbn in Ea. subst x. destruct IH as (l' & El & Ll & Nl).
  { intros i Hi. apply (H (S i)). cbn. lia. }
  exists (a :: l'). cbn [all_some]. rewrite El. cbn [length]. repeat split; auto. intros [|i] d Hi; cbn [nth]; auto. apply Nl. lia.
Qed.
Lemma all_some2_ex {A} n (L : list (list (option A))) : (forall i, i < length L -> length (nth i L []) = n) ->
  (forall i j, i < length L -> j < n -> exists a, nth j (nth i L []) None = Some a) ->
  exists G, all_some2 L = Some G /\ length G = length L /\ (forall i, i < length L -> length (nth i G []) = n) /\
    forall i j d, i < length L -> j < n -> nth j (nth i L []) None = Some (nth j (nth i G []) d).
Proof.
  intros HL H. unfold all_some2. destruct (all_some_ex (map all_some L)) as (G & EG & LG & NG).
  { rewrite map_length. intros i Hi. rewrite (nth_indep _ None (all_some [])) by (rewrite map_length; auto). rewrite map_nth.
    destruct (all_some_ex (nth i L [])) as (r & Er & _); [|exists r; auto]. rewrite HL by auto. intros j Hj. apply H; auto. }
  rewrite map_length in LG, NG. exists G. split; auto. split; auto.
  assert (R : forall i, i < length L -> all_some (nth i L []) = Some (nth i G [])).
  { intros i Hi. rewrite <- (NG i [] Hi). rewrite (nth_indep _ None (all_some [])) by (rewrite map_length; auto). rewrite map_nth. reflexivity. }
  split; intros i; [intros Hi|intros j d Hi Hj]; destruct (all_some_ex (nth i L [])) as (r & Er & Lr & Nr);
    try (rewrite HL by auto; intros; apply H; auto); rewrite R in Er by auto; injection Er as <-.
  - rewrite Lr. auto.
  - apply Nr. rewrite HL; auto.
Qed.

Lemma filter_combinations {A} (p : A -> bool) l : In (filter p l) (combinations l (length (filter p l))).
Proof.
  induction l as [|x l IH]; cbn [filter]; [left; auto|]. destruct (p x); cbn [length combinations].
  - apply in_or_app. left. apply in_map, IH.
  - destruct (length (filter p l)) eqn:E. { destruct (filter p l); [left; auto|discriminate]. } cbn [combinations]. apply in_or_app. right. auto.
Qed.
Lemma in_combination {A} (l : list A) : forall w I, In I (combinations l w) -> length I = w /\ forall x, In x I -> In x l.
Proof.
  induction l as [|x l IH]; intros [|w] I H; cbn [combinations] in H.
  - destruct H as [<-|[]]. split; auto.
  - destruct H.
  - destruct H as [<-|[]]. split; auto. intros ? [].
  - apply in_app_or in H. destruct H as [H|H].
    + apply in_map_iff in H. destruct H as (I' & <- & H). apply IH in H. destruct H as [L S]. cbn. split; [lia|]. intros y [->|Hy]; auto.
    + apply IH in H. destruct H as [L S]. split; auto. intros y Hy. right. auto.
Qed.
Lemma combinations_nonempty {A} (l : list A) w : w <= length l -> combinations l w <> [].
Proof.
  revert w. induction l as [|x l IH]; intros [|w] H; cbn [combinations length] in *; try discriminate; [lia|].
  intros E. apply app_eq_nil in E. destruct E as [E _]. apply map_eq_nil in E. apply IH in E; auto. lia.
Qed.

Lemma in_concat_nth {A} (d : A) (L : list (list A)) x : In x (concat L) <-> exists i j, i < length L /\ j < length (nth i L []) /\ nth j (nth i L []) d = x.
Proof.
  rewrite in_concat. split.
  - intros (r & Hr & Hx). apply (In_nth _ _ []) in Hr. destruct Hr as (i & Hi & <-). apply (In_nth _ _ d) in Hx. destruct Hx as (j & Hj & <-).
    exists i, j. auto.
  - intros (i & j & Hi & Hj & <-). exists (nth i L []). split; apply nth_In; auto.
Qed.
Lemma exponents_single p : length (exponents p) = 1 <-> exists i, p = N.shiftl 1 (N.of_nat i).
Proof.
  assert (H : forall i, In i (exponents p) <-> N.testbit p (N.of_nat i) = true).
  { intros i. unfold exponents. rewrite filter_In, in_seq. split; [tauto|]. intros T. split; auto. split; [lia|].
    assert (SN : bit_length p = N.to_nat (N.size p)) by (unfold bit_length; destruct p as [|p]; auto; cbn [N.size N.size_nat]; clear; induction p; cbn; try (rewrite IHp, Pos2Nat.inj_succ); auto).
    rewrite SN. destruct (Nat.lt_ge_cases i (N.to_nat (N.size p))) as [|G]; [lia|]. exfalso. revert T.
    destruct (N.eq_dec p 0) as [->|Z]; [rewrite N.bits_0; discriminate|]. rewrite N.bits_above_log2; [discriminate|].
    rewrite N.size_log2 in G by auto. lia. }
  assert (ND : NoDup (exponents p)) by (apply NoDup_filter, seq_NoDup). split.
  - intros L. destruct (exponents p) as [|i [|? ?]] eqn:E; try discriminate. exists i. apply N.bits_inj. intros m.
    rewrite N.shiftl_1_l, N.pow2_bits_eqb. destruct (N.eqb_spec (N.of_nat i) m) as [<-|Ne].
    + apply H. left; auto.
    + apply Bool.not_true_is_false. intros T. specialize (H (N.to_nat m)). rewrite N2Nat.id in H. apply H in T. destruct T as [E'|[]]. lia.
  - intros (i & ->). assert (S : forall m, In m (exponents (N.shiftl 1 (N.of_nat i))) <-> m = i).
    { intros m. rewrite H, N.shiftl_1_l, N.pow2_bits_eqb, N.eqb_eq. lia. }
    destruct (exponents (N.shiftl 1 (N.of_nat i))) as [|a [|b l]]; auto.
    + exfalso. apply (S i). auto.
    + exfalso. assert (a = i) by (apply S; left; auto). assert (b = i) by (apply S; right; left; auto). subst. inversion ND; subst. apply H2. left; auto.
Qed.
