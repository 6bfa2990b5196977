(* Internal nodes of a complete parsing dictionary: the proper prefixes of its
   words.  E[length] is the sum of their probabilities, and the number of words
   is 1 + (card - 1) times their number. *)
From Verif Require Import Common Prefix_Model Prefix_Proof Cover_Proof Spec_Lossless.
From Coq Require Import Reals Lra Lia Psatz.
From Verif Require Import FB_Model FB_Proof Info_Spec Info_Sums Info_Proof Rate_Proof Rate_Tree.
Local Open Scope R_scope.

Fixpoint internal (card : N) (d : nat) (ws : list (list N)) : list (list N) :=
  match d with
  | O => []
  | S d' => if in_dec (list_eq_dec N.eq_dec) [] ws then []
            else [] :: flat_map (fun a => map (cons a) (internal card d' (branch a ws))) (range_N card)
  end.

Lemma NoDup_app3 {A} (a b : list A) : NoDup a -> NoDup b -> (forall u, In u a -> ~ In u b) -> NoDup (a ++ b).
Proof.
  intros NA NB. induction NA as [|u a Hu _ IH]; intros D; [exact NB|]. cbn [app]. constructor.
  - intros C. apply in_app_or in C. destruct C as [C|C]; [contradiction|]. apply (D u (or_introl eq_refl) C).
  - apply IH. intros v Hv. apply D. right. exact Hv.
Qed.
Lemma NoDup_flat_cons (f : N -> list (list N)) l : NoDup l -> (forall a, NoDup (f a)) -> NoDup (flat_map (fun a => map (cons a) (f a)) l).
Proof.
  intros ND F. induction ND as [|a l Ha _ IH]; [constructor|]. cbn [flat_map].
  assert (N1 : NoDup (map (cons a) (f a))).
  { specialize (F a). induction F as [|u fa Hu _ IHf]; cbn [map]; constructor; [|assumption].
    intros C. apply in_map_iff in C. destruct C as (v & E & Hv). injection E as ->. contradiction. }
  assert (D : forall u, In u (map (cons a) (f a)) -> ~ In u (flat_map (fun b => map (cons b) (f b)) l)).
  { intros u Hu Hv. apply in_map_iff in Hu. destruct Hu as (v & <- & _). apply in_flat_map in Hv. destruct Hv as (b & Hb & Hv).
    apply in_map_iff in Hv. destruct Hv as (v' & E & _). injection E as -> _. contradiction. }
  apply NoDup_app3; assumption.
Qed.
Lemma internal_NoDup card d : forall ws, NoDup (internal card d ws).
Proof.
  induction d as [|d IH]; intros ws; cbn [internal]; [constructor|]. destruct (in_dec _ [] ws); constructor.
  - intros C. apply in_flat_map in C. destruct C as (a & _ & C). apply in_map_iff in C. destruct C as (v & E & _). discriminate.
  - apply (NoDup_flat_cons (fun a => internal card d (branch a ws))); [apply range_N_NoDup|]. intros; apply IH.
Qed.

Lemma internal_sum (g : list N -> R) card d ws : ~ In [] ws ->
  Rsum (map g (internal card (S d) ws)) = g [] + sum_to (N.to_nat card) (fun a => Rsum (map (fun v => g (N.of_nat a :: v)) (internal card d (branch (N.of_nat a) ws)))).
Proof.
  intros H. cbn [internal]. destruct (in_dec _ [] ws); [contradiction|]. cbn [map]. rewrite Rsum_cons. f_equal.
  rewrite flat_map_concat_map, concat_map, map_map, <- flat_map_concat_map, Rsum_flat_map. unfold range_N. rewrite map_map, Rsum_seq.
  apply sum_ext. intros a Ha. rewrite map_map. reflexivity.
Qed.

Lemma internal_spec (p : list R) (card : N) d : forall ws, length p = N.to_nat card -> pmf_list p ->
  (forall w, In w ws -> (length w <= d)%nat /\ Forall (fun x => (x < card)%N) w) ->
  PFset ws -> covers_every_sequence ws card ->
  (forall u, In u (internal card d ws) <-> exists x r, In (u ++ x :: r) ws) /\
  Rsum (map (fun w => word_prob p w * INR (length w)) ws) = Rsum (map (word_prob p) (internal card d ws)) /\
  INR (length ws) = 1 + (INR (N.to_nat card) - 1) * INR (length (internal card d ws)).
Proof.
  induction d as [|d IH]; intros ws LP HP HW [ND PF] COV.
  all: assert (CP : (0 < N.to_nat card)%nat) by (rewrite <- LP; apply (pmf_pos_n _ _ HP)).
  all: assert (EX : exists w, In w ws) by (destruct (COV (fun _ => 0%N)) as (w & Hw & _); [intros; lia|eauto]).
  all: destruct (in_dec (list_eq_dec N.eq_dec) [] ws) as [E0|NE].
  1,3: (assert (WS : ws = [[]]) by
    (destruct ws as [|w ws]; [destruct E0|];
     assert (A : forall v, In v (w :: ws) -> v = []) by (intros v Hv; apply (PF [] v E0); exact Hv);
     rewrite (A w (or_introl eq_refl)) in *; destruct ws as [|v ws]; [reflexivity|]; exfalso;
     rewrite (A v (or_intror (or_introl eq_refl))) in ND; inversion ND as [|? ? Hn _]; apply Hn; left; reflexivity);
    subst ws; cbn [internal]; try (destruct (in_dec _ [] [[]]); [|contradiction]);
    cbn [map word_prob fold_right length INR]; rewrite !Rsum_cons, !Rsum_nil; split; [|split; lra];
    intros u; split; [intros []|intros (x & r & [C|[]]); destruct u; discriminate]).
  - exfalso. destruct EX as (w & Hw). destruct (HW w Hw) as [L _]. destruct w; [contradiction|cbn in L; lia].
  - assert (HN : forall w, In w ws -> w <> [] /\ Forall (fun x => (x < card)%N) w).
    { intros w Hw. split; [intros ->; contradiction|apply HW; assumption]. }
    assert (BW : forall a v, In v (branch a ws) -> (length v <= d)%nat /\ Forall (fun x => (x < card)%N) v).
    { intros a v Hv. apply in_branch in Hv. destruct (HW _ Hv) as [L F]. cbn [length] in L. split; [lia|]. inversion F; assumption. }
    assert (BP : forall a, PFset (branch a ws)).
    { intros a. split; [apply branch_NoDup; assumption|]. intros v r Hv Hr. apply in_branch in Hv. apply in_branch in Hr. apply (PF _ r Hv). exact Hr. }
    assert (BC : forall a, (a < card)%N -> covers_every_sequence (branch a ws) card).
    { intros a Ha f Hf. destruct (COV (fun i => match i with O => a | S j => f j end)) as (w & Hw & Pw).
      { intros [|i]; [lia|apply Hf]. }
      destruct w as [|x v]; [contradiction|]. specialize (Pw 0%nat x eq_refl) as E. cbv beta iota in E. subst x. exists v. split; [apply in_branch; exact Hw|].
      intros i y Hi. exact (Pw (S i) y Hi). }
    assert (B : forall a, (a < card)%N -> _) by (intros a Ha; exact (IH (branch a ws) LP HP (BW a) (BP a) (BC a Ha))).
    assert (CN : forall a v, word_prob p (N.of_nat a :: v) = nth a p 0 * word_prob p v) by (intros; cbn [word_prob fold_right]; rewrite Nat2N.id; reflexivity).
    assert (S1 : sum_to (N.to_nat card) (fun a => nth a p 0) = 1) by (rewrite <- LP; apply HP).
    split; [|split].
    + intros u. split.
      * cbn [internal]. destruct (in_dec _ [] ws) as [|_]; [contradiction|]. intros [<-|Hu].
        { destruct EX as (w & Hw). destruct w as [|x r]; [contradiction|]. exists x, r. exact Hw. }
        apply in_flat_map in Hu. destruct Hu as (a & Ha & Hu). apply in_map_iff in Hu. destruct Hu as (v & <- & Hv).
        apply in_range_N in Ha. destruct (B a Ha) as (B1 & _). apply B1 in Hv. destruct Hv as (x & r & Hv). exists x, r. apply in_branch in Hv. exact Hv.
      * intros (x & r & Hu). cbn [internal]. destruct (in_dec _ [] ws) as [|_]; [contradiction|]. destruct u as [|a u]; [left; reflexivity|right].
        cbn [app] in Hu. assert (Ha : (a < card)%N) by (apply HW in Hu; destruct Hu as [_ F]; inversion F; assumption).
        apply in_flat_map. exists a. split; [apply in_range_N; exact Ha|]. apply in_map. apply (B a Ha). exists x, r. apply in_branch. exact Hu.
    + rewrite (branch_sum _ card ws HN), internal_sum by exact NE. change (word_prob p []) with 1.
      rewrite <- S1, <- sum_plus. apply sum_ext. intros a Ha. destruct (B (N.of_nat a) ltac:(lia)) as (_ & B2 & _).
      assert (C1 : Rsum (map (word_prob p) (branch (N.of_nat a) ws)) = 1).
      { exact (proj1 (complete_identity p card d _ LP HP (BW _) (BP _) (BC (N.of_nat a) ltac:(lia)))). }
      rewrite (Rsum_ext _ (fun v => nth a p 0 * (word_prob p v * INR (length v)) + nth a p 0 * word_prob p v)).
      * rewrite Rsum_plus, !Rsum_scal, C1, B2. rewrite (Rsum_ext (fun v => word_prob p (N.of_nat a :: v)) (fun v => nth a p 0 * word_prob p v)) by (intros; apply CN).
        rewrite Rsum_scal. lra.
      * intros v Hv. rewrite CN. cbn [length]. rewrite S_INR. ring.
    + assert (L1 : forall l : list (list N), INR (length l) = Rsum (map (fun _ => 1) l)).
      { induction l; cbn [length map]; [rewrite Rsum_nil; reflexivity|]. rewrite S_INR, Rsum_cons, IHl. lra. }
      rewrite !L1, (branch_sum _ card ws HN), internal_sum by exact NE.
      rewrite (sum_ext _ (fun a => Rsum (map (fun _ => 1) (branch (N.of_nat a) ws)))
        (fun a => 1 + (INR (N.to_nat card) - 1) * Rsum (map (fun _ => 1) (internal card d (branch (N.of_nat a) ws))))).
      * rewrite sum_plus, sum_scal, sum_const. ring.
      * intros a Ha. destruct (B (N.of_nat a) ltac:(lia)) as (_ & _ & B3). rewrite !L1 in B3. exact B3.
Qed.
