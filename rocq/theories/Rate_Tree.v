(* Leaf entropy of a complete parsing dictionary: H(leaves) = E[length] * H(p). *)
From Verif Require Import Common Prefix_Model Prefix_Proof Spec_Lossless.
From Coq Require Import Reals Lra Lia Psatz.
From Verif Require Import FB_Model FB_Proof Info_Spec Info_Sums Info_Proof Rate_Proof.
Local Open Scope R_scope.

(* probability of a word *)
Definition word_prob (p : list R) (w : list N) : R := fold_right (fun x acc => nth (N.to_nat x) p 0 * acc) 1 w.

Definition PFset (ws : list (list N)) : Prop := NoDup ws /\ forall a r, In a ws -> In (a ++ r) ws -> r = [].

Lemma PF_set ws : prefix_free_words ws -> PFset ws.
Proof.
  intros PF. split.
  - apply NoDup_nth_error. intros i j Hi E. destruct (Nat.eq_dec i j) as [|D]; [assumption|exfalso].
    destruct (nth_error ws i) as [a|] eqn:Ei; [|apply nth_error_None in Ei; lia]. symmetry in E.
    apply (PF i j a a D Ei E). exists []. symmetry. apply app_nil_r.
  - intros a r Ha Hb. apply In_nth_error in Ha. apply In_nth_error in Hb. destruct Ha as (i & Ei), Hb as (j & Ej).
    destruct (Nat.eq_dec i j) as [<-|D].
    + rewrite Ei in Ej. injection Ej as Ej. rewrite <- (app_nil_r a) in Ej at 1. symmetry. apply app_inv_head in Ej. exact Ej.
    + exfalso. apply (PF i j _ _ D Ei Ej). exists r. reflexivity.
Qed.

Definition branch (a : N) (ws : list (list N)) : list (list N) :=
  flat_map (fun w => match w with [] => [] | x :: v => if N.eqb x a then [v] else [] end) ws.
Lemma in_branch a ws v : In v (branch a ws) <-> In (a :: v) ws.
Proof.
  unfold branch. rewrite in_flat_map. split.
  - intros ([|x w] & Hw & Hv); [destruct Hv|]. destruct (N.eqb_spec x a); [|destruct Hv]. destruct Hv as [<-|[]]. subst. exact Hw.
  - intros H. exists (a :: v). split; [exact H|]. rewrite N.eqb_refl. left. reflexivity.
Qed.
Lemma branch_NoDup a ws : NoDup ws -> NoDup (branch a ws).
Proof.
  induction 1 as [|w ws Hw N IH]; [constructor|]. unfold branch in *. cbn [flat_map]. destruct w as [|x v]; [exact IH|].
  destruct (N.eqb_spec x a); [|exact IH]. subst. cbn [app]. constructor; [|exact IH]. intros Hin. apply Hw. apply in_branch. exact Hin.
Qed.

Lemma branch_sum (g : list N -> R) card ws : (forall w, In w ws -> w <> [] /\ Forall (fun x => (x < card)%N) w) ->
  Rsum (map g ws) = sum_to (N.to_nat card) (fun a => Rsum (map (fun v => g (N.of_nat a :: v)) (branch (N.of_nat a) ws))).
Proof.
  induction ws as [|w ws IH]; intros H.
  - cbn [map branch flat_map]. rewrite (sum_ext _ _ (fun _ => 0)); [rewrite sum_0; reflexivity|]. intros. reflexivity.
  - cbn [map]. rewrite Rsum_cons, IH by (intros; apply H; right; assumption).
    destruct (H w (or_introl eq_refl)) as [NE F]. destruct w as [|x v]; [congruence|]. apply Forall_inv in F.
    pose proof (sum_delta (N.to_nat card) (N.to_nat x) (fun a => g (N.of_nat a :: v)) ltac:(lia)) as D. cbv beta in D. rewrite N2Nat.id in D.
    rewrite <- D, <- sum_plus. apply sum_ext. intros a Ha. unfold branch. cbn [flat_map].
    destruct (Nat.eqb_spec a (N.to_nat x)) as [->|E].
    + rewrite N2Nat.id, N.eqb_refl. cbn [app map]. rewrite Rsum_cons. reflexivity.
    + destruct (N.eqb_spec x (N.of_nat a)); [lia|]. cbn [app]. lra.
Qed.

Lemma complete_identity (p : list R) (card : N) d : forall ws, length p = N.to_nat card -> pmf_list p ->
  (forall w, In w ws -> (length w <= d)%nat /\ Forall (fun x => (x < card)%N) w) ->
  PFset ws -> covers_every_sequence ws card ->
  Rsum (map (word_prob p) ws) = 1 /\
  Rsum (map (fun w => word_prob p w * ln (/ word_prob p w)) ws) = H_list p * Rsum (map (fun w => word_prob p w * INR (length w)) ws).
Proof.
  induction d as [|d IH]; intros ws LP HP HW [ND PF] COV.
  all: pose proof (pmf_pos_n _ _ HP) as Hc.
  all: assert (EX : exists w, In w ws) by (destruct (COV (fun _ => 0%N)) as (w & Hw & _); [intros; lia|eauto]).
  all: destruct (in_dec (list_eq_dec N.eq_dec) [] ws) as [E0|NE].
  1,3: (assert (WS : ws = [[]]) by
    (destruct ws as [|w ws]; [destruct E0|];
     assert (A : forall v, In v (w :: ws) -> v = []) by (intros v Hv; apply (PF [] v E0); exact Hv);
     rewrite (A w (or_introl eq_refl)) in *; destruct ws as [|v ws]; [reflexivity|]; exfalso;
     rewrite (A v (or_intror (or_introl eq_refl))) in ND; inversion ND as [|? ? Hn _]; apply Hn; left; reflexivity);
    subst ws; cbn [map word_prob fold_right length INR]; rewrite !Rsum_cons, !Rsum_nil, Rinv_1, ln_1; split; lra).
  - exfalso. destruct EX as (w & Hw). destruct (HW w Hw) as [L _]. destruct w; [contradiction|cbn in L; lia].
  - assert (HN : forall w, In w ws -> w <> [] /\ Forall (fun x => (x < card)%N) w).
    { intros w Hw. split; [intros ->; contradiction|apply HW; assumption]. }
    assert (B : forall a, (a < N.to_nat card)%nat ->
      Rsum (map (word_prob p) (branch (N.of_nat a) ws)) = 1 /\
      Rsum (map (fun w => word_prob p w * ln (/ word_prob p w)) (branch (N.of_nat a) ws)) = H_list p * Rsum (map (fun w => word_prob p w * INR (length w)) (branch (N.of_nat a) ws))).
    { intros a Ha. apply IH; try assumption.
      - intros v Hv. apply in_branch in Hv. destruct (HW _ Hv) as [L F]. cbn [length] in L. split; [lia|]. inversion F; assumption.
      - split; [apply branch_NoDup; assumption|]. intros v r Hv Hr. apply in_branch in Hv. apply in_branch in Hr. apply (PF _ r Hv). exact Hr.
      - intros f Hf. destruct (COV (fun i => match i with O => N.of_nat a | S j => f j end)) as (w & Hw & Pw).
        { intros [|i]; [lia|apply Hf]. }
        destruct w as [|x v]; [contradiction|]. specialize (Pw 0%nat x eq_refl) as E. cbv beta iota in E. subst x. exists v. split; [apply in_branch; exact Hw|].
        intros i y Hi. exact (Pw (S i) y Hi). }
    assert (CN : forall a v, word_prob p (N.of_nat a :: v) = nth a p 0 * word_prob p v) by (intros; cbn [word_prob fold_right]; rewrite Nat2N.id; reflexivity).
    assert (S1 : sum_to (N.to_nat card) (fun a => nth a p 0) = 1) by (rewrite <- LP; apply HP).
    assert (WP : forall w, Forall (fun x => (x < card)%N) w -> 0 <= word_prob p w).
    { induction w as [|x w IHw]; intros F; [cbn; lra|]. inversion F; subst. cbn [word_prob fold_right]. apply Rmult_le_pos; [|apply IHw; assumption].
      apply HP. lia. }
    rewrite !(branch_sum _ card ws HN). split; [|].
    + rewrite <- S1. apply sum_ext. intros a Ha. rewrite (Rsum_ext _ (fun v => nth a p 0 * word_prob p v)) by (intros; apply CN).
      rewrite Rsum_scal. destruct (B a Ha) as [-> _]. lra.
    + transitivity (sum_to (N.to_nat card) (fun a => nth a p 0 * ln (/ nth a p 0) + nth a p 0 * (H_list p * Rsum (map (fun w => word_prob p w * INR (length w)) (branch (N.of_nat a) ws))))).
      * apply sum_ext. intros a Ha. destruct (B a Ha) as [B1 B2]. rewrite <- B2.
        rewrite (Rsum_ext _ (fun v => (nth a p 0 * ln (/ nth a p 0)) * word_prob p v + nth a p 0 * (word_prob p v * ln (/ word_prob p v)))).
        { rewrite Rsum_plus, !Rsum_scal, B1. lra. }
        intros v Hv. rewrite CN. apply in_branch in Hv. assert (PV : 0 <= word_prob p v). { apply WP. destruct (HW _ Hv) as [_ F]. inversion F; assumption. }
        assert (PA : 0 <= nth a p 0) by (apply HP; lia). rewrite !pln_inv by (try apply Rmult_le_pos; assumption).
        destruct (Req_dec (nth a p 0) 0) as [->|]; [lra|]. destruct (Req_dec (word_prob p v) 0) as [->|]; [lra|]. rewrite ln_mult by lra. ring.
      * rewrite sum_plus.
        assert (EH : H_nats (N.to_nat card) p = H_list p) by (unfold H_list; rewrite LP; reflexivity). unfold H_nats in EH at 1. rewrite EH.
        rewrite (sum_ext _ (fun i => nth i p 0 * (H_list p * Rsum (map (fun w => word_prob p w * INR (length w)) (branch (N.of_nat i) ws))))
          (fun i => H_list p * (nth i p 0 * Rsum (map (fun w => word_prob p w * INR (length w)) (branch (N.of_nat i) ws))))) by (intros; ring).
        rewrite sum_scal.
        rewrite (sum_ext _ (fun a => Rsum (map (fun v => word_prob p (N.of_nat a :: v) * INR (length (N.of_nat a :: v))) (branch (N.of_nat a) ws)))
          (fun a => nth a p 0 * Rsum (map (fun w => word_prob p w * INR (length w)) (branch (N.of_nat a) ws)) + nth a p 0)).
        { rewrite sum_plus, S1. ring. }
        intros a Ha. destruct (B a Ha) as [B1 _].
        rewrite (Rsum_ext _ (fun v => nth a p 0 * (word_prob p v * INR (length v)) + nth a p 0 * word_prob p v)).
        { rewrite Rsum_plus, !Rsum_scal, B1. ring. }
        intros v Hv. rewrite CN. cbn [length]. rewrite S_INR. ring.
Qed.
