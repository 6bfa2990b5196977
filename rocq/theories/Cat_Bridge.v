(* Catastrophic inputs in terms of power series. *)
From Verif Require Import Common Vec_Model Conv_Model Conv_Spec Cat_Spec.
From Verif Require Import Vec_Proof Conv_Proof.
From Verif Require ConvTerm_Proof ConvCons_Proof.
Local Open Scope nat_scope.

Notation rowp rows i j := (nth j (fst (nth i rows ([], 0%N))) 0%N) (only parsing).
Notation rowq rows i := (snd (nth i rows ([], 0%N))) (only parsing).
(* the output series j when the inputs divided by the feedback polynomials are w *)
Definition out_series (rows : list (list N * N)) (w : nat -> nat -> bool) (j t : nat) : bool :=
  xsum (map (fun i => series_mul (rowp rows i j) (w i) t) (seq 0 (length rows))).
Definition series_catastrophic (rows : list (list N * N)) (n : nat) : Prop :=
  exists u w : nat -> nat -> bool,
    (forall i t, i < length rows -> series_mul (rowq rows i) (w i) t = u i t) /\
    (forall T, exists t i, T <= t /\ i < length rows /\ u i t = true) /\
    (exists T, forall j t, j < n -> T <= t -> out_series rows w j t = false).

Definition series_silent (rows : list (list N * N)) (n : nat) : Prop :=
  exists u w : nat -> nat -> bool,
    (forall i t, i < length rows -> series_mul (rowq rows i) (w i) t = u i t) /\
    (exists i t, i < length rows /\ u i t = true) /\ (forall j t, j < n -> out_series rows w j t = false).

Lemma finite_choice {A} (R : nat -> A -> Prop) (d : A) n : (forall i, i < n -> exists a, R i a) -> exists f, forall i, i < n -> R i (f i).
Proof.
  induction n as [|n IH]; intros H; [exists (fun _ => d); lia|]. destruct IH as [f F]; [intros; apply H; lia|]. destruct (H n) as [a Ra]; [lia|].
  exists (fun i => if i =? n then a else f i). intros i Hi. destruct (Nat.eqb_spec i n) as [->|]; auto. apply F. lia.
Qed.
Lemma seq_blocks k (u : nat -> vec) m : (forall t, length (u t) = k) -> blocks k (map u (seq 0 m)).
Proof. intros H. apply Forall_forall. intros x I. apply in_map_iff in I. destruct I as (t & <- & _). apply H. Qed.
Lemma bit_of_map u i t m : t < m -> bit_of (map u (seq 0 m)) i t = nth i (u t) false.
Proof. intros H. unfold bit_of. rewrite nth_map_seq by auto. reflexivity. Qed.
Lemma bits_zero l n : length l = n -> (forall i, i < n -> nth i l false = false) -> l = zeros n.
Proof. intros L H. apply (list_ext false); [rewrite zeros_length; auto|]. intros i Hi. unfold zeros. rewrite nth_repeat. apply H. lia. Qed.

Section S.
Context (rows : list (list N * N)) (c : conv) (E : ConvolutionalCode rows = Some c) (Q : Forall (fun r => N.odd (snd r) = true) rows).

Lemma odd_row i : i < length rows -> N.odd (rowq rows i) = true.
Proof. intros H. rewrite Forall_forall in Q. apply Q, nth_In, H. Qed.
(* the encoder computes the output series, whatever the length of the prefix *)
Lemma encode_series us w : blocks (cv_k c) us -> (forall i t, i < length rows -> t < length us -> series_mul (rowq rows i) (w i) t = bit_of us i t) ->
  exists vs, conv_encode c (concat us) = Some (concat vs) /\ blocks (cv_n c) vs /\ length vs = length us /\
    forall j t, j < cv_n c -> t < length us -> bit_of vs j t = out_series rows w j t.
Proof.
  intros B D. pose proof (ConvCons_Proof.cc_ok rows c E) as OK. exists (fst (conv_run c us (zeros (cv_deg c)))).
  unfold conv_encode. rewrite ConvTerm_Proof.encode_with_state_blocks by (auto; apply zeros_length).
  split; [reflexivity|]. split; [apply run_blocks; auto|]. split; [apply run_length|].
  intros j t Hj Ht. apply (ConvCons_Proof.output_series rows c E w Q); auto.
Qed.
Lemma blocks_unique n : 0 < n -> forall vs vs' : list vec, blocks n vs -> blocks n vs' -> concat vs = concat vs' -> vs = vs'.
Proof.
  intros Hn vs. induction vs as [|v vs IH]; intros [|v' vs'] B B' H; auto.
  - cbn in H. inversion B'; subst. destruct v'; cbn in *; [lia|discriminate].
  - cbn in H. inversion B; subst. destruct v; cbn in *; [lia|discriminate].
  - inversion B; inversion B'; subst. cbn [concat] in H. apply app_inj_len in H; [|congruence]. destruct H as [-> H]. f_equal. apply IH; auto.
Qed.

Lemma catastrophic_series : catastrophic c <-> series_catastrophic rows (cv_n c).
Proof.
  destruct (ConvCons_Proof.cc_inv rows c E) as (NE & Pn & _ & Ek & _). split.
  - intros (u & Lu & Inf & T & Fin). destruct (finite_choice (fun i w => forall t, series_mul (rowq rows i) w t = nth i (u t) false) (fun _ => false) (length rows)) as [w W].
    { intros i Hi. apply ConvCons_Proof.series_div_exists. apply ConvCons_Proof.odd_tb, odd_row, Hi. }
    exists (fun i t => nth i (u t) false), w. split; [intros; apply W; auto|]. split.
    + intros T'. destruct (Inf T') as (t & Ht & Nz). exists t.
      destruct (existsb (fun i => nth i (u t) false) (seq 0 (length rows))) eqn:X.
      * apply existsb_exists in X. destruct X as (i & Hi & X). apply in_seq in Hi. exists i. repeat split; auto; lia.
      * exfalso. apply Nz, bits_zero; auto. intros i Hi. rewrite Ek in Hi.
        destruct (nth i (u t) false) eqn:Y; auto. rewrite <- X. symmetry. apply existsb_exists. exists i. split; auto. apply in_seq. lia.
    + exists T. intros j t Hj Ht. destruct (Fin (S t)) as (vs & Ev & Lv & Bv & Zv).
      destruct (encode_series (map u (seq 0 (S t))) w) as (vs' & Ev' & Bv' & Lv' & O).
      * apply seq_blocks; auto.
      * intros i t' Hi Ht'. rewrite map_length, seq_length in Ht'. rewrite bit_of_map by auto. apply W; auto.
      * rewrite map_length, seq_length in *. unfold prefix in Ev. rewrite Ev in Ev'. injection Ev' as Ec.
        apply (blocks_unique (cv_n c)) in Ec; auto. subst vs'. rewrite <- O by (auto; lia). unfold bit_of. rewrite Zv by lia. unfold zeros. apply nth_repeat.
  - intros (u & w & W & Inf & T & Fin). set (U := fun t => map (fun i => u i t) (seq 0 (length rows))).
    assert (LU : forall t, length (U t) = cv_k c) by (intros; unfold U; rewrite map_length, seq_length; auto).
    exists U. split; auto. split.
    + intros T'. destruct (Inf T') as (t & i & Ht & Hi & X). exists t. split; auto. intros Z.
      assert (Y : nth i (U t) false = true) by (unfold U; rewrite nth_map_seq; auto). rewrite Z in Y. unfold zeros in Y. rewrite nth_repeat in Y. discriminate.
    + exists T. intros m. destruct (encode_series (map U (seq 0 m)) w) as (vs & Ev & Bv & Lv & O).
      * apply seq_blocks; auto.
      * intros i t Hi Ht. rewrite map_length, seq_length in Ht. rewrite bit_of_map by auto. unfold U. rewrite nth_map_seq by auto. apply W; auto.
      * rewrite map_length, seq_length in *. exists vs. repeat split; auto. intros t Ht Hm. apply bits_zero.
        { unfold blocks in Bv. rewrite Forall_forall in Bv. apply Bv, nth_In. lia. }
        intros j Hj. change (bit_of vs j t = false). rewrite O by auto. apply Fin; auto.
Qed.

Lemma concat_zeros n vs : blocks n vs -> (forall t, t < length vs -> nth t vs [] = zeros n) -> concat vs = zeros (length vs * n).
Proof.
  intros B. induction B as [|v vs Lv B IH]; intros H; auto. cbn [concat length]. rewrite IH by (intros t Ht; apply (H (S t)); cbn; lia).
  pose proof (H 0 ltac:(cbn; lia)) as H0. cbn in H0. rewrite H0. unfold zeros. rewrite <- repeat_app. f_equal.
Qed.
Lemma silent_series_iff : loses_input c <-> series_silent rows (cv_n c).
Proof.
  destruct (ConvCons_Proof.cc_inv rows c E) as (NE & Pn & _ & Ek & _). split.
  - intros (u & Lu & (t0 & Nz) & Fin). destruct (finite_choice (fun i w => forall t, series_mul (rowq rows i) w t = nth i (u t) false) (fun _ => false) (length rows)) as [w W].
    { intros i Hi. apply ConvCons_Proof.series_div_exists. apply ConvCons_Proof.odd_tb, odd_row, Hi. }
    exists (fun i t => nth i (u t) false), w. split; [intros; apply W; auto|]. split.
    + destruct (existsb (fun i => nth i (u t0) false) (seq 0 (length rows))) eqn:X.
      * apply existsb_exists in X. destruct X as (i & Hi & X). apply in_seq in Hi. exists i, t0. split; auto; lia.
      * exfalso. apply Nz, bits_zero; auto. intros i Hi. rewrite Ek in Hi.
        destruct (nth i (u t0) false) eqn:Y; auto. rewrite <- X. symmetry. apply existsb_exists. exists i. split; auto. apply in_seq. lia.
    + intros j t Hj. specialize (Fin (S t)).
      destruct (encode_series (map u (seq 0 (S t))) w) as (vs' & Ev' & Bv' & Lv' & O).
      * apply seq_blocks; auto.
      * intros i t' Hi Ht'. rewrite map_length, seq_length in Ht'. rewrite bit_of_map by auto. apply W; auto.
      * rewrite map_length, seq_length in *. unfold prefix in Fin. rewrite Fin in Ev'. injection Ev' as Ec.
        assert (Z : vs' = repeat (zeros (cv_n c)) (S t)).
        { apply (blocks_unique (cv_n c)); auto.
          - apply Forall_forall. intros x Hx. apply repeat_spec in Hx. subst. apply zeros_length.
          - rewrite <- Ec. rewrite concat_zeros with (n := cv_n c).
            + rewrite repeat_length. reflexivity.
            + apply Forall_forall. intros x Hx. apply repeat_spec in Hx. subst. apply zeros_length.
            + rewrite repeat_length. intros t' Ht'. rewrite (nth_indep _ [] (zeros (cv_n c))) by (rewrite repeat_length; auto). apply nth_repeat. }
        rewrite <- O by (auto; lia). unfold bit_of. rewrite Z. rewrite (nth_indep _ [] (zeros (cv_n c))) by (rewrite repeat_length; lia).
        rewrite nth_repeat. unfold zeros. apply nth_repeat.
  - intros (u & w & W & (i & t & Hi & X) & Fin). set (U := fun t => map (fun i => u i t) (seq 0 (length rows))).
    assert (LU : forall t, length (U t) = cv_k c) by (intros; unfold U; rewrite map_length, seq_length; auto).
    exists U. split; auto. split.
    + exists t. intros Z.
      assert (Y : nth i (U t) false = true) by (unfold U; rewrite nth_map_seq; auto). rewrite Z in Y. unfold zeros in Y. rewrite nth_repeat in Y. discriminate.
    + intros m. destruct (encode_series (map U (seq 0 m)) w) as (vs & Ev & Bv & Lv & O).
      * apply seq_blocks; auto.
      * intros i' t' Hi' Ht. rewrite map_length, seq_length in Ht. rewrite bit_of_map by auto. unfold U. rewrite nth_map_seq by auto. apply W; auto.
      * rewrite map_length, seq_length in *. unfold prefix. rewrite Ev. f_equal. rewrite <- Lv. apply concat_zeros; auto. intros t' Ht'. apply bits_zero.
        { unfold blocks in Bv. rewrite Forall_forall in Bv. apply Bv, nth_In. lia. }
        intros j Hj. change (bit_of vs j t' = false). rewrite O by (auto; lia). apply Fin; auto.
Qed.
End S.
