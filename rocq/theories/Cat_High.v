(* Systematic (high-rate) encoders are never catastrophic; the generator matrix written as a matrix of ConvolutionalCode. *)
Set Warnings "-notation-overridden,-ambiguous-paths".
From Coq Require Import ZArith NArith PeanoNat Lia List Bool.
From Verif Require Import Common Vec_Model BinPoly_Model Conv_Model Conv_Spec Cat_Spec Cat_Model Cat_Lists Cat_Bridge.
From Verif Require Import Vec_Proof Conv_Proof ConvCons_Proof ConvTerm_Proof.
Local Open Scope nat_scope.
Import ListNotations.

Section H.
Context (hs : list N) (q : N) (NE : hs <> []) (Q : N.odd q = true).
Local Notation k := (length hs).
(* the rows (0, ..., q, ..., 0, h_i) over q *)
Definition hr_rows : list (list N * N) := map (fun i => (map (fun j => if i =? j then q else 0%N) (seq 0 k) ++ [nth i hs 0%N], q)) (seq 0 k).
Lemma hr_rows_length : length hr_rows = k.
Proof. unfold hr_rows. rewrite map_length, seq_length. reflexivity. Qed.
Lemma hr_row i : i < k -> nth i hr_rows ([], 0%N) = (map (fun j => if i =? j then q else 0%N) (seq 0 k) ++ [nth i hs 0%N], q).
Proof. intros H. unfold hr_rows. rewrite nth_map_seq by auto. reflexivity. Qed.
Lemma hr_rows_odd : Forall (fun r => N.odd (snd r) = true) hr_rows.
Proof. apply Forall_forall. intros r I. apply in_map_iff in I. destruct I as (i & <- & _). exact Q. Qed.
Lemma hr_out (u w : nat -> nat -> bool) : (forall i t, i < length hr_rows -> series_mul (rowq hr_rows i) (w i) t = u i t) ->
  forall j t, j < k -> out_series hr_rows w j t = u j t.
Proof.
  intros W j t Hj. rewrite hr_rows_length in W. unfold out_series. rewrite hr_rows_length.
  rewrite (xsum_map_ext _ (fun i => (j =? i) && u j t)).
  - clear -Hj. assert (G : forall a n, a <= j -> j < a + n -> xsum (map (fun i => (j =? i) && u j t) (seq a n)) = u j t); [|apply G; lia].
    intros a n. revert a. induction n as [|n IH]; intros a H1 H2; [lia|]. cbn [seq map]. rewrite xsum_cons. destruct (Nat.eqb_spec j a) as [->|Ne].
    + rewrite xsum_map_false, xorb_false_r; [reflexivity|]. intros i I. apply in_seq in I. destruct (Nat.eqb_spec a i); [lia|reflexivity].
    + rewrite IH by lia. rewrite andb_false_l. apply xorb_false_l.
  - intros i I. apply in_seq in I. rewrite hr_row by lia. cbn [fst]. rewrite app_nth1 by (rewrite map_length, seq_length; auto). rewrite nth_map_seq by auto.
    rewrite (Nat.eqb_sym i j). destruct (Nat.eqb_spec j i) as [->|Ne].
    + rewrite andb_true_l. rewrite <- W by auto. rewrite hr_row by auto. reflexivity.
    + unfold series_mul. rewrite xsum_map_false; [reflexivity|]. intros. rewrite N.bits_0. reflexivity.
Qed.
Lemma hr_not_catastrophic_series : ~ series_catastrophic hr_rows (S k).
Proof.
  intros (u & w & W & Inf & T & Fin). destruct (Inf T) as (t & i & Ht & Hi & X). rewrite <- (hr_out u w W) in X by (rewrite hr_rows_length in Hi; auto).
  rewrite Fin in X; [discriminate| |auto]. rewrite hr_rows_length in Hi. lia.
Qed.
Lemma hr_not_silent_series : ~ series_silent hr_rows (S k).
Proof.
  intros (u & w & W & (i & t & Hi & X) & Fin). rewrite <- (hr_out u w W) in X by (rewrite hr_rows_length in Hi; auto).
  rewrite Fin in X; [discriminate|]. rewrite hr_rows_length in Hi. lia.
Qed.

(* the encoder itself *)
Context (Pd : 0 < cv_deg (HighRate hs q)).
Lemma hr_encode us : blocks k us -> exists vs, conv_encode (HighRate hs q) (concat us) = Some (concat vs) /\ blocks (S k) vs /\ length vs = length us /\
  forall j t, j < k -> t < length us -> bit_of vs j t = bit_of us j t.
Proof.
  intros B. destruct (cv_deg (HighRate hs q)) as [|d'] eqn:E; [lia|]. pose proof (ConvCons_Proof.hr_ok hs q d' NE E) as OK.
  exists (fst (conv_run (HighRate hs q) us (zeros (cv_deg (HighRate hs q))))). unfold conv_encode.
  rewrite encode_with_state_blocks by (auto; apply zeros_length). split; [reflexivity|]. split; [exact (run_blocks (HighRate hs q) OK us (zeros (cv_deg (HighRate hs q))))|]. split; [apply run_length|].
  intros j t Hj Ht. apply (proj1 (hr_series hs q d' NE E us B Q t Ht) j Hj).
Qed.
Lemma hr_not_catastrophic : ~ catastrophic (HighRate hs q).
Proof.
  intros (u & Lu & Inf & T & Fin). destruct (Inf T) as (t & Ht & Nz). destruct (Fin (S t)) as (vs & Ev & Lv & Bv & Zv).
  change (cv_k (HighRate hs q)) with k in *. change (cv_n (HighRate hs q)) with (S k) in *.
  destruct (hr_encode (map u (seq 0 (S t)))) as (vs' & Ev' & Bv' & Lv' & O); [apply seq_blocks; auto|]. unfold prefix in Ev. rewrite Ev in Ev'. injection Ev' as Ec.
  apply (blocks_unique (S k)) in Ec; auto; [|lia]. subst vs'. apply Nz, bits_zero; auto. intros i Hi.
  rewrite <- (bit_of_map u i t (S t)) by lia. rewrite <- O by (rewrite ?map_length, ?seq_length; auto; lia). unfold bit_of. rewrite Zv by lia. unfold zeros. apply nth_repeat.
Qed.
End H.
