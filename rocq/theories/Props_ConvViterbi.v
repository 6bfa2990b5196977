(* Viterbi decoding of terminated convolutional codes: C66. *)
From Coq Require Import QArith Lqa.
From Verif Require Import Common Bits_Model Vec_Model Linear_Spec LinAlg_Model BlockCode_Model Code_Spec FSM_Model FSM_Spec Conv_Model Conv_Spec.
From Verif Require Vec_Proof Conv_Proof ConvTerm_Proof ConvCons_Proof ConvViterbi_Proof Props_Conv.
Local Open Scope nat_scope.

(* different input blocks lead from a state to different states *)
Definition distinct_successors (c : conv) : Prop :=
  forall s u u', length s = cv_deg c -> length u = cv_k c -> length u' = cv_k c -> conv_next c s u = conv_next c s u' -> u = u'.
(* from every state, different input sequences of memory_order blocks lead to different states *)
Definition distinct_tails (c : conv) : Prop :=
  forall us us' s, blocks (cv_k c) us -> blocks (cv_k c) us' -> length us = cv_mem c -> length us' = cv_mem c -> length s = cv_deg c ->
  snd (conv_run c us s) = snd (conv_run c us' s) -> us = us'.

Lemma hard_metric c : metric_hard (cv_n c) = (fun y z => Some (ConvViterbi_Proof.cost_hard (nbits (cv_n c) y) z) : xQ).
Proof. reflexivity. Qed.
Lemma soft_metric c : metric_soft (cv_n c) = (fun y z => Some (ConvViterbi_Proof.soft_sum (nbits (cv_n c) y) z) : xQ).
Proof. reflexivity. Qed.
Definition tot_hard (v z : vec) : Q := inject_Z (Z.of_nat (hdist v z)).
Lemma tot_hard_spec c vs rs : blocks (cv_n c) vs -> Forall (fun r => length r = cv_n c) rs -> length vs = length rs ->
  (ConvViterbi_Proof.path_cost ConvViterbi_Proof.cost_hard vs rs == tot_hard (concat vs) (concat rs))%Q.
Proof. intros. apply (ConvViterbi_Proof.path_cost_hard (cv_n c)); auto. Qed.
Lemma tot_hard_le a b : (inject_Z (Z.of_nat a) <= inject_Z (Z.of_nat b))%Q -> a <= b.
Proof. rewrite <- Zle_Qle. lia. Qed.

(* hard decisions: the codeword of the returned message is at minimum Hamming distance from the received word *)
Theorem C66_truncation_hard : forall c h r, conv_ok c -> distinct_successors c -> length r = h * cv_n c ->
  exists u, viterbi_decode_hard c DirectTruncation r = Some u /\ length u = h * cv_k c /\
  forall u', length u' = h * cv_k c -> hdist (terminated_encode c h DirectTruncation u) r <= hdist (terminated_encode c h DirectTruncation u') r.
Proof.
  intros c h r OK INJ Lr. unfold viterbi_decode_hard. rewrite hard_metric.
  destruct (ConvViterbi_Proof.generic_truncation c OK INJ ConvViterbi_Proof.cost_hard tot_hard (tot_hard_spec c) h r Lr) as (u & E & L & O).
  exists u. split; auto. split; auto. intros u' L'. apply tot_hard_le, O, L'.
Qed.
Theorem C66_zero_termination_hard : forall c h r, conv_ok c -> distinct_successors c -> distinct_tails c ->
  (forall h s, reachable c (h + cv_mem c) s -> reachable c (cv_mem c) s) -> 0 < h -> 0 < cv_mem c -> length r = (h + cv_mem c) * cv_n c ->
  exists u, viterbi_decode_hard c ZeroTermination r = Some u /\ length u = h * cv_k c /\
  forall u', length u' = h * cv_k c -> hdist (terminated_encode c h ZeroTermination u) r <= hdist (terminated_encode c h ZeroTermination u') r.
Proof.
  intros c h r OK INJ UN RE Hh Hm Lr. unfold viterbi_decode_hard. rewrite hard_metric.
  destruct (ConvViterbi_Proof.generic_zero c OK INJ ConvViterbi_Proof.cost_hard tot_hard (tot_hard_spec c) RE UN h r Hh Hm Lr) as (u & E & L & O).
  exists u. split; auto. split; auto. intros u' L'. apply tot_hard_le, O, L'.
Qed.
(* soft values (positive means 0): maximum correlation with the antipodal codeword *)
Theorem C66_truncation_soft : forall c h r, conv_ok c -> distinct_successors c -> length r = h * cv_n c ->
  exists u, viterbi_decode_soft c DirectTruncation r = Some u /\ length u = h * cv_k c /\
  forall u', length u' = h * cv_k c -> (correlation r (terminated_encode c h DirectTruncation u') <= correlation r (terminated_encode c h DirectTruncation u))%Q.
Proof.
  intros c h r OK INJ Lr. unfold viterbi_decode_soft. rewrite soft_metric.
  destruct (ConvViterbi_Proof.generic_truncation c OK INJ ConvViterbi_Proof.soft_sum ConvViterbi_Proof.soft_sum
              (ConvViterbi_Proof.path_cost_soft (cv_n c)) h r Lr) as (u & E & L & O).
  exists u. split; auto. split; auto. intros u' L'. specialize (O u' L').
  rewrite !ConvViterbi_Proof.correlation_soft by (rewrite ConvTerm_Proof.encode_length; cbn; auto). lra.
Qed.
Theorem C66_zero_termination_soft : forall c h r, conv_ok c -> distinct_successors c -> distinct_tails c ->
  (forall h s, reachable c (h + cv_mem c) s -> reachable c (cv_mem c) s) -> 0 < h -> 0 < cv_mem c -> length r = (h + cv_mem c) * cv_n c ->
  exists u, viterbi_decode_soft c ZeroTermination r = Some u /\ length u = h * cv_k c /\
  forall u', length u' = h * cv_k c -> (correlation r (terminated_encode c h ZeroTermination u') <= correlation r (terminated_encode c h ZeroTermination u))%Q.
Proof.
  intros c h r OK INJ UN RE Hh Hm Lr. unfold viterbi_decode_soft. rewrite soft_metric.
  destruct (ConvViterbi_Proof.generic_zero c OK INJ ConvViterbi_Proof.soft_sum ConvViterbi_Proof.soft_sum
              (ConvViterbi_Proof.path_cost_soft (cv_n c)) RE UN h r Hh Hm Lr) as (u & E & L & O).
  exists u. split; auto. split; auto. intros u' L'. specialize (O u' L').
  rewrite !ConvViterbi_Proof.correlation_soft by (rewrite ConvTerm_Proof.encode_length; cbn; auto). lra.
Qed.
(* in particular, if the codeword of u is the only closest one, u is returned *)
Theorem C66_corrects : forall c h r u, conv_ok c -> distinct_successors c -> length r = h * cv_n c -> length u = h * cv_k c ->
  (forall u', length u' = h * cv_k c -> u' <> u -> hdist (terminated_encode c h DirectTruncation u) r < hdist (terminated_encode c h DirectTruncation u') r) ->
  viterbi_decode_hard c DirectTruncation r = Some u.
Proof.
  intros c h r u OK INJ Lr Lu U. destruct (C66_truncation_hard c h r OK INJ Lr) as (u' & E & L & O). rewrite E. f_equal.
  destruct (list_eq_dec Bool.bool_dec u' u); auto. specialize (U u' L n). specialize (O u Lu). lia.
Qed.

(* the hypotheses hold for ConvolutionalCode when every row has memory, and all rows the same memory *)
Theorem C66_classes : forall rows c, ConvolutionalCode rows = Some c ->
  (Forall (fun r => 0 < row_nu r) rows -> distinct_successors c) /\
  (Props_Conv.odd_feedback rows -> Forall (fun r => row_nu r = cv_mem c) rows -> distinct_tails c).
Proof.
  intros rows c E. split.
  - intros F. exact (ConvViterbi_Proof.cc_next_inj rows c E F).
  - intros Fo Fm. exact (ConvViterbi_Proof.cc_tail_unique rows c E Fo Fm).
Qed.
(* so every feedforward rate-1/n code with memory is decoded optimally *)
Theorem C66_low_rate : forall g h r, 0 < cv_deg (LowRate g) -> 0 < h -> length r = (h + cv_mem (LowRate g)) * length g ->
  exists u, viterbi_decode_hard (LowRate g) ZeroTermination r = Some u /\ length u = h /\
  forall u', length u' = h -> hdist (terminated_encode (LowRate g) h ZeroTermination u) r <= hdist (terminated_encode (LowRate g) h ZeroTermination u') r.
Proof.
  intros g h r P Hh Lr. assert (NE : g <> []) by (intros ->; cbn in P; lia). pose proof (ConvCons_Proof.low_rate_as_cc g NE) as E.
  assert (Enu : row_nu (g, 1%N) = max_deg g) by (unfold row_nu; cbn [fst snd]; change (deg 1) with 0; lia).
  destruct (C66_classes _ _ E) as [C1 C2].
  destruct (C66_zero_termination_hard (LowRate g) h r) as (u & Eu & L & O); auto.
  - apply Props_Conv.C49_shapes; auto.
  - apply C1. repeat constructor. rewrite Enu. exact P.
  - apply C2; repeat constructor. rewrite Enu. reflexivity.
  - apply Props_Conv.C50_zero_termination_classes; auto.
  - cbn [cv_k LowRate] in *. rewrite Nat.mul_1_r in *. exists u. auto.
Qed.

(* with rows of different memory the decoder compares paths that are not codewords: here the terminated code has minimum
   distance 5, the received word differs from the zero codeword in 2 positions, and another message is returned *)
Theorem C66_unequal_memory_refuted : exists rows c h r u, ConvolutionalCode rows = Some c /\ distinct_successors c /\ length r = (h + cv_mem c) * cv_n c /\
  (forall u', length u' = h * cv_k c -> u' <> zeros (h * cv_k c) -> 5 <= weight (terminated_encode c h ZeroTermination u')) /\
  hdist (terminated_encode c h ZeroTermination (zeros (h * cv_k c))) r = 2 /\
  viterbi_decode_hard c ZeroTermination r = Some u /\ u <> zeros (h * cv_k c).
Proof.
  exists [([3; 3; 2], 1); ([5; 6; 7], 1)]%N. eexists. exists 1, (nbits 9 6). eexists. split; [reflexivity|].
  split; [apply (proj1 (C66_classes [([3; 3; 2], 1); ([5; 6; 7], 1)]%N _ eq_refl)); repeat constructor; vm_compute; lia|].
  split; [reflexivity|]. split.
  - intros u' L N. change (length u' = 2) in L. destruct u' as [|a [|b [|x l]]]; cbn in L; try lia.
    destruct a, b; try (vm_compute; lia). exfalso. apply N. reflexivity.
  - split; [vm_compute; reflexivity|]. split; [vm_compute; reflexivity|]. discriminate.
Qed.
(* with parallel edges (a row without memory) even direct truncation fails: an error-free codeword is not recovered *)
Theorem C66_memoryless_row_refuted : exists rows c h u u', ConvolutionalCode rows = Some c /\ length u = h * cv_k c /\
  (forall x y, length x = h * cv_k c -> length y = h * cv_k c -> terminated_encode c h DirectTruncation x = terminated_encode c h DirectTruncation y -> x = y) /\
  viterbi_decode_hard c DirectTruncation (terminated_encode c h DirectTruncation u) = Some u' /\ u' <> u.
Proof.
  exists [([1; 0], 1); ([0; 3], 1)]%N. eexists. exists 1, [false; true]. eexists. split; [reflexivity|]. split; [reflexivity|]. split.
  - intros x y Lx Ly E. change (length x = 2) in Lx. change (length y = 2) in Ly. destruct x as [|a [|b [|]]], y as [|a' [|b' [|]]]; cbn in Lx, Ly; try lia.
    destruct a, b, a', b'; auto; vm_compute in E; discriminate.
  - split; [vm_compute; reflexivity|]. discriminate.
Qed.
Example C66_satisfiable : exists c, ConvolutionalCode [([7; 5], 1)]%N = Some c /\ conv_ok c /\ distinct_successors c /\ distinct_tails c /\ 0 < cv_mem c /\
  viterbi_decode_hard c ZeroTermination [true; false; true; true; true; false; false; true; true; true] = Some [true; true; true].
Proof.
  eexists. split; [reflexivity|]. split; [apply (proj1 Props_Conv.C49_shapes [([7; 5], 1)]%N); reflexivity|].
  destruct (C66_classes [([7; 5], 1)]%N _ eq_refl) as [A B]. split; [apply A; repeat constructor|]. split; [apply B; repeat constructor|].
  split; [vm_compute; lia|]. vm_compute. reflexivity.
Qed.
