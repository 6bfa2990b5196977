(* C110: Viterbi decoding with float64 path metrics. *)
Set Warnings "-ambiguous-paths".
From Coq Require Import Reals Lra QArith.
From Flocq Require Import Core.
From Verif Require Import Common Vec_Model Linear_Spec FSM_Model FSM_Spec Conv_Model Conv_Spec Stream_Model Stream_Spec Float_Model FloatViterbi_Model FloatViterbi_Spec.
From Verif Require Vec_Proof Conv_Proof ConvTerm_Proof FloatViterbi_Proof Props_FSM Props_Conv Props_ConvViterbi Props_Stream Props_Catastrophic Cat_Spec Cat_Model.
Local Open Scope nat_scope.

(* float64 numbers with +inf, rounding to nearest even, satisfy what C47 and C48 ask of a metric type: the algorithm
   returns a path that is optimal for the rounded metric *)
Theorem C110_metric_laws : metric_laws xF.
Proof. exact FloatViterbi_Proof.xF_laws. Qed.
(* hard decisions: below 2^53 received bits nothing is ever rounded, and the decoder is the exact one *)
Theorem C110_hard_block : forall c m r, 0 < cv_n c -> length r mod cv_n c = 0 -> (Z.of_nat (length r) < 2 ^ 53)%Z ->
  float_viterbi_decode_hard c m r = viterbi_decode_hard c m r.
Proof. exact FloatViterbi_Proof.hard_decode. Qed.
(* so the float64 decoder does maximum-likelihood decoding on the binary symmetric channel *)
Theorem C110_hard_optimal : forall c h r, conv_ok c -> Props_ConvViterbi.distinct_successors c -> (Z.of_nat (length r) < 2 ^ 53)%Z ->
  (length r = h * cv_n c ->
   exists u, float_viterbi_decode_hard c DirectTruncation r = Some u /\ length u = h * cv_k c /\
   forall u', length u' = h * cv_k c -> hdist (terminated_encode c h DirectTruncation u) r <= hdist (terminated_encode c h DirectTruncation u') r) /\
  (Props_ConvViterbi.distinct_tails c -> (forall h s, reachable c (h + cv_mem c) s -> reachable c (cv_mem c) s) -> 0 < h -> 0 < cv_mem c -> length r = (h + cv_mem c) * cv_n c ->
   exists u, float_viterbi_decode_hard c ZeroTermination r = Some u /\ length u = h * cv_k c /\
   forall u', length u' = h * cv_k c -> hdist (terminated_encode c h ZeroTermination u) r <= hdist (terminated_encode c h ZeroTermination u') r).
Proof.
  intros c h r OK INJ HL. assert (Pn : 0 < cv_n c) by (destruct OK; auto). split.
  - intros Lr. rewrite C110_hard_block; auto; [|rewrite Lr; apply Nat.mod_mul; lia]. apply Props_ConvViterbi.C66_truncation_hard; auto.
  - intros UN RE Hh Hm Lr. rewrite C110_hard_block; auto; [|rewrite Lr; apply Nat.mod_mul; lia]. apply Props_ConvViterbi.C66_zero_termination_hard; auto.
Qed.
(* the streaming decoder: while fewer than 2^53 bits have gone through it, its answers are those of exact arithmetic *)
Theorem C110_hard_stream : forall c tau state pieces, 0 < cv_n c -> (Z.of_nat (length (concat pieces)) < 2 ^ 53)%Z ->
  option_map fst (float_stream_calls (float_stream_hard c tau state) pieces) = option_map fst (stream_calls (stream_decoder_hard c tau state) pieces).
Proof.
  intros c tau state ps Pn HL. symmetry. apply (FloatViterbi_Proof.hard_stream_calls ps 0%Z); auto; [lia|]. apply FloatViterbi_Proof.hard_stream_init.
Qed.
(* so the error correcting guarantee of C107 is one about the float64 decoder *)
Theorem C110_stream_corrects : forall c fuel D E tau u sent pieces,
  conv_ok c -> Props_ConvViterbi.distinct_successors c -> Stream_Spec.no_silent_loops c -> free_distance c fuel = Some (Some D) -> 2 * E < D ->
  2 ^ cv_deg c * (4 * E + 2 * (cv_deg c * cv_n c) + 1) + 1 <= tau ->
  conv_encode c u = Some sent -> Forall (fun p => length p mod cv_n c = 0) pieces -> (Z.of_nat (length (concat pieces)) < 2 ^ 53)%Z ->
  sparse_errors (cv_n c) (2 ^ cv_deg c * (4 * E + 1)) E sent (concat pieces) ->
  option_map fst (float_stream_calls (float_stream_hard c tau 0) pieces) = Some (delayed (cv_k c) tau u).
Proof.
  intros. rewrite C110_hard_stream; auto; [|destruct H; auto]. eapply Props_Stream.C107_corrects; eassumption.
Qed.

(* arbitrary real metrics: with T observations and metrics bounded by A, every reported metric is within T^2 A / 2^52 of the
   exact cost of the reported path, and no path to the same state is exactly cheaper by more than twice that *)
Theorem C110_near_optimal : forall (Obs : Type) M (g : nat -> Obs -> R) A zs init, mealy_ok M -> no_parallel_edges M -> length init = num_states M ->
  (forall s, nth s init (None : xF) = Some 0%R \/ nth s init (None : xF) = None) ->
  (0 <= A)%R -> (forall y z, In z zs -> is_binary64 (g y z) /\ (Rabs (g y z) <= A)%R) ->
  (INR (length zs) <= 2 ^ 53)%R -> (INR (length zs) * A <= bpow radix2 1000)%R ->
  let err := (INR (length zs) * INR (length zs) * A / 2 ^ 52)%R in
  let '(input_hat, metrics) := viterbi xF M (fun y z => Some (g y z) : xF) zs init in
  length input_hat = num_states M /\ length metrics = num_states M /\
  forall f, f < num_states M ->
    match nth f metrics (None : xF) with
    | Some b => exists s xs, nth f input_hat [] = map Z.of_nat xs /\ s < num_states M /\ nth s init (None : xF) = Some 0%R /\ input_word M xs /\ length xs = length zs /\
        snd (process M xs s) = f /\ (Rabs (b - exact_cost M g s xs zs) <= err)%R /\
        forall s' xs', s' < num_states M -> nth s' init (None : xF) = Some 0%R -> input_word M xs' -> length xs' = length zs -> snd (process M xs' s') = f ->
        (exact_cost M g s xs zs <= exact_cost M g s' xs' zs + 2 * err)%R
    | None => forall s' xs', s' < num_states M -> nth s' init (None : xF) = Some 0%R -> input_word M xs' -> length xs' = length zs -> snd (process M xs' s') <> f
    end.
Proof.
  intros Obs M g A zs init OK NP Li Hi HA Hg HT HTb err. pose proof (FloatViterbi_Proof.near_info M g A zs init OK NP Li Hi HA Hg HT HTb) as V.
  assert (Ee : (/ 2 ^ 52 * (INR (length zs) * INR (length zs)) * A)%R = err) by (unfold err, Rdiv; ring). rewrite Ee in V. 
  destruct (viterbi xF M _ zs init) as [hat metrics]. destruct V as (L1 & L2 & V1 & V2). split; [exact L1|]. split; [exact L2|].
  intros f Hf. destruct (nth f metrics None) as [b|] eqn:Eb.
  - destruct (V1 f b Hf Eb) as (s & xs & Ex & Hs & H0 & W & L & P & R). exists s, xs. repeat (split; [assumption|]). intros s' xs' Hs' H0' W' L' P'.
    destruct (V2 s' xs' Hs' H0' W' L') as (b' & Eb' & Lb'). rewrite P', Eb in Eb'. injection Eb' as <-.
    rewrite Rabs_minus_sym in R. pose proof (Rle_trans _ _ _ (Rle_abs _) R). lra.
  - intros s' xs' Hs' H0' W' L' P'. destruct (V2 s' xs' Hs' H0' W' L') as (b' & Eb' & _). rewrite P', Eb in Eb'. discriminate.
Qed.

(* soft decisions: if the metric is a float64 within e of the sum of the values at the ones (np.dot may add in any order),
   the decoded message is maximum-correlation up to an explicit rounding term *)
Definition rounded_metric (n : nat) (g : nat -> list R -> R) (A e : R) (r : list R) : Prop :=
  (0 <= A)%R /\ (forall y z, In z (reshape n r) -> is_binary64 (g y z) /\ (Rabs (g y z) <= A)%R /\ (Rabs (g y z - ones_sum (nbits n y) z) <= e)%R) /\
  (INR (length (reshape n r)) <= 2 ^ 53)%R /\ (INR (length (reshape n r)) * A <= bpow radix2 1000)%R.
Theorem C110_soft_truncation : forall c h g A e r, conv_ok c -> Props_ConvViterbi.distinct_successors c -> length r = h * cv_n c -> rounded_metric (cv_n c) g A e r ->
  exists u, float_viterbi_decode c (fun y z => Some (g y z) : xF) DirectTruncation (reshape (cv_n c) r) = Some u /\ length u = h * cv_k c /\
  forall u', length u' = h * cv_k c ->
  (real_correlation r (terminated_encode c h DirectTruncation u') <= real_correlation r (terminated_encode c h DirectTruncation u) + 4 * (INR h * INR h * A / 2 ^ 52 + INR h * e))%R.
Proof.
  intros c h g A e r OK INJ Lr (HA & Hg & HT & HTb). assert (Pn : 0 < cv_n c) by (destruct OK; auto).
  destruct (FloatViterbi_Proof.soft_truncation c OK INJ g A e r HA) with (h := h) as (u & E & L & O); auto; [intros; split; apply Hg; auto|intros; apply Hg; auto|].
  exists u. split; [exact E|]. split; [exact L|]. intros u' L'. specialize (O u' L').
  rewrite !FloatViterbi_Proof.correlation_ones by (rewrite ConvTerm_Proof.encode_length; cbn; auto).
  assert (Lh : length (reshape (cv_n c) r) = h). { destruct (Conv_Proof.reshape_spec (cv_n c) r Pn) as (_ & -> & _); [rewrite Lr; apply Nat.mod_mul; lia|]. rewrite Lr. apply Nat.div_mul. lia. }
  rewrite Lh in O. unfold Rdiv. lra.
Qed.
Theorem C110_soft_zero_termination : forall c h g A e r, conv_ok c -> Props_ConvViterbi.distinct_successors c -> Props_ConvViterbi.distinct_tails c ->
  (forall h s, reachable c (h + cv_mem c) s -> reachable c (cv_mem c) s) -> 0 < h -> 0 < cv_mem c -> length r = (h + cv_mem c) * cv_n c -> rounded_metric (cv_n c) g A e r ->
  exists u, float_viterbi_decode c (fun y z => Some (g y z) : xF) ZeroTermination (reshape (cv_n c) r) = Some u /\ length u = h * cv_k c /\
  forall u', length u' = h * cv_k c -> let T := INR (h + cv_mem c) in
  (real_correlation r (terminated_encode c h ZeroTermination u') <= real_correlation r (terminated_encode c h ZeroTermination u) + 4 * (T * T * A / 2 ^ 52 + T * e))%R.
Proof.
  intros c h g A e r OK INJ UN RE Hh Hm Lr (HA & Hg & HT & HTb). assert (Pn : 0 < cv_n c) by (destruct OK; auto).
  destruct (FloatViterbi_Proof.soft_zero c OK INJ g A e r HA) with (h := h) as (u & E & L & O); auto; [intros; split; apply Hg; auto|intros; apply Hg; auto|].
  exists u. split; [exact E|]. split; [exact L|]. intros u' L' T. specialize (O u' L').
  rewrite !FloatViterbi_Proof.correlation_ones by (rewrite ConvTerm_Proof.encode_length; cbn; auto).
  assert (Lh : length (reshape (cv_n c) r) = h + cv_mem c). { destruct (Conv_Proof.reshape_spec (cv_n c) r Pn) as (_ & -> & _); [rewrite Lr; apply Nat.mod_mul; lia|]. rewrite Lr. apply Nat.div_mul. lia. }
  rewrite Lh in O. fold T in O. unfold Rdiv. lra.
Qed.
(* the hypothesis on the metric holds for a dot product added from left to right *)
Theorem C110_dot : forall n r a, 0 < n -> length r mod n = 0 -> (0 <= a)%R -> Forall is_binary64 r -> Forall (fun x => (Rabs x <= a)%R) r ->
  (INR (length r) <= 2 ^ 52)%R -> (2 * INR (length r) * a <= bpow radix2 1000)%R ->
  rounded_metric n (float_dot n) (2 * (INR n * a)) (INR n * INR n * a / 2 ^ 52) r.
Proof.
  intros n r a Pn Hm Ha Fb Fa HL HA. destruct (Conv_Proof.reshape_spec n r Pn Hm) as (Cr & Lr & Fr). pose proof (pos_INR n) as P1. pose proof (pos_INR (length (reshape n r))) as P2.
  assert (EL : (INR (length r) = INR (length (reshape n r)) * INR n)%R). { rewrite <- mult_INR. f_equal. rewrite Lr. pose proof (Nat.div_mod_eq (length r) n). lia. }
  assert (P3 : (1 <= INR n)%R) by (apply (le_INR 1); lia).
  assert (IN : forall z, In z (reshape n r) -> length z = n /\ Forall is_binary64 z /\ Forall (fun x => (Rabs x <= a)%R) z /\ (INR n <= INR (length r))%R).
  { intros z I. split; [rewrite Forall_forall in Fr; apply Fr; exact I|]. rewrite !Forall_forall in *.
    assert (S : forall x, In x z -> In x r). { intros x Ix. rewrite <- Cr. apply in_concat. exists z. auto. }
    split; [auto|]. split; [auto|]. rewrite EL. assert (1 <= INR (length (reshape n r)))%R. { apply (le_INR 1). destruct (reshape n r); [destruct I|cbn; lia]. } nra. }
  split; [repeat apply Rmult_le_pos; lra|]. split.
  - intros y z I. destruct (IN z I) as (Lz & F1 & F2 & F3). destruct (FloatViterbi_Proof.float_dot_spec n y z a Lz Ha F1 F2) as (B & R & Bd); [lra| |].
    + assert (INR n * a <= INR (length r) * a)%R by (apply Rmult_le_compat_r; auto). assert (0 <= INR (length r) * a)%R by (apply Rmult_le_pos; lra). lra.
    + split; [exact B|]. split; [exact Bd|]. replace (INR n * INR n * a / 2 ^ 52)%R with (/ 2 ^ 52 * (INR n * INR n) * a)%R by (unfold Rdiv; ring). exact R.
  - split.
    + assert (INR (length (reshape n r)) <= INR (length r))%R by nra. change (2 ^ 53)%R with (2 * 2 ^ 52)%R. assert (0 < 2 ^ 52)%R by (apply pow_lt; lra). lra.
    + replace (INR (length (reshape n r)) * (2 * (INR n * a)))%R with (2 * INR (length r) * a)%R by (rewrite EL; ring). exact HA.
Qed.

(* a case meeting the hypotheses: the (7,5) code on three soft values per output, decoded by the theorem above *)
Theorem C110_satisfiable : exists c, ConvolutionalCode [([7; 5], 1)]%N = Some c /\ conv_ok c /\ Props_ConvViterbi.distinct_successors c /\ Props_ConvViterbi.distinct_tails c /\
  float_viterbi_decode_hard c ZeroTermination [true; false; true; true; true; false; false; true; true; true] = Some [true; true; true] /\
  rounded_metric (cv_n c) (float_dot (cv_n c)) (2 * (INR 2 * 3)) (INR 2 * INR 2 * 3 / 2 ^ 52) [(-1)%R; 3%R; 2%R; (-2)%R].
Proof.
  destruct Props_ConvViterbi.C66_satisfiable as (c & E & OK & DS & DT & Pm & V). exists c. split; [exact E|]. split; [exact OK|]. split; [exact DS|]. split; [exact DT|].
  assert (En : cv_n c = 2) by (injection E as <-; reflexivity). split.
  - rewrite C110_hard_block; [exact V|rewrite En; lia|rewrite En; reflexivity|cbn [length]; lia].
  - rewrite En. apply C110_dot; [lia|reflexivity|lra| | | |].
    + repeat constructor; apply FloatViterbi_Proof.int_format; reflexivity.
    + repeat constructor; unfold Rabs; destruct (Rcase_abs _); lra.
    + cbn [length INR]. assert (2 ^ 3 <= 2 ^ 52)%R by (apply Rle_pow; [lra|lia]). lra.
    + cbn [length INR]. eapply Rle_trans; [|apply (bpow_le radix2 10 1000); lia]. change (bpow radix2 10) with (IZR (Zpower radix2 10)). change (Zpower radix2 10) with 1024%Z. lra.
Qed.
