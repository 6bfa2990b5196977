(* C107: a ViterbiStreamDecoder with a long enough traceback corrects errors that are sparse in the stream. *)
From Coq Require Import QArith.
From Verif Require Import Common Vec_Model Linear_Spec FSM_Model FSM_Spec Conv_Model Conv_Spec Stream_Model Stream_Spec Cat_Spec Cat_Model.
From Verif Require Vec_Proof Conv_Proof ConvTerm_Proof ConvCons_Proof ConvViterbi_Proof Props_Conv Stream_Proof Stream_Decode Stream_Top.
From Verif Require Props_ConvViterbi Props_Catastrophic.
Local Open Scope nat_scope.

(* decode called on the stream piece by piece, the memory kept in the object, answers what one call on the whole stream does,
   with the same object afterwards; a piece whose length is not a multiple of n is rejected *)
Theorem C107_pieces : forall (A : Type) (D : stream_decoder A) pieces, 0 < cv_n (sd_code D) ->
  (Forall (fun p => length p mod cv_n (sd_code D) = 0) pieces -> stream_calls D pieces = stream_decode D (concat pieces) /\ stream_calls D pieces <> None) /\
  (Exists (fun p => length p mod cv_n (sd_code D) <> 0) pieces -> stream_calls D pieces = None).
Proof.
  intros A D ps Hn. split; [|apply Stream_Top.calls_reject]. intros F. rewrite (Stream_Top.calls_join ps D Hn F). split; [reflexivity|].
  unfold stream_decode. rewrite (Stream_Top.concat_mod _ ps Hn F). cbn [Nat.eqb]. destruct (viterbi_streaming _ _ _ _ _). discriminate.
Qed.

Lemma free_weight c fuel D : conv_ok c -> free_distance c fuel = Some (Some D) -> forall us, blocks (cv_k c) us -> snd (conv_run c us (zeros (cv_deg c))) = zeros (cv_deg c) ->
  0 < weight (concat (fst (conv_run c us (zeros (cv_deg c))))) -> D <= weight (concat (fst (conv_run c us (zeros (cv_deg c))))).
Proof.
  intros OK FD us B Z W. destruct (Props_Conv.C51_free_distance c OK) as [_ F]. specialize (F fuel (Some D) FD). cbv beta iota zeta in F. destruct F as (_ & _ & F).
  apply (F us); [|exact W]. split; [exact B|]. exists (concat (fst (conv_run c us (zeros (cv_deg c))))). split; [|reflexivity].
  rewrite ConvTerm_Proof.encode_with_state_blocks by (auto; apply Vec_Proof.zeros_length). rewrite Z. reflexivity.
Qed.
(* the error correcting guarantee: with free distance D and 2 E < D, if no 2^d (4 E + 1) consecutive blocks of the stream
   contain more than E errors, the answers are the message delayed by traceback_length blocks *)
Theorem C107_corrects : forall c fuel D E tau u sent pieces,
  conv_ok c -> Props_ConvViterbi.distinct_successors c -> no_silent_loops c -> free_distance c fuel = Some (Some D) -> 2 * E < D ->
  2 ^ cv_deg c * (4 * E + 2 * (cv_deg c * cv_n c) + 1) + 1 <= tau ->
  conv_encode c u = Some sent -> Forall (fun p => length p mod cv_n c = 0) pieces ->
  sparse_errors (cv_n c) (2 ^ cv_deg c * (4 * E + 1)) E sent (concat pieces) ->
  option_map fst (stream_calls (stream_decoder_hard c tau 0) pieces) = Some (delayed (cv_k c) tau u).
Proof.
  intros c fuel D E tau u sent pieces OK DS NS FD HDE Ht Ev Fp SE. apply (Stream_Top.stream_corrects c tau D E u sent pieces OK DS NS); auto.
  exact (free_weight c fuel D OK FD).
Qed.
(* soft values: if the transmitted bits are supported with reliability m except at E doubtful positions in any window, and no
   value exceeds r m in magnitude, (r + 1) E < D is enough; hard decisions are the case r = 1 *)
Theorem C107_corrects_soft : forall c fuel D E r m B tau u sent pieces,
  conv_ok c -> Props_ConvViterbi.distinct_successors c -> no_silent_loops c -> free_distance c fuel = Some (Some D) -> (r + 1) * E < D ->
  2 ^ cv_deg c * (2 * (r + 1) * E + 2 * (r * (cv_deg c * cv_n c)) + 1) + 1 <= tau -> (0 < m)%Q -> (B <= inject_Z (Z.of_nat r) * m)%Q ->
  conv_encode c u = Some sent -> Forall (fun p => length p mod cv_n c = 0) pieces ->
  sparse_doubts (cv_n c) (2 ^ cv_deg c * (2 * (r + 1) * E + 1)) E m B sent (concat pieces) ->
  option_map fst (stream_calls (stream_decoder_soft c tau 0) pieces) = Some (delayed (cv_k c) tau u).
Proof.
  intros c fuel D E r m B tau u sent pieces OK DS NS FD HDE Ht Hm HB Ev Fp SE. apply (Stream_Top.stream_corrects_soft c tau D E r m B u sent pieces OK DS NS); auto.
  exact (free_weight c fuel D OK FD).
Qed.
(* so if the message is followed by traceback_length arbitrary blocks, dropping the first traceback_length decoded blocks leaves the message *)
Theorem C107_recovers : forall c fuel D E tau u tail sent pieces,
  conv_ok c -> Props_ConvViterbi.distinct_successors c -> no_silent_loops c -> free_distance c fuel = Some (Some D) -> 2 * E < D ->
  2 ^ cv_deg c * (4 * E + 2 * (cv_deg c * cv_n c) + 1) + 1 <= tau -> length tail = tau * cv_k c ->
  conv_encode c (u ++ tail) = Some sent -> Forall (fun p => length p mod cv_n c = 0) pieces ->
  sparse_errors (cv_n c) (2 ^ cv_deg c * (4 * E + 1)) E sent (concat pieces) ->
  option_map (fun x => skipn (tau * cv_k c) (fst x)) (stream_calls (stream_decoder_hard c tau 0) pieces) = Some u.
Proof.
  intros c fuel D E tau u tl sent pieces OK DS NS FD HDE Ht Ltl Ev Fp SE.
  pose proof (C107_corrects c fuel D E tau (u ++ tl) sent pieces OK DS NS FD HDE Ht Ev Fp SE) as H.
  destruct (stream_calls (stream_decoder_hard c tau 0) pieces) as [[o D']|]; [|discriminate]. cbn [option_map fst] in *. injection H as ->. f_equal. unfold delayed.
  assert (Lz : length (zeros (tau * cv_k c)) = tau * cv_k c) by apply Vec_Proof.zeros_length.
  rewrite app_length, Ltl. rewrite app_assoc, firstn_app, app_length, Lz. replace (length u + tau * cv_k c - (tau * cv_k c + length u)) with 0 by lia.
  rewrite firstn_O, app_nil_r, firstn_all2 by (rewrite app_length, Lz; lia). rewrite <- Lz at 1. apply skipn_app_exact.
Qed.

(* which encoders meet the hypotheses: feedforward ones that are not catastrophic, and the systematic ones with one parity bit *)
Theorem C107_feedforward : forall rows c, ConvolutionalCode rows = Some c -> Forall (fun r => snd r = 1%N) rows -> Forall (fun r => 0 < row_nu r) rows ->
  ~ catastrophic c -> conv_ok c /\ Props_ConvViterbi.distinct_successors c /\ no_silent_loops c.
Proof.
  intros rows c E F P NC. pose proof (ConvCons_Proof.cc_ok rows c E) as OK. split; [exact OK|]. split; [apply (Props_ConvViterbi.C66_classes rows c E), P|].
  apply (Stream_Top.flush_no_silent c OK (cv_mem c)); [|exact NC]. intros s Ls. exact (ConvCons_Proof.cc_forget rows c E s F Ls).
Qed.
Theorem C107_high_rate : forall hs q, hs <> [] -> 0 < cv_deg (HighRate hs q) -> conv_ok (HighRate hs q) /\ no_silent_loops (HighRate hs q).
Proof.
  intros hs q NE Pd. split; [|apply Stream_Top.high_rate_no_silent; assumption]. destruct (cv_deg (HighRate hs q)) as [|d'] eqn:Ed; [lia|]. exact (ConvCons_Proof.hr_ok hs q d' NE Ed).
Qed.
(* rate 1/n codes, in terms of the library's own is_catastrophic and free_distance *)
Theorem C107_low_rate : forall g G fuel D E tau u sent pieces,
  g <> [] -> 0 < cv_deg (LowRate g) -> lr_generator g = Some G -> is_catastrophic G = Some false -> free_distance (LowRate g) fuel = Some (Some D) -> 2 * E < D ->
  2 ^ cv_deg (LowRate g) * (4 * E + 2 * (cv_deg (LowRate g) * length g) + 1) + 1 <= tau ->
  conv_encode (LowRate g) u = Some sent -> Forall (fun p => length p mod length g = 0) pieces ->
  sparse_errors (length g) (2 ^ cv_deg (LowRate g) * (4 * E + 1)) E sent (concat pieces) ->
  option_map fst (stream_calls (stream_decoder_hard (LowRate g) tau 0) pieces) = Some (delayed 1 tau u).
Proof.
  intros g G fuel D E tau u sent pieces NE Pd EG IC FD HDE Ht Ev Fp SE.
  pose proof (ConvCons_Proof.low_rate_as_cc g NE) as EC.
  destruct (C107_feedforward [(g, 1%N)] (LowRate g) EC) as (OK & DS & NS).
  - repeat constructor.
  - constructor; [|constructor]. destruct (ConvCons_Proof.cc_inv _ _ EC) as (_ & _ & _ & _ & Ed & _). rewrite Ed in Pd. unfold ConvCons_Proof.wD in Pd. cbn in Pd. cbn. lia.
  - destruct (Props_Catastrophic.C82_low_rate g NE) as (G' & EG' & H & _). rewrite EG' in EG. injection EG as ->. intros C. apply (H false IC) in C. discriminate.
  - exact (C107_corrects (LowRate g) fuel D E tau u sent pieces OK DS NS FD HDE Ht Ev Fp SE).
Qed.

(* without the hypothesis on loops it fails: for the catastrophic code (1 + D, 1 + D), with free distance 4, one wrong bit at the
   beginning of the stream makes every decision wrong, however long the traceback is *)
Theorem C107_catastrophic_refuted : exists g D E tau u sent received,
  free_distance (LowRate g) 100 = Some (Some D) /\ 2 * E < D /\ 2 ^ cv_deg (LowRate g) * (4 * E + 2 * (cv_deg (LowRate g) * length g) + 1) + 1 <= tau /\
  conv_encode (LowRate g) u = Some sent /\ hdist sent received = E /\ E = 1 /\
  sparse_errors (length g) (2 ^ cv_deg (LowRate g) * (4 * E + 1)) E sent received /\
  option_map fst (stream_decode (stream_decoder_hard (LowRate g) tau 0) received) = Some (zeros (length u)) /\
  delayed 1 tau u = zeros tau ++ repeat true (length u - tau) /\ tau < length u.
Proof.
  exists [3; 3]%N, 4, 1, 19, (repeat true 30). exists (repeat true 2 ++ repeat false 58), (true :: repeat false 59).
  split; [vm_compute; reflexivity|]. split; [lia|]. split; [vm_compute; lia|]. split; [vm_compute; reflexivity|]. split; [reflexivity|]. split; [reflexivity|].
  split; [|split; [vm_compute; reflexivity|split; [reflexivity|cbn; lia]]].
  split; [reflexivity|]. intros i. destruct i as [|i]; [vm_compute; lia|].
  unfold window. replace (skipn (S i * length [3; 3]%N) (repeat true 2 ++ repeat false 58)) with (skipn (i * 2) (repeat false 58)).
  - replace (skipn (S i * length [3; 3]%N) (true :: repeat false 59)) with (skipn (i * 2) (repeat false 58)).
    + unfold hdist. rewrite Vec_Proof.vxor_self, BlockCode_Proof.weight_zeros. lia.
    + cbn [length]. replace (S i * 2) with (S (S (i * 2))) by lia. reflexivity.
  - cbn [length]. replace (S i * 2) with (S (S (i * 2))) by lia. reflexivity.
Qed.

(* the (7, 5) code of memory 2: free distance 5, so two errors in any 36 blocks are corrected with traceback_length 69 *)
Definition ex_message : vec := repeat true 40 ++ [true; false; false; true; false] ++ repeat false 35.
Definition ex_received (sent : vec) : vec := map (fun '(i, b) => xorb b (existsb (Nat.eqb i) [3; 8; 90; 97])) (combine (seq 0 (length sent)) sent).
Theorem C107_satisfiable : exists sent, conv_encode (LowRate [7; 5]%N) ex_message = Some sent /\
  bind (lr_generator [7; 5]%N) is_catastrophic = Some false /\ cv_deg (LowRate [7; 5]%N) = 2 /\ free_distance (LowRate [7; 5]%N) 100 = Some (Some 5) /\
  hdist sent (ex_received sent) = 4 /\ (forall i, i < 100 -> hdist (window 2 i 36 sent) (window 2 i 36 (ex_received sent)) <= 2) /\
  option_map fst (stream_calls (stream_decoder_hard (LowRate [7; 5]%N) 69 0) [firstn 30 (ex_received sent); []; skipn 30 (ex_received sent)]) = Some (delayed 1 69 ex_message) /\
  delayed 1 69 ex_message = zeros 69 ++ repeat true 11.
Proof.
  eexists. split; [vm_compute; reflexivity|]. split; [vm_compute; reflexivity|]. split; [reflexivity|]. split; [vm_compute; reflexivity|]. split; [vm_compute; reflexivity|]. split.
  - assert (H : forall s r, forallb (fun i => hdist (window 2 i 36 s) (window 2 i 36 r) <=? 2) (seq 0 100) = true -> forall i, i < 100 -> hdist (window 2 i 36 s) (window 2 i 36 r) <= 2).
    { intros s r H i Hi. rewrite forallb_forall in H. apply Nat.leb_le, H, in_seq. lia. }
    apply H. vm_compute. reflexivity.
  - split; vm_compute; reflexivity.
Qed.

(* the same stream with soft values between 1 and 2 in magnitude (r = 2), one of them, -2 for a transmitted 0, in error *)
Definition ex_soft (sent : vec) : list Q := map (fun '(i, b) => if (i =? 7) then (if b : bool then 2 else - (2))%Q else ((if b : bool then -1 else 1) * (if i mod 3 =? 0 then 2 else 1))%Q) (combine (seq 0 (length sent)) sent).
Theorem C107_soft_satisfiable : exists sent u, conv_encode (LowRate [7; 5]%N) u = Some sent /\ length u = 100 /\
  (2 + 1) * 1 < 5 /\ 2 ^ 2 * (2 * (2 + 1) * 1 + 2 * (2 * (2 * 2)) + 1) + 1 = 93 /\ length (ex_soft sent) = length sent /\
  forallb (fun x => Qle_bool (- (2)) x && Qle_bool x 2) (ex_soft sent) = true /\ weight (doubtful 1 sent (ex_soft sent)) = 1 /\
  option_map fst (stream_calls (stream_decoder_soft (LowRate [7; 5]%N) 93 0) [ex_soft sent]) = Some (delayed 1 93 u) /\ delayed 1 93 u = zeros 93 ++ repeat true 7.
Proof.
  eexists. exists (repeat true 100). split; [vm_compute; reflexivity|]. split; [reflexivity|]. split; [lia|]. split; [reflexivity|]. split; [vm_compute; reflexivity|].
  split; [vm_compute; reflexivity|]. split; [vm_compute; reflexivity|]. split; vm_compute; reflexivity.
Qed.
