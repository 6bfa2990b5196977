(* Convolutional codes: C49, C50, C51. *)
From Verif Require Import Common Bits_Model Vec_Model Linear_Spec LinAlg_Model BlockCode_Model Code_Spec FSM_Model FSM_Spec Conv_Model Conv_Spec.
From Verif Require Vec_Proof Conv_Proof ConvTerm_Proof ConvCons_Proof FreeDist_Proof BlockCode_Proof.
Local Open Scope nat_scope.

Definition odd_feedback (rows : list (list N * N)) : Prop := Forall (fun r => N.odd (snd r) = true) rows.
Definition no_feedback (rows : list (list N * N)) : Prop := Forall (fun r => snd r = 1%N) rows.

(* ---- C49 ---- *)
(* the three constructions give matrices of consistent shapes *)
Theorem C49_shapes :
  (forall rows c, ConvolutionalCode rows = Some c -> conv_ok c) /\
  (forall g, g <> [] -> conv_ok (LowRate g)) /\
  (forall hs q, hs <> [] -> 0 < cv_deg (HighRate hs q) -> conv_ok (HighRate hs q)).
Proof.
  split; [|split].
  - intros rows c E. eapply ConvCons_Proof.cc_ok; eauto.
  - intros g NE. eapply ConvCons_Proof.cc_ok. apply ConvCons_Proof.low_rate_as_cc; auto.
  - intros hs q NE P. destruct (cv_deg (HighRate hs q)) as [|d'] eqn:E; [lia|]. apply (ConvCons_Proof.hr_ok hs q d' NE E).
Qed.

(* encode_with_state accepts exactly states of the right size and whole blocks, and follows the state-space equations *)
Theorem C49_state_space : forall c input s, conv_ok c ->
  match encode_with_state c input s with
  | Some (output, s') => length s = cv_deg c /\ exists us vs, input = concat us /\ blocks (cv_k c) us /\ output = concat vs /\ blocks (cv_n c) vs /\
                          state_space_run c us s vs s'
  | None => length s <> cv_deg c \/ length input mod cv_k c <> 0
  end.
Proof.
  intros c input s OK. unfold encode_with_state. destruct (Nat.eqb_spec (length s) (cv_deg c)) as [Ls|Ls]; [|left; auto].
  destruct (Nat.eqb_spec (length input mod cv_k c) 0) as [M|M]; [|right; auto]. cbn [andb].
  destruct (Conv_Proof.reshape_spec (cv_k c) input (co_k c OK) M) as (C & L & F). set (us := reshape (cv_k c) input) in *.
  destruct (conv_run c us s) as [vs s'] eqn:R. split; auto. exists us, vs. split; auto. split; auto. split; auto.
  pose proof (Conv_Proof.run_blocks c OK us s) as B. rewrite R in B. split; [exact B|].
  exists (fun t => snd (conv_run c (firstn t us) s)). split; [reflexivity|]. split; [rewrite firstn_all, R; reflexivity|].
  pose proof (Conv_Proof.run_length c us s) as Lr. rewrite R in Lr. cbn [fst] in Lr. split; auto.
  intros t Ht. split.
  - assert (E : firstn (S t) us = firstn t us ++ [nth t us []]).
    { clear -Ht. revert t Ht. induction us as [|u us' IH]; intros [|t] H; cbn in H; try lia; [reflexivity|]. cbn [firstn app nth]. f_equal. apply IH. lia. }
    rewrite E, Conv_Proof.run_snoc. reflexivity.
  - pose proof (Conv_Proof.run_nth c us s t Ht) as N. rewrite R in N. exact N.
Qed.

(* encoding through the finite-state machine is the same recursion, on the integer labels of states and symbols *)
Theorem C49_machine : forall c us s, conv_ok c -> blocks (cv_k c) us -> length s = cv_deg c ->
  mealy_ok (conv_fsm c) /\ num_states (conv_fsm c) = 2 ^ cv_deg c /\ num_input_symbols (conv_fsm c) = 2 ^ cv_k c /\
  exists vs s', encode_with_state c (concat us) s = Some (concat vs, s') /\ blocks (cv_n c) vs /\
    process (conv_fsm c) (map bitsn us) (bitsn s) = (map bitsn vs, bitsn s').
Proof.
  intros c us s OK B Ls. split; [apply Conv_Proof.fsm_mealy_ok; auto|]. split; [apply Conv_Proof.fsm_num_states|]. split; [apply Conv_Proof.fsm_num_inputs|].
  exists (fst (conv_run c us s)), (snd (conv_run c us s)). split; [apply ConvTerm_Proof.encode_with_state_blocks; auto|]. split; [apply Conv_Proof.run_blocks; auto|].
  apply Conv_Proof.fsm_process; auto.
Qed.

(* linear in (state, input) jointly *)
Theorem C49_linear : forall c h x x' s s', conv_ok c -> length x = h * cv_k c -> length x' = h * cv_k c -> length s = cv_deg c -> length s' = cv_deg c ->
  exists v f v' f', encode_with_state c x s = Some (v, f) /\ encode_with_state c x' s' = Some (v', f') /\
    encode_with_state c (vxor x x') (vxor s s') = Some (vxor v v', vxor f f').
Proof. intros c h x x' s s' OK L1 L2 L3 L4. destruct (ConvTerm_Proof.encode_state_linear c OK h x x' s s' L1 L2 L3 L4) as (v & f & v' & f' & A & B & C & _). eauto 10. Qed.

(* encoding in two calls, handing over the state, is encoding in one call *)
Theorem C49_streaming : forall c x y s v s1 w s2, conv_ok c ->
  encode_with_state c x s = Some (v, s1) -> encode_with_state c y s1 = Some (w, s2) -> encode_with_state c (x ++ y) s = Some (v ++ w, s2).
Proof.
  intros c x y s v s1 w s2 OK E1 E2. pose proof (C49_state_space c x s OK) as S1. pose proof (C49_state_space c y s1 OK) as S2. rewrite E1 in S1. rewrite E2 in S2.
  destruct S1 as (Ls & us & _ & -> & B & _). destruct S2 as (Ls1 & us' & _ & -> & B' & _).
  rewrite ConvTerm_Proof.encode_with_state_blocks in E1, E2 by auto. injection E1 as <- <-. injection E2 as <- <-.
  rewrite <- concat_app, ConvTerm_Proof.encode_with_state_blocks; auto; [|apply Forall_app; auto]. rewrite Conv_Proof.run_app. cbn [fst snd]. rewrite concat_app. reflexivity.
Qed.

(* q w = u has exactly one solution: w is the power series u / q *)
Theorem C49_division : forall q (u : nat -> bool), N.odd q = true ->
  (exists w, forall t, series_mul q w t = u t) /\
  (forall w w', (forall t, series_mul q w t = u t) -> (forall t, series_mul q w' t = u t) -> forall t, w t = w' t).
Proof.
  intros q u Q. apply ConvCons_Proof.odd_tb in Q. split; [apply ConvCons_Proof.series_div_exists; auto|].
  intros w w' H H' t. apply (ConvCons_Proof.series_div_unique q w w' (S t) Q); auto. intros. rewrite H, H'. reflexivity.
Qed.

(* output j is the sum over i of (p_ij / q_i) u_i, where w_i = u_i / q_i *)
Theorem C49_transfer : forall rows c us w, ConvolutionalCode rows = Some c -> odd_feedback rows -> blocks (cv_k c) us ->
  cv_k c = length rows /\
  ((forall i t, i < cv_k c -> t < length us -> series_mul (snd (nth i rows ([], 0%N))) (w i) t = bit_of us i t) ->
   exists vs, conv_encode c (concat us) = Some (concat vs) /\ blocks (cv_n c) vs /\ length vs = length us /\
     forall j t, j < cv_n c -> t < length us ->
       bit_of vs j t = xsum (map (fun i => series_mul (nth j (fst (nth i rows ([], 0%N))) 0%N) (w i) t) (seq 0 (cv_k c)))).
Proof.
  intros rows c us w E F B. pose proof (ConvCons_Proof.cc_ok rows c E) as OK. destruct (ConvCons_Proof.cc_inv rows c E) as (_ & _ & _ & Ek & _). split; auto.
  rewrite Ek. intros D. exists (fst (conv_run c us (zeros (cv_deg c)))). unfold conv_encode. rewrite ConvTerm_Proof.encode_with_state_blocks by (auto; apply Vec_Proof.zeros_length).
  split; [reflexivity|]. split; [apply Conv_Proof.run_blocks; auto|]. split; [apply Conv_Proof.run_length|].
  intros j t Hj Ht. apply (ConvCons_Proof.output_series rows c E w F); auto.
Qed.
(* without feedback: plain convolution of the inputs with the generator polynomials *)
Theorem C49_feedforward : forall rows c us, ConvolutionalCode rows = Some c -> no_feedback rows -> blocks (cv_k c) us ->
  exists vs, conv_encode c (concat us) = Some (concat vs) /\ blocks (cv_n c) vs /\ length vs = length us /\
     forall j t, j < cv_n c -> t < length us ->
       bit_of vs j t = xsum (map (fun i => series_mul (nth j (fst (nth i rows ([], 0%N))) 0%N) (bit_of us i) t) (seq 0 (cv_k c))).
Proof.
  intros rows c us E F B. assert (F' : odd_feedback rows) by (eapply Forall_impl; [|exact F]; intros r ->; reflexivity).
  destruct (C49_transfer rows c us (bit_of us) E F' B) as [Ek T]. apply T. intros i t Hi Ht. unfold no_feedback in F. rewrite Forall_forall in F.
  rewrite Ek in Hi. rewrite (F _ (nth_In _ _ Hi)). apply ConvCons_Proof.series_mul_1.
Qed.
Theorem C49_low_rate : forall g us, g <> [] -> blocks 1 us ->
  exists vs, conv_encode (LowRate g) (concat us) = Some (concat vs) /\ blocks (length g) vs /\ length vs = length us /\
     forall j t, j < length g -> t < length us -> bit_of vs j t = series_mul (nth j g 0%N) (bit_of us 0) t.
Proof.
  intros g us NE B. destruct (C49_feedforward _ _ us (ConvCons_Proof.low_rate_as_cc g NE)) as (vs & E & Bv & L & T); [repeat constructor|exact B|].
  exists vs. split; auto. split; auto. split; auto. intros j t Hj Ht. rewrite T by auto. cbn [cv_k LowRate seq map nth fst xsum fold_right]. apply Bool.xorb_false_r.
Qed.
(* the high-rate encoder is systematic and its last output y satisfies q y = sum of h_i u_i *)
Theorem C49_high_rate : forall hs q us, hs <> [] -> 0 < cv_deg (HighRate hs q) -> N.odd q = true -> blocks (length hs) us ->
  exists vs, conv_encode (HighRate hs q) (concat us) = Some (concat vs) /\ blocks (S (length hs)) vs /\ length vs = length us /\
    forall t, t < length us ->
      (forall i, i < length hs -> bit_of vs i t = bit_of us i t) /\
      series_mul q (bit_of vs (length hs)) t = xsum (map (fun i => series_mul (nth i hs 0%N) (bit_of us i) t) (seq 0 (length hs))).
Proof.
  intros hs q us NE P Q B. destruct (cv_deg (HighRate hs q)) as [|d'] eqn:E; [lia|]. pose proof (ConvCons_Proof.hr_ok hs q d' NE E) as OK.
  set (c := HighRate hs q) in *. exists (fst (conv_run c us (zeros (cv_deg c)))). unfold conv_encode.
  rewrite ConvTerm_Proof.encode_with_state_blocks by (auto; apply Vec_Proof.zeros_length). split; [reflexivity|]. split; [apply (Conv_Proof.run_blocks c); auto|].
  split; [apply Conv_Proof.run_length|]. intros t Ht. apply (ConvCons_Proof.hr_series hs q d' NE E us B Q t Ht).
Qed.
(* a feedback polynomial with zero constant term is accepted and treated as if the term were 1 *)
Theorem C49_even_feedback_accepted : exists c, ConvolutionalCode [([1%N; 3%N], 6%N)] = Some c /\ ConvolutionalCode [([1%N; 3%N], 7%N)] = Some c.
Proof. eexists. split; reflexivity. Qed.
Example C49_satisfiable :
  exists c us, ConvolutionalCode [([7%N; 5%N], 7%N); ([2%N; 1%N], 1%N)] = Some c /\ odd_feedback [([7%N; 5%N], 7%N); ([2%N; 1%N], 1%N)] /\ blocks (cv_k c) us /\ 3 <= length us /\
    conv_encode c (concat us) = Some [true; true; false; false; false; true].
Proof.
  eexists. exists [[true; false]; [false; true]; [true; true]]. split; [reflexivity|]. split; [repeat constructor|]. split; [repeat constructor|]. split; [cbn; lia|]. vm_compute. reflexivity.
Qed.

(* ---- C50 ---- *)
(* zero termination, when every state reachable in h + mu steps is reachable in mu steps *)
Theorem C50_zero_termination : forall c h u, conv_ok c -> 0 < h -> 0 < cv_mem c -> length u = h * cv_k c ->
  (forall s, reachable c (h + cv_mem c) s -> reachable c (cv_mem c) s) ->
  exists tail v, length tail = cv_mem c * cv_k c /\ encode_with_state c (u ++ tail) (zeros (cv_deg c)) = Some (v, zeros (cv_deg c)) /\
    terminated_run c h ZeroTermination u = Some (v, zeros (cv_deg c)) /\ length v = terminated_length c h ZeroTermination.
Proof.
  intros c h u OK Hh Hm Lu R. destruct (ConvTerm_Proof.zero_terminated c OK h u Hh Hm Lu R) as (v & E & L).
  destruct (ConvTerm_Proof.zero_tail c OK h u Hh Hm Lu R) as (Lt & E2 & _). exists (ConvTerm_Proof.tail_of c h u), v. rewrite <- E2. auto.
Qed.
(* ... which holds for all three constructions *)
Theorem C50_zero_termination_classes :
  (forall rows c, ConvolutionalCode rows = Some c -> odd_feedback rows -> forall h s, reachable c (h + cv_mem c) s -> reachable c (cv_mem c) s) /\
  (forall g, g <> [] -> forall h s, reachable (LowRate g) (h + cv_mem (LowRate g)) s -> reachable (LowRate g) (cv_mem (LowRate g)) s) /\
  (forall hs q, hs <> [] -> 0 < cv_deg (HighRate hs q) ->
     forall h s, reachable (HighRate hs q) (h + cv_mem (HighRate hs q)) s -> reachable (HighRate hs q) (cv_mem (HighRate hs q)) s).
Proof.
  assert (A : forall rows c, ConvolutionalCode rows = Some c -> odd_feedback rows -> forall h s, reachable c (h + cv_mem c) s -> reachable c (cv_mem c) s).
  { intros rows c E F h s (us & B & L & <-). pose proof (ConvCons_Proof.cc_ok rows c E) as OK. apply (ConvCons_Proof.cc_reach rows c E); auto.
    apply Conv_Proof.run_state_length; auto. apply Vec_Proof.zeros_length. }
  split; [exact A|]. split.
  - intros g NE. apply (A _ _ (ConvCons_Proof.low_rate_as_cc g NE)). repeat constructor.
  - intros hs q NE P h s R. destruct (cv_deg (HighRate hs q)) as [|d'] eqn:E; [lia|]. pose proof (ConvCons_Proof.hr_ok hs q d' NE E) as OK.
    apply (ConvTerm_Proof.reachable_stable _ OK _ h); [rewrite E, (ConvCons_Proof.hr_mem hs q d' NE E); lia|]. rewrite Nat.add_comm. exact R.
Qed.
(* a code without memory cannot be zero-terminated (np.vstack of an empty list raises) *)
Theorem C50_memoryless : forall c h u, cv_mem c = 0 -> terminated_run c h ZeroTermination u = None.
Proof. intros c h u E. unfold terminated_run, pre_process_input, tail_projector. rewrite E, Bool.andb_false_r. reflexivity. Qed.
(* direct truncation is plain encoding from the zero state *)
Theorem C50_direct : forall c h u, terminated_run c h DirectTruncation u = encode_with_state c u (zeros (cv_deg c)).
Proof. reflexivity. Qed.
Lemma zeros_blocks h k : zeros (h * k) = concat (repeat (zeros k) h).
Proof. induction h as [|h IH]; [reflexivity|]. cbn [repeat concat]. rewrite <- IH. unfold zeros. rewrite <- repeat_app. reflexivity. Qed.
Lemma zero_blocks h k : blocks k (repeat (zeros k) h).
Proof. apply Forall_forall. intros x I. apply repeat_spec in I. subst. apply Vec_Proof.zeros_length. Qed.
(* tail biting: the final state is the chosen initial state, provided h zero inputs fix no non-zero state *)
Theorem C50_tail_biting : forall c h u, conv_ok c -> length u = h * cv_k c ->
  (forall s v, encode_with_state c (zeros (h * cv_k c)) s = Some (v, s) -> s = zeros (cv_deg c)) ->
  exists v s, initial_state c h TailBiting u = Some s /\ encode_with_state c u s = Some (v, s) /\
    terminated_run c h TailBiting u = Some (v, s) /\ length v = terminated_length c h TailBiting.
Proof.
  intros c h u OK Lu Inv. destruct (ConvTerm_Proof.tail_biting c OK h u Lu) as (v & s & E1 & E2 & L); [|exists v, s; split; auto; split; [|split; auto]; unfold terminated_run in E1; cbn [pre_process_input] in E1; rewrite E2 in E1; exact E1].
  intros s Ls H. eapply Inv. rewrite zeros_blocks, ConvTerm_Proof.encode_with_state_blocks; auto using zero_blocks. rewrite H. reflexivity.
Qed.
Theorem C50_tail_biting_feedforward : forall rows c h u, ConvolutionalCode rows = Some c -> no_feedback rows -> 0 < h -> length u = h * cv_k c ->
  exists v s, initial_state c h TailBiting u = Some s /\ encode_with_state c u s = Some (v, s) /\
    terminated_run c h TailBiting u = Some (v, s) /\ length v = terminated_length c h TailBiting.
Proof.
  intros rows c h u E F Hh Lu. pose proof (ConvCons_Proof.cc_ok rows c E) as OK. apply C50_tail_biting; auto. intros s v0 H.
  assert (Ls : length s = cv_deg c). { pose proof (C49_state_space c (zeros (h * cv_k c)) s OK) as SS. rewrite H in SS. apply SS. }
  rewrite zeros_blocks, ConvTerm_Proof.encode_with_state_blocks in H by (auto using zero_blocks). injection H as _ H.
  apply (ConvTerm_Proof.forgetting_no_fixed c OK (cv_mem c) h Hh); auto. intros s' Ls'. apply (ConvCons_Proof.cc_forget rows c E); auto.
Qed.
(* with feedback the condition can fail, and the code then returns words that are not tail-biting, without an error *)
Theorem C50_tail_biting_refuted : exists rows c h u v s0 s1, ConvolutionalCode rows = Some c /\ odd_feedback rows /\ length u = h * cv_k c /\
  initial_state c h TailBiting u = Some s0 /\ terminated_run c h TailBiting u = Some (v, s1) /\ s0 <> s1.
Proof.
  exists [([1%N; 5%N], 7%N)]. eexists. exists 3, [true; false; false]. do 3 eexists. split; [reflexivity|]. split; [repeat constructor|]. split; [reflexivity|].
  split; [vm_compute; reflexivity|]. split; [vm_compute; reflexivity|]. discriminate.
Qed.
(* the terminated code is a valid linear block code whose encoder is the terminated encoder, as soon as encoding is injective *)
Theorem C50_block_code : forall c h m, conv_ok c -> 0 < h -> (m = ZeroTermination -> 0 < cv_mem c) ->
  (forall u v, length u = h * cv_k c -> length v = h * cv_k c -> terminated_encode c h m u = terminated_encode c h m v -> u = v) ->
  exists C, terminated_code c h m = Some C /\ valid_code C /\ bc_n C = terminated_length c h m /\ bc_k C = h * cv_k c /\
    (forall u, length u = bc_k C -> option_map fst (terminated_run c h m u) = Some (bc_encode C u)) /\
    (forall u, length u = bc_k C -> bc_inverse_encode C (bc_encode C u) = Some u).
Proof.
  intros c h m OK Hh Hm Inj. assert (MO : ConvTerm_Proof.mode_ok c h m) by (destruct m; cbn; auto).
  destruct (ConvTerm_Proof.terminated_code_valid c OK h m Hh MO Inj) as (C & E & V & En & Ek & Ee). exists C. split; auto. split; auto. split; auto. split; auto. split.
  - intros u Lu. rewrite Ee. rewrite Ek in Lu. destruct (ConvTerm_Proof.terminated_linear c OK h m u u MO Lu Lu) as (v & f & _ & _ & R & _). unfold terminated_encode. rewrite R. reflexivity.
  - intros u Lu. apply BlockCode_Proof.inverse_encode_spec; auto; [apply V| |apply (ok_encode_length C V); auto].
    intros r Lr. pose proof (ok_check_zero C V r Lr) as Z. assert (L : length (bc_check C r) = bc_m C) by (rewrite (ok_check C V r Lr), Vec_Proof.matvec_length; apply (ok_H C V)).
    rewrite L. exact Z.
Qed.
(* injectivity holds for the two non-circular modes when distinct input blocks give distinct outputs from state zero *)
Theorem C50_injective : forall c h m, conv_ok c -> 0 < h -> (m = ZeroTermination -> 0 < cv_mem c) -> m <> TailBiting -> independent (cv_n c) (cv_D c) ->
  forall u v, length u = h * cv_k c -> length v = h * cv_k c -> terminated_encode c h m u = terminated_encode c h m v -> u = v.
Proof. intros c h m OK Hh Hm NT I. apply ConvTerm_Proof.injective_of_D; auto. destruct m; cbn; auto. Qed.

(* ---- C51 ---- *)
(* free_distance() terminates, and returns the least positive output weight of a closed path from the zero state;
   it raises RuntimeError exactly when every closed path has weight zero *)
Theorem C51_free_distance : forall c, conv_ok c ->
  (exists fuel, free_distance c fuel <> None) /\
  forall fuel r, free_distance c fuel = Some r ->
  let closed_path us w := blocks (cv_k c) us /\ exists v, encode_with_state c (concat us) (zeros (cv_deg c)) = Some (v, zeros (cv_deg c)) /\ weight v = w in
  match r with
  | Some w => 0 < w /\ (exists us, closed_path us w) /\ (forall us w', closed_path us w' -> 0 < w' -> w <= w')
  | None => forall us w', closed_path us w' -> w' = 0
  end.
Proof.
  intros c OK. destruct (FreeDist_Proof.fd_total (conv_fsm c) (Conv_Proof.fsm_mealy_ok c OK)) as [T S]. split; [exact T|]. intros fuel r E closed_path.
  pose proof (FreeDist_Proof.free_distance_spec c OK r (S fuel r E)) as P.
  assert (CP : forall us w, closed_path us w <-> blocks (cv_k c) us /\ FreeDist_Proof.end_of c us = zeros (cv_deg c) /\ FreeDist_Proof.wt c us = w).
  { intros us w. unfold closed_path, FreeDist_Proof.end_of, FreeDist_Proof.wt, FreeDist_Proof.out_of. split.
    - intros (B & v & Ev & W). rewrite ConvTerm_Proof.encode_with_state_blocks in Ev by (auto; apply Vec_Proof.zeros_length). injection Ev as <- E2. rewrite E2. auto.
    - intros (B & E2 & W). split; auto. eexists. rewrite ConvTerm_Proof.encode_with_state_blocks by (auto; apply Vec_Proof.zeros_length). rewrite E2. split; [reflexivity|auto]. }
  destruct r as [w|].
  - destruct P as [(us & B & Z & W & Pw) Min]. split; auto. split; [exists us; apply CP; auto|]. intros us' w' C' P'. apply CP in C' as (B' & Z' & <-). auto.
  - intros us w' C'. apply CP in C' as (B' & Z' & <-). auto.
Qed.
Example C51_satisfiable : exists c, ConvolutionalCode [([7%N; 5%N], 1%N)] = Some c /\ conv_ok c /\ free_distance c 50 = Some (Some 5).
Proof. eexists. split; [reflexivity|]. split; [apply (proj1 C49_shapes [([7%N; 5%N], 1%N)]); reflexivity|]. vm_compute. reflexivity. Qed.
