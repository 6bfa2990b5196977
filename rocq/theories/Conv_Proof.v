From Verif Require Import Common Bits_Model Vec_Model Vec_Proof LinAlg_Model FSM_Model FSM_Spec Conv_Model Conv_Spec.
From Verif Require Bits_Proof FSM_Proof.
Local Open Scope nat_scope.

Section Conv.
Context (c : conv) (OK : conv_ok c).
Local Notation d := (cv_deg c).
Local Notation k := (cv_k c).
Local Notation n := (cv_n c).

Lemma next_length s u : length (conv_next c s u) = d.
Proof. destruct OK as [_ _ [WA _] [WB _] _ _]. unfold conv_next. rewrite vxor_length; rewrite ?vecmat_length; auto. Qed.
Lemma output_length s u : length (conv_output c s u) = n.
Proof. destruct OK as [_ _ _ _ [WC _] [WD _]]. unfold conv_output. rewrite vxor_length; rewrite ?vecmat_length; auto. Qed.

Lemma next_linear s u s' u' : length s = d -> length s' = d -> length u = k -> length u' = k ->
  conv_next c (vxor s s') (vxor u u') = vxor (conv_next c s u) (conv_next c s' u').
Proof.
  destruct OK as [_ _ [WA LA] [WB LB] _ _]. intros. unfold conv_next. rewrite !vecmat_vxor by congruence.
  rewrite !vxor_assoc. f_equal. rewrite <- !vxor_assoc. f_equal. apply vxor_comm.
Qed.
Lemma output_linear s u s' u' : length s = d -> length s' = d -> length u = k -> length u' = k ->
  conv_output c (vxor s s') (vxor u u') = vxor (conv_output c s u) (conv_output c s' u').
Proof.
  destruct OK as [_ _ _ _ [WA LA] [WB LB]]. intros. unfold conv_output. rewrite !vecmat_vxor by congruence.
  rewrite !vxor_assoc. f_equal. rewrite <- !vxor_assoc. f_equal. apply vxor_comm.
Qed.

Lemma run_app us vs s : conv_run c (us ++ vs) s =
  (fst (conv_run c us s) ++ fst (conv_run c vs (snd (conv_run c us s))), snd (conv_run c vs (snd (conv_run c us s)))).
Proof.
  revert s; induction us as [|u us IH]; intros s; cbn [conv_run app fst snd].
  - destruct (conv_run c vs s); reflexivity.
  - cbv zeta. rewrite IH. destruct (conv_run c us (conv_next c s u)); reflexivity.
Qed.
Lemma run_length us s : length (fst (conv_run c us s)) = length us.
Proof. revert s; induction us as [|u us IH]; intros s; cbn [conv_run]; auto. cbv zeta. specialize (IH (conv_next c s u)). destruct (conv_run c us _). cbn in *. lia. Qed.
Lemma run_state_length us s : length s = d -> length (snd (conv_run c us s)) = d.
Proof. revert s; induction us as [|u us IH]; intros s Ls; cbn [conv_run]; auto. cbv zeta. specialize (IH (conv_next c s u) (next_length s u)). destruct (conv_run c us _). auto. Qed.
Lemma run_blocks us s : blocks n (fst (conv_run c us s)).
Proof. revert s; induction us as [|u us IH]; intros s; cbn [conv_run]; [constructor|]. cbv zeta. specialize (IH (conv_next c s u)). destruct (conv_run c us _). constructor; auto. apply output_length. Qed.
Lemma run_nth us s t : t < length us -> nth t (fst (conv_run c us s)) [] = conv_output c (snd (conv_run c (firstn t us) s)) (nth t us []).
Proof.
  revert s t; induction us as [|u us IH]; intros s t H; cbn in H; [lia|]. cbn [conv_run]. cbv zeta.
  destruct t; cbn [firstn conv_run nth].
  - destruct (conv_run c us _); reflexivity.
  - cbv zeta. specialize (IH (conv_next c s u) t ltac:(lia)). destruct (conv_run c us _). destruct (conv_run c (firstn t us) _). exact IH.
Qed.
Lemma run_snoc us u s : conv_run c (us ++ [u]) s = (fst (conv_run c us s) ++ [conv_output c (snd (conv_run c us s)) u], conv_next c (snd (conv_run c us s)) u).
Proof. rewrite run_app. reflexivity. Qed.

(* pointwise sum of two lists of blocks *)
Fixpoint badd (us vs : list vec) : list vec :=
  match us, vs with u :: us', v :: vs' => vxor u v :: badd us' vs' | _, _ => [] end.
Lemma badd_length us vs : length us = length vs -> length (badd us vs) = length us.
Proof. revert vs; induction us as [|u us IH]; intros [|v vs]; cbn; auto; try lia. Qed.

Lemma run_linear us us' s s' : blocks k us -> blocks k us' -> length us = length us' -> length s = d -> length s' = d ->
  conv_run c (badd us us') (vxor s s') =
  (badd (fst (conv_run c us s)) (fst (conv_run c us' s')), vxor (snd (conv_run c us s)) (snd (conv_run c us' s'))).
Proof.
  revert us' s s'; induction us as [|u us IH]; intros [|u' us'] s s' B B' L Ls Ls'; cbn in L; try lia; auto.
  inversion B; inversion B'; subst. cbn [badd conv_run]. cbv zeta. rewrite next_linear, output_linear by auto.
  rewrite IH by (auto using next_length; lia).
  destruct (conv_run c us _), (conv_run c us' _). reflexivity.
Qed.

Lemma concat_badd w us vs : blocks w us -> blocks w vs -> length us = length vs -> concat (badd us vs) = vxor (concat us) (concat vs).
Proof.
  revert vs; induction us as [|u us IH]; intros [|v vs] B B' L; cbn in L; try lia; auto. inversion B; inversion B'; subst.
  cbn [badd concat]. rewrite IH by (auto; lia).
  clear - H5. revert v H5. induction u as [|x u IH]; intros [|y v] H; cbn in *; try lia; auto. f_equal. apply IH. lia.
Qed.

Lemma blocks_concat_length w us : blocks w us -> length (concat us) = length us * w.
Proof. induction 1; cbn; auto. rewrite app_length. lia. Qed.

(* ---- reshape ---- *)
Lemma reshape_rows_concat {A} w us : Forall (fun u : list A => length u = w) us -> reshape_rows (length us) w (concat us) = us.
Proof. induction 1 as [|u us L W IH]; cbn; auto. subst w. rewrite firstn_app_exact, skipn_app_exact, IH. reflexivity. Qed.
Lemma reshape_concat {A} w us : 0 < w -> Forall (fun u : list A => length u = w) us -> reshape w (concat us) = us.
Proof.
  intros P B. unfold reshape.
  assert (L : length (concat us) = length us * w) by (clear P; induction B; cbn; auto; rewrite app_length; lia).
  rewrite L, Nat.div_mul by lia. apply reshape_rows_concat; auto.
Qed.
Lemma reshape_rows_spec {A} w : forall r (l : list A), length l = r * w -> concat (reshape_rows r w l) = l /\ length (reshape_rows r w l) = r /\ Forall (fun u => length u = w) (reshape_rows r w l).
Proof.
  induction r as [|r IH]; intros l L; cbn [reshape_rows].
  - destruct l; [auto|discriminate].
  - destruct (IH (skipn w l)) as (C & Lr & F); [rewrite skipn_length; lia|]. cbn [concat length]. rewrite C, firstn_skipn, Lr. repeat split; auto.
    constructor; auto. rewrite firstn_length. lia.
Qed.
Lemma reshape_spec {A} w (l : list A) : 0 < w -> length l mod w = 0 ->
  concat (reshape w l) = l /\ length (reshape w l) = length l / w /\ Forall (fun u => length u = w) (reshape w l).
Proof. intros P M. apply reshape_rows_spec. apply Nat.div_exact in M; lia. Qed.

(* ---- bits ---- *)
Lemma nbits_length w i : length (nbits w i) = w.
Proof. apply Bits_Proof.int_to_bits_length. Qed.
Lemma nbits_bitsn v w : length v = w -> nbits w (bitsn v) = v.
Proof. intros <-. unfold nbits, bitsn. rewrite N2Nat.id. apply Bits_Proof.int_bits_round_trip. Qed.
Lemma bitsn_bound v : bitsn v < 2 ^ length v.
Proof.
  unfold bitsn. pose proof (Bits_Proof.bits_to_int_bound v LSB_first) as H.
  assert (E : N.to_nat (2 ^ N.of_nat (length v)) = 2 ^ length v). { rewrite N2Nat.inj_pow, Nat2N.id. reflexivity. }
  lia.
Qed.
Lemma bitsn_nbits w i : i < 2 ^ w -> bitsn (nbits w i) = i.
Proof.
  intros H. unfold nbits, bitsn. rewrite Bits_Proof.bits_int_round_trip; [apply Nat2N.id|].
  assert (E : N.to_nat (2 ^ N.of_nat w) = 2 ^ w). { rewrite N2Nat.inj_pow, Nat2N.id. reflexivity. }
  lia.
Qed.

(* ---- the machine ---- *)
Lemma nth_table f s x : s < 2 ^ d -> x < 2 ^ k ->
  nth x (nth s (map (fun s => map (fun x => f (conv_run c [nbits k x] (nbits d s))) (seq 0 (2 ^ k))) (seq 0 (2 ^ d))) []) 0 = f (conv_run c [nbits k x] (nbits d s)).
Proof. intros Hs Hx. rewrite nth_map_seq by auto. rewrite nth_map_seq by auto. reflexivity. Qed.

Lemma fsm_next_spec s x : s < 2 ^ d -> x < 2 ^ k -> fsm_next (conv_fsm c) s x = bitsn (conv_next c (nbits d s) (nbits k x)).
Proof. intros Hs Hx. unfold fsm_next, conv_fsm. cbn [fsm_transitions]. rewrite (nth_table (fun r => bitsn (snd r))) by auto. reflexivity. Qed.
Lemma fsm_out_spec s x : s < 2 ^ d -> x < 2 ^ k -> fsm_out (conv_fsm c) s x = bitsn (conv_output c (nbits d s) (nbits k x)).
Proof. intros Hs Hx. unfold fsm_out, conv_fsm. cbn [fsm_outputs]. rewrite (nth_table (fun r => bitsn (concat (fst r)))) by auto. cbn. rewrite app_nil_r. reflexivity. Qed.
Lemma pow2_pos j : 0 < 2 ^ j. Proof. induction j; cbn; lia. Qed.
Lemma fsm_num_states : num_states (conv_fsm c) = 2 ^ d.
Proof. unfold num_states, conv_fsm. cbn [fsm_transitions]. rewrite map_length, seq_length. reflexivity. Qed.
Lemma fsm_num_inputs : num_input_symbols (conv_fsm c) = 2 ^ k.
Proof. unfold num_input_symbols, conv_fsm. cbn [fsm_transitions]. rewrite nth_map_seq by apply pow2_pos. rewrite map_length, seq_length. reflexivity. Qed.
Lemma fsm_mealy_ok : mealy_ok (conv_fsm c).
Proof.
  unfold mealy_ok. rewrite fsm_num_states, fsm_num_inputs. split; [apply pow2_pos|]. split; [|split].
  - unfold conv_fsm. cbn [fsm_outputs]. rewrite map_length, seq_length. reflexivity.
  - intros s Hs. unfold conv_fsm. cbn [fsm_outputs fsm_transitions]. rewrite !nth_map_seq by auto. rewrite !map_length, !seq_length. auto.
  - intros s x Hs Hx. rewrite fsm_next_spec by auto. rewrite <- (next_length (nbits d s) (nbits k x)) at 2. apply bitsn_bound.
Qed.

Lemma fsm_process us s : blocks k us -> length s = d ->
  process (conv_fsm c) (map bitsn us) (bitsn s) = (map bitsn (fst (conv_run c us s)), bitsn (snd (conv_run c us s))).
Proof.
  intros B. revert s; induction B as [|u us Lu B IH]; intros s Ls; cbn [map process conv_run]; auto. cbv zeta.
  assert (Hs : bitsn s < 2 ^ d) by (rewrite <- Ls; apply bitsn_bound). assert (Hu : bitsn u < 2 ^ k) by (rewrite <- Lu; apply bitsn_bound).
  rewrite fsm_next_spec, fsm_out_spec by auto. rewrite !nbits_bitsn by auto. rewrite IH by apply next_length. destruct (conv_run c us _). reflexivity.
Qed.

(* ---- powers ---- *)
Lemma run_zeros_input j s : length s = d -> snd (conv_run c (repeat (zeros k) j) s) = vecmat d s (mat_pow d (cv_A c) j).
Proof.
  destruct OK as [_ _ [WA LA] [WB LB] _ _].
  assert (WP : forall j, wf d (mat_pow d (cv_A c) j)). { destruct j0; cbn; [apply wf_eye|apply wf_matmul; auto]. }
  intros Ls. revert j; assert (S : forall j, repeat (zeros k) (S j) = repeat (zeros k) j ++ [zeros k]) by (intros; apply repeat_cons).
  induction j as [|j IH]; [cbn; rewrite vecmat_eye; auto|]. rewrite S, run_snoc. cbn [snd mat_pow]. rewrite IH. unfold conv_next.
  rewrite vecmat_zeros by auto. rewrite vxor_zeros_r by (apply vecmat_length; auto). symmetry. apply vecmat_matmul; auto.
Qed.
Lemma wf_pow j : wf d (mat_pow d (cv_A c) j).
Proof. destruct OK as [_ _ [WA LA] _ _ _]. destruct j; cbn; [apply wf_eye|apply wf_matmul; auto]. Qed.
Lemma pow_length j : length (mat_pow d (cv_A c) j) = d.
Proof. induction j; cbn [mat_pow]; [apply eye_length|]. rewrite matmul_length. auto. Qed.

Lemma badd_zeros_r us : blocks k us -> badd us (repeat (zeros k) (length us)) = us.
Proof. induction 1; cbn; auto. rewrite vxor_zeros_r by auto. f_equal; auto. Qed.

(* superposition of initial state and input *)
Lemma run_superpose us s : blocks k us -> length s = d ->
  snd (conv_run c us s) = vxor (snd (conv_run c us (zeros d))) (vecmat d s (mat_pow d (cv_A c) (length us))).
Proof.
  intros B Ls. rewrite <- (run_zeros_input (length us)) by auto.
  assert (Z : blocks k (repeat (zeros k) (length us))). { apply Forall_forall. intros x I. apply repeat_spec in I. subst. apply zeros_length. }
  pose proof (run_linear us (repeat (zeros k) (length us)) (zeros d) s B Z) as R. rewrite repeat_length in R. specialize (R eq_refl (zeros_length d) Ls).
  rewrite badd_zeros_r, vxor_zeros_l in R by auto. rewrite R. reflexivity.
Qed.

(* state reached from zero is the input times the stacked matrix *)
Lemma reach_stack_wf lo cnt : wf d (reach_stack c lo cnt).
Proof.
  unfold reach_stack, wf. rewrite Forall_forall. intros r I. apply in_concat in I as (M & IM & Ir). apply in_map_iff in IM as (j & <- & _).
  pose proof (wf_matmul d (cv_B c) _ (wf_pow j)) as W. unfold wf in W. rewrite Forall_forall in W. auto.
Qed.
Lemma reach_stack_length lo cnt : length (reach_stack c lo cnt) = cnt * k.
Proof.
  unfold reach_stack. rewrite <- (rev_length (seq lo cnt)) || idtac. revert lo. intros lo.
  assert (G : forall l, length (concat (map (fun j => matmul d (cv_B c) (mat_pow d (cv_A c) j)) l)) = length l * k).
  { destruct OK as [_ _ _ [_ LB] _ _]. induction l; cbn [map concat length]; auto. rewrite app_length, matmul_length, IHl, LB. lia. }
  rewrite G, ?rev_length, ?seq_length. reflexivity.
Qed.
Lemma reach_stack_snoc lo cnt : reach_stack c lo (S cnt) = matmul d (cv_B c) (mat_pow d (cv_A c) (lo + cnt)) ++ reach_stack c lo cnt.
Proof. unfold reach_stack. rewrite seq_S, rev_app_distr. reflexivity. Qed.

Lemma reach_spec us : blocks k us -> snd (conv_run c us (zeros d)) = vecmat d (concat us) (reach_stack c 0 (length us)).
Proof.
  destruct OK as [_ _ [WA LA] [WB LB] _ _].
  induction 1 as [|u us Lu B IH]; [cbn; reflexivity|]. cbn [conv_run length concat]. cbv zeta.
  destruct (conv_run c us (conv_next c (zeros d) u)) as [vs s] eqn:E. cbn [snd].
  replace s with (snd (conv_run c us (conv_next c (zeros d) u))) by (rewrite E; auto).
  rewrite run_superpose by (auto; apply next_length). rewrite IH, reach_stack_snoc.
  rewrite vecmat_app; [|apply wf_matmul, wf_pow|apply reach_stack_wf|rewrite matmul_length; congruence].
  rewrite vxor_comm. f_equal. cbn [Nat.add]. rewrite vecmat_matmul with (n := d); auto using wf_pow, pow_length.
  f_equal. unfold conv_next. rewrite vecmat_zeros, vxor_zeros_l by (auto; apply vecmat_length; auto). reflexivity.
Qed.
End Conv.
