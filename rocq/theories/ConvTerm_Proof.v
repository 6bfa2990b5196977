From Verif Require Import Common Bits_Model Vec_Model Vec_Proof LinAlg_Model Linear_Spec LinAlg_Proof XRref_Proof BlockCode_Model Code_Spec
  Conv_Model Conv_Spec Conv_Proof.
From Verif Require BlockCode_Proof.
Local Open Scope nat_scope.

Section Term.
Context (c : conv) (OK : conv_ok c).
Local Notation d := (cv_deg c).
Local Notation k := (cv_k c).
Local Notation n := (cv_n c).
Local Notation mu := (cv_mem c).

Lemma k_pos : 0 < k. Proof. destruct OK; auto. Qed.

Lemma encode_with_state_blocks us s : blocks k us -> length s = d ->
  encode_with_state c (concat us) s = Some (concat (fst (conv_run c us s)), snd (conv_run c us s)).
Proof.
  intros B Ls. unfold encode_with_state. rewrite Ls, Nat.eqb_refl, (blocks_concat_length k us B), Nat.mod_mul by (pose proof k_pos; lia).
  cbn [andb Nat.eqb]. rewrite (reshape_concat k us k_pos B). destruct (conv_run c us s); reflexivity.
Qed.

Lemma as_blocks u h : length u = h * k -> exists us, u = concat us /\ blocks k us /\ length us = h.
Proof.
  intros L. destruct (reshape_rows_spec k h u L) as (C & Lr & F). exists (reshape_rows h k u). auto.
Qed.

Lemma reachable_iff j s : reachable c j s <-> row_space d (reach_stack c 0 j) s.
Proof.
  rewrite row_space_iff by (apply reach_stack_wf; auto). rewrite reach_stack_length by auto. split.
  - intros (us & B & L & <-). exists (concat us). rewrite (blocks_concat_length k us B), L. split; auto. rewrite reach_spec, L by auto. reflexivity.
  - intros (e & L & <-). destruct (as_blocks e j L) as (us & -> & B & Lu). exists us. split; auto. split; auto. rewrite reach_spec, Lu by auto. reflexivity.
Qed.

Lemma reach_split h : reach_stack c 0 (h + mu) = reach_stack c mu h ++ reach_stack c 0 mu.
Proof. unfold reach_stack. rewrite Nat.add_comm, seq_app, rev_app_distr, map_app, concat_app. reflexivity. Qed.

(* ---- zero termination ---- *)
Definition tail_of h u := match tail_projector c h with Some P => vecmat (mu * k) u P | None => [] end.

Lemma tail_projector_some h : 0 < h -> 0 < mu -> exists P, tail_projector c h = Some P /\ wf (mu * k) P /\ length P = h * k /\
  forall u, vecmat (mu * k) u P = vecmat (mu * k) (vecmat d u (reach_stack c mu h)) (pseudo_inverse d (reach_stack c 0 mu)).
Proof.
  intros Hh Hm. unfold tail_projector. destruct (Nat.ltb_spec 0 h); [|lia]. destruct (Nat.ltb_spec 0 mu); [|lia]. cbn [andb].
  pose proof (reach_stack_wf c OK 0 mu) as WT. pose proof (reach_stack_length c OK 0 mu) as LT.
  pose proof (reach_stack_wf c OK mu h) as WI. pose proof (reach_stack_length c OK mu h) as LI.
  destruct (pinv_shape d _ WT) as [WP LP]. rewrite LT in *.
  eexists. split; [reflexivity|]. split; [apply wf_matmul; auto|]. split; [rewrite matmul_length; auto|].
  intros u. apply vecmat_matmul; auto.
Qed.

Lemma zero_tail h u : 0 < h -> 0 < mu -> length u = h * k ->
  (forall s, reachable c (h + mu) s -> reachable c mu s) ->
  length (tail_of h u) = mu * k /\
  terminated_run c h ZeroTermination u = encode_with_state c (u ++ tail_of h u) (zeros d) /\
  vecmat d (u ++ tail_of h u) (reach_stack c 0 (h + mu)) = zeros d.
Proof.
  intros Hh Hm Lu R. destruct (tail_projector_some h Hh Hm) as (P & E & WP & LP & S).
  unfold tail_of, terminated_run, pre_process_input, initial_state. rewrite E.
  split; [apply vecmat_length; auto|]. split; [reflexivity|].
  pose proof (reach_stack_wf c OK 0 mu) as WT. pose proof (reach_stack_length c OK 0 mu) as LT.
  pose proof (reach_stack_wf c OK mu h) as WI. pose proof (reach_stack_length c OK mu h) as LI.
  destruct (pinv_shape d _ WT) as [WQ LQ]. rewrite LT in *.
  rewrite reach_split. rewrite vecmat_app by (auto; lia). rewrite S. set (s := vecmat d u (reach_stack c mu h)) in *.
  assert (Ls : length s = d) by (apply vecmat_length; auto).
  assert (Rs : reachable c mu s).
  { apply R. apply reachable_iff. apply row_space_iff; [apply reach_stack_wf; auto|]. exists (u ++ zeros (mu * k)).
    rewrite reach_stack_length, app_length, zeros_length by auto. split; [lia|]. rewrite reach_split, vecmat_app by (auto; lia).
    rewrite vecmat_zeros by auto. apply vxor_zeros_r. auto. }
  apply reachable_iff, row_space_iff in Rs as (e & Le & Ee); auto. rewrite LT in Le.
  assert (F : vecmat d (vecmat (mu * k) s (pseudo_inverse d (reach_stack c 0 mu))) (reach_stack c 0 mu) = s).
  { rewrite <- Ee. pose proof (pinv_mxm d (reach_stack c 0 mu) WT) as G. rewrite LT in G.
    transitivity (vecmat d e (matmul d (matmul (mu * k) (reach_stack c 0 mu) (pseudo_inverse d (reach_stack c 0 mu))) (reach_stack c 0 mu))); [|rewrite G; reflexivity].
    rewrite vecmat_matmul with (n := mu * k) by (auto; apply wf_matmul; auto). f_equal. symmetry. apply vecmat_matmul; auto. }
  rewrite F, vxor_self, Ls. reflexivity.
Qed.

Lemma zero_terminated h u : 0 < h -> 0 < mu -> length u = h * k ->
  (forall s, reachable c (h + mu) s -> reachable c mu s) ->
  exists v, terminated_run c h ZeroTermination u = Some (v, zeros d) /\ length v = (h + mu) * n.
Proof.
  intros Hh Hm Lu R. destruct (zero_tail h u Hh Hm Lu R) as (Lt & E & Z). rewrite E.
  destruct (as_blocks (u ++ tail_of h u) (h + mu)) as (us & Eu & B & Lus); [rewrite app_length; lia|].
  rewrite Eu, encode_with_state_blocks by (auto; apply zeros_length). rewrite (reach_spec c OK us B), Lus, <- Eu, Z.
  eexists; split; [reflexivity|]. rewrite (blocks_concat_length n) by (apply run_blocks; auto). rewrite run_length, Lus. reflexivity.
Qed.

(* ---- stabilisation of the reachable set ---- *)
Lemma reachable_mono j s : reachable c j s -> reachable c (S j) s.
Proof.
  intros (us & B & L & E). exists (zeros k :: us). split; [constructor; auto; apply zeros_length|]. split; [cbn; lia|].
  cbn [conv_run]. cbv zeta. assert (N : conv_next c (zeros d) (zeros k) = zeros d).
  { destruct OK as [_ _ [WA LA] [WB LB] _ _]. unfold conv_next. rewrite !vecmat_zeros by auto. apply vxor_zeros_r, zeros_length. }
  rewrite N. destruct (conv_run c us (zeros d)); auto.
Qed.
Lemma reachable_mono_le i j s : i <= j -> reachable c i s -> reachable c j s.
Proof. induction 1; auto. intros. apply reachable_mono. auto. Qed.
Lemma reachable_succ j s : reachable c (S j) s <-> exists s' u, reachable c j s' /\ length u = k /\ conv_next c s' u = s.
Proof.
  split.
  - intros (us & B & L & E). destruct us as [|u us _] using rev_ind; [discriminate|]. rewrite run_snoc in E. cbn [snd] in E.
    apply Forall_app in B as [B Bu]. inversion Bu; subst. rewrite app_length in L. cbn in L. eexists _, u. split; [exists us; repeat split; auto; lia|auto].
  - intros (s' & u & (us & B & L & E) & Lu & <-). exists (us ++ [u]). split; [apply Forall_app; auto|]. rewrite app_length. cbn. split; [lia|]. rewrite run_snoc, E. reflexivity.
Qed.
Lemma stable_step j : (forall s, reachable c (S j) s -> reachable c j s) -> forall i s, reachable c (j + i) s -> reachable c j s.
Proof.
  intros H. induction i as [|i IH]; intros s; [rewrite Nat.add_0_r; auto|]. rewrite Nat.add_succ_r, reachable_succ.
  intros (s' & u & R & Lu & E). apply H. apply reachable_succ. exists s', u. auto.
Qed.
Definition rk j := rank d (reach_stack c 0 j).
Lemma rk_card j : has_card (reachable c j) (2 ^ rk j).
Proof.
  destruct (rank_spec d _ (reach_stack_wf c OK 0 j)) as (B & WB & LB & IB & _ & EB & _). destruct (independent_card d B WB IB) as (l & ND & Ll & Il).
  exists l. split; auto. split; [unfold rk; congruence|]. intros x. rewrite Il, <- EB, reachable_iff. reflexivity.
Qed.
Lemma rk_eq j : rk (S j) <= rk j -> forall s, reachable c (S j) s -> reachable c j s.
Proof.
  intros H s R. destruct (rk_card j) as (l & ND & Ll & Il). destruct (rk_card (S j)) as (l' & ND' & Ll' & Il').
  apply Il. assert (incl l l') by (intros x I; apply Il', reachable_mono, Il, I).
  apply (NoDup_length_incl ND) in H0; [apply H0, Il', R|]. rewrite Ll, Ll'. apply Nat.pow_le_mono_r; lia.
Qed.
Lemma rk_grow j : (exists i, i < j /\ forall s, reachable c (S i) s -> reachable c i s) \/ j <= rk j.
Proof.
  induction j as [|j IH]; [right; lia|]. destruct IH as [(i & Hi & S)|G]; [left; exists i; split; auto; lia|].
  destruct (le_lt_dec (rk (S j)) (rk j)) as [L|L]; [left; exists j; split; [lia|apply rk_eq; auto]|right; lia].
Qed.
Lemma reachable_stable j i s : d <= j -> reachable c (j + i) s -> reachable c j s.
Proof.
  intros Hj R. destruct (rk_grow (S d)) as [(i0 & Hi & S)|G].
  - apply (reachable_mono_le i0); [lia|]. replace (j + i) with (i0 + (j + i - i0)) in R by lia. apply (stable_step i0 S _ _ R).
  - destruct (rank_spec d _ (reach_stack_wf c OK 0 (S d))) as (_ & _ & _ & _ & _ & _ & _ & Rd & _). unfold rk in G. lia.
Qed.

(* ---- tail biting ---- *)
Definition AhI h := map (fun '(r, e) => vxor r e) (combine (mat_pow d (cv_A c) h) (eye d)).
Lemma AhI_shape h : wf d (AhI h) /\ length (AhI h) = d.
Proof.
  unfold AhI. split.
  - apply Forall_forall. intros r I. apply in_map_iff in I as ([a e] & <- & I). pose proof (wf_pow c OK h) as W. unfold wf in W. rewrite Forall_forall in W.
    pose proof (wf_eye d) as W'. unfold wf in W'. rewrite Forall_forall in W'. pose proof (in_combine_l _ _ _ _ I). apply in_combine_r in I. rewrite vxor_length by (rewrite W, W'; auto). auto.
  - rewrite map_length, combine_length, pow_length, eye_length by auto. lia.
Qed.
Lemma vecmat_AhI h s : length s = d -> vecmat d s (AhI h) = vxor (vecmat d s (mat_pow d (cv_A c) h)) s.
Proof.
  intros Ls. rewrite <- (vecmat_eye d s Ls) at 3. unfold AhI.
  assert (G : forall v A B, wf d A -> wf d B -> length A = length B -> length v = length A -> vecmat d v (map (fun '(r, e) => vxor r e) (combine A B)) = vxor (vecmat d v A) (vecmat d v B)).
  { clear. induction v as [|x v IH]; intros [|a A] [|b B] WA WB L Lv; cbn in L, Lv; try lia; cbn [combine map vecmat]; [symmetry; apply vxor_zeros_r, zeros_length|].
    apply wf_cons in WA as [La WA]. apply wf_cons in WB as [Lb WB]. destruct x; [|apply IH; auto; lia]. rewrite IH by (auto; lia).
    rewrite !vxor_assoc. f_equal. rewrite <- !vxor_assoc. f_equal. apply vxor_comm. }
  apply G; auto using wf_pow, wf_eye. rewrite pow_length, eye_length; auto. rewrite pow_length; auto.
Qed.

Lemma tail_biting h u : length u = h * k ->
  (forall s, length s = d -> snd (conv_run c (repeat (zeros k) h) s) = s -> s = zeros d) ->
  exists v s, terminated_run c h TailBiting u = Some (v, s) /\ initial_state c h TailBiting u = Some s /\ length v = h * n.
Proof.
  intros Lu Inv. destruct (as_blocks u h Lu) as (us & -> & B & Lus). destruct (AhI_shape h) as [WA LA].
  unfold terminated_run, pre_process_input, initial_state. rewrite encode_with_state_blocks by (auto; apply zeros_length).
  set (zs := snd (conv_run c us (zeros d))). assert (Lz : length zs = d) by (apply run_state_length; auto; apply zeros_length).
  unfold zs_multiplier. fold (AhI h). set (P := pseudo_inverse d (AhI h)).
  destruct (pinv_shape d (AhI h) WA) as [WP LP]. rewrite LA in WP. fold P in WP, LP.
  assert (Ind : independent d (AhI h)).
  { intros e Le E. rewrite LA in *. apply Inv; auto. rewrite run_zeros_input by auto. rewrite vecmat_AhI in E by auto.
    apply vxor_eq_zeros; rewrite vecmat_length by (apply wf_pow; auto); auto. }
  assert (PA : matmul d P (AhI h) = eye d).
  { apply left_inverse_right; auto. pose proof (pinv_right d (AhI h) WA) as R. rewrite LA in R. apply R.
    apply rank_full_independent in Ind; auto. congruence. }
  set (s0 := vecmat d zs P). assert (Ls0 : length s0 = d) by (apply vecmat_length; auto).
  assert (E : vxor (vecmat d s0 (mat_pow d (cv_A c) h)) s0 = zs).
  { rewrite <- vecmat_AhI by auto. unfold s0. rewrite <- vecmat_matmul by auto. rewrite PA, vecmat_eye; auto. }
  exists (concat (fst (conv_run c us s0))), s0. rewrite encode_with_state_blocks by auto. split; [|split; auto].
  - f_equal. f_equal. rewrite run_superpose by auto. fold zs. rewrite Lus, <- E. apply vxor_cancel_r || idtac.
    rewrite vxor_comm. apply vxor_cancel. rewrite vecmat_length; auto. apply wf_pow; auto.
  - rewrite (blocks_concat_length n) by (apply run_blocks; auto). rewrite run_length, Lus. reflexivity.
Qed.

(* nilpotent feedback: the state is forgotten after j zero inputs *)
Lemma forgetting_no_fixed j h : 0 < h -> (forall s, length s = d -> snd (conv_run c (repeat (zeros k) j) s) = zeros d) ->
  forall s, length s = d -> snd (conv_run c (repeat (zeros k) h) s) = s -> s = zeros d.
Proof.
  intros Hh F s Ls E.
  assert (G : forall i, snd (conv_run c (repeat (zeros k) (i * h)) s) = s).
  { induction i as [|i IH]; auto. cbn [Nat.mul]. rewrite repeat_app, run_app. cbn [snd]. rewrite E. exact IH. }
  assert (Zr : forall i, snd (conv_run c (repeat (zeros k) i) (zeros d)) = zeros d).
  { intros i. rewrite run_zeros_input by (auto; apply zeros_length). apply vecmat_zeros. apply wf_pow; auto. }
  specialize (G j). replace (j * h) with (j + (j * h - j)) in G by nia. rewrite repeat_app, run_app in G. cbn [snd] in G. rewrite F, Zr in G by auto. auto.
Qed.

(* ---- linearity of the terminated encoder ---- *)
Lemma concat_vxor_blocks us vs : blocks k us -> blocks k vs -> length us = length vs -> vxor (concat us) (concat vs) = concat (badd us vs).
Proof. intros. symmetry. apply (concat_badd k); auto. Qed.
Lemma badd_blocks w us vs : blocks w us -> blocks w vs -> length us = length vs -> blocks w (badd us vs).
Proof. revert vs; induction us; intros [|v vs] B B' L; cbn in *; try lia; [constructor|]. inversion B; inversion B'; subst. constructor; [rewrite vxor_length; congruence|]. apply IHus; auto. Qed.

Lemma encode_state_linear h x x' s s' : length x = h * k -> length x' = h * k -> length s = d -> length s' = d ->
  exists v f v' f', encode_with_state c x s = Some (v, f) /\ encode_with_state c x' s' = Some (v', f') /\
    encode_with_state c (vxor x x') (vxor s s') = Some (vxor v v', vxor f f') /\ length v = h * n /\ length v' = h * n /\ length f = d /\ length f' = d.
Proof.
  intros Lx Lx' Ls Ls'. destruct (as_blocks x h Lx) as (us & -> & B & L). destruct (as_blocks x' h Lx') as (us' & -> & B' & L').
  rewrite concat_vxor_blocks by (auto; congruence). rewrite !encode_with_state_blocks; auto.
  2:{ apply badd_blocks; auto; congruence. } 2:{ rewrite vxor_length; congruence. }
  do 4 eexists. split; [reflexivity|]. split; [reflexivity|]. rewrite run_linear by (auto; congruence). cbn [fst snd].
  rewrite (concat_badd n) by (try apply run_blocks; auto; rewrite !run_length; congruence).
  split; [reflexivity|]. rewrite !(blocks_concat_length n) by (apply run_blocks; auto). rewrite !run_length, L, L', !run_state_length by auto. auto.
Qed.

Definition mode_ok h m := match m with ZeroTermination => 0 < h /\ 0 < mu | _ => True end.

Definition steps h m := match m with ZeroTermination => h + mu | _ => h end.

Lemma pre_process_linear h m u u' : mode_ok h m -> length u = h * k -> length u' = h * k ->
  exists x x', pre_process_input c h m u = Some x /\ pre_process_input c h m u' = Some x' /\ pre_process_input c h m (vxor u u') = Some (vxor x x') /\
    length x = steps h m * k /\ length x' = steps h m * k /\ firstn (h * k) x = u.
Proof.
  intros Hm Lu Lu'. destruct m; cbn [pre_process_input steps] in *.
  - exists u, u'. repeat split; auto. rewrite <- Lu. apply firstn_all.
  - destruct Hm as [H1 H2]. destruct (tail_projector_some h H1 H2) as (P & -> & WP & LP & _).
    exists (u ++ vecmat (mu * k) u P), (u' ++ vecmat (mu * k) u' P). rewrite !app_length, !vecmat_length by auto. repeat split; auto; try lia.
    + rewrite vecmat_vxor by (auto; congruence). f_equal.
      assert (forall a b a' b' : vec, length a = length a' -> vxor a a' ++ vxor b b' = vxor (a ++ b) (a' ++ b')).
      { induction a as [|x a IH]; intros b [|y a'] b' L; cbn in *; try lia; auto. f_equal. apply IH. lia. }
      apply H. congruence.
    + rewrite <- Lu. apply firstn_app_exact.
  - exists u, u'. repeat split; auto. rewrite <- Lu. apply firstn_all.
Qed.

Lemma initial_state_linear h m u u' : length u = h * k -> length u' = h * k ->
  exists s s', initial_state c h m u = Some s /\ initial_state c h m u' = Some s' /\ initial_state c h m (vxor u u') = Some (vxor s s') /\ length s = d /\ length s' = d.
Proof.
  intros Lu Lu'.
  assert (Zc : exists s s', Some (zeros d) = Some s /\ Some (zeros d) = Some s' /\ Some (zeros d) = Some (vxor s s') /\ length s = d /\ length s' = d).
  { exists (zeros d), (zeros d). rewrite vxor_self, zeros_length. auto. }
  destruct m; cbn [initial_state]; auto.
  destruct (AhI_shape h) as [WA LA]. destruct (pinv_shape d (AhI h) WA) as [WP LP]. rewrite LA in WP.
  destruct (encode_state_linear h u u' (zeros d) (zeros d) Lu Lu' (zeros_length d) (zeros_length d)) as (v & f & v' & f' & E1 & E2 & E3 & _ & _ & Lf & Lf').
  rewrite vxor_self, zeros_length in E3. rewrite E1, E2, E3. unfold zs_multiplier. fold (AhI h).
  do 2 eexists. split; [reflexivity|]. split; [reflexivity|]. rewrite vecmat_vxor by (auto; congruence). rewrite !vecmat_length by auto. auto.
Qed.

Lemma terminated_length_steps h m : terminated_length c h m = steps h m * n.
Proof. destruct m; reflexivity. Qed.

Lemma terminated_linear h m u u' : mode_ok h m -> length u = h * k -> length u' = h * k ->
  exists v f v' f', terminated_run c h m u = Some (v, f) /\ terminated_run c h m u' = Some (v', f') /\
    terminated_run c h m (vxor u u') = Some (vxor v v', vxor f f') /\ length v = terminated_length c h m /\ length v' = terminated_length c h m.
Proof.
  intros Hm Lu Lu'. destruct (pre_process_linear h m u u' Hm Lu Lu') as (x & x' & E1 & E2 & E3 & Lx & Lx' & _).
  destruct (initial_state_linear h m u u' Lu Lu') as (s & s' & F1 & F2 & F3 & Ls & Ls'). unfold terminated_run. rewrite E1, E2, E3, F1, F2, F3.
  destruct (encode_state_linear (steps h m) x x' s s' Lx Lx' Ls Ls') as (v & f & v' & f' & G1 & G2 & G3 & Lv & Lv' & _).
  rewrite terminated_length_steps. do 4 eexists. eauto 10.
Qed.

Lemma encode_vxor h m u u' : mode_ok h m -> length u = h * k -> length u' = h * k ->
  terminated_encode c h m (vxor u u') = vxor (terminated_encode c h m u) (terminated_encode c h m u').
Proof. intros Hm Lu Lu'. destruct (terminated_linear h m u u' Hm Lu Lu') as (v & f & v' & f' & G1 & G2 & G3 & _). unfold terminated_encode. rewrite G1, G2, G3. reflexivity. Qed.
Lemma encode_length h m u : mode_ok h m -> length u = h * k -> length (terminated_encode c h m u) = terminated_length c h m.
Proof. intros Hm Lu. destruct (terminated_linear h m u u Hm Lu Lu) as (v & f & v' & f' & G1 & G2 & G3 & L & _). unfold terminated_encode. rewrite G1. auto. Qed.
End Term.

(* a linear map on words is multiplication by the matrix of the images of the unit vectors *)
Lemma linear_matrix (K N : nat) (f : vec -> vec) : (forall u, length u = K -> length (f u) = N) ->
  (forall u v, length u = K -> length v = K -> f (vxor u v) = vxor (f u) (f v)) ->
  forall u, length u = K -> f u = vecmat N u (map f (eye K)).
Proof.
  intros Lf Lin.
  assert (Z : f (zeros K) = zeros N).
  { pose proof (Lin (zeros K) (zeros K) (zeros_length K) (zeros_length K)) as E. rewrite vxor_self, zeros_length in E. rewrite E, vxor_self, Lf; auto. apply zeros_length. }
  assert (G : forall u (B : list vec), length u = length B -> (forall b, In b B -> length b = K) -> f (vecmat K u B) = vecmat N u (map f B)).
  { induction u as [|x u IH]; intros [|b B] L W; cbn in L; try lia; cbn [vecmat map]; auto.
    assert (Lb : length b = K) by (apply W; left; auto).
    assert (WB : wf K B) by (apply Forall_forall; intros; apply W; right; auto).
    destruct x; [|apply IH; [lia|intros; apply W; right; auto]].
    rewrite Lin by (auto; apply vecmat_length; auto). f_equal. apply IH; [lia|intros; apply W; right; auto]. }
  intros u Lu. rewrite <- G; [rewrite vecmat_eye; auto|rewrite eye_length; auto|].
  intros b I. pose proof (wf_eye K) as W. unfold wf in W. rewrite Forall_forall in W. auto.
Qed.

Lemma linear_independent (K N : nat) (f : vec -> vec) : (forall u, length u = K -> length (f u) = N) ->
  (forall u v, length u = K -> length v = K -> f (vxor u v) = vxor (f u) (f v)) ->
  (independent N (map f (eye K)) <-> (forall u v, length u = K -> length v = K -> f u = f v -> u = v)).
Proof.
  intros Lf Lin. pose proof (linear_matrix K N f Lf Lin) as M.
  assert (Z : f (zeros K) = zeros N).
  { pose proof (Lin (zeros K) (zeros K) (zeros_length K) (zeros_length K)) as E. rewrite vxor_self, zeros_length in E. rewrite E, vxor_self, Lf; auto. apply zeros_length. }
  unfold independent. rewrite map_length, eye_length. split.
  - intros I u v Lu Lv E. assert (Lx : length (vxor u v) = K) by (rewrite vxor_length; congruence).
    specialize (I (vxor u v) Lx). rewrite <- M, Lin, E, vxor_self, Lf in I by auto. specialize (I eq_refl). apply vxor_eq_zeros; congruence.
  - intros Inj e Le E. apply Inj; auto; [apply zeros_length|]. rewrite Z, M; auto.
Qed.

Section Code.
Context (c : conv) (OK : conv_ok c).
Local Notation d := (cv_deg c).
Local Notation k := (cv_k c).

Lemma terminated_code_valid h m : 0 < h -> mode_ok c h m ->
  (forall u v, length u = h * k -> length v = h * k -> terminated_encode c h m u = terminated_encode c h m v -> u = v) ->
  exists C, terminated_code c h m = Some C /\ valid_code C /\ bc_n C = terminated_length c h m /\ bc_k C = h * k /\
    bc_encode C = terminated_encode c h m.
Proof.
  intros Hh Hm Inj.
  pose proof (fun u => encode_length c OK h m u Hm) as Lf. pose proof (fun u v => encode_vxor c OK h m u v Hm) as Lin.
  pose proof (linear_matrix _ _ _ Lf Lin) as Mx.
  set (G := map (terminated_encode c h m) (eye (h * k))).
  assert (W : wf (terminated_length c h m) G).
  { apply Forall_forall. intros r I. apply in_map_iff in I as (e & <- & I). apply Lf. pose proof (wf_eye (h * k)) as W. unfold wf in W. rewrite Forall_forall in W. auto. }
  assert (I : independent (terminated_length c h m) G) by (apply linear_independent; auto).
  assert (LG : length G = h * k) by (unfold G; rewrite map_length, eye_length; auto).
  pose proof (k_pos c OK) as Pk.
  destruct (BlockCode_Proof.code_of_generator_valid _ G W I) as (C & E & A & K & EG & V & Cw); [nia|].
  unfold terminated_code. destruct (terminated_linear c OK h m (zeros (h * k)) (zeros (h * k)) Hm (zeros_length _) (zeros_length _)) as (v & f & _ & _ & -> & _).
  fold G. rewrite E. eexists; split; [reflexivity|]. cbn [bc_n bc_k bc_encode]. split; [|auto].
  assert (Enc : forall u, length u = h * k -> terminated_encode c h m u = bc_encode C u).
  { intros u Lu. rewrite Mx by auto. fold G. rewrite (ok_encode C V) by congruence. rewrite A, EG. reflexivity. }
  set (C' := {| bc_n := _ |}).
  assert (Ek : bc_k C = h * k) by congruence.
  assert (Em : bc_m C = terminated_length c h m - h * k) by (pose proof (ok_params C V); lia).
  assert (CwE : forall v, is_codeword C' v <-> is_codeword C v).
  { intros v0. split; intros (u & Lu & <-); exists u; cbn [bc_k bc_encode C'] in *; rewrite Ek in *; (split; [exact Lu|]); [symmetry|]; apply Enc; auto. }
  destruct V as [P [O1 O2 O3 O4 O5 O6] [Q1 Q2 Q3 Q4 Q5]]. constructor.
  - cbn [C' bc_n bc_k bc_m]. lia.
  - constructor; cbn [C' bc_n bc_k bc_G bc_encode bc_project]; auto.
    intros u Lu. rewrite Enc by auto. apply O6. congruence.
  - constructor; cbn [C' bc_n bc_m bc_H bc_check bc_G]; try rewrite <- Em; try rewrite <- A; auto.
    + intros r Lr. rewrite Q3 by auto. symmetry. apply CwE.
    + rewrite <- EG. auto.
Qed.

(* injectivity when the feedthrough matrix D has independent rows *)
Lemma run_injective us vs s : independent (cv_n c) (cv_D c) -> blocks k us -> blocks k vs -> length us = length vs -> length s = d ->
  fst (conv_run c us s) = fst (conv_run c vs s) -> us = vs.
Proof.
  intros I. revert vs s; induction us as [|u us IH]; intros [|v vs] s B B' L Ls E; cbn in L; try lia; auto.
  inversion B; inversion B'; subst. cbn [conv_run] in E. cbv zeta in E.
  assert (Euv : conv_output c s u = conv_output c s v) by (destruct (conv_run c us _), (conv_run c vs _); cbn in E; congruence).
  assert (u = v).
  { destruct OK as [_ _ _ _ [WC LC] [WD LD]]. unfold conv_output in Euv. apply (f_equal (vxor (vecmat (cv_n c) s (cv_C c)))) in Euv.
    rewrite !vxor_cancel in Euv by (rewrite !vecmat_length; auto).
    assert (Lx : length (vxor u v) = length (cv_D c)) by (rewrite vxor_length; congruence).
    specialize (I (vxor u v) Lx). rewrite vecmat_vxor, Euv, vxor_self, vecmat_length in I by (auto; congruence). specialize (I eq_refl). apply vxor_eq_zeros; [congruence|]. rewrite I. f_equal. congruence. }
  subst v. f_equal. eapply (IH vs (conv_next c s u)); auto. apply next_length; auto.
  destruct (conv_run c us _), (conv_run c vs _). cbn in *. congruence.
Qed.

Lemma concat_blocks_inj w us vs : blocks w us -> blocks w vs -> length us = length vs -> concat us = concat vs -> us = vs.
Proof.
  revert vs; induction us as [|u us IH]; intros [|v vs] B B' L E; cbn in L; try lia; auto. inversion B; inversion B'; subst. cbn in E.
  apply app_inj_len in E as [-> E]; [|congruence]. f_equal. auto.
Qed.

Lemma injective_of_D h m : mode_ok c h m -> m <> TailBiting -> independent (cv_n c) (cv_D c) ->
  forall u v, length u = h * k -> length v = h * k -> terminated_encode c h m u = terminated_encode c h m v -> u = v.
Proof.
  intros Hm NT I u v Lu Lv E. unfold terminated_encode, terminated_run in E.
  destruct (pre_process_linear c OK h m u v Hm Lu Lv) as (x & x' & E1 & E2 & _ & Lx & Lx' & Fx).
  destruct (pre_process_linear c OK h m v u Hm Lv Lu) as (y & _ & E3 & _ & _ & _ & _ & Fy). rewrite E2 in E3. injection E3 as <-.
  rewrite E1, E2 in E. assert (ES : initial_state c h m u = Some (zeros d) /\ initial_state c h m v = Some (zeros d)) by (destruct m; auto; congruence).
  destruct ES as [-> ->] in E.
  destruct (as_blocks c x _ Lx) as (us & -> & B & L). destruct (as_blocks c x' _ Lx') as (us' & -> & B' & L').
  rewrite !(encode_with_state_blocks c OK) in E by (auto; apply zeros_length).
  apply (concat_blocks_inj (cv_n c)) in E; try apply run_blocks; auto; [|rewrite !run_length; congruence].
  apply run_injective in E; auto; [|congruence|apply zeros_length]. subst us'. congruence.
Qed.
End Code.
