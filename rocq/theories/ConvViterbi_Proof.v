From Coq Require Import QArith Lqa.
From Verif Require Import Common Bits_Model Vec_Model Vec_Proof LinAlg_Model Linear_Spec LinAlg_Proof XRref_Proof BlockCode_Model FSM_Model FSM_Spec FSM_Proof
  Conv_Model Conv_Spec Conv_Proof ConvTerm_Proof ConvCons_Proof.
From Verif Require FreeDist_Proof Decoders_Proof Props_FSM.
Local Open Scope nat_scope.

Section Dec.
Context (c : conv) (OK : conv_ok c).
Local Notation d := (cv_deg c).
Local Notation k := (cv_k c).
Local Notation n := (cv_n c).
Local Notation mu := (cv_mem c).
Local Notation M := (conv_fsm c).
Context {Z : Type} (cost : vec -> Z -> Q).
Let metric (y : nat) (z : Z) : xQ := Some (cost (nbits n y) z).
Definition path_cost (vs : list vec) (zs : list Z) : Q := fold_right Qplus 0%Q (map (fun '(v, z) => cost v z) (combine vs zs)).

Context (INJ : forall s u u', length s = d -> length u = k -> length u' = k -> conv_next c s u = conv_next c s u' -> u = u').

Lemma no_parallel : no_parallel_edges M.
Proof.
  intros s x x' Hs Hx Hx' E. rewrite (fsm_num_states c) in Hs. rewrite (fsm_num_inputs c) in Hx, Hx'. rewrite !(fsm_next_spec c) in E by auto.
  assert (nbits k x = nbits k x').
  { apply (INJ (nbits d s)); try apply nbits_length. rewrite <- (nbits_bitsn (conv_next c (nbits d s) (nbits k x)) d) by (apply next_length; auto).
    rewrite E. apply nbits_bitsn, next_length; auto. }
  rewrite <- (bitsn_nbits k x Hx), H. apply bitsn_nbits. auto.
Qed.

Definition init : list xQ := upd 0 (Some 0%Q : xQ) (repeat (None : xQ) (num_states M)).
Lemma init_length : length init = num_states M.
Proof. unfold init. rewrite upd_length, repeat_length. reflexivity. Qed.
Lemma num_pos : 0 < num_states M. Proof. rewrite (fsm_num_states c). apply pow2_pos. Qed.
Lemma init_0 : nth 0 init (None : xQ) = Some 0%Q.
Proof. unfold init. pose proof num_pos. destruct (num_states M); [lia|]. reflexivity. Qed.
Lemma init_other s : s <> 0 -> nth s init (None : xQ) = None.
Proof. intros H. unfold init. generalize (num_states M) as m. intros m. destruct m; destruct s; try congruence; cbn [repeat upd nth]; auto. clear. revert m; induction s; intros [|m]; cbn; auto. Qed.

Lemma fold_madd (l : list Q) (a : Q) : exists b, fold_left (madd xQ) (map (fun q => Some q : xQ) l) (Some a : xQ) = Some b /\ (b == a + fold_right Qplus 0 l)%Q.
Proof.
  revert a; induction l as [|x l IH]; intros a; cbn [map fold_left fold_right]; [exists a; split; [reflexivity|lra]|].
  destruct (IH (a + x)%Q) as (b & E & Eb). exists b. split; [exact E|]. rewrite Eb. lra.
Qed.
Lemma metric_map vs zs : blocks n vs -> map (fun '(y, z) => metric y z) (combine (map bitsn vs) zs) = map (fun q => Some q : xQ) (map (fun '(v, z) => cost v z) (combine vs zs)).
Proof.
  intros B. revert zs; induction B as [|v vs L B IH]; intros [|z zs]; cbn [map combine]; auto. unfold metric at 1. rewrite nbits_bitsn by auto. f_equal. apply IH.
Qed.
Lemma run_metric_0 us zs : blocks k us -> exists b, run_metric xQ M metric init 0 (map bitsn us) zs = Some b /\ (b == path_cost (fst (conv_run c us (zeros d))) zs)%Q.
Proof.
  intros B. unfold run_metric. rewrite <- (FreeDist_Proof.bitsn_zeros d), (fsm_process c OK us (zeros d) B (zeros_length d)). rewrite (FreeDist_Proof.bitsn_zeros d). cbn [fst].
  rewrite metric_map by (apply run_blocks; auto). change (minf xQ) with (None : xQ). rewrite init_0. destruct (fold_madd (map (fun '(v, z) => cost v z) (combine (fst (conv_run c us (zeros d))) zs)) 0%Q) as (b & E & Eb).
  exists b. split; [exact E|]. rewrite Eb. unfold path_cost. lra.
Qed.
Lemma run_metric_inf s xs (zs : list Z) : s <> 0 -> run_metric xQ M metric init s xs zs = None.
Proof.
  intros H. unfold run_metric. change (minf xQ) with (None : xQ). rewrite init_other by auto. generalize (map (fun '(y, z) => metric y z) (combine (fst (process M xs s)) zs)) as l.
  induction l as [|x l IH]; cbn [fold_left]; auto.
Qed.

Lemma path_info (zs : list Z) :
  let '(xs_hat, final) := viterbi xQ M metric zs init in
  length final = num_states M /\
  (forall f b, f < num_states M -> nth f final (None : xQ) = Some b ->
     exists us, blocks k us /\ length us = length zs /\ nth f xs_hat [] = map Z.of_nat (map bitsn us) /\ bitsn (snd (conv_run c us (zeros d))) = f /\
       (b == path_cost (fst (conv_run c us (zeros d))) zs)%Q) /\
  (forall us', blocks k us' -> length us' = length zs -> bitsn (snd (conv_run c us' (zeros d))) < num_states M /\
     exists b, nth (bitsn (snd (conv_run c us' (zeros d)))) final (None : xQ) = Some b /\ (b <= path_cost (fst (conv_run c us' (zeros d))) zs)%Q).
Proof.
  pose proof (Props_FSM.C47_viterbi xQ Z M metric zs init Props_FSM.C47_rational_metrics (fsm_mealy_ok c OK) no_parallel init_length) as V.
  destruct (viterbi xQ M metric zs init) as [xs_hat final]. destruct V as (L1 & L2 & V). split; [auto|].
  assert (RUN : forall us, blocks k us -> snd (process M (map bitsn us) 0) = bitsn (snd (conv_run c us (zeros d)))).
  { intros us B. rewrite <- (FreeDist_Proof.bitsn_zeros d), (fsm_process c OK us (zeros d) B (zeros_length d)). reflexivity. }
  assert (IW : forall us, blocks k us -> input_word M (map bitsn us)).
  { intros us B. unfold input_word. rewrite (fsm_num_inputs c). apply Forall_forall. intros x I. apply in_map_iff in I as (u & <- & I). unfold blocks in B. rewrite Forall_forall in B. rewrite <- (B u I). apply bitsn_bound. }
  split.
  - intros f b Hf Eb. destruct (V f Hf) as [_ AC]. destruct AC as (s & xs & Ex & Hs & Wx & Lx & Fs & Rs & Ms).
    { change (minf xQ) with (None : xQ). rewrite Eb. reflexivity. }
    assert (s = 0). { destruct (Nat.eq_dec s 0); auto. change (minf xQ) with (None : xQ) in Fs. rewrite (init_other s) in Fs by auto. discriminate. } subst s.
    set (us := map (nbits k) xs).
    assert (Bu : blocks k us) by (apply Forall_forall; intros u I; apply in_map_iff in I as (x & <- & _); apply nbits_length).
    assert (Exs : xs = map bitsn us).
    { unfold us. rewrite map_map. clear -Wx. unfold input_word in Wx. rewrite (fsm_num_inputs c) in Wx. induction Wx; cbn [map]; auto. rewrite bitsn_nbits by auto. f_equal. auto. }
    exists us. split; auto. split; [unfold us; rewrite map_length; auto|]. split; [rewrite Ex, <- Exs; auto|]. split; [rewrite <- RUN, <- Exs; auto|].
    destruct (run_metric_0 us zs Bu) as (b' & Eb' & Qb'). rewrite <- Exs, Ms in Eb'. change (minf xQ) with (None : xQ) in Eb'. rewrite Eb in Eb'. injection Eb' as <-. auto.
  - intros us' B' L'. assert (Hf : bitsn (snd (conv_run c us' (zeros d))) < num_states M).
    { rewrite (fsm_num_states c). rewrite <- (run_state_length c OK us' (zeros d) (zeros_length d)) at 2. apply bitsn_bound. }
    split; auto. destruct (V _ Hf) as [LB _]. destruct (run_metric_0 us' zs B') as (b' & Eb' & Qb').
    specialize (LB 0 (map bitsn us') num_pos (IW us' B')). rewrite map_length in LB. specialize (LB L' (RUN us' B')).
    rewrite Eb' in LB. unfold mle in LB. cbn [mlt xQ] in LB. change (minf xQ) with (None : xQ) in LB. destruct (nth _ final None) as [b|]; [|discriminate].
    exists b. split; auto. rewrite negb_involutive in LB. apply Qle_bool_iff in LB. lra.
Qed.

Lemma dbits_blocks us : blocks k us -> concat (map (fun x => nbits k (Z.to_nat x)) (map Z.of_nat (map bitsn us))) = concat us.
Proof. intros B. f_equal. rewrite !map_map. induction B; cbn [map]; auto. rewrite Nat2Z.id, nbits_bitsn by auto. f_equal. auto. Qed.

Lemma zero_blocks m : blocks k (repeat (zeros k) m).
Proof. apply Forall_forall. intros x I. apply repeat_spec in I. subst. apply zeros_length. Qed.

Lemma decode_truncation (zs : list Z) : exists us, viterbi_decode_metric c metric DirectTruncation zs = Some (concat us) /\ blocks k us /\ length us = length zs /\
  forall us', blocks k us' -> length us' = length zs -> (path_cost (fst (conv_run c us (zeros d))) zs <= path_cost (fst (conv_run c us' (zeros d))) zs)%Q.
Proof.
  unfold viterbi_decode_metric. fold init. pose proof (path_info zs) as BP.
  destruct (viterbi xQ M metric zs init) as [xs_hat final]. destruct BP as (Lf & P1 & P2).
  pose proof num_pos as NP. pose proof Props_FSM.C47_rational_metrics as ML.
  destruct (Decoders_Proof.argmin_by_spec (mle xQ) (mle_total xQ ML) (mle_trans xQ ML) final (None : xQ)) as (Hp & Min & _). { intros E. rewrite E in Lf. cbn [length] in Lf. lia. }
  set (p := argmin_by (mle xQ) final) in *. rewrite Lf in Hp.
  assert (FIN : forall us', blocks k us' -> length us' = length zs -> exists b, nth p final (None : xQ) = Some b /\ (b <= path_cost (fst (conv_run c us' (zeros d))) zs)%Q).
  { intros us' B' L'. destruct (P2 us' B' L') as (Hf & b & Eb & Lb). rewrite <- Lf in Hf. specialize (Min _ Hf). rewrite Eb in Min. unfold mle in Min. cbn [mlt xQ] in Min.
    destruct (nth p final None) as [b0|]; [|discriminate]. exists b0. split; auto. rewrite negb_involutive in Min. apply Qle_bool_iff in Min. eapply Qle_trans; [exact Min|exact Lb]. }
  destruct (FIN (repeat (zeros k) (length zs)) (zero_blocks _) (repeat_length _ _)) as (b & Eb & _).
  destruct (P1 p b Hp Eb) as (us & B & L & Ex & Ef & Qb). exists us. rewrite Ex, dbits_blocks by auto. split; auto. split; auto. split; auto.
  intros us' B' L'. destruct (FIN us' B' L') as (b2 & Eb2 & Lb). rewrite Eb in Eb2. injection Eb2 as <-. rewrite <- Qb. exact Lb.
Qed.

Lemma decode_zero (zs : list Z) h : 0 < mu -> length zs = h + mu ->
  exists us, viterbi_decode_metric c metric ZeroTermination zs = Some (concat (firstn h us)) /\ blocks k us /\ length us = length zs /\ snd (conv_run c us (zeros d)) = zeros d /\
  forall us', blocks k us' -> length us' = length zs -> snd (conv_run c us' (zeros d)) = zeros d -> (path_cost (fst (conv_run c us (zeros d))) zs <= path_cost (fst (conv_run c us' (zeros d))) zs)%Q.
Proof.
  intros Hm Lz. unfold viterbi_decode_metric. fold init. pose proof (path_info zs) as BP.
  destruct (viterbi xQ M metric zs init) as [xs_hat final]. destruct BP as (Lf & P1 & P2).
  assert (Zr : snd (conv_run c (repeat (zeros k) (length zs)) (zeros d)) = zeros d).
  { rewrite run_zeros_input by (auto; apply zeros_length). apply vecmat_zeros. apply wf_pow; auto. }
  destruct (P2 _ (zero_blocks (length zs)) (repeat_length _ _)) as (H0 & b & Eb & _). rewrite Zr, FreeDist_Proof.bitsn_zeros in H0, Eb.
  destruct (P1 0 b H0 Eb) as (us & B & L & Ex & Ef & Qb). exists us.
  assert (Fz : snd (conv_run c us (zeros d)) = zeros d).
  { apply FreeDist_Proof.bitsn_inj; [rewrite zeros_length; apply run_state_length; auto; apply zeros_length|]. rewrite Ef, FreeDist_Proof.bitsn_zeros. reflexivity. }
  destruct (Nat.eqb_spec mu 0); [lia|]. rewrite Ex, !map_length, L, Lz. replace (h + mu - mu) with h by lia. rewrite !firstn_map.
  rewrite dbits_blocks. 2:{ apply Forall_forall. intros u I. unfold blocks in B. rewrite Forall_forall in B. apply B. rewrite <- (firstn_skipn h us). apply in_or_app; auto. }
  split; auto. split; auto. split; [lia|]. split; auto.
  intros us' B' L' E'. destruct (P2 us' B') as (_ & b2 & Eb2 & Lb); [lia|]. rewrite E', FreeDist_Proof.bitsn_zeros, Eb in Eb2. injection Eb2 as <-. rewrite <- Qb. exact Lb.
Qed.
End Dec.

(* ---- costs ---- *)
Definition cost_hard (v z : vec) : Q := inject_Z (Z.of_nat (weight (vxor v z))).
Definition soft_sum (v : vec) (z : list Q) : Q := fold_right Qplus 0%Q (map (fun '(b, x) => if b : bool then x else 0%Q) (combine v z)).
Lemma weight_app a b : weight (a ++ b) = weight a + weight b.
Proof. unfold weight. rewrite filter_app, app_length. reflexivity. Qed.
Lemma path_cost_hard n vs rs : blocks n vs -> blocks n rs -> length vs = length rs ->
  (path_cost cost_hard vs rs == inject_Z (Z.of_nat (hdist (concat vs) (concat rs))))%Q.
Proof.
  intros B. revert rs; induction B as [|v vs L B IH]; intros [|r rs] B' E; cbn in E; try lia; [reflexivity|].
  inversion B' as [|? ? Lr B'']; subst. unfold path_cost in *. cbn [combine map fold_right concat]. rewrite IH by auto. unfold hdist. rewrite vxor_app by congruence.
  rewrite weight_app. unfold cost_hard. rewrite <- inject_Z_plus, Nat2Z.inj_add. reflexivity.
Qed.
Lemma soft_sum_app v v' z z' : length v = length z -> (soft_sum (v ++ v') (z ++ z') == soft_sum v z + soft_sum v' z')%Q.
Proof.
  unfold soft_sum. revert z; induction v as [|b v IH]; intros [|x z] L; cbn in L; try lia; cbn [app combine map fold_right]; [lra|].
  rewrite IH by lia. lra.
Qed.
Lemma path_cost_soft n vs rs : blocks n vs -> Forall (fun r => length r = n) rs -> length vs = length rs ->
  (path_cost soft_sum vs rs == soft_sum (concat vs) (concat rs))%Q.
Proof.
  intros B. revert rs; induction B as [|v vs L B IH]; intros [|r rs] B' E; cbn in E; try lia; [reflexivity|].
  inversion B' as [|? ? Lr B'']; subst. unfold path_cost in *. cbn [combine map fold_right concat]. rewrite IH by auto. rewrite soft_sum_app by congruence. reflexivity.
Qed.
Lemma correlation_soft r v : length r = length v -> (Code_Spec.correlation r v == fold_right Qplus 0 r - 2 * soft_sum v r)%Q.
Proof.
  revert v; induction r as [|x r IH]; intros [|b v] L; cbn in L; try lia; [unfold soft_sum; cbn; lra|].
  unfold soft_sum in *. cbn [Code_Spec.correlation combine map fold_right]. rewrite IH by lia. destruct b; lra.
Qed.

Section Final.
Context (c : conv) (OK : conv_ok c).
Local Notation d := (cv_deg c).
Local Notation k := (cv_k c).
Local Notation n := (cv_n c).
Local Notation mu := (cv_mem c).
Context (INJ : forall s u u', length s = d -> length u = k -> length u' = k -> conv_next c s u = conv_next c s u' -> u = u').

Lemma n_pos : 0 < n. Proof. destruct OK; auto. Qed.

Lemma enc_direct h us : blocks k us -> terminated_encode c h DirectTruncation (concat us) = concat (fst (conv_run c us (zeros d))).
Proof.
  intros B. unfold terminated_encode, terminated_run, pre_process_input, initial_state. rewrite (encode_with_state_blocks c OK) by (auto; apply zeros_length). reflexivity.
Qed.

Section Generic.
Context {A : Type} (cost : vec -> list A -> Q) (tot : vec -> list A -> Q).
Context (TOT : forall vs (rs : list (list A)), blocks n vs -> Forall (fun r => length r = n) rs -> length vs = length rs -> (path_cost cost vs rs == tot (concat vs) (concat rs))%Q).
Local Notation met := (fun y z => Some (cost (nbits n y) z) : xQ).

Lemma generic_truncation h r : length r = h * n ->
  exists u, viterbi_decode_metric c met DirectTruncation (reshape n r) = Some u /\ length u = h * k /\
  forall u', length u' = h * k -> (tot (terminated_encode c h DirectTruncation u) r <= tot (terminated_encode c h DirectTruncation u') r)%Q.
Proof.
  intros Lr. pose proof n_pos as Pn.
  assert (Rm : length r mod n = 0) by (rewrite Lr; apply Nat.mod_mul; lia). destruct (reshape_spec n r Pn Rm) as (Cr & Lrr & Fr).
  rewrite Lr, Nat.div_mul in Lrr by lia.
  destruct (decode_truncation c OK cost INJ (reshape n r)) as (us & E & B & L & Opt). exists (concat us). split; [exact E|].
  rewrite (blocks_concat_length k us B). split; [congruence|]. intros u' Lu'. destruct (as_blocks c u' h Lu') as (us' & -> & B' & L').
  rewrite !enc_direct by auto. specialize (Opt us' B'). rewrite L', Lrr in Opt. specialize (Opt eq_refl).
  rewrite !TOT, Cr in Opt; try apply run_blocks; auto; rewrite run_length; congruence.
Qed.

Context (REACH : forall h s, reachable c (h + mu) s -> reachable c mu s).
Context (UNIQ : forall us us' s, blocks k us -> blocks k us' -> length us = mu -> length us' = mu -> length s = d ->
  snd (conv_run c us s) = snd (conv_run c us' s) -> us = us').

Lemma generic_zero h r : 0 < h -> 0 < mu -> length r = (h + mu) * n ->
  exists u, viterbi_decode_metric c met ZeroTermination (reshape n r) = Some u /\ length u = h * k /\
  forall u', length u' = h * k -> (tot (terminated_encode c h ZeroTermination u) r <= tot (terminated_encode c h ZeroTermination u') r)%Q.
Proof.
  intros Hh Hm Lr. pose proof n_pos as Pn.
  assert (Rm : length r mod n = 0) by (rewrite Lr; apply Nat.mod_mul; lia). destruct (reshape_spec n r Pn Rm) as (Cr & Lrr & Fr).
  rewrite Lr, Nat.div_mul in Lrr by lia.
  destruct (decode_zero c OK cost INJ (reshape n r) h Hm Lrr) as (us & E & B & L & Ez & Opt). exists (concat (firstn h us)). split; [exact E|].
  assert (Bf : blocks k (firstn h us) /\ blocks k (skipn h us)) by (rewrite <- (firstn_skipn h us) in B; apply Forall_app in B; auto). destruct Bf as [Bf Bs].
  assert (Lf : length (firstn h us) = h) by (rewrite firstn_length; lia).
  rewrite (blocks_concat_length k _ Bf), Lf. split; auto.
  (* codewords as outputs of terminated paths *)
  assert (ENC : forall u, length u = h * k -> exists ts, blocks k ts /\ length ts = mu /\ exists ws, u = concat ws /\ blocks k ws /\ length ws = h /\
     snd (conv_run c (ws ++ ts) (zeros d)) = zeros d /\ terminated_encode c h ZeroTermination u = concat (fst (conv_run c (ws ++ ts) (zeros d)))).
  { intros u Lu. destruct (zero_tail c OK h u Hh Hm Lu (REACH h)) as (Lt & Er & Zr). destruct (as_blocks c u h Lu) as (ws & -> & Bw & Lw).
    destruct (as_blocks c (tail_of c h (concat ws)) mu Lt) as (ts & Et & Bt & Lt'). exists ts. split; auto. split; auto. exists ws. split; auto. split; auto. split; auto.
    rewrite Et in Er, Zr. rewrite <- concat_app in Er, Zr. assert (Bwt : blocks k (ws ++ ts)) by (apply Forall_app; auto).
    assert (Zs : snd (conv_run c (ws ++ ts) (zeros d)) = zeros d) by (rewrite (reach_spec c OK _ Bwt), app_length, Lw, Lt'; exact Zr).
    split; auto. unfold terminated_encode. rewrite Er, (encode_with_state_blocks c OK) by (auto; apply zeros_length). reflexivity. }
  assert (Eu : terminated_encode c h ZeroTermination (concat (firstn h us)) = concat (fst (conv_run c us (zeros d)))).
  { destruct (ENC (concat (firstn h us))) as (ts & Bt & Lt & ws & Ew & Bw & Lw & Zw & ->). { rewrite (blocks_concat_length k _ Bf), Lf. auto. }
    apply (concat_blocks_inj k) in Ew; auto; [|lia]. subst ws. replace ts with (skipn h us); [rewrite firstn_skipn; auto|].
    apply (UNIQ _ _ (snd (conv_run c (firstn h us) (zeros d)))); auto; [rewrite skipn_length; lia|apply run_state_length; auto; apply zeros_length|].
    rewrite <- (firstn_skipn h us) in Ez. rewrite run_app in Ez, Zw. cbn [snd] in Ez, Zw. congruence. }
  rewrite Eu. intros u' Lu'. destruct (ENC u' Lu') as (ts & Bt & Lt & ws & -> & Bw & Lw & Zw & ->).
  assert (Bwt : blocks k (ws ++ ts)) by (apply Forall_app; auto). specialize (Opt (ws ++ ts) Bwt). rewrite app_length, Lw, Lt, Lrr in Opt. specialize (Opt eq_refl Zw).
  rewrite !TOT, Cr in Opt; try apply run_blocks; auto; rewrite run_length, ?app_length; lia.
Qed.
End Generic.
End Final.

(* ---- the hypotheses for ConvolutionalCode ---- *)
Section Instances.
Context (rows : list (list N * N)) (c : conv) (E : ConvolutionalCode rows = Some c).
Lemma cc_next_inj : Forall (fun r => 0 < row_nu r) rows ->
  forall s u u', length s = cv_deg c -> length u = cv_k c -> length u' = cv_k c -> conv_next c s u = conv_next c s u' -> u = u'.
Proof.
  intros F s u u' Ls Lu Lu' H. destruct (cc_inv rows c E) as (NE & Pn & Fn & Ek & Ed & Em & EA & EB & EC & ED).
  destruct (cc_ok rows c E) as [_ _ [WA LA] [WB LB] _ _]. unfold conv_next in H. apply (f_equal (vxor (vecmat (cv_deg c) s (cv_A c)))) in H.
  rewrite !vxor_cancel in H by (rewrite !vecmat_length; auto). rewrite EB, Ed, <- total_B in H. rewrite Ek in Lu, Lu'. clear - F H Lu Lu'.
  revert u u' Lu Lu' H. induction rows as [|[ps q] rs IH]; intros [|x u] [|x' u'] Lu Lu' H; cbn in Lu, Lu'; try lia; auto.
  inversion F; subst. cbn [bdB map] in H. fold (bdB rs) in H. change (x :: u) with ([x] ++ u) in H. change (x' :: u') with ([x'] ++ u') in H.
  destruct (B_block_wf ps q) as [WB LB]. rewrite !bd_vecmat in H by (auto using bdB_wf). apply app_inj_len in H as [H1' H2']; [|rewrite !vecmat_length; auto].
  f_equal; [|apply IH; auto; lia]. unfold B_block in H1'. set (nu := row_nu (ps, q)) in *. destruct nu as [|m]; [lia|].
  rewrite unit_vec_0 in H1'. cbn [vecmat] in H1'. destruct x, x'; auto; cbn [zeros repeat vxor] in H1'; discriminate.
Qed.
Lemma cc_tail_unique : Forall (fun r => N.odd (snd r) = true) rows -> Forall (fun r => row_nu r = cv_mem c) rows ->
  forall us us' s, blocks (cv_k c) us -> blocks (cv_k c) us' -> length us = cv_mem c -> length us' = cv_mem c -> length s = cv_deg c ->
  snd (conv_run c us s) = snd (conv_run c us' s) -> us = us'.
Proof.
  intros Fo Fm us us' s B B' L L' Ls H. pose proof (cc_ok rows c E) as OK. destruct (cc_inv rows c E) as (NE & Pn & Fn & Ek & Ed & Em & EA & EB & EC & ED).
  rewrite (run_superpose c OK us s), (run_superpose c OK us' s) in H by auto. rewrite L, L' in H.
  set (x := vecmat (cv_deg c) s _) in H. assert (Lx : length x = cv_deg c) by (apply vecmat_length, wf_pow; auto).
  assert (H2 : snd (conv_run c us (zeros (cv_deg c))) = snd (conv_run c us' (zeros (cv_deg c)))).
  { apply (f_equal (fun v => vxor v x)) in H. rewrite !vxor_cancel_r in H; auto; rewrite Lx; symmetry; apply run_state_length; auto; apply zeros_length. }
  rewrite !(reach_spec c OK) in H2 by auto. rewrite L, L' in H2.
  assert (Dk : cv_deg c = cv_mem c * cv_k c).
  { rewrite Ed, Ek. clear -Fm. unfold wD. induction Fm; cbn [map fold_right length]; [lia|]. rewrite H. lia. }
  set (T := reach_stack c 0 (cv_mem c)) in *. pose proof (reach_stack_wf c OK 0 (cv_mem c)) as WT. pose proof (reach_stack_length c OK 0 (cv_mem c)) as LT. fold T in WT, LT.
  assert (Ind : independent (cv_deg c) T).
  { apply rank_full_independent; auto. destruct (rank_spec (cv_deg c) T WT) as (Bs & WB & LB & IB & _ & EB' & _).
    destruct (independent_card (cv_deg c) Bs WB IB) as (l & ND & Ll & Il).
    assert (Inc : incl (words (cv_deg c)) l).
    { intros v I. apply in_words in I. apply Il, EB'. unfold T. apply (reachable_iff c OK). apply (cc_reach rows c E); auto. }
    pose proof (NoDup_incl_length (words_NoDup (cv_deg c)) Inc) as Le. rewrite words_length, Ll in Le. rewrite LB in Le.
    assert (Le2 : cv_deg c <= rank (cv_deg c) T). { destruct (le_lt_dec (cv_deg c) (rank (cv_deg c) T)); auto. apply (Nat.pow_lt_mono_r 2) in l0; lia. }
    destruct (rank_spec (cv_deg c) T WT) as (_ & _ & _ & _ & _ & _ & R1 & R2 & _). lia. }
  apply (concat_blocks_inj (cv_k c)); auto; [congruence|].
  assert (Lc : length (concat us) = length T /\ length (concat us') = length T) by (rewrite !(blocks_concat_length (cv_k c)) by auto; lia). destruct Lc as [Lc Lc'].
  assert (Lv : length (vxor (concat us) (concat us')) = length T) by (rewrite vxor_length; congruence).
  specialize (Ind _ Lv). rewrite vecmat_vxor, H2, vxor_self, vecmat_length in Ind by (auto; congruence). specialize (Ind eq_refl). apply vxor_eq_zeros; [congruence|]. rewrite Ind. f_equal. auto.
Qed.
End Instances.
