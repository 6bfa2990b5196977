(** Stream decoding, II: from error events to the answers of the decoder. *)
From Coq Require Import QArith Lqa.
From Verif Require Import Common Vec_Model LinAlg_Model Linear_Spec Vec_Proof BlockCode_Model FSM_Model FSM_Spec Conv_Model Conv_Spec Conv_Proof ConvTerm_Proof Stream_Model Stream_Spec Stream_Proof.
From Verif Require BlockCode_Proof FreeDist_Proof ConvViterbi_Proof Props_FSM FSM_Proof XRref_Proof ConvCons_Proof.
Local Open Scope nat_scope.

Lemma nth_badd X Y i : i < length X -> i < length Y -> nth i (badd X Y) [] = vxor (nth i X []) (nth i Y []).
Proof. revert Y i. induction X as [|x X IH]; intros [|y Y] i H1 H2; cbn in H1, H2; try lia. destruct i as [|i]; cbn [badd nth]; [reflexivity|]. apply IH; lia. Qed.
Lemma hdist_sum w X Y : blocks w X -> blocks w Y -> length X = length Y -> hdist (concat X) (concat Y) = sum (fun i => hdist (nth i X []) (nth i Y [])) 0 (length X).
Proof.
  revert Y. induction X as [|x X IH] using rev_ind; intros Y BX BY L; [destruct Y; [reflexivity|discriminate]|].
  destruct Y as [|y Y _] using rev_ind; [rewrite app_length in L; cbn in L; lia|]. rewrite !app_length in L. cbn [length] in L.
  apply Forall_app in BX as [BX Bx]. apply Forall_app in BY as [BY By]. inversion Bx as [|? ? Lx _]; inversion By as [|? ? Ly _]; subst.
  rewrite !concat_app. cbn [concat]. rewrite !app_nil_r. unfold hdist at 1. rewrite ConvCons_Proof.vxor_app.
  2:{ rewrite (blocks_concat_length (length x) X), (blocks_concat_length (length x) Y); [f_equal; lia|exact BY|exact BX]. }
  rewrite ConvViterbi_Proof.weight_app, app_length. cbn [length]. rewrite Nat.add_1_r. cbn [sum Nat.add]. fold (hdist (concat X) (concat Y)). rewrite IH by (auto; lia). f_equal.
  - apply sum_ext. intros i _ Hi. rewrite !app_nth1 by lia. reflexivity.
  - rewrite !app_nth2 by lia. replace (length X - length Y) with 0 by lia. rewrite Nat.sub_diag. reflexivity.
Qed.
Lemma zbits_of_nat w x : zbits w (Z.of_nat x) = nbits w x.
Proof.
  unfold zbits, nbits, Bits_Model.int_to_bits. cbn beta iota. apply map_ext. intros i. rewrite <- Z.testbit_odd, <- nat_N_Z, <- nat_N_Z, Z.testbit_of_N.
  unfold Bits_Model.bit_at. rewrite N.testbit_odd. rewrite ?N.bit0_mod, ?N.bit0_odd. reflexivity.
Qed.

Section Decode.
Context (c : conv) (OK : conv_ok c).
Local Notation d := (cv_deg c).
Local Notation k := (cv_k c).
Local Notation n := (cv_n c).
Local Notation M := (conv_fsm c).
Context (INJ : forall s u u', length s = d -> length u = k -> length u' = k -> conv_next c s u = conv_next c s u' -> u = u').
Context (NS : no_silent_loops c).
Context (D E r : nat) (HDE : (r + 1) * E < D).
Context (FD : forall us, blocks k us -> snd (conv_run c us (zeros d)) = zeros d -> 0 < weight (concat (fst (conv_run c us (zeros d)))) -> D <= weight (concat (fst (conv_run c us (zeros d))))).
Context (us : list vec) (Bu : blocks k us).
Definition sent : list vec := fst (conv_run c us (zeros d)).
Lemma sent_length : length sent = length us. Proof. apply run_length. Qed.
Lemma sent_blocks : blocks n sent. Proof. apply run_blocks. exact OK. Qed.
Lemma nth_blocks w (l : list vec) i : blocks w l -> i < length l -> length (nth i l []) = w.
Proof. intros B H. unfold blocks in B. rewrite Forall_forall in B. apply B, nth_In, H. Qed.
Lemma blocks_firstn w (l : list vec) t : blocks w l -> blocks w (firstn t l).
Proof. intros B. rewrite <- (firstn_skipn t l) in B. apply Forall_app in B. tauto. Qed.
Lemma run_firstn t : t <= length us -> fst (conv_run c (firstn t us) (zeros d)) = firstn t sent.
Proof.
  intros Ht. unfold sent. rewrite <- (firstn_skipn t us) at 2. rewrite run_app. cbn [fst]. rewrite firstn_app, run_length, firstn_length.
  replace (t - Nat.min t (length us)) with 0 by lia. rewrite firstn_O, app_nil_r. symmetry. apply firstn_all_ge. rewrite run_length, firstn_length. lia.
Qed.

(** any metric whose differences are bounded by the distance from the transmitted block *)
Context {A : Type} (bcost : vec -> list A -> Q) (rs : list (list A)) (Lr : length rs = length us).
Context (wn : nat -> nat) (m B : Q) (Hm : (0 < m)%Q) (Hr : (B <= qn r * m)%Q).
Definition cst (i : nat) (v : vec) : Q := bcost (vxor (nth i sent []) v) (nth i rs []).
Definition base (i : nat) : Q := bcost (nth i sent []) (nth i rs []).
Context (cst_low : forall i v, i < length us -> length v = n -> (base i + m * qn (weight v) - (m + B) * qn (wn i) <= cst i v)%Q).
Context (cst_up : forall i v, i < length us -> length v = n -> (cst i v <= base i + B * qn n)%Q).
Lemma cst_zero i : i < length us -> (cst i (zeros n) == base i)%Q.
Proof. intros Hi. unfold cst, base. rewrite vxor_zeros_r; [reflexivity|]. apply nth_blocks; [apply sent_blocks|rewrite sent_length; exact Hi]. Qed.
Local Notation pcost := (ConvViterbi_Proof.path_cost bcost).
Lemma pcost_sum (X : list vec) (Y : list (list A)) : length X = length Y -> (pcost X Y == qsum (fun i => bcost (nth i X []) (nth i Y [])) 0 (length X))%Q.
Proof.
  revert Y. induction X as [|x X IH] using rev_ind; intros Y L; [destruct Y; [reflexivity|discriminate]|].
  destruct Y as [|y Y _] using rev_ind; [rewrite app_length in L; cbn in L; lia|]. rewrite !app_length in L. cbn [length] in L.
  assert (PA : (pcost (X ++ [x]) (Y ++ [y]) == pcost X Y + bcost x y)%Q).
  { assert (L' : length X = length Y) by lia. clear -L'. revert Y L'. unfold ConvViterbi_Proof.path_cost. induction X as [|a X IH]; intros [|b Y] L; cbn in L; try lia; cbn [app combine map fold_right]; [lra|].
    rewrite IH by lia. lra. }
  rewrite PA, app_length. cbn [length]. rewrite Nat.add_1_r. cbn [qsum Nat.add]. rewrite IH by lia. apply Qplus_comp.
  - apply qsum_ext. intros i _ Hi. rewrite !app_nth1 by lia. reflexivity.
  - rewrite !app_nth2 by lia. replace (length X - length Y) with 0 by lia. rewrite Nat.sub_diag. reflexivity.
Qed.

(** the cost of a difference path is the cost of the sum path *)
Lemma cost_of e s t : traj c e s t -> t <= length us ->
  let vs := badd (firstn t us) (map e (seq 0 t)) in
  (qsum (cost c cst e s) 0 t == pcost (fst (conv_run c vs (zeros d))) (firstn t rs))%Q /\
  snd (conv_run c vs (zeros d)) = vxor (snd (conv_run c (firstn t us) (zeros d))) (s t).
Proof.
  intros T Ht vs. destruct (traj_run c e s t T t 0 (le_n _)) as [R Bt]. cbn [Nat.add] in R. destruct T as [T0 T]. rewrite T0 in R.
  assert (Lw : length (firstn t us) = length (map e (seq 0 t))) by (rewrite firstn_length, map_length, seq_length; lia).
  pose proof (run_linear c OK (firstn t us) (map e (seq 0 t)) (zeros d) (zeros d) (blocks_firstn k us t Bu) Bt Lw (zeros_length _) (zeros_length _)) as RL.
  rewrite vxor_self, zeros_length in RL. fold vs in RL. rewrite RL, R. cbn [fst snd]. split; [|reflexivity]. rewrite run_firstn by exact Ht.
  assert (L1 : length (firstn t sent) = t) by (rewrite firstn_length, sent_length; lia).
  assert (L2 : length (map (out c e s) (seq 0 t)) = t) by (rewrite map_length, seq_length; reflexivity).
  assert (L3 : length (firstn t rs) = t) by (rewrite firstn_length; lia).
  assert (Bo : blocks n (map (out c e s) (seq 0 t))) by (apply Forall_forall; intros x I; apply in_map_iff in I as (i & <- & _); apply out_length; exact OK).
  rewrite pcost_sum by (rewrite badd_length by congruence; congruence). rewrite badd_length by congruence. rewrite L1.
  apply qsum_ext. intros i _ Hi. cbn [Nat.add] in Hi. rewrite nth_badd by lia. rewrite !XRref_Proof.nth_firstn_lt, nth_map_seq by lia. reflexivity.
Qed.

Context (noise : forall i, sum wn i (2 ^ d * (2 * (r + 1) * E + 1)) <= E).
Lemma badd_cancel X Y : blocks k X -> blocks k Y -> length X = length Y -> badd X (badd X Y) = Y.
Proof.
  intros BX. revert Y. induction BX as [|x X Lx BX IH]; intros [|y Y] BY L; cbn in L; try lia; [reflexivity|]. inversion BY; subst. cbn [badd]. rewrite IH by (auto; lia).
  rewrite <- vxor_assoc, vxor_self, vxor_zeros_l by congruence. reflexivity.
Qed.
Lemma survivor_agrees t vs : t <= length us -> blocks k vs -> length vs = t ->
  (forall us', blocks k us' -> length us' = t -> snd (conv_run c us' (zeros d)) = snd (conv_run c vs (zeros d)) ->
     (pcost (fst (conv_run c vs (zeros d))) (firstn t rs) <= pcost (fst (conv_run c us' (zeros d))) (firstn t rs))%Q) ->
  forall i, i + 1 + 2 ^ d * (2 * (r + 1) * E + 2 * (r * (d * n)) + 1) <= t -> nth i vs [] = nth i us [].
Proof.
  intros Ht Bv Lv Opt i Hi. set (ws := badd (firstn t us) vs). pose proof (blocks_firstn k us t Bu) as Bt.
  assert (Lt : length (firstn t us) = length vs) by (rewrite firstn_length; lia).
  assert (Bw : blocks k ws) by (apply badd_blocks; assumption). assert (Lw : length ws = t) by (unfold ws; rewrite badd_length; congruence).
  set (e := fun i => nth i ws []). set (s := fun i => snd (conv_run c (firstn i ws) (zeros d))).
  assert (T : traj c e s t).
  { split; [reflexivity|]. intros j Hj. split; [apply nth_blocks; [exact Bw|lia]|]. unfold s, e.
    assert (Ef : firstn (S j) ws = firstn j ws ++ [nth j ws []]).
    { assert (Hj' : j < length ws) by lia. clear -Hj'. revert j Hj'. induction ws as [|x l IH]; intros j Hj; [cbn in Hj; lia|]. destruct j as [|j]; [reflexivity|]. cbn [firstn nth app]. f_equal. apply IH. cbn in Hj. lia. }
    rewrite Ef, run_snoc. reflexivity. }
  assert (Ee : map e (seq 0 t) = ws).
  { apply (list_ext []); [rewrite map_length, seq_length; congruence|]. intros j Hj. rewrite map_length, seq_length in Hj. rewrite nth_map_seq by exact Hj. reflexivity. }
  assert (Ev : badd (firstn t us) ws = vs) by (apply badd_cancel; assumption).
  assert (O : optimal c cst e s t).
  { intros e' s' T' E'. destruct (cost_of e s t T Ht) as [C1 F1]. destruct (cost_of e' s' t T' Ht) as [C2 F2]. rewrite C1, C2. rewrite Ee, Ev in *. apply Opt.
    - apply badd_blocks; [exact Bt|apply (traj_run c e' s' t T' t 0 (le_n _))|rewrite map_length, seq_length; congruence].
    - rewrite badd_length; rewrite ?map_length, ?seq_length; congruence.
    - rewrite F2, F1, E'. reflexivity. }
  pose proof (quiet c OK NS (length us) cst base wn m B r Hm Hr cst_zero cst_low cst_up D E HDE FD noise e s t Ht T O) as Q.
  assert (Z1 : s i = zeros d) by (apply Q; lia). assert (Z2 : s (S i) = zeros d) by (apply Q; lia).
  destruct T as [_ T]. destruct (T i ltac:(lia)) as [Le Es]. rewrite Z1, Z2 in Es.
  assert (Ez : e i = zeros k).
  { apply (INJ (zeros d)); [apply zeros_length|exact Le|apply zeros_length|]. rewrite <- Es. symmetry. apply FreeDist_Proof.next_zero. exact OK. }
  unfold e, ws in Ez. rewrite nth_badd in Ez by lia. rewrite XRref_Proof.nth_firstn_lt in Ez by lia.
  assert (Lu : length (nth i us []) = k) by (apply nth_blocks; [exact Bu|lia]). assert (Lvi : length (nth i vs []) = k) by (apply nth_blocks; [exact Bv|lia]).
  transitivity (vxor (nth i us []) (vxor (nth i us []) (nth i vs []))).
  - rewrite <- vxor_assoc, vxor_self, vxor_zeros_l by congruence. reflexivity.
  - rewrite Ez. apply vxor_zeros_r. exact Lu.
Qed.

(** the decision at time t *)
Definition met (y : nat) (z : list A) : xQ := Some (bcost (nbits n y) z).
Lemma decision tau t : 2 ^ d * (2 * (r + 1) * E + 2 * (r * (d * n)) + 1) + 1 <= tau -> tau <= t -> t < length us ->
  nth t (fst (viterbi_streaming xQ M met (streaming_memory xQ M tau 0 (Some 0%Q)) rs)) (-1)%Z = Z.of_nat (bitsn (nth (t - tau) us [])).
Proof.
  intros Htau Ht Hl. pose proof (ConvViterbi_Proof.num_pos c) as NP.
  assert (Hd : d <= t). { assert (Dd : d <= 2 ^ d) by (clear; induction d as [|m IH]; [lia|cbn; pose proof (pow2_pos m); lia]). nia. }
  destruct (Props_FSM.C48_decisions xQ (list A) M met tau 0 (Some 0%Q) rs t Props_FSM.C47_rational_metrics (fsm_mealy_ok c OK) ltac:(lia) NP ltac:(lia)) as (Hb & Min & Dec & _).
  rewrite Dec by lia. clear Dec. change (upd 0 (Some 0%Q : xQ) (repeat (minf xQ) (num_states M))) with (ConvViterbi_Proof.init c) in *.
  set (best := argmin_by (mle xQ) (snd (viterbi xQ M met (firstn (t + 1) rs) (ConvViterbi_Proof.init c)))) in *.
  pose proof (ConvViterbi_Proof.path_info c OK bcost INJ (firstn (t + 1) rs)) as P1.
  pose proof (ConvViterbi_Proof.path_info c OK bcost INJ (firstn t rs)) as P0.
  cbv zeta in P0, P1. fold met in P0, P1.
  assert (L1 : length (firstn (t + 1) rs) = t + 1) by (rewrite firstn_length; lia). assert (L0 : length (firstn t rs) = t) by (rewrite firstn_length; lia).
  destruct (viterbi xQ M met (firstn (t + 1) rs) (ConvViterbi_Proof.init c)) as [x1 f1]. destruct (viterbi xQ M met (firstn t rs) (ConvViterbi_Proof.init c)) as [x0 f0].
  cbn [fst snd] in *. destruct P1 as (Lf1 & A1 & B1). destruct P0 as (Lf0 & A0 & B0). rewrite L1 in *. rewrite L0 in *.
  (* the best state is reachable *)
  assert (R : exists vs1, blocks k vs1 /\ length vs1 = t + 1 /\ bitsn (snd (conv_run c vs1 (zeros d))) = best).
  { destruct (B1 (repeat (zeros k) (t + 1))) as (H0 & b & Eb & _); [apply ConvViterbi_Proof.zero_blocks|apply repeat_length|].
    specialize (Min _ H0). change (minf xQ) with (None : xQ) in Min. rewrite Eb in Min. destruct (nth best f1 (None : xQ)) as [b1|] eqn:Eb1; [|discriminate].
    destruct (A1 best b1 Hb Eb1) as (vs1 & V1 & V2 & _ & V3 & _). exists vs1. auto. }
  destruct R as (vs1 & V1 & V2 & V3).
  assert (R : reachable c t (snd (conv_run c vs1 (zeros d)))).
  { apply (reachable_stable c OK t 1); [exact Hd|]. exists vs1. auto. }
  destruct R as (vs2 & W1 & W2 & W3). destruct (B0 vs2 W1 W2) as (Hb2 & b & Eb & _). rewrite W3, V3 in *.
  destruct (A0 best b Hb Eb) as (vs & U1 & U2 & U3 & U4 & U5). rewrite U3.
  assert (Hi : t - tau < length vs) by lia.
  transitivity (Z.of_nat (bitsn (nth (t - tau) vs []))).
  { rewrite map_map. rewrite (nth_indep _ (-1)%Z (Z.of_nat (bitsn []))) by (rewrite map_length; lia). rewrite (map_nth (fun u => Z.of_nat (bitsn u))). reflexivity. }
  do 2 f_equal. apply (survivor_agrees t); auto; try lia.
  intros us' Bu' Lu' Eu'. destruct (B0 us' Bu' Lu') as (_ & b' & Eb' & Lb'). rewrite Eu', U4, Eb in Eb'. injection Eb' as <-.
  rewrite U5 in Lb'. exact Lb'.
Qed.
Lemma early tau t : 1 <= tau -> t < tau -> t < length us ->
  nth t (fst (viterbi_streaming xQ M met (streaming_memory xQ M tau 0 (Some 0%Q)) rs)) (-1)%Z = 0%Z.
Proof.
  intros Htau Ht Hl. pose proof (ConvViterbi_Proof.num_pos c) as NP.
  destruct (Props_FSM.C48_decisions xQ (list A) M met tau 0 (Some 0%Q) rs t Props_FSM.C47_rational_metrics (fsm_mealy_ok c OK) ltac:(lia) NP ltac:(lia)) as (_ & _ & _ & Dec).
  rewrite Dec by lia. pose proof (Props_FSM.C47_edges M 0 0 (fsm_mealy_ok c OK) NP NP) as Ed. cbv zeta in Ed.
  assert (N0 : fsm_next M 0 0 = 0).
  { rewrite fsm_next_spec by apply pow2_pos. rewrite <- (FreeDist_Proof.bitsn_zeros d) at 1. rewrite nbits_bitsn by apply zeros_length.
    rewrite <- (FreeDist_Proof.bitsn_zeros k) at 1. rewrite nbits_bitsn by apply zeros_length. rewrite FreeDist_Proof.next_zero by exact OK. apply FreeDist_Proof.bitsn_zeros. }
  assert (P0 : 0 < num_input_symbols M) by (rewrite fsm_num_inputs; apply pow2_pos).
  destruct Ed as [(x & Hx & Nx & ->)|[No _]]; [|exfalso; apply (No 0 P0 N0)].
  pose proof (ConvViterbi_Proof.no_parallel c OK INJ 0 x 0 NP Hx P0) as X. rewrite X by congruence. reflexivity.
Qed.
Lemma answers tau : 2 ^ d * (2 * (r + 1) * E + 2 * (r * (d * n)) + 1) + 1 <= tau ->
  concat (map (zbits k) (fst (viterbi_streaming xQ M met (streaming_memory xQ M tau 0 (Some 0%Q)) rs))) = delayed k tau (concat us).
Proof.
  intros Htau. set (o := fst (viterbi_streaming xQ M met (streaming_memory xQ M tau 0 (Some 0%Q)) rs)).
  assert (Lo : length o = length us) by (unfold o; rewrite FSM_Proof.streaming_length; exact Lr).
  assert (Eo : map (zbits k) o = firstn (length us) (repeat (zeros k) tau ++ us)).
  { apply (list_ext []); [rewrite map_length, firstn_length, app_length, repeat_length; lia|]. intros t Ht. rewrite map_length, Lo in Ht.
    rewrite XRref_Proof.nth_firstn_lt by exact Ht. rewrite (nth_indep _ [] (zbits k (-1)%Z)) by (rewrite map_length; lia). rewrite map_nth. unfold o.
    destruct (le_lt_dec tau t) as [H|H].
    - rewrite decision by assumption. rewrite app_nth2; rewrite repeat_length; [|exact H]. rewrite zbits_of_nat. apply nbits_bitsn, nth_blocks; [exact Bu|lia].
    - rewrite early by lia. rewrite app_nth1 by (rewrite repeat_length; exact H). change 0%Z with (Z.of_nat 0). rewrite zbits_of_nat, <- (FreeDist_Proof.bitsn_zeros k), nbits_bitsn by apply zeros_length.
      rewrite (nth_indep _ [] (zeros k)) by (rewrite repeat_length; exact H). symmetry. apply nth_repeat. }
  rewrite Eo. unfold delayed. rewrite (blocks_concat_length k us Bu).
  assert (Ec : forall m (l : list vec), blocks k l -> concat (firstn m l) = firstn (m * k) (concat l)).
  { clear. intros z; induction z as [|z IH]; intros l Bl; [reflexivity|]. destruct Bl as [|x l Lx Bl]; [cbn [concat firstn]; rewrite firstn_nil; reflexivity|]. cbn [firstn concat]. rewrite IH by exact Bl.
    cbn [Nat.mul]. rewrite firstn_app, (firstn_all_ge _ x) by lia. rewrite Lx. f_equal. f_equal. lia. }
  rewrite Ec by (apply Forall_app; split; [apply ConvViterbi_Proof.zero_blocks|exact Bu]). f_equal. rewrite concat_app. f_equal.
  clear. induction tau as [|m IH]; [reflexivity|]. cbn [repeat concat Nat.mul]. rewrite IH. unfold zeros. symmetry. apply repeat_app.
Qed.
End Decode.
