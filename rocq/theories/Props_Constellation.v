(* C60, C70, C71: constellations. *)
From Coq Require Import Reals Lra.
From Coquelicot Require Import Complex.
From Verif Require Import Common Corr_Model Corr_Proof Quant_Model Quant_Proof Const_Model Const_Spec Const_Proof Const_Stats Const_Cross Const_Post.
Local Open Scope R_scope.

(* every constellation class with meaningful parameters *)
Inductive usable : constellation -> Prop :=
| u_generic cplx dim m : (0 < dim)%nat -> m <> [] -> Forall (fun p => length p = dim) m -> usable (Constellation cplx dim m)
| u_pam M d : (1 <= M)%nat -> d <> 0 -> usable (PAMConstellation M d)
| u_qam Mi Mq di dq phi : (1 <= Mi)%nat -> (1 <= Mq)%nat -> di <> 0 -> dq <> 0 -> usable (QAMConstellation Mi Mq di dq phi)
| u_ask M A phi : (1 <= M)%nat -> A <> 0 -> usable (ASKConstellation M A phi)
| u_psk M A phi : (1 <= M)%nat -> 0 < A -> usable (PSKConstellation M A phi)
| u_apsk rings : (1 <= list_sum (map (fun r => fst (fst r)) rings))%nat -> usable (APSKConstellation rings)
| u_cross M d phi K : CrossQAMConstellation M d phi = Some K -> 0 < d -> usable K
| u_orthogonal M A : (1 <= M)%nat -> 0 < A -> usable (OrthogonalConstellation M A)
| u_simplex M A : (1 <= M)%nat -> 0 < A -> usable (SimplexConstellation M A)
| u_biorthogonal M A K : BiorthogonalConstellation M A = Some K -> (2 <= M)%nat -> 0 < A -> usable K.

Lemma len1_points (pts : list C) : Forall (fun p => length p = 1%nat) (map (fun z => [z]) pts).
Proof. apply Forall_forall. intros p Hp. apply in_map_iff in Hp as (z & <- & _). reflexivity. Qed.
Lemma usable_shape K : usable K -> (0 < dimension K)%nat /\ Forall (fun p => length p = dimension K) (matrix K) /\ length (matrix K) = order K /\ (0 < order K)%nat.
Proof.
  destruct 1; try (split; [cbn; lia|]; split; [apply len1_points|]; cbn [matrix order PAMConstellation QAMConstellation ASKConstellation PSKConstellation]; rewrite ?map_length, ?qam_length, ?ask_length, ?psk_length; split; [reflexivity|]; nia).
  - cbn [dimension matrix order Constellation]. repeat split; auto. destruct m; [easy|cbn; lia].
  - cbn [dimension matrix order PAMConstellation]. rewrite pam_matrix_eq. split; [lia|]. split; [apply len1_points|]. rewrite !map_length, seq_length. split; [reflexivity|lia].
  - cbn [dimension matrix order APSKConstellation]. split; [lia|]. split; [apply len1_points|]. rewrite map_length, apsk_length. split; [reflexivity|lia].
  - destruct (cross_stats _ _ _ _ H H0) as (E & _). destruct (cross_cases _ _ _ _ H) as (h & H1 & H2 & E1 & E2 & _ & _ & _ & EM & _). rewrite E1, E2. split; [lia|]. split; [rewrite EM; apply len1_points|]. split; [exact E|nia].
  - cbn [dimension matrix order OrthogonalConstellation]. split; [lia|]. split; [|rewrite map_length, seq_length; split; [reflexivity|lia]]. apply Forall_forall. intros p Hp. apply in_map_iff in Hp as (i & <- & _). apply unit_length.
  - cbn [dimension matrix order SimplexConstellation]. split; [lia|]. split; [|rewrite map_length, seq_length; split; [reflexivity|lia]]. apply Forall_forall. intros p Hp. apply in_map_iff in Hp as (i & <- & _). apply simplex_length.
  - destruct (biorthogonal_cases _ _ _ H) as (N & HN & E1 & E2 & _ & _ & _ & EM). rewrite E1, E2, EM. split; [lia|]. split; [|rewrite map_length, seq_length; split; [reflexivity|lia]]. apply Forall_forall. intros p Hp. apply in_map_iff in Hp as (i & <- & _). destruct (Nat.ltb i N); apply unit_length.
Qed.

(* C60: the decision on one received point is a nearest point *)
Theorem C60_nearest (K : constellation) (r : list C) : usable K -> length r = dimension K -> nearest (matrix K) r (closest K r).
Proof.
  intros U. pose proof (usable_shape K U) as (_ & _ & EL & EO). assert (NE : matrix K <> []) by (intros E; rewrite E in EL; cbn in EL; lia). revert EL EO NE. destruct U; intros EL EO NE Hr.
  - apply base_nearest. exact H0.
  - destruct r as [|z [|? ?]]; [easy| |easy]. now apply pam_nearest.
  - destruct r as [|z [|? ?]]; [easy| |easy]. now apply qam_nearest.
  - destruct r as [|z [|? ?]]; [easy| |easy]. now apply ask_nearest.
  - destruct r as [|z [|? ?]]; [easy| |easy]. now apply psk_nearest.
  - apply base_nearest. exact NE.
  - destruct (cross_cases _ _ _ _ H) as (h & _ & _ & _ & _ & _ & _ & _ & _ & EC). rewrite EC. now apply base_nearest.
  - now apply orthogonal_nearest.
  - now apply simplex_nearest.
  - eapply biorthogonal_nearest; eauto.
Qed.
(* C60: the generic decision takes the first of several nearest points *)
Theorem C60_first (cplx : bool) (dim : nat) (m : list (list C)) (r : list C) (i : nat) : m <> [] ->
  (i < closest (Constellation cplx dim m) r)%nat -> dist2 r (nth (closest (Constellation cplx dim m) r) m []) < dist2 r (nth i m []).
Proof. intros H. apply (base_nearest m r H). Qed.
(* C60: a whole sequence is decided point by point; a length that is not a multiple of the dimension is rejected *)
Theorem C60_sequence (K : constellation) (rs : list (list C)) : usable K -> Forall (fun r => length r = dimension K) rs ->
  exists idx, closest_indices K (concat rs) = Some idx /\ length idx = length rs /\ forall b, (b < length rs)%nat -> nearest (matrix K) (nth b rs []) (nth b idx 0%nat).
Proof.
  intros U F. destruct (usable_shape K U) as (D & _). exists (map (closest K) rs). split; [now apply closest_concat|]. split; [apply map_length|]. intros b Hb.
  rewrite nth_indep with (d' := closest K []) by now rewrite map_length. rewrite map_nth. apply C60_nearest; auto. rewrite Forall_forall in F. apply F. now apply nth_In.
Qed.
Theorem C60_length (K : constellation) (received : list C) : closest_indices K received = None <-> (length received mod dimension K <> 0)%nat.
Proof. unfold closest_indices. destruct (Nat.eqb_spec (length received mod dimension K) 0); cbn; split; intros; congruence. Qed.
(* C60: unperturbed symbols are decided without error *)
Theorem C60_noiseless (K : constellation) (indices : list nat) : usable K -> separated (matrix K) -> Forall (fun i => (i < order K)%nat) indices ->
  exists symbols, indices_to_symbols K indices = Some symbols /\ closest_indices K symbols = Some indices /\ closest_symbols K symbols = Some symbols.
Proof.
  intros U S F. destruct (usable_shape K U) as (D & R & EL & _). rewrite <- EL in F. apply noiseless; auto. intros r Hr. now apply C60_nearest.
Qed.
(* C60: the points of the parametric classes are pairwise different *)
Theorem C60_separated :
  (forall M d, 0 < d -> separated (matrix (PAMConstellation M d))) /\
  (forall Mi Mq di dq phi, 0 < di -> 0 < dq -> separated (matrix (QAMConstellation Mi Mq di dq phi))) /\
  (forall M A phi, 0 < A -> separated (matrix (ASKConstellation M A phi))) /\
  (forall M A phi, 0 < A -> separated (matrix (PSKConstellation M A phi))) /\
  (forall M d phi K, CrossQAMConstellation M d phi = Some K -> 0 < d -> separated (matrix K)) /\
  (forall M A, 0 < A -> separated (matrix (OrthogonalConstellation M A))) /\
  (forall M A, 0 < A -> separated (matrix (SimplexConstellation M A))) /\
  (forall M A K, BiorthogonalConstellation M A = Some K -> 0 < A -> separated (matrix K)).
Proof.
  assert (R2 : 0 < sqrt 2) by (apply sqrt_lt_R0; lra). split; [|split; [|split; [|split; [|split; [|split; [|split]]]]]].
  - intros M d H. destruct (le_lt_dec 2 M); [eapply separated_min; [now apply pam_mindist|auto]|]. apply separated_1. cbn [matrix PAMConstellation]. rewrite map_length, pam_length. lia.
  - intros Mi Mq di dq phi Hi Hq i j Hij. assert (EL : length (matrix (QAMConstellation Mi Mq di dq phi)) = (Mi * Mq)%nat) by (cbn [matrix QAMConstellation]; rewrite map_length, qam_length; auto). rewrite EL in Hij.
    assert (0 < Mq)%nat by nia. assert (Ei : i = (Mq * (i / Mq) + i mod Mq)%nat) by (apply Nat.div_mod; lia). assert (Ej : j = (Mq * (j / Mq) + j mod Mq)%nat) by (apply Nat.div_mod; lia).
    pose proof (Nat.mod_upper_bound i Mq ltac:(lia)). pose proof (Nat.mod_upper_bound j Mq ltac:(lia)). assert (i / Mq < Mi)%nat by (apply Nat.div_lt_upper_bound; nia). assert (j / Mq < Mi)%nat by (apply Nat.div_lt_upper_bound; nia).
    rewrite Ei, Ej, qam_dist by auto. destruct (Nat.eq_dec (i / Mq) (j / Mq)) as [E|N].
    + assert (i mod Mq <> j mod Mq) as N by (intros E'; rewrite Ei, Ej, E, E' in Hij; lia). pose proof (diff_sq_ge _ _ dq N). pose proof (pow2_ge_0 ((INR (i / Mq) - INR (j / Mq)) * di)). nra.
    + pose proof (diff_sq_ge _ _ di N). pose proof (pow2_ge_0 ((INR (i mod Mq) - INR (j mod Mq)) * dq)). nra.
  - intros M A phi H. destruct (le_lt_dec 2 M); [eapply separated_min; [now apply ask_mindist|auto]|]. apply separated_1. cbn [matrix ASKConstellation]. rewrite map_length, ask_length. lia.
  - intros M A phi H. destruct (le_lt_dec 2 M) as [L|L]; [eapply separated_min; [now apply psk_mindist|]|]. 2: apply separated_1; cbn [matrix PSKConstellation]; rewrite map_length, psk_length; lia.
    pose proof PI_RGT_0. assert (2 <= INR M) by (apply le_INR in L; cbn in L; lra). assert (0 < sin (PI / INR M)); [|nra]. apply sin_gt_0; [apply Rdiv_lt_0_compat; lra|]. apply (Rmult_lt_reg_r (INR M)); [lra|]. unfold Rdiv. rewrite Rmult_assoc, Rinv_l by lra. nra.
  - intros M d phi K H Hd. destruct (cross_stats _ _ _ _ H Hd) as (_ & _ & _ & S). eapply separated_min; eauto.
  - intros M A H. destruct (le_lt_dec 2 M); [eapply separated_min; [now apply orthogonal_mindist|nra]|]. apply separated_1. cbn [matrix OrthogonalConstellation]. rewrite map_length, seq_length. lia.
  - intros M A H. destruct (le_lt_dec 2 M); [eapply separated_min; [now apply simplex_mindist|nra]|]. apply separated_1. cbn [matrix SimplexConstellation]. rewrite map_length, seq_length. lia.
  - intros M A K H HA. destruct (biorthogonal_cases _ _ _ H) as (N & HN & _ & _ & _ & _ & ED & EM). destruct (le_lt_dec 2 M) as [L|L]; [|rewrite EM; apply separated_1; rewrite map_length, seq_length; lia].
    destruct (biorthogonal_mindist _ _ _ H L HA) as (d & Ed & Hd). rewrite ED in Ed. eapply separated_min; eauto. destruct (Nat.eqb M 2); injection Ed as <-; nra.
Qed.
(* C60: a negative amplitude is accepted but makes the closed-form decisions wrong: the point sent is not the point decided *)
Theorem C60_negative_amplitude_refuted :
  ~ nearest (matrix (OrthogonalConstellation 2 (-1))) (nth 0 (matrix (OrthogonalConstellation 2 (-1))) []) (closest (OrthogonalConstellation 2 (-1)) (nth 0 (matrix (OrthogonalConstellation 2 (-1))) [])).
Proof.
  intros [_ H]. specialize (H 0%nat ltac:(cbn; lia)). revert H. cbn [matrix closest OrthogonalConstellation]. assert (E : argmax (map fst (nth 0 (map (unit_vector 2 (-1)) (seq 0 2)) [])) = 1%nat).
  { unfold argmax. cbn. destruct (Rleb_spec 0 (-1)); [lra|reflexivity]. } rewrite E. rewrite !nth_map_seq by lia. rewrite !unit_dist by lia. cbn [Nat.eqb]. lra.
Qed.

(* the hypotheses are met by usual constellations *)
Example C60_case : usable (QAMConstellation 4 4 2 2 0) /\ separated (matrix (QAMConstellation 4 4 2 2 0)) /\ Forall (fun i => (i < order (QAMConstellation 4 4 2 2 0))%nat) [3; 15; 0]%nat.
Proof. split; [constructor; lra || lia|]. split; [apply C60_separated; lra|]. cbn. repeat constructor; lia. Qed.
Lemma cross_accepts M d phi : ((M <? 32)%nat || negb (Nat.eqb (Nat.land M (M - 1)) 0) || Nat.even (Nat.log2 M)) = false -> exists K, CrossQAMConstellation M d phi = Some K.
Proof. intros H. unfold CrossQAMConstellation. cbv zeta. rewrite H. eexists. reflexivity. Qed.
Example C60_cross_case : exists K, CrossQAMConstellation 32 2 0 = Some K /\ usable K /\ separated (matrix K).
Proof.
  destruct (cross_accepts 32 2 0) as [K HK]; [vm_compute; reflexivity|]. exists K. split; [exact HK|]. split; [apply (u_cross 32 2 0); [exact HK|lra]|].
  destruct C60_separated as (_ & _ & _ & _ & S & _). apply (S 32%nat 2 0); [exact HK|lra].
Qed.

(* C70: order, mean, mean energy and minimum distance agree with their definitions *)
Theorem C70_generic (cplx : bool) (dim : nat) (m : list (list C)) : m <> [] -> let K := Constellation cplx dim m in
  order K = length m /\ is_average m (mean0 K) /\ mean_energy0 K = average_energy m /\
  (if (2 <=? length m)%nat then exists d, minimum_distance K = Some d /\ is_min_distance m d else minimum_distance K = None).
Proof.
  intros NE K. split; [reflexivity|]. split; [now apply base_average|]. split; [apply base_energy|]. destruct (Nat.leb_spec 2 (length m)); [now apply base_mindist|]. apply base_mindist_none. lia.
Qed.
Theorem C70_pam (M : nat) (d : R) : (1 <= M)%nat -> let K := PAMConstellation M d in
  length (matrix K) = M /\ is_average (matrix K) (mean0 K) /\ mean_energy0 K = average_energy (matrix K) /\
  ((2 <= M)%nat -> 0 < d -> exists x, minimum_distance K = Some x /\ is_min_distance (matrix K) x).
Proof. intros H K. split; [apply (eq_trans (map_length _ _)), pam_length|]. split; [apply pam_mean|]. split; [symmetry; now apply pam_energy|]. intros. exists d. split; [reflexivity|now apply pam_mindist]. Qed.
Theorem C70_qam (Mi Mq : nat) (di dq phi : R) : (1 <= Mi)%nat -> (1 <= Mq)%nat -> let K := QAMConstellation Mi Mq di dq phi in
  length (matrix K) = (Mi * Mq)%nat /\ is_average (matrix K) (mean0 K) /\ mean_energy0 K = average_energy (matrix K) /\
  ((2 <= Mi)%nat -> (2 <= Mq)%nat -> 0 < di -> 0 < dq -> exists x, minimum_distance K = Some x /\ is_min_distance (matrix K) x).
Proof. intros H1 H2 K. split; [apply (eq_trans (map_length _ _)), qam_length|]. split; [apply qam_mean|]. split; [symmetry; now apply qam_energy|]. intros. eexists. split; [reflexivity|now apply qam_mindist]. Qed.
Theorem C70_ask (M : nat) (A phi : R) : (1 <= M)%nat -> let K := ASKConstellation M A phi in
  length (matrix K) = M /\ is_average (matrix K) (mean0 K) /\ mean_energy0 K = average_energy (matrix K) /\
  ((2 <= M)%nat -> 0 < A -> exists x, minimum_distance K = Some x /\ is_min_distance (matrix K) x).
Proof. intros H K. split; [apply (eq_trans (map_length _ _)), ask_length|]. split; [now apply ask_mean|]. split; [symmetry; now apply ask_energy|]. intros. eexists. split; [reflexivity|now apply ask_mindist]. Qed.
Theorem C70_psk (M : nat) (A phi : R) : (2 <= M)%nat -> let K := PSKConstellation M A phi in
  length (matrix K) = M /\ is_average (matrix K) (mean0 K) /\ mean_energy0 K = average_energy (matrix K) /\
  (0 < A -> exists x, minimum_distance K = Some x /\ is_min_distance (matrix K) x).
Proof. intros H K. split; [apply (eq_trans (map_length _ _)), psk_length|]. split; [now apply psk_mean|]. split; [symmetry; apply psk_energy; lia|]. intros. eexists. split; [reflexivity|now apply psk_mindist]. Qed.
Theorem C70_apsk (rings : list (nat * R * R)) : Forall (fun r => (2 <= fst (fst r))%nat) rings -> let K := APSKConstellation rings in
  length (matrix K) = order K /\ is_average (matrix K) (mean0 K) /\ mean_energy0 K = average_energy (matrix K) /\
  (rings <> [] -> exists x, minimum_distance K = Some x /\ is_min_distance (matrix K) x).
Proof.
  intros H K. assert (EL : length (matrix K) = order K) by (apply (eq_trans (map_length _ _)), apsk_length). split; [exact EL|]. split; [now apply apsk_mean|]. split; [symmetry; apply apsk_energy|]. intros NE. apply (base_mindist (matrix K)). rewrite EL.
  destruct H as [|[[M A] phi] rings HM _]; [easy|]. cbn in *. lia.
Qed.
Theorem C70_cross (M : nat) (d phi : R) (K : constellation) : CrossQAMConstellation M d phi = Some K -> 0 < d ->
  length (matrix K) = M /\ order K = M /\ is_average (matrix K) (mean0 K) /\ mean_energy0 K = average_energy (matrix K) /\
  (exists x, minimum_distance K = Some x /\ is_min_distance (matrix K) x).
Proof.
  intros H Hd. destruct (cross_stats _ _ _ _ H Hd) as (E1 & E2 & E3 & E4). destruct (cross_cases _ _ _ _ H) as (h & _ & _ & EO & _ & _ & _ & ED & _). repeat split; auto. exists d. auto.
Qed.
Theorem C70_orthogonal (M : nat) (A : R) : (1 <= M)%nat -> let K := OrthogonalConstellation M A in
  length (matrix K) = M /\ is_average (matrix K) (mean0 K) /\ mean_energy0 K = average_energy (matrix K) /\
  ((2 <= M)%nat -> 0 < A -> exists x, minimum_distance K = Some x /\ is_min_distance (matrix K) x).
Proof. intros H K. split; [apply (eq_trans (map_length _ _)), seq_length|]. split; [apply orthogonal_mean|]. split; [symmetry; now apply orthogonal_energy|]. intros. eexists. split; [reflexivity|now apply orthogonal_mindist]. Qed.
Theorem C70_simplex (M : nat) (A : R) : (1 <= M)%nat -> let K := SimplexConstellation M A in
  length (matrix K) = M /\ is_average (matrix K) (mean0 K) /\ mean_energy0 K = average_energy (matrix K) /\
  ((2 <= M)%nat -> 0 < A -> exists x, minimum_distance K = Some x /\ is_min_distance (matrix K) x).
Proof. intros H K. split; [apply (eq_trans (map_length _ _)), seq_length|]. split; [apply simplex_mean|]. split; [symmetry; now apply simplex_energy|]. intros. eexists. split; [reflexivity|now apply simplex_mindist]. Qed.
Theorem C70_biorthogonal (M : nat) (A : R) (K : constellation) : BiorthogonalConstellation M A = Some K -> (2 <= M)%nat ->
  length (matrix K) = M /\ is_average (matrix K) (mean0 K) /\ mean_energy0 K = average_energy (matrix K) /\
  (0 < A -> exists x, minimum_distance K = Some x /\ is_min_distance (matrix K) x).
Proof.
  intros H HM. split; [destruct (biorthogonal_cases _ _ _ H) as (N & _ & _ & _ & _ & _ & _ & ->); now rewrite map_length, seq_length|]. split; [eapply biorthogonal_mean; eauto|]. split; [symmetry; eapply biorthogonal_energy; eauto; lia|]. intros. eapply biorthogonal_mindist; eauto.
Qed.
(* C70: a rectangular QAM with one point on an axis: min(deltas) is not the minimum distance *)
Theorem C70_qam_single_axis_refuted : minimum_distance (QAMConstellation 4 1 2 1 0) = Some 1 /\ is_min_distance (matrix (QAMConstellation 4 1 2 1 0)) 2 /\ ~ is_min_distance (matrix (QAMConstellation 4 1 2 1 0)) 1.
Proof.
  assert (D : forall i j, (i < j < 4)%nat -> dist2 (nth i (matrix (QAMConstellation 4 1 2 1 0)) []) (nth j (matrix (QAMConstellation 4 1 2 1 0)) []) = ((INR i - INR j) * 2) ^ 2).
  { intros i j H. pose proof (qam_dist 4 1 2 1 0 i 0 j 0 ltac:(lia) ltac:(lia) ltac:(lia) ltac:(lia)) as D. rewrite !Nat.mul_1_l, !Nat.add_0_r in D. rewrite D. ring. }
  assert (EL : length (matrix (QAMConstellation 4 1 2 1 0)) = 4%nat) by (cbn [matrix QAMConstellation]; now rewrite map_length, qam_length).
  split; [cbn; f_equal; apply Rmin_right; lra|]. split.
  - split; [lra|]. rewrite EL. split; [exists 0%nat, 1%nat; split; [lia|]; rewrite D by lia; cbn; lra|]. intros i j H. rewrite D by auto. apply diff_sq_ge. lia.
  - intros (_ & (i & j & H & E) & _). rewrite EL in H. rewrite D in E by auto. pose proof (diff_sq_ge i j 2 ltac:(lia)). lra.
Qed.
(* C70: a PSK constellation (or APSK ring) of one point: mean() answers 0 although the only point is not 0 *)
Theorem C70_psk_one_refuted (A phi : R) : A <> 0 -> ~ is_average (matrix (PSKConstellation 1 A phi)) (mean0 (PSKConstellation 1 A phi)) /\ ~ is_average (matrix (APSKConstellation [(1%nat, A, phi)])) (mean0 (APSKConstellation [(1%nat, A, phi)])).
Proof.
  intros NA. assert (K : ~ is_average (map (fun z => [z]) (psk_points 1 A phi)) [RtoC 0]).
  { intros H. apply avg_1 in H. rewrite psk_length in H. assert (Z : fold_right Cplus (RtoC 0) (psk_points 1 A phi) = RtoC 0).
    { cbn [INR] in H. rewrite H at 2. unfold Cdiv. field. intros E. apply RtoC_inj in E. lra. }
    assert (E := psk_sum_energy 1 A phi). unfold psk_points in *. cbn [seq map fold_right INR] in *. rewrite Cplus_0_r in Z. rewrite Z in E. cbn [fst snd RtoC] in E. apply NA. nra. }
  split; [exact K|]. cbn [matrix mean0 APSKConstellation]. unfold apsk_points. cbn [map concat]. rewrite app_nil_r. exact K.
Qed.
Example C70_case : (2 <= 8)%nat /\ 0 < 1. Proof. split; [lia|lra]. Qed.

(* C71: posteriors follow Bayes' rule with Gaussian noise of the given power *)
Lemma valid_facts K priors : valid_priors K priors = true -> length priors = order K /\ Forall (fun x => 0 <= x) priors /\ 0 < fold_right Rplus 0 priors.
Proof.
  unfold valid_priors. intros H. apply andb_true_iff in H as [H H3]. apply andb_true_iff in H as [H1 H2]. apply Nat.eqb_eq in H3. split; [exact H3|]. split.
  - apply Forall_forall. intros x Hx. rewrite forallb_forall in H1. specialize (H1 x Hx). now destruct (Rleb_spec 0 x).
  - destruct (Rleb_spec (Rabs (fold_right Rplus 0 priors - 1)) (1 / 100000000 + 1 / 100000)) as [L|]; [|discriminate]. unfold Rabs in L. destruct (Rcase_abs _); lra.
Qed.
Theorem C71_bayes (K : constellation) (rs : list (list C)) (P : R) (priors : list R) : usable K -> Forall (fun r => length r = dimension K) rs -> 0 < P -> valid_priors K priors = true ->
  posteriors K (concat rs) P (Some priors) = Some (concat (map (fun r => map (bayes (is_complex K) (dimension K) P (matrix K) priors r) (seq 0 (order K))) rs)).
Proof.
  intros U F HP V. destruct (usable_shape K U) as (D & _ & EL & _). destruct (valid_facts K priors V) as (V1 & V2 & V3). unfold posteriors. cbv zeta. rewrite V. cbn [negb]. rewrite concat_len_mod by auto. cbn [Nat.eqb negb]. rewrite Conv_Proof.reshape_concat by auto.
  do 2 f_equal. apply map_ext. intros r. rewrite <- EL. apply posterior_row_bayes; auto. now rewrite EL.
Qed.
(* the default priors are uniform and valid *)
Theorem C71_default (K : constellation) (received : list C) (P : R) : usable K -> let u := map (fun _ => 1 / INR (order K)) (seq 0 (order K)) in
  valid_priors K u = true /\ posteriors K received P None = posteriors K received P (Some u).
Proof.
  intros U u. split; [|reflexivity]. destruct (usable_shape K U) as (_ & _ & _ & O). assert (0 < INR (order K)) by now apply lt_0_INR. unfold valid_priors. apply andb_true_iff. split; [apply andb_true_iff; split|].
  - apply forallb_forall. intros x Hx. unfold u in Hx. apply in_map_iff in Hx as (i & <- & _). destruct (Rleb_spec 0 (1 / INR (order K))) as [|N]; [reflexivity|]. exfalso. apply N. left. apply Rdiv_lt_0_compat; lra.
  - unfold u. rewrite <- (Rsumf_fold (order K) (fun _ => 1 / INR (order K))), Rsumf_const. replace (INR (order K) * (1 / INR (order K)) - 1) with 0 by (field; lra). rewrite Rabs_R0. destruct (Rleb_spec 0 (1 / 100000000 + 1 / 100000)); [reflexivity|lra].
  - apply Nat.eqb_eq. unfold u. now rewrite map_length, seq_length.
Qed.
(* each row is a probability distribution, and with uniform priors the nearest point is a most probable one *)
Theorem C71_distribution (K : constellation) (P : R) (priors : list R) (r : list C) : usable K -> 0 < P -> valid_priors K priors = true ->
  let post := bayes (is_complex K) (dimension K) P (matrix K) priors r in
  fold_right Rplus 0 (map post (seq 0 (order K))) = 1 /\ forall i, (i < order K)%nat -> 0 <= post i.
Proof.
  intros U HP V post. destruct (usable_shape K U) as (_ & _ & EL & O). destruct (valid_facts K priors V) as (V1 & V2 & V3). set (w := fun j => nth j priors 0 * noise_density (is_complex K) (dimension K) P (dist2 r (nth j (matrix K) []))).
  assert (DP : forall d, 0 < noise_density (is_complex K) (dimension K) P d). { intros d. destruct (density_factor (is_complex K) (dimension K) P d HP) as (c & Hc & -> & _). apply Rmult_lt_0_compat; [auto|apply exp_pos]. }
  assert (W : forall i, In i (seq 0 (order K)) -> 0 <= w i). { intros i Hi. apply in_seq in Hi. unfold w. apply Rmult_le_pos; [rewrite Forall_forall in V2; apply V2, nth_In; lia|left; apply DP]. }
  destruct (some_positive priors V3) as (x & Hx & Px). apply (In_nth _ _ 0) in Hx as (i0 & Hi0 & Ei0).
  assert (SP : 0 < fold_right Rplus 0 (map w (seq 0 (order K)))). { apply lsum_pos; [exact W|]. exists i0. split; [apply in_seq; lia|]. unfold w. rewrite Ei0. apply Rmult_lt_0_compat; [auto|apply DP]. }
  set (S := fold_right Rplus 0 (map w (seq 0 (order K)))) in *. assert (EP : forall i, post i = / S * w i). { intros i. unfold post, bayes. rewrite EL. fold w. fold S. unfold w, Rdiv. ring. }
  split.
  - rewrite (map_ext post (fun i => / S * w i)) by exact EP. rewrite lsum_scal. fold S. apply Rinv_l. lra.
  - intros i Hi. rewrite EP. apply Rmult_le_pos; [left; now apply Rinv_0_lt_compat|]. apply W, in_seq. lia.
Qed.
Theorem C71_uniform_map (K : constellation) (P : R) (r : list C) (j : nat) : usable K -> 0 < P -> length r = dimension K -> (j < order K)%nat ->
  let post := bayes (is_complex K) (dimension K) P (matrix K) (map (fun _ => 1 / INR (order K)) (seq 0 (order K))) r in
  post j <= post (closest K r).
Proof.
  intros U HP Hr Hj post. destruct (usable_shape K U) as (_ & _ & EL & O). destruct (C60_nearest K r U Hr) as [Hk N]. rewrite EL in Hk. specialize (N j ltac:(lia)). assert (PO : 0 < INR (order K)) by now apply lt_0_INR.
  unfold post, bayes. rewrite !nth_map_seq by auto. set (S := fold_right Rplus 0 _). assert (SP : 0 <= / S).
  { destruct (C71_default K [] P U) as [V _]. set (u := map (fun _ => 1 / INR (order K)) (seq 0 (order K))) in *. destruct (C71_distribution K P u r U HP V) as [_ NN].
    assert (0 <= S). { unfold S. rewrite EL. assert (G : forall l, (forall i, In i l -> (i < order K)%nat) -> 0 <= fold_right Rplus 0 (map (fun j0 => nth j0 u 0 * noise_density (is_complex K) (dimension K) P (dist2 r (nth j0 (matrix K) []))) l)).
      { induction l as [|a l IH]; intros Hl; cbn [map fold_right]; [lra|]. pose proof (IH (fun i Hi => Hl i (or_intror Hi))). assert (0 <= nth a u 0 * noise_density (is_complex K) (dimension K) P (dist2 r (nth a (matrix K) []))); [|lra].
        apply Rmult_le_pos; [unfold u; rewrite nth_map_seq by (apply Hl; now left); left; apply Rdiv_lt_0_compat; lra|]. destruct (density_factor (is_complex K) (dimension K) P (dist2 r (nth a (matrix K) [])) HP) as (c & Hc & -> & _). left. apply Rmult_lt_0_compat; [auto|apply exp_pos]. }
      apply G. intros i Hi. apply in_seq in Hi. lia. }
    destruct (Req_dec S 0) as [->|]; [rewrite Rinv_0; lra|]. left. apply Rinv_0_lt_compat. lra. }
  apply Rmult_le_compat_r; [exact SP|]. apply Rmult_le_compat_l; [left; apply Rdiv_lt_0_compat; lra|]. destruct (density_factor (is_complex K) (dimension K) P 0 HP) as (c & Hc & _ & D). rewrite !D. apply Rmult_le_compat_l; [lra|].
  set (v := if is_complex K then P else 2 * P). assert (0 < v) by (unfold v; destruct (is_complex K); lra). set (a := dist2 r _) in *. set (b := dist2 r (nth j _ _)) in *.
  destruct (Req_dec a b) as [->|NE]; [lra|]. left. apply exp_increasing. unfold Rdiv. apply Rmult_lt_compat_r; [now apply Rinv_0_lt_compat|lra].
Qed.
Example C71_case : usable (PAMConstellation 2 2) /\ 0 < 1 / 2 /\ valid_priors (PAMConstellation 2 2) [1 / 4; 3 / 4] = true.
Proof.
  split; [constructor; lra || lia|]. split; [lra|]. unfold valid_priors. cbn [forallb fold_right length order PAMConstellation]. destruct (Rleb_spec 0 (1 / 4)); [|lra]. destruct (Rleb_spec 0 (3 / 4)); [|lra].
  replace (1 / 4 + (3 / 4 + 0) - 1) with 0 by field. rewrite Rabs_R0. destruct (Rleb_spec 0 (1 / 100000000 + 1 / 100000)); [reflexivity|lra].
Qed.

(* C71: which noise the likelihoods assume.  The one-dimensional complex classes use circular noise of total power P; PAM,
   orthogonal, simplex and biorthogonal constellations use real noise of power P per real dimension *)
Theorem C71_noise_kinds : (forall M d, is_complex (PAMConstellation M d) = false) /\
  (forall M A, is_complex (OrthogonalConstellation M A) = false) /\ (forall M A, is_complex (SimplexConstellation M A) = false) /\
  (forall M A K, BiorthogonalConstellation M A = Some K -> is_complex K = false) /\
  (forall Mi Mq di dq phi, is_complex (QAMConstellation Mi Mq di dq phi) = true) /\ (forall M A phi, is_complex (ASKConstellation M A phi) = true) /\
  (forall M A phi, is_complex (PSKConstellation M A phi) = true) /\ (forall rings, is_complex (APSKConstellation rings) = true) /\
  (forall M d phi K, CrossQAMConstellation M d phi = Some K -> is_complex K = true).
Proof.
  repeat (split; [try (intros; reflexivity)|]).
  - intros M A K. unfold BiorthogonalConstellation. destruct (negb _); [discriminate|]. intros E; injection E as <-. reflexivity.
  - intros M d phi K. unfold CrossQAMConstellation. cbv zeta. destruct (_ || _ || _)%bool; [discriminate|]. intros E; injection E as <-. reflexivity.
Qed.

(* C70: QAMConstellation(M) with one integer is accepted exactly for the perfect squares, and is then the square grid *)
Theorem C70_qam_square (M : nat) (delta phi : R) :
  (forall a, M = (a * a)%nat -> QAMConstellation_square M delta phi = Some (QAMConstellation a a delta delta phi)) /\
  ((forall a, M <> (a * a)%nat) -> QAMConstellation_square M delta phi = None).
Proof.
  unfold QAMConstellation_square. split.
  - intros a ->. rewrite Nat.sqrt_square, Nat.eqb_refl. reflexivity.
  - intros H. destruct (Nat.eqb_spec (Nat.sqrt M * Nat.sqrt M) M) as [E|E]; [|reflexivity]. destruct (H (Nat.sqrt M)). lia.
Qed.
Theorem C70_qam_square_example (delta phi : R) : QAMConstellation_square 16 delta phi = Some (QAMConstellation 4 4 delta delta phi) /\ QAMConstellation_square 8 delta phi = None.
Proof. split; [apply C70_qam_square; reflexivity|]. apply C70_qam_square. intros a. destruct a as [|[|[|a]]]; try discriminate. nia. Qed.
