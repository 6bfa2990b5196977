(* C116: soft-decision chains: constellation -> posteriors -> L-values (Labeling.marginalize) -> soft decoders.
   The methods are those of Const_Model, BCJR_Model, BlockCode_Model, Wagner_Model and ConvViterbi_Model; soft_demodulate composes them. *)
From Coq Require Import QArith Qreals Reals Lra.
From Coquelicot Require Import Complex.
From Verif Require Import Common Bits_Model Vec_Model Linear_Spec BlockCode_Model Code_Spec FB_Model Labeling_Model Labeling_Spec Labeling_Proof
  ClassicCodes_Model Wagner_Model Conv_Model Conv_Spec Corr_Model Const_Model Const_Spec Const_Proof Const_Post Soft_Spec Soft_Proof.
From Verif Require Props_ClassicCodes ClassicCodes_Proof ConvTerm_Proof BlockCode_Proof BCJR_Model BCJR_Spec BCJR_Proof FB_Proof Props_Constellation Props_Marginalize Props_Codes Props_Polar Props_BCJR Props_ConvViterbi Chain_Spec.
Import BCJR_Model.
Local Open Scope nat_scope.

Lemma Rsum_eq l : Rsum l = fold_right Rplus 0%R l.
Proof. reflexivity. Qed.

(** For every labeling and every constellation of the same order: the L-values are the logarithms of the ratios of the total
    densities of the bit being 0 and being 1 *)
Theorem C116_llr : forall l K P priors rs, constructed l -> Props_Constellation.usable K -> order K = 2 ^ num_bits l -> (0 < P)%R ->
  valid_priors K priors = true -> Forall (fun x => (0 < x)%R) priors -> Forall (fun r => length r = dimension K) rs ->
  exists out, soft_demodulate l K (concat rs) P (Some priors) = Some out /\ length out = length rs * num_bits l /\
  forall t j, t < length rs -> j < num_bits l ->
    nth (t * num_bits l + j) out NaN = Fin (ln (bit_density l K P priors (nth t rs []) j false / bit_density l K P priors (nth t rs []) j true)).
Proof.
  intros l K P priors rs Cl U EO HP V PP F. destruct (Props_Constellation.usable_shape K U) as (D & Rw & EL & OK).
  destruct (Props_Constellation.valid_facts K priors V) as (V1 & _ & _).
  set (row := fun r => map (bayes (is_complex K) (dimension K) P (Const_Model.matrix K) priors r) (seq 0 (order K))).
  assert (E : posteriors K (concat rs) P (Some priors) = Some (concat (map row rs))) by (apply Props_Constellation.C71_bayes; auto).
  set (p := concat (map row rs)) in *.
  assert (FR : Forall (fun r => length r = order K) (map row rs)). { apply Forall_forall. intros x I. apply in_map_iff in I as (r & <- & _). unfold row. now rewrite map_length, seq_length. }
  assert (DP : forall d, (0 < noise_density (is_complex K) (dimension K) P d)%R). { intros d. destruct (density_factor (is_complex K) (dimension K) P d HP) as (c & Hc & -> & _). apply Rmult_lt_0_compat; [auto|apply exp_pos]. }
  set (w := fun r i => (nth i priors 0 * noise_density (is_complex K) (dimension K) P (dist2 r (nth i (Const_Model.matrix K) [])))%R).
  assert (WP : forall r i, i < order K -> (0 < w r i)%R). { intros r i Hi. unfold w. apply Rmult_lt_0_compat; [|apply DP]. rewrite Forall_forall in PP. apply PP, nth_In. lia. }
  set (S := fun r => fold_right Rplus 0%R (map (w r) (seq 0 (order K)))).
  assert (SP : forall r, (0 < S r)%R). { intros r. unfold S. rewrite <- Rsum_eq. apply BCJR_Proof.Rsum_pos; [destruct (order K); [lia|discriminate]|]. intros x I. apply in_seq in I. apply WP. lia. }
  assert (EB : forall r i, bayes (is_complex K) (dimension K) P (Const_Model.matrix K) priors r i = (w r i / S r)%R). { intros r i. unfold bayes, S, w. now rewrite EL. }
  assert (Pp : Forall (fun x => (0 < x)%R) p). { apply Forall_forall. intros x I. unfold p in I. apply in_concat in I as (y & I1 & I2). apply in_map_iff in I1 as (r & <- & _). apply in_map_iff in I2 as (i & <- & I2). apply in_seq in I2. rewrite EB. apply Rdiv_lt_0_compat; auto. apply WP. lia. }
  assert (Lp : length p = length rs * 2 ^ num_bits l). { unfold p. rewrite <- EO. rewrite (concat_length_m (order K) _ FR), map_length. reflexivity. }
  assert (N0 : 2 ^ num_bits l <> 0) by (apply Nat.pow_nonzero; lia).
  assert (Pp0 : Forall (fun x => (0 <= x)%R) p) by (eapply Forall_impl; [|exact Pp]; cbn; intros; lra).
  destruct (Props_Marginalize.C84_marginalize l p Cl Pp0) as [HN HS].
  destruct (marginalize l p) as [out|] eqn:EM. 2:{ exfalso. apply (proj1 HN eq_refl). rewrite Lp. apply Nat.mod_mul, N0. }
  destruct (HS out eq_refl) as [Lo _]. exists out. split. { unfold soft_demodulate. rewrite E. exact EM. }
  assert (Ed : length p / 2 ^ num_bits l = length rs) by (rewrite Lp; apply Nat.div_mul, N0).
  rewrite Ed in Lo. split; [exact Lo|]. intros t j Ht Hj.
  destruct (Props_Marginalize.C84_finite l p out Cl Pp EM t j ltac:(lia) Hj) as (G & _ & _). rewrite G.
  assert (EQ : forall b, Props_Marginalize.bit_metric l p t j b = (/ S (nth t rs []) * bit_density l K P priors (nth t rs []) j b)%R).
  { intros b. unfold Props_Marginalize.bit_metric, bit_density, indices_with. rewrite <- FB_Proof.Rsum_scal. apply FB_Proof.Rsum_ext. intros i I. apply filter_In in I as [I _]. apply in_seq in I.
    unfold p. rewrite <- EO. rewrite (BCJR_Proof.concat_nth_gen 0%R _ (order K)) by (auto; rewrite ?map_length; lia).
    rewrite (nth_indep _ [] (row [])) by (rewrite map_length; auto). rewrite map_nth. unfold row at 1. rewrite nth_map_seq by lia. rewrite EB. unfold w, Rdiv. ring. }
  rewrite !EQ. f_equal. f_equal. specialize (SP (nth t rs [])). set (D0 := bit_density _ _ _ _ _ _ false). set (D1 := bit_density _ _ _ _ _ _ true). destruct (Req_dec D1 0) as [->|Nz].
  - rewrite Rmult_0_r. unfold Rdiv. rewrite Rinv_0. ring.
  - field. split; lra.
Qed.

(** the default priors are the uniform ones *)
Theorem C116_default_priors : forall l K received P, Props_Constellation.usable K ->
  soft_demodulate l K received P None = soft_demodulate l K received P (Some (repeat (1 / INR (order K))%R (order K))) /\
  valid_priors K (repeat (1 / INR (order K))%R (order K)) = true /\ Forall (fun x => (0 < x)%R) (repeat (1 / INR (order K))%R (order K)).
Proof.
  intros l K received P U. destruct (Props_Constellation.C71_default K received P U) as [V E]. cbv zeta in V, E.
  assert (R : map (fun _ : nat => (1 / INR (order K))%R) (seq 0 (order K)) = repeat (1 / INR (order K))%R (order K)).
  { generalize (1 / INR (order K))%R. intros z. generalize 0. generalize (order K). clear. intros k; induction k as [|n IH]; intros a; cbn; [reflexivity|]. f_equal. apply IH. }
  rewrite R in *. split; [|split; [exact V|]].
  - unfold soft_demodulate. now rewrite E.
  - apply Forall_forall. intros x I. apply repeat_spec in I. subst. destruct (Props_Constellation.usable_shape K U) as (_ & _ & _ & O). apply Rdiv_lt_0_compat; [lra|]. now apply lt_0_INR.
Qed.

Lemma fin_ext (out : list lval) T m (f : nat -> nat -> R) : length out = T * m ->
  (forall t j, t < T -> j < m -> nth (t * m + j) out NaN = Fin (f t j)) -> out = concat (map (fun t => map (fun j => Fin (f t j)) (seq 0 m)) (seq 0 T)).
Proof.
  intros L H. destruct (Nat.eq_dec m 0) as [->|Hm].
  { rewrite Nat.mul_0_r in L. apply length_zero_iff_nil in L. subst. generalize (seq 0 T). intros l. induction l; cbn; auto. }
  assert (F : Forall (fun b => length b = m) (map (fun t => map (fun j => Fin (f t j)) (seq 0 m)) (seq 0 T))).
  { apply Forall_forall. intros b I. apply in_map_iff in I as (t & <- & _). now rewrite map_length, seq_length. }
  apply (list_ext NaN). { rewrite (concat_length_m m _ F), map_length, seq_length. exact L. }
  intros i Hi. rewrite L in Hi. assert (Ei : i = i / m * m + i mod m) by (rewrite Nat.mul_comm; apply Nat.div_mod; lia).
  assert (Ia : i / m < T) by (apply Nat.div_lt_upper_bound; lia). assert (Ib : i mod m < m) by (apply Nat.mod_upper_bound; lia).
  rewrite Ei. rewrite H by auto. rewrite (BCJR_Proof.concat_nth_gen NaN _ m) by (auto; rewrite ?map_length, ?seq_length; auto).
  rewrite (nth_map_seq (fun t => map (fun j => Fin (f t j)) (seq 0 m))) by auto. rewrite nth_map_seq by auto. reflexivity.
Qed.

(** Antipodal signalling: the L-value of a received value x is a negative constant times x *)
Theorem C116_antipodal : forall l delta P xs, mk_Natural 1 = Some l \/ mk_Reflected 1 = Some l -> delta <> 0%R -> (0 < P)%R ->
  soft_demodulate l (PAMConstellation 2 delta) (map RtoC xs) P None = Some (map (fun x => Fin (- (delta / P * x))%R) xs).
Proof.
  intros l delta P xs Hl Hd HP. set (K := PAMConstellation 2 delta). assert (U : Props_Constellation.usable K) by (apply Props_Constellation.u_pam; auto).
  assert (Cl : constructed l) by (destruct Hl as [Hl|Hl]; [eapply con_natural|eapply con_reflected]; exact Hl).
  assert (E1 : num_bits l = 1) by (destruct Hl as [Hl|Hl]; injection Hl as <-; reflexivity).
  assert (E2 : indices_with l 0 false = [0] /\ indices_with l 0 true = [1]) by (destruct Hl as [Hl|Hl]; injection Hl as <-; split; vm_compute; reflexivity).
  destruct (C116_default_priors l K (map RtoC xs) P U) as (E & V & Pp). rewrite E. change (order K) with 2 in *. change (repeat (1 / INR 2)%R 2) with [(1 / INR 2)%R; (1 / INR 2)%R] in *.
  destruct (C116_llr l K P _ (map (fun x => [RtoC x]) xs) Cl U ltac:(rewrite E1; reflexivity) HP V Pp) as (out & Eo & Lo & N).
  { apply Forall_forall. intros r I. apply in_map_iff in I as (x & <- & _). reflexivity. }
  assert (Ec : concat (map (fun x => [RtoC x]) xs) = map RtoC xs) by (clear; induction xs; cbn; f_equal; auto).
  rewrite Ec in Eo. rewrite Eo. f_equal. rewrite E1, map_length in *. apply (list_ext NaN); [rewrite map_length; lia|]. intros t Ht. rewrite Lo, Nat.mul_1_r in Ht.
  specialize (N t 0 Ht ltac:(lia)). rewrite Nat.mul_1_r, Nat.add_0_r in N. rewrite N.
  rewrite (nth_indep _ NaN (Fin (- (delta / P * 0))%R)) by (now rewrite map_length). rewrite (map_nth (fun x => Fin (- (delta / P * x))%R)). f_equal.
  rewrite (nth_indep _ [] [RtoC 0]) by (now rewrite map_length). rewrite (map_nth (fun x => [RtoC x])). set (x := nth t xs 0%R).
  unfold bit_density. rewrite (proj1 E2), (proj2 E2). change (Const_Model.matrix K) with (map (fun x => [RtoC x]) (pam_points 2 delta)).
  cbn [map nth]. rewrite !pam_matrix_nth by lia. rewrite !dist2_1. change (is_complex K) with false. change (dimension K) with 1. unfold Rsum. cbn [fold_right fst snd RtoC].
  destruct (density_factor false 1 P 0 HP) as (c & Hc & _ & D). cbn [INR] in *. rewrite !D. rewrite !Rplus_0_r. rewrite Rminus_0_r. 
  set (a := (- _ / _)%R). set (b := (- ((x - (1 - _) * _) ^ 2 + _) / _)%R).
  replace (1 / (1 + 1) * (c * exp a) / (1 / (1 + 1) * (c * exp b)))%R with (exp (a - b))%R.
  - rewrite ln_exp. unfold a, b. field. lra.
  - unfold Rminus. rewrite exp_plus, exp_Ropp. field. split; [apply Rgt_not_eq, exp_pos|lra].
Qed.

(** QPSK as a 2x2 rectangular constellation: the two L-values are proportional to the two coordinates of the derotated symbol *)
Theorem C116_qpsk : forall l di dq phi P zs, mk_Rect 1 1 = Some l -> di <> 0%R -> dq <> 0%R -> (0 < P)%R ->
  soft_demodulate l (QAMConstellation 2 2 di dq phi) zs P None =
    Some (concat (map (fun z => let w := Cmult z (cexp (- (2 * PI * phi))) in [Fin (- (2 * di / P * fst w))%R; Fin (- (2 * dq / P * snd w))%R]) zs)).
Proof.
  intros l di dq phi P zs Hl Hi Hq HP. set (K := QAMConstellation 2 2 di dq phi). assert (U : Props_Constellation.usable K) by (apply Props_Constellation.u_qam; auto).
  pose proof (con_rect 1 1 l Hl) as Cl. injection Hl as <-. set (l := ReflectedRectangularLabeling 1 1) in *.
  assert (E2 : indices_with l 0 false = [0; 1] /\ indices_with l 0 true = [2; 3] /\ indices_with l 1 false = [0; 2] /\ indices_with l 1 true = [1; 3]) by (repeat split; vm_compute; reflexivity).
  destruct (C116_default_priors l K zs P U) as (E & V & Pp). rewrite E. change (order K) with 4 in *. set (pr := repeat (1 / INR 4)%R 4) in *.
  destruct (C116_llr l K P pr (map (fun x => [x]) zs) Cl U eq_refl HP V Pp) as (out & Eo & Lo & N).
  { apply Forall_forall. intros r I. apply in_map_iff in I as (x & <- & _). reflexivity. }
  assert (Ec : concat (map (fun x => [x]) zs) = zs) by (clear; induction zs; cbn; f_equal; auto).
  rewrite Ec in Eo. rewrite Eo. f_equal. change (num_bits l) with 2 in *. rewrite map_length in *.
  set (wf := fun z => Cmult z (cexp (- (2 * PI * phi)))).
  assert (DQ : forall z i q, i < 2 -> q < 2 -> dist2 [z] (nth (2 * i + q) (Const_Model.matrix K) []) = ((fst (wf z) - (INR i - 1 / 2) * di) ^ 2 + (snd (wf z) - (INR q - 1 / 2) * dq) ^ 2)%R).
  { intros z i q HI HQ. change (Const_Model.matrix K) with (map (fun z => [z]) (qam_points 2 2 di dq phi)). rewrite qam_nth by auto. unfold rotation. rewrite dist2_rot. rewrite dist2_1. fold (wf z). unfold qam_pt. cbn [fst snd INR]. replace (1 + 1 - 1)%R with 1%R by ring. reflexivity. }
  destruct (density_factor true 1 P 0 HP) as (c & Hc & _ & D). cbn [INR] in D.
  assert (PR : forall i, i < 4 -> nth i pr 0%R = (1 / INR 4)%R). { intros i HI. unfold pr. destruct i as [|[|[|[|]]]]; try lia; reflexivity. }
  set (q4 := (1 / INR 4)%R) in *. assert (P4 : (0 < q4)%R) by (unfold q4; cbn [INR]; lra).
  assert (W : forall z i q, i < 2 -> q < 2 -> (nth (2 * i + q) pr 0 * noise_density (is_complex K) (dimension K) P (dist2 [z] (nth (2 * i + q) (Const_Model.matrix K) [])))%R
    = (q4 * c * exp (- ((fst (wf z) - (INR i - 1 / 2) * di) ^ 2 / P)) * exp (- ((snd (wf z) - (INR q - 1 / 2) * dq) ^ 2 / P)))%R).
  { intros z i q HI HQ. rewrite PR by lia. change (is_complex K) with true. change (dimension K) with 1. rewrite D. rewrite DQ by auto. rewrite !Rmult_assoc. rewrite <- exp_plus. do 3 f_equal. field. lra. }
  set (f := fun t j => let w := wf (nth t zs (RtoC 0)) in match j with 0 => (- (2 * di / P * fst w))%R | _ => (- (2 * dq / P * snd w))%R end).
  rewrite (fin_ext out (length zs) 2 f Lo).
  - f_equal. rewrite (map_seq_nth (RtoC 0) (fun z => let w := Cmult z (cexp (- (2 * PI * phi))) in [Fin (- (2 * di / P * fst w))%R; Fin (- (2 * dq / P * snd w))%R])). apply map_ext. intros t. reflexivity.
  - intros t j Ht Hj. rewrite N by auto. f_equal. rewrite (nth_indep _ [] [RtoC 0]) by (now rewrite map_length). rewrite (map_nth (fun x => [x])). set (z := nth t zs (RtoC 0)).
    pose proof (W z 0 0 ltac:(lia) ltac:(lia)) as W0. pose proof (W z 0 1 ltac:(lia) ltac:(lia)) as W1. pose proof (W z 1 0 ltac:(lia) ltac:(lia)) as W2. pose proof (W z 1 1 ltac:(lia) ltac:(lia)) as W3.
    cbn [Nat.mul Nat.add] in W0, W1, W2, W3. unfold bit_density. unfold f. cbv zeta. fold z.
    assert (EP : forall x, (0 < exp x)%R) by apply exp_pos.
    destruct j as [|[|]]; [| |lia].
    + rewrite (proj1 E2), (proj1 (proj2 E2)). cbn [map]. rewrite W0, W1, W2, W3. unfold Rsum. cbn [fold_right INR].
      set (a := (- ((fst (wf z) - (0 - 1 / 2) * di) ^ 2 / P))%R). set (b := (- ((fst (wf z) - (1 - 1 / 2) * di) ^ 2 / P))%R). set (u := exp (- ((snd (wf z) - (0 - 1 / 2) * dq) ^ 2 / P))%R). set (v := exp (- ((snd (wf z) - (1 - 1 / 2) * dq) ^ 2 / P))%R).
      pose proof (EP a). pose proof (EP b). assert (0 < u)%R by apply EP. assert (0 < v)%R by apply EP.
      replace ((q4 * c * exp a * u + (q4 * c * exp a * v + 0)) / (q4 * c * exp b * u + (q4 * c * exp b * v + 0)))%R with (exp (a - b))%R.
      * rewrite ln_exp. unfold a, b. field. lra.
      * unfold Rminus. rewrite exp_plus, exp_Ropp. field. split; [|lra]. apply Rgt_not_eq. assert (0 < q4 * c * exp b)%R by (apply Rmult_lt_0_compat; [nra|auto]). nra.
    + rewrite (proj1 (proj2 (proj2 E2))), (proj2 (proj2 (proj2 E2))). cbn [map]. rewrite W0, W1, W2, W3. unfold Rsum. cbn [fold_right INR].
      set (a := (- ((snd (wf z) - (0 - 1 / 2) * dq) ^ 2 / P))%R). set (b := (- ((snd (wf z) - (1 - 1 / 2) * dq) ^ 2 / P))%R). set (u := exp (- ((fst (wf z) - (0 - 1 / 2) * di) ^ 2 / P))%R). set (v := exp (- ((fst (wf z) - (1 - 1 / 2) * di) ^ 2 / P))%R).
      pose proof (EP a). pose proof (EP b). assert (0 < u)%R by apply EP. assert (0 < v)%R by apply EP.
      replace ((q4 * c * u * exp a + (q4 * c * v * exp a + 0)) / (q4 * c * u * exp b + (q4 * c * v * exp b + 0)))%R with (exp (a - b))%R.
      * rewrite ln_exp. unfold a, b. field. lra.
      * unfold Rminus. rewrite exp_plus, exp_Ropp. field. split; [|lra]. apply Rgt_not_eq. assert (0 < q4 * c * exp b)%R by (apply Rmult_lt_0_compat; [nra|auto]). nra.
Qed.

(** ============ decoders: among all codewords, the returned one has its antipodal signal nearest to the received values *)
Definition nearest_signal (A : Q) (r : list Q) (codewords : vec -> Prop) (v : vec) : Prop :=
  codewords v /\ forall v', codewords v' -> (euclid2 r (antipodal A v) <= euclid2 r (antipodal A v'))%Q.

Lemma scaled_length a r : length (scaled a r) = length r. Proof. apply map_length. Qed.
Lemma message_length k j : length (message k j) = k. Proof. apply BlockCode_Proof.message_length. Qed.

Theorem C116_exhaustive : forall C A a r, valid_code C -> (0 < A)%Q -> (0 < a)%Q -> length r = bc_n C ->
  length (exhaustive_soft C (scaled a r)) = bc_k C /\
  nearest_signal A r (is_codeword C) (bc_encode C (exhaustive_soft C (scaled a r))).
Proof.
  intros C A a r V HA Ha Lr. destruct (Props_Codes.C33_soft C (scaled a r) V) as (j & Hj & E & M & _). rewrite E. split; [apply message_length|]. split; [exists (message (bc_k C) j); split; [apply message_length|reflexivity]|].
  assert (LC : forall c, is_codeword C c -> length c = length r) by (intros c (u & Lu & <-); rewrite Lr; apply (ok_encode_length C V u Lu)).
  intros c Hc. apply (correlation_euclid A a); auto. apply LC. exists (message (bc_k C) j). split; [apply message_length|reflexivity].
Qed.
Theorem C116_wagner : forall n C A a r, SingleParityCheckCode n = Some C -> (0 < A)%Q -> (0 < a)%Q -> length r = n ->
  length (wagner_decode C (scaled a r)) = bc_k C /\
  nearest_signal A r (is_codeword C) (bc_encode C (wagner_decode C (scaled a r))).
Proof.
  intros n C A a r E HA Ha Lr. destruct (Props_Polar.C45_wagner n C (scaled a r) E ltac:(now rewrite scaled_length)) as [L M]. split; [exact L|].
  assert (Hn : 1 <= n) by (unfold SingleParityCheckCode in E; destruct (Nat.leb_spec 1 n); [auto|discriminate]).
  destruct (ClassicCodes_Proof.spc_code n Hn) as (C' & E' & EN & EK & V & _). assert (C' = C) by congruence. subst C'.
  assert (LC : forall c, is_codeword C c -> length c = length r) by (intros c (u & Lu & <-); rewrite Lr, <- EN; apply (ok_encode_length C V u Lu)).
  split; [eexists; split; [exact L|reflexivity]|]. intros c Hc. apply (correlation_euclid A a); auto. apply LC. eexists; split; [exact L|reflexivity].
Qed.
Theorem C116_viterbi_truncation : forall c h A a r, conv_ok c -> Props_ConvViterbi.distinct_successors c -> (0 < A)%Q -> (0 < a)%Q -> length r = h * cv_n c ->
  exists u, viterbi_decode_soft c DirectTruncation (scaled a r) = Some u /\ length u = h * cv_k c /\
  nearest_signal A r (fun v => exists u, length u = h * cv_k c /\ terminated_encode c h DirectTruncation u = v)
    (terminated_encode c h DirectTruncation u).
Proof.
  intros c h A a r OK DS HA Ha Lr. destruct (Props_ConvViterbi.C66_truncation_soft c h (scaled a r) OK DS ltac:(now rewrite scaled_length)) as (u & E & L & M). exists u. split; [exact E|]. split; [exact L|].
  assert (LC : forall u, length u = h * cv_k c -> length (terminated_encode c h DirectTruncation u) = length r) by (intros u' Lu'; rewrite ConvTerm_Proof.encode_length by (cbn; auto); cbn; congruence).
  split; [exists u; auto|]. intros v' (u' & Lu' & <-). apply (correlation_euclid A a); auto.
Qed.
Theorem C116_viterbi_zero_termination : forall c h A a r, conv_ok c -> Props_ConvViterbi.distinct_successors c -> Props_ConvViterbi.distinct_tails c ->
  (forall h s, reachable c (h + cv_mem c) s -> reachable c (cv_mem c) s) -> 0 < h -> 0 < cv_mem c -> (0 < A)%Q -> (0 < a)%Q ->
  length r = (h + cv_mem c) * cv_n c ->
  exists u, viterbi_decode_soft c ZeroTermination (scaled a r) = Some u /\ length u = h * cv_k c /\
  nearest_signal A r (fun v => exists u, length u = h * cv_k c /\ terminated_encode c h ZeroTermination u = v)
    (terminated_encode c h ZeroTermination u).
Proof.
  intros c h A a r OK DS DT RE Hh Hm HA Ha Lr. destruct (Props_ConvViterbi.C66_zero_termination_soft c h (scaled a r) OK DS DT RE Hh Hm ltac:(now rewrite scaled_length)) as (u & E & L & M). exists u. split; [exact E|]. split; [exact L|].
  assert (LC : forall u, length u = h * cv_k c -> length (terminated_encode c h ZeroTermination u) = length r).
  { intros u' Lu'. destruct (ConvTerm_Proof.zero_terminated c OK h u' Hh Hm Lu' (RE h)) as (v & Ev & Lv). unfold terminated_encode. rewrite Ev. congruence. }
  split; [exists u; auto|]. intros v' (u' & Lu' & <-). apply (correlation_euclid A a); auto.
Qed.

(** soft decisions correct every noise pattern of Euclidean norm below half the distance 2 A sqrt(d) of the signals *)
Theorem C116_guarantee : forall C d A r u v, is_minimum_distance C d -> (0 < A)%Q -> length r = bc_n C -> valid_code C -> length u = bc_k C ->
  (euclid2 r (antipodal A (bc_encode C u)) < A * A * inject_Z (Z.of_nat d))%Q -> nearest_signal A r (is_codeword C) v -> v = bc_encode C u.
Proof.
  intros C d A r u v [MD _] HA Lr V Lu H [Hv N].
  assert (LC : forall c, is_codeword C c -> length c = length r) by (intros c (u' & Lu' & <-); rewrite Lr; apply (ok_encode_length C V u' Lu')).
  assert (Hu : is_codeword C (bc_encode C u)) by (exists u; auto). destruct (list_eq_dec Bool.bool_dec v (bc_encode C u)) as [E|Ne]; [exact E|exfalso].
  pose proof (MD v _ Hv Hu Ne) as D. pose proof (euclid2_par A r v (bc_encode C u) (LC _ Hv) (LC _ Hu)) as P. specialize (N _ Hu).
  assert (DQ : (inject_Z (Z.of_nat d) <= inject_Z (Z.of_nat (hdist v (bc_encode C u))))%Q) by (rewrite <- Zle_Qle; lia).
  set (x := inject_Z (Z.of_nat d)) in *. set (y := inject_Z (Z.of_nat (hdist v (bc_encode C u)))) in *. set (e := euclid2 r (antipodal A (bc_encode C u))) in *. set (e' := euclid2 r (antipodal A v)) in *. clearbody x y e e'.
  assert (S : (0 < A * A)%Q) by (apply Qmult_lt_0_compat; auto). set (B := (A * A)%Q) in *. clearbody B. clear -H N P DQ S.
  pose proof (proj2 (Qmult_le_l x y B S) DQ). Lqa.nra.
Qed.

(** ============ the whole chain over an antipodal channel of amplitude A and noise power P *)
Lemma chunks_1 bits : chunks (length bits) 1 bits = map (fun b : bool => [b]) bits.
Proof. induction bits as [|b bits IH]; [reflexivity|]. cbn [length chunks firstn skipn map]. now rewrite IH. Qed.
Theorem C116_modulate : forall l A bits, mk_Natural 1 = Some l -> bits <> [] ->
  Chain_Spec.modulate l (PAMConstellation 2 (Q2R (2 * A))) bits = Some (map (fun q => RtoC (Q2R q)) (antipodal A bits)).
Proof.
  intros l A bits Hl NE. injection Hl as <-. set (K := PAMConstellation 2 (Q2R (2 * A))).
  assert (L0 : length bits <> 0) by (destruct bits; [now elim NE|discriminate]).
  unfold Chain_Spec.modulate. cbn [bits_to_indices]. unfold natural_bits_to_indices. rewrite Nat.mod_1_r, Nat.div_1_r. cbn [Nat.eqb negb]. unfold along_axis. destruct (Nat.eqb_spec (length bits) 0); [contradiction|].
  rewrite chunks_1. cbn [option_map]. rewrite map_map. unfold indices_to_symbols.
  assert (G : forall b : bool, nth (N.to_nat (bits_to_int [b] MSB_first)) (Const_Model.matrix K) [] = [RtoC (Q2R (if b then A else - A)%Q)] /\ N.to_nat (bits_to_int [b] MSB_first) < 2).
  { intros b. destruct b; (split; [|cbn; lia]); change (Const_Model.matrix K) with (map (fun x => [RtoC x]) (pam_points 2 (Q2R (2 * A)))).
    - change (N.to_nat (bits_to_int [true] MSB_first)) with 1. rewrite pam_matrix_nth by lia. cbn [INR]. rewrite Q2R_mult. f_equal. f_equal. unfold Q2R at 1. cbn. field.
    - change (N.to_nat (bits_to_int [false] MSB_first)) with 0. rewrite pam_matrix_nth by lia. cbn [INR]. rewrite Q2R_mult, Q2R_opp. f_equal. f_equal. unfold Q2R at 1. cbn. field. }
  rewrite (proj2 (forallb_forall _ _)).
  - f_equal. clear NE L0 n. induction bits as [|b bits IH]; [reflexivity|]. cbn [map concat antipodal]. rewrite (proj1 (G b)). cbn [app]. f_equal. exact IH.
  - intros i Hi. apply in_map_iff in Hi as (b & <- & _). apply Nat.ltb_lt. apply (G b).
Qed.
Theorem C116_lvalues : forall l A P r, mk_Natural 1 = Some l \/ mk_Reflected 1 = Some l -> (0 < A)%Q -> (0 < P)%Q ->
  soft_demodulate l (PAMConstellation 2 (Q2R (2 * A))) (map (fun q => RtoC (Q2R q)) r) (Q2R P) None = Some (map (fun q => Fin (Q2R q)) (scaled (2 * A / P) r)).
Proof.
  intros l A P r Hl HA HP. apply Qlt_Rlt in HP as HPR. replace (Q2R 0) with 0%R in HPR by (unfold Q2R; cbn; field).
  assert (HAR : (0 < Q2R (2 * A))%R). { replace 0%R with (Q2R 0) by (unfold Q2R; cbn; field). apply Qlt_Rlt. Lqa.lra. }
  pose proof (C116_antipodal l (Q2R (2 * A)) (Q2R P) (map Q2R r) Hl ltac:(lra) HPR) as E. rewrite map_map in E. rewrite E. f_equal. unfold scaled. rewrite !map_map. apply map_ext. intros q. f_equal.
  rewrite Q2R_opp, (Q2R_mult (2 * A / P) q). unfold Qdiv. rewrite (Q2R_mult (2 * A) (/ P)), Q2R_inv; [reflexivity|]. intros X. rewrite X in HP. discriminate HP.
Qed.
(** encode, map to antipodal symbols, add any noise of energy less than d A^2, compute L-values and decode: the message *)
Theorem C116_chain : forall l C d A P u r, mk_Natural 1 = Some l -> valid_code C -> 0 < bc_n C -> is_minimum_distance C d -> (0 < A)%Q -> (0 < P)%Q -> length u = bc_k C -> length r = bc_n C ->
  let K := PAMConstellation 2 (Q2R (2 * A)) in let sent := antipodal A (bc_encode C u) in
  Chain_Spec.modulate l K (bc_encode C u) = Some (map (fun q => RtoC (Q2R q)) sent) /\
  ((euclid2 r sent < A * A * inject_Z (Z.of_nat d))%Q ->
   exists L, soft_demodulate l K (map (fun q => RtoC (Q2R q)) r) (Q2R P) None = Some (map (fun q => Fin (Q2R q)) L) /\ exhaustive_soft C L = u).
Proof.
  intros l C d A P u r Hl V Hn D HA HP Lu Lr K sent. split.
  - apply C116_modulate; auto. intros E. pose proof (ok_encode_length C V u Lu) as L. rewrite E in L. cbn in L. lia.
  - intros H. assert (Ha : (0 < 2 * A / P)%Q). { unfold Qdiv. apply Qmult_lt_0_compat; [Lqa.lra|]. now apply Qinv_lt_0_compat. }
    exists (scaled (2 * A / P) r). split; [apply C116_lvalues; auto|]. destruct (C116_exhaustive C A _ r V HA Ha Lr) as [L N].
    apply (ok_encode_injective C V); auto. apply (C116_guarantee C d A r u _ D HA Lr V Lu H N).
Qed.
(** BCJR: the outputs are the exact a-posteriori L-values of the message bits given the received real values *)
Theorem C116_bcjr : forall g h A P xs, 0 < cv_deg (LowRate g) -> 0 < h -> length xs = (h + cv_mem (LowRate g)) * length g -> (0 < A)%R -> (0 < P)%R ->
  let density j b := noise_density false 1 P ((nth j xs 0 - (if b : bool then A else - A)) ^ 2)%R in
  let L := map (fun x => (- (2 * A / P * x))%R) xs in
  Props_BCJR.bitwise_app density (terminated_encode (LowRate g) h ZeroTermination) h (bcjr_soft (LowRate g) ZeroTermination L) (bcjr_hard (LowRate g) ZeroTermination L).
Proof.
  intros g h A P xs Hd Hh Lx HA HP density L. apply Props_BCJR.C83_low_rate; auto; [unfold L; now rewrite map_length|].
  intros j Hj. unfold L in *. rewrite map_length in Hj. destruct (density_factor false 1 P 0 HP) as (c & Hc & _ & D). unfold density. rewrite !D.
  split; [apply Rmult_lt_0_compat; [auto|apply exp_pos]|]. split; [apply Rmult_lt_0_compat; [auto|apply exp_pos]|].
  rewrite (nth_indep _ 0%R (- (2 * A / P * 0))%R) by (now rewrite map_length). rewrite (map_nth (fun x => (- (2 * A / P * x))%R)). set (x := nth j xs 0%R).
  set (a := (- (x - - A) ^ 2 / (2 * P))%R). set (b := (- (x - A) ^ 2 / (2 * P))%R). pose proof (exp_pos b). pose proof (exp_pos a).
  replace (c * exp a / (c * exp b))%R with (exp (a - b))%R.
  - rewrite ln_exp. unfold a, b. field. lra.
  - unfold Rminus. rewrite exp_plus, exp_Ropp. field. lra.
Qed.
(* two of the seven signs received wrong, which hard decisions cannot correct: still recovered; and a convolutional code for C116_bcjr *)
Theorem C116_case : (exists l C, mk_Natural 1 = Some l /\ HammingCode 3 false = Some C /\ length [true; false; true; true] = bc_k C /\
    let sent := antipodal 1 (bc_encode C [true; false; true; true]) in
    let r := match sent with a :: b :: t => ((- (1 # 10)) * a :: (- (1 # 10)) * b :: t)%Q | _ => [] end in
    length r = bc_n C /\ (euclid2 r sent < 1 * 1 * inject_Z (Z.of_nat 3))%Q /\
    exists L, soft_demodulate l (PAMConstellation 2 (Q2R (2 * 1))) (map (fun q => RtoC (Q2R q)) r) (Q2R (1 # 2)) None = Some (map (fun q => Fin (Q2R q)) L) /\
      exhaustive_soft C L = [true; false; true; true] /\ exhaustive_hard C (map (fun q => if Qlt_le_dec 0 q then true else false) r) <> [true; false; true; true]) /\
  (0 < cv_deg (LowRate [7; 5]%N)).
Proof.
  split; [|vm_compute; lia]. destruct (Props_ClassicCodes.C36_hamming 3 ltac:(lia)) as (C & E & V & En & Ek & Em & _ & Dm & _). destruct (mk_Natural 1) as [l|] eqn:El; [|discriminate]. exists l, C.
  split; [reflexivity|]. split; [exact E|]. split; [rewrite Ek; reflexivity|]. cbv zeta. set (u := [true; false; true; true]).
  assert (ES : bc_encode C u = [true; false; true; true; false; true; false]) by (injection E as <-; vm_compute; reflexivity).
  rewrite ES. set (r := match antipodal 1 _ with a :: b :: t => _ | _ => _ end). assert (Lr : length r = bc_n C) by (rewrite En; reflexivity). split; [exact Lr|]. split; [vm_compute; reflexivity|].
  destruct (C116_chain l C 3 1 (1 # 2) u r El V ltac:(rewrite En; cbn; lia) Dm ltac:(reflexivity) ltac:(reflexivity) ltac:(rewrite Ek; reflexivity) Lr) as [_ H]. rewrite ES in H.
  destruct H as (L & E1 & E2); [vm_compute; reflexivity|]. exists L. split; [exact E1|]. split; [exact E2|].
  injection E as <-. vm_compute. discriminate.
Qed.
