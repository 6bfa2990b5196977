Set Warnings "-ambiguous-paths".
(** The Gaussian Q-function. *)
From Coq Require Import List ZArith Reals Lra Lia Psatz.
From Coquelicot Require Import Coquelicot.
From Verif Require Import Pulse_Model Pulse_Spec Pulse_Int Pulse_Gauss Special_Model Special_Spec.
Import ListNotations.
Local Open Scope R_scope.

Lemma from_intro (g : R -> R) (x v : R) :
  (forall eps : R, 0 < eps -> exists M : R, forall b : R, M < b ->
     exists v', is_RInt g x b v' /\ Rabs (v' - v) < eps) ->
  integral_from g x v.
Proof.
  intros H P HP. destruct HP as [eps HP].
  destruct (H eps (cond_pos eps)) as [M HM]. unfold filtermapi.
  apply Filter_prod with (fun a => a = x) (fun b => M < b).
  - reflexivity.
  - exists M; auto.
  - intros a b -> Hb. simpl. destruct (HM b Hb) as [v' [Hv' He]].
    exists v'; split; [exact Hv'|]. apply HP. exact He.
Qed.
Lemma to_intro (g : R -> R) (x v : R) :
  (forall eps : R, 0 < eps -> exists M : R, forall a : R, a < - M ->
     exists v', is_RInt g a x v' /\ Rabs (v' - v) < eps) ->
  integral_to g x v.
Proof.
  intros H P HP. destruct HP as [eps HP].
  destruct (H eps (cond_pos eps)) as [M HM]. unfold filtermapi.
  apply Filter_prod with (fun a => a < - M) (fun b => b = x).
  - exists (- M); auto.
  - reflexivity.
  - intros a b Ha ->. simpl. destruct (HM a Ha) as [v' [Hv' He]].
    exists v'; split; [exact Hv'|]. apply HP. exact He.
Qed.
Lemma from_elim (g : R -> R) (x v : R) :
  integral_from g x v ->
  forall eps : R, 0 < eps -> exists M : R, forall b : R, M < b ->
     exists v', is_RInt g x b v' /\ Rabs (v' - v) < eps.
Proof.
  intros H eps He.
  unfold integral_from, is_RInt_gen, filterlimi, filter_le, filtermapi in H.
  specialize (H (fun y => Rabs (y - v) < eps)).
  assert (L : locally v (fun y => Rabs (y - v) < eps)) by (exists (mkposreal eps He); intros y Hy; exact Hy).
  specialize (H L). destruct H as [Q S HQ [M2 HS] HQS].
  exists M2. intros b Hb. apply (HQS x b); [exact HQ|apply HS; lra].
Qed.
Lemma to_elim (g : R -> R) (x v : R) :
  integral_to g x v ->
  forall eps : R, 0 < eps -> exists M : R, forall a : R, a < - M ->
     exists v', is_RInt g a x v' /\ Rabs (v' - v) < eps.
Proof.
  intros H eps He.
  unfold integral_to, is_RInt_gen, filterlimi, filter_le, filtermapi in H.
  specialize (H (fun y => Rabs (y - v) < eps)).
  assert (L : locally v (fun y => Rabs (y - v) < eps)) by (exists (mkposreal eps He); intros y Hy; exact Hy).
  specialize (H L). destruct H as [Q S [M1 HQ] HS HQS].
  exists (- M1). intros a Ha. apply (HQS a x); [apply HQ; lra|exact HS].
Qed.
Lemma from_unique (g : R -> R) (x v w : R) : integral_from g x v -> integral_from g x w -> v = w.
Proof.
  intros H1 H2. destruct (Req_EM_T v w) as [E|N]; [exact E|exfalso].
  set (e := Rabs (v - w) / 2).
  assert (He : 0 < e) by (unfold e; pose proof (Rabs_pos_lt (v - w)); lra).
  destruct (from_elim _ _ _ H1 e He) as [M1 K1]. destruct (from_elim _ _ _ H2 e He) as [M2 K2].
  pose proof (Rmax_l M1 M2); pose proof (Rmax_r M1 M2).
  destruct (K1 (Rmax M1 M2 + 1)) as [v1 [I1 E1]]; [lra|].
  destruct (K2 (Rmax M1 M2 + 1)) as [v2 [I2 E2]]; [lra|].
  assert (v1 = v2) by (eapply RI_unique; eassumption). subst v2.
  unfold e in *. revert E1 E2. unfold Rabs; repeat destruct Rcase_abs; lra.
Qed.
Lemma to_unique (g : R -> R) (x v w : R) : integral_to g x v -> integral_to g x w -> v = w.
Proof.
  intros H1 H2. destruct (Req_EM_T v w) as [E|N]; [exact E|exfalso].
  set (e := Rabs (v - w) / 2).
  assert (He : 0 < e) by (unfold e; pose proof (Rabs_pos_lt (v - w)); lra).
  destruct (to_elim _ _ _ H1 e He) as [M1 K1]. destruct (to_elim _ _ _ H2 e He) as [M2 K2].
  pose proof (Rmax_l M1 M2); pose proof (Rmax_r M1 M2).
  destruct (K1 (- Rmax M1 M2 - 1)) as [v1 [I1 E1]]; [lra|].
  destruct (K2 (- Rmax M1 M2 - 1)) as [v2 [I2 E2]]; [lra|].
  assert (v1 = v2) by (eapply RI_unique; eassumption). subst v2.
  unfold e in *. revert E1 E2. unfold Rabs; repeat destruct Rcase_abs; lra.
Qed.

(** Integrals from an antiderivative that has a limit. *)
Lemma from_derive (F g : R -> R) (L x : R) :
  (forall t, is_derive F t (g t)) -> (forall t, continuous g t) ->
  (forall eps, 0 < eps -> exists M, forall t, M < t -> Rabs (F t - L) < eps) ->
  integral_from g x (L - F x).
Proof.
  intros D C Li. apply from_intro. intros eps He. destruct (Li eps He) as [M HM].
  exists M. intros b Hb. exists (F b - F x). split; [apply RI_derive; assumption|].
  replace (F b - F x - (L - F x)) with (F b - L) by ring. apply HM; exact Hb.
Qed.
Lemma to_derive (F g : R -> R) (L x : R) :
  (forall t, is_derive F t (g t)) -> (forall t, continuous g t) ->
  (forall eps, 0 < eps -> exists M, forall t, t < - M -> Rabs (F t - L) < eps) ->
  integral_to g x (F x - L).
Proof.
  intros D C Li. apply to_intro. intros eps He. destruct (Li eps He) as [M HM].
  exists M. intros a Ha. exists (F x - F a). split; [apply RI_derive; assumption|].
  replace (F x - F a - (F x - L)) with (- (F a - L)) by ring. rewrite Rabs_Ropp. apply HM; exact Ha.
Qed.

Lemma I0_odd (x : R) : I0 (- x) = - I0 x.
Proof.
  apply (RI_unique ge 0 (- x)); [apply I0_is|].
  apply (RI_ext (fun t => ge (- t))); [intros t _; apply ge_neg|].
  apply (RI_neg ge 0 (- x) (I0 x)). rewrite Ropp_0, Ropp_involutive. apply I0_is.
Qed.
Lemma I0_at_inf (eps : R) : 0 < eps -> exists M, forall t, M < t -> Rabs (I0 t - sqrt PI / 2) < eps.
Proof.
  intros He. destruct (ge_small (eps / 2)) as [M [HM Hs]]; [lra|].
  exists M. intros t Ht. eapply Rle_lt_trans; [apply I0_limit; lra|]. pose proof (Hs t Ht). lra.
Qed.

Lemma erfc_closed (x : R) : erfc x = 1 - 2 / sqrt PI * I0 x.
Proof.
  unfold erfc.
  assert (H : integral_from (fun t => exp (- t ^ 2)) x (sqrt PI / 2 - I0 x)).
  { apply (from_derive I0 ge (sqrt PI / 2) x); [apply I0_derive|apply ge_cont|apply I0_at_inf]. }
  assert (E : RInt_gen (V := R_CompleteNormedModule) (fun t => exp (- t ^ 2)) (at_point x) (Rbar_locally p_infty) = sqrt PI / 2 - I0 x).
  { apply (is_RInt_gen_unique (V := R_CompleteNormedModule) (Fa := at_point x) (Fb := Rbar_locally p_infty)
       (FFa := Proper_StrongProper _ (at_point_filter x)) (FFb := Proper_StrongProper _ (Rbar_locally_filter p_infty))). exact H. }
  rewrite E. field. pose proof sqrtPI_pos. lra.
Qed.

Lemma sqrt2_gt0 : 0 < sqrt 2.
Proof. apply sqrt_lt_R0. lra. Qed.
Lemma sqrt2_sq : sqrt 2 * sqrt 2 = 2.
Proof. apply sqrt_sqrt. lra. Qed.
Lemma sqrt2PI_eq : sqrt (2 * PI) = sqrt 2 * sqrt PI.
Proof. apply sqrt_mult; [lra|left; apply PI_RGT_0]. Qed.

(** G(u) = I0(u / sqrt 2) / sqrt PI: the odd antiderivative of the normal density. *)
Definition Gn (u : R) : R := I0 (u / sqrt 2) / sqrt PI.
Lemma Gn_derive (u : R) : is_derive Gn u (normal_pdf u).
Proof.
  pose proof sqrt2_gt0; pose proof sqrtPI_pos; pose proof sqrt2_sq as Q.
  unfold Gn. evar_last.
  - apply (is_derive_ext (fun u => / sqrt PI * I0 (u / sqrt 2))).
    + intros t. change (/ sqrt PI * I0 (t / sqrt 2) = I0 (t / sqrt 2) / sqrt PI). unfold Rdiv. ring.
    + apply (is_derive_scal (fun u => I0 (u / sqrt 2)) u (/ sqrt PI)).
      apply (is_derive_comp (V := R_NormedModule) I0 (fun u => u / sqrt 2)).
      * apply I0_derive.
      * instantiate (1 := / sqrt 2). auto_derive; [exact I|]. field. lra.
  - change (/ sqrt PI * (/ sqrt 2 * ge (u / sqrt 2)) = normal_pdf u).
    unfold normal_pdf, ge. rewrite sqrt2PI_eq.
    replace (- (u / sqrt 2) ^ 2) with (- u ^ 2 / (sqrt 2 * sqrt 2)) by (field; lra). rewrite Q.
    field. lra.
Qed.
Lemma pdf_cont (u : R) : continuous normal_pdf u.
Proof. apply (ex_derive_continuous (V := R_NormedModule)). unfold normal_pdf. auto_derive. exact I. Qed.
Lemma pdf_pos (u : R) : 0 < normal_pdf u.
Proof.
  unfold normal_pdf. apply Rmult_lt_0_compat; [|apply exp_pos].
  apply Rinv_0_lt_compat, sqrt_lt_R0. pose proof PI_RGT_0. lra.
Qed.
Lemma Gn_odd (u : R) : Gn (- u) = - Gn u.
Proof.
  unfold Gn. replace (- u / sqrt 2) with (- (u / sqrt 2)) by (unfold Rdiv; ring). rewrite I0_odd. unfold Rdiv. ring.
Qed.
Lemma Gn_inf (eps : R) : 0 < eps -> exists M, forall t, M < t -> Rabs (Gn t - 1/2) < eps.
Proof.
  intros He. pose proof sqrtPI_gt1 as S1. pose proof sqrt2_gt0 as S2.
  destruct (I0_at_inf eps He) as [M HM]. exists (M * sqrt 2). intros t Ht.
  assert (Ht2 : M < t / sqrt 2).
  { apply Rmult_lt_reg_r with (sqrt 2); [exact S2|]. unfold Rdiv. rewrite Rmult_assoc, Rinv_l, Rmult_1_r by lra. exact Ht. }
  specialize (HM _ Ht2). unfold Gn.
  replace (I0 (t / sqrt 2) / sqrt PI - 1/2) with ((I0 (t / sqrt 2) - sqrt PI / 2) * / sqrt PI) by (field; lra).
  rewrite Rabs_mult, (Rabs_right (/ sqrt PI)) by (left; apply Rinv_0_lt_compat; lra).
  pose proof (Rabs_pos (I0 (t / sqrt 2) - sqrt PI / 2)).
  assert (0 < / sqrt PI < 1).
  { split; [apply Rinv_0_lt_compat; lra|]. rewrite <- Rinv_1. apply Rinv_lt_contravar; lra. }
  nra.
Qed.
Lemma Gn_minf (eps : R) : 0 < eps -> exists M, forall t, t < - M -> Rabs (Gn t - - (1/2)) < eps.
Proof.
  intros He. destruct (Gn_inf eps He) as [M HM]. exists M. intros t Ht.
  specialize (HM (- t) ltac:(lra)). rewrite Gn_odd in HM.
  rewrite <- Rabs_Ropp. replace (- (Gn t - - (1/2))) with (- Gn t - 1/2) by ring. exact HM.
Qed.
Lemma gq_closed (x : R) : gaussian_q x = 1/2 - Gn x.
Proof.
  unfold gaussian_q, Gn. rewrite erfc_closed. field. pose proof sqrtPI_pos. lra.
Qed.
Lemma gq_integral (x : R) : integral_from normal_pdf x (gaussian_q x).
Proof. rewrite gq_closed. apply from_derive; [apply Gn_derive|apply pdf_cont|apply Gn_inf]. Qed.
Lemma cdf_integral (x : R) : integral_to normal_pdf x (1 - gaussian_q x).
Proof.
  rewrite gq_closed. replace (1 - (1/2 - Gn x)) with (Gn x - - (1/2)) by field.
  apply to_derive; [apply Gn_derive|apply pdf_cont|apply Gn_minf].
Qed.
Lemma Gn_incr (x y : R) : x < y -> Gn x < Gn y.
Proof.
  intros H. destruct (MVT_gen Gn x y normal_pdf) as [c [_ Hc]].
  - intros t _. apply Gn_derive.
  - intros t _. apply continuity_pt_filterlim. apply (ex_derive_continuous (V := R_NormedModule)).
    exists (normal_pdf t). apply Gn_derive.
  - pose proof (pdf_pos c). nra.
Qed.
Lemma Gn_cont : continuity Gn.
Proof.
  intros t. apply continuity_pt_filterlim. apply (ex_derive_continuous (V := R_NormedModule)).
  exists (normal_pdf t). apply Gn_derive.
Qed.
Lemma Gn_range (x : R) : - (1/2) < Gn x < 1/2.
Proof.
  assert (U : forall x, Gn x < 1/2).
  { clear x. intros x. apply Rnot_le_lt. intros H.
    pose proof (Gn_incr x (x + 1) ltac:(lra)) as Hi.
    destruct (Gn_inf (Gn (x + 1) - Gn x)) as [M HM]; [lra|].
    specialize (HM (Rmax M (x + 1) + 1)). pose proof (Rmax_l M (x + 1)). pose proof (Rmax_r M (x + 1)).
    specialize (HM ltac:(lra)). pose proof (Gn_incr (x + 1) (Rmax M (x + 1) + 1) ltac:(lra)).
    rewrite Rabs_right in HM by lra. lra. }
  split; [|apply U]. pose proof (U (- x)) as H. rewrite Gn_odd in H. lra.
Qed.
Lemma Gn_low (d b : R) : 0 < d -> 2 / d + 2 <= b -> 1/2 - d < Gn b.
Proof.
  intros Hd Hb. assert (H2d : 0 < 2 / d) by (apply Rdiv_lt_0_compat; lra).
  pose proof sqrt2_gt0 as S2. pose proof sqrt2_sq as Q2. pose proof sqrtPI_gt1 as S1.
  set (t := b / sqrt 2).
  assert (Ht : t ^ 2 = b ^ 2 / 2).
  { unfold t. replace ((b / sqrt 2) ^ 2) with (b ^ 2 / (sqrt 2 * sqrt 2)) by (field; lra). rewrite Q2. reflexivity. }
  assert (T0 : 0 <= t) by (unfold t; apply Rmult_le_pos; [lra|left; apply Rinv_0_lt_compat; lra]).
  pose proof (I0_limit t T0) as L.
  assert (G : ge t < d / 2).
  { unfold ge. rewrite exp_Ropp.
    apply Rle_lt_trans with (/ (1 + t ^ 2)).
    - apply Rinv_le_contravar; [nra|]. apply exp_ineq1_le.
    - replace (d / 2) with (/ (2 / d)) by (field; lra).
      apply Rinv_lt_contravar; [|rewrite Ht; nra]. apply Rmult_lt_0_compat; nra. }
  unfold Gn. fold t.
  replace (I0 t / sqrt PI) with (1/2 + (I0 t - sqrt PI / 2) * / sqrt PI) by (field; lra).
  assert (I : 0 < / sqrt PI < 1).
  { split; [apply Rinv_0_lt_compat; lra|]. rewrite <- Rinv_1. apply Rinv_lt_contravar; lra. }
  assert (- d < I0 t - sqrt PI / 2) by (revert L; unfold Rabs; destruct Rcase_abs; lra).
  nra.
Qed.
Lemma Gn_onto (v : R) : - (1/2) < v < 1/2 -> {x | Gn x = v}.
Proof.
  intros H.
  set (d := 1/2 - Rabs v).
  assert (Hd : 0 < d) by (unfold d, Rabs; destruct Rcase_abs; lra).
  set (b := 2 / d + 2). assert (H2d : 0 < 2 / d) by (apply Rdiv_lt_0_compat; lra).
  assert (Hb : 1/2 - d < Gn b) by (apply Gn_low; [exact Hd|unfold b; lra]).
  assert (H1 : v < Gn b /\ - Gn b < v) by (unfold d, Rabs in *; destruct Rcase_abs; lra).
  destruct H1 as [H1 H2].
  destruct (IVT_gen Gn (- b) b v Gn_cont) as [x [_ Hx]]; [|exists x; exact Hx].
  rewrite Gn_odd. split.
  - eapply Rle_trans; [apply Rmin_l|]. lra.
  - eapply Rle_trans; [|apply Rmax_r]. lra.
Qed.

(** Chernoff's bound. *)
Lemma J0_quarter (x : R) : J0 x <= PI / 4 * ge x.
Proof.
  assert (E : forall x, ex_RInt (V := R_CompleteNormedModule) (hg x) 0 1)
    by (intros; apply (ex_RInt_continuous (V := R_CompleteNormedModule)); intros; apply hg_cont).
  rewrite <- J0_0, Rmult_comm.
  replace (ge x * J0 0) with (RInt (fun t => ge x * hg 0 t) 0 1).
  - unfold J0. apply RInt_le; [lra|apply E| |].
    + apply (ex_RInt_scal (V := R_NormedModule) (hg 0) 0 1 (ge x)). apply E.
    + intros t _. unfold hg, ge.
      replace (- 0 ^ 2 * (1 + t ^ 2)) with 0 by ring. rewrite exp_0.
      replace (exp (- x ^ 2) * (1 / (1 + t ^ 2))) with (exp (- x ^ 2) / (1 + t ^ 2)) by (field; nra).
      unfold Rdiv. apply Rmult_le_compat_r; [left; apply Rinv_0_lt_compat; nra|]. apply exp_mono. nra.
  - apply is_RInt_unique. apply RI_scal. apply (RInt_correct (V := R_CompleteNormedModule)). apply E.
Qed.
Lemma gq_chernoff (x : R) : 0 <= x -> gaussian_q x <= 1/2 * exp (- x ^ 2 / 2).
Proof.
  intros Hx. pose proof sqrt2_gt0 as S2. pose proof sqrt2_sq as Q2. pose proof sqrtPI_pos as SP. pose proof sqrtPI_sq as QP.
  set (t := x / sqrt 2).
  assert (Ht : t ^ 2 = x ^ 2 / 2).
  { unfold t. replace ((x / sqrt 2) ^ 2) with (x ^ 2 / (sqrt 2 * sqrt 2)) by (field; lra). rewrite Q2. reflexivity. }
  assert (T0 : 0 <= t) by (unfold t; apply Rmult_le_pos; [lra|left; apply Rinv_0_lt_compat; lra]).
  pose proof (IJ_const t T0) as IJ. pose proof (J0_quarter t) as J. pose proof (I0_pos t T0) as Ip.
  rewrite gq_closed. unfold Gn. fold t.
  replace (exp (- x ^ 2 / 2)) with (ge t) by (unfold ge; rewrite Ht; f_equal; field).
  set (w := I0 t / sqrt PI). assert (Ew : I0 t = w * sqrt PI) by (unfold w; field; lra).
  assert (W0 : 0 <= w) by (unfold w; apply Rmult_le_pos; [exact Ip|left; apply Rinv_0_lt_compat; lra]).
  assert (G : 0 < ge t <= 1).
  { unfold ge. split; [apply exp_pos|]. rewrite <- exp_0. apply exp_mono. nra. }
  assert (W2 : 1 - ge t <= 4 * w ^ 2).
  { rewrite Ew in IJ. assert (P : 0 < PI) by apply PI_RGT_0.
    assert (I2 : w ^ 2 * PI + J0 t = PI / 4) by (rewrite <- QP at 1; rewrite <- IJ; ring).
    apply Rmult_le_reg_r with PI; [exact P|]. nra. }
  apply Rnot_lt_le. intros C. assert (2 * w < 1 - ge t) by lra. nra.
Qed.
