(** The Gaussian integral and the Fourier transform of a Gaussian. *)
Set Warnings "-ambiguous-paths".
From Coq Require Import List ZArith Reals Lra Lia Psatz.
From Coquelicot Require Import Coquelicot.
From Verif Require Import Pulse_Model Pulse_Spec Pulse_Int Pulse_Basic Pulse_RC Pulse_RC2 Pulse_Beau Pulse_RootBeau.
Import ListNotations.
Local Open Scope R_scope.

Lemma param_derive (h dh : R -> R -> R) (a b x : R) :
  (forall u t : R, is_derive (fun z => h z t) u (dh u t)) ->
  (forall u t, continuity_2d_pt dh u t) ->
  (forall u t : R, continuous (h u) t) ->
  is_derive (fun z => RInt (h z) a b) x (RInt (dh x) a b).
Proof.
  intros Hd Hc Hi.
  assert (E : forall u t, Derive (fun z => h z t) u = dh u t)
    by (intros; apply is_derive_unique; apply Hd).
  evar_last.
  - apply (is_derive_RInt_param h a b x).
    + exists (mkposreal 1 Rlt_0_1). intros y _ t _. exists (dh y t). apply Hd.
    + intros t _. apply continuity_2d_pt_ext with dh; [|apply Hc].
      intros u v. symmetry. apply E.
    + exists (mkposreal 1 Rlt_0_1). intros y _.
      apply (ex_RInt_continuous (V := R_CompleteNormedModule)). intros t _. apply Hi.
  - apply RInt_ext. intros t _. apply E.
Qed.

Definition ge (t : R) : R := exp (- t ^ 2).
Definition I0 (x : R) : R := RInt ge 0 x.
Lemma ge_derive (x : R) : ex_derive ge x.
Proof. unfold ge. auto_derive. exact I. Qed.
Lemma ge_cont (x : R) : continuous ge x.
Proof. apply (ex_derive_continuous (V := R_NormedModule)). apply ge_derive. Qed.
Lemma ge_int (a b : R) : ex_RInt (V := R_CompleteNormedModule) ge a b.
Proof. apply (ex_RInt_continuous (V := R_CompleteNormedModule)). intros; apply ge_cont. Qed.
Lemma I0_derive (x : R) : is_derive I0 x (ge x).
Proof.
  apply (is_derive_RInt (V := R_NormedModule) ge I0 0 x); [|apply ge_cont].
  exists (mkposreal 1 Rlt_0_1). intros y _.
  apply (RInt_correct (V := R_CompleteNormedModule)). apply ge_int.
Qed.
Lemma I0_is (x : R) : is_RInt ge 0 x (I0 x).
Proof. apply (RInt_correct (V := R_CompleteNormedModule)). apply ge_int. Qed.

Definition hg (u t : R) : R := exp (- u ^ 2 * (1 + t ^ 2)) / (1 + t ^ 2).
Definition dhg (u t : R) : R := - 2 * u * exp (- u ^ 2 * (1 + t ^ 2)).
Definition J0 (x : R) : R := RInt (hg x) 0 1.

Lemma exp_mono (x y : R) : x <= y -> exp x <= exp y.
Proof. intros [H|H]; [left; apply exp_increasing; exact H|right; rewrite H; reflexivity]. Qed.

Lemma c2_exp (g : R -> R -> R) x y :
  continuity_2d_pt g x y -> continuity_2d_pt (fun u v => exp (g u v)) x y.
Proof.
  intros H. apply (continuity_1d_2d_pt_comp exp g); [|exact H].
  apply derivable_continuous_pt. apply derivable_pt_exp.
Qed.

Lemma hg_cont (u t : R) : continuous (hg u) t.
Proof.
  apply (ex_derive_continuous (V := R_NormedModule)). unfold hg. auto_derive. nra.
Qed.
Lemma J0_derive (x : R) : is_derive J0 x (RInt (dhg x) 0 1).
Proof.
  apply (param_derive hg dhg).
  - intros u t. unfold hg, dhg. auto_derive; [exact I|]. replace (- (u * (u * 1)) * (1 + t * (t * 1))) with (- u ^ 2 * (1 + t ^ 2)) by ring. field. nra.
  - intros u t. unfold dhg.
    apply continuity_2d_pt_mult.
    + apply continuity_2d_pt_mult; [apply continuity_2d_pt_const|apply continuity_2d_pt_id1].
    + apply c2_exp. apply continuity_2d_pt_mult.
      * apply continuity_2d_pt_opp.
        apply (continuity_1d_2d_pt_comp (fun z => z ^ 2) (fun u v => u)).
        -- apply derivable_continuous_pt. apply derivable_pt_pow.
        -- apply continuity_2d_pt_id1.
      * apply continuity_2d_pt_plus; [apply continuity_2d_pt_const|].
        apply (continuity_1d_2d_pt_comp (fun z => z ^ 2) (fun u v => v)).
        -- apply derivable_continuous_pt. apply derivable_pt_pow.
        -- apply continuity_2d_pt_id2.
  - apply hg_cont.
Qed.

(** int_0^1 dhg x = -2 e^{-x^2} I0 x *)
Lemma dhg_int (x : R) : RInt (dhg x) 0 1 = - 2 * ge x * I0 x.
Proof.
  apply is_RInt_unique.
  apply (RI_ext (fun t => - 2 * ge x * (x * ge (x * t + 0)))).
  - intros t _. unfold dhg, ge.
    replace (- x ^ 2 * (1 + t ^ 2)) with (- x ^ 2 + - (x * t + 0) ^ 2) by ring.
    rewrite exp_plus. ring.
  - apply RI_scal.
    apply (is_RInt_comp_lin (V := R_NormedModule) ge x 0 0 1).
    replace (x * 0 + 0) with 0 by ring. replace (x * 1 + 0) with x by ring. apply I0_is.
Qed.

Lemma J0_0 : J0 0 = PI / 4.
Proof.
  unfold J0. apply is_RInt_unique. rewrite <- atan_1.
  apply (RI_ext (fun t => / (1 + t ^ 2))).
  - intros t _. unfold hg. replace (- 0 ^ 2 * (1 + t ^ 2)) with 0 by ring. rewrite exp_0. field. nra.
  - replace (atan 1) with (atan 1 - atan 0) by (rewrite atan_0; ring).
    apply RI_derive.
    + intros x. replace (1 + x ^ 2) with (1 + Rsqr x) by (unfold Rsqr; ring). apply is_derive_atan.
    + intros x. apply (ex_derive_continuous (V := R_NormedModule)). auto_derive. nra.
Qed.

Lemma I0_0 : I0 0 = 0.
Proof. unfold I0. apply (RInt_point (V := R_CompleteNormedModule)). Qed.

Lemma IJ_const (x : R) : 0 <= x -> I0 x ^ 2 + J0 x = PI / 4.
Proof.
  intros Hx. destruct (Req_EM_T x 0) as [->|N].
  - rewrite I0_0, J0_0. ring.
  - rewrite <- J0_0. replace (J0 0) with (I0 0 ^ 2 + J0 0) by (rewrite I0_0; ring).
    symmetry. apply (eq_is_derive (V := R_NormedModule) (fun x => I0 x ^ 2 + J0 x) 0 x); [|lra].
    intros t _.
    evar_last.
    + apply (is_derive_plus (V := R_NormedModule)).
      * apply (is_derive_pow I0 2 t (ge t)). apply I0_derive.
      * apply J0_derive.
    + rewrite dhg_int. change (INR 2 * ge t * I0 t ^ Init.Nat.pred 2 + - 2 * ge t * I0 t = 0). simpl. ring.
Qed.

Lemma J0_bound (x : R) : 0 <= J0 x <= ge x.
Proof.
  assert (E : ex_RInt (V := R_CompleteNormedModule) (hg x) 0 1)
    by (apply (ex_RInt_continuous (V := R_CompleteNormedModule)); intros; apply hg_cont).
  split.
  - unfold J0. apply RInt_ge_0; [lra|exact E|].
    intros t _. unfold hg. apply Rlt_le, Rdiv_lt_0_compat; [apply exp_pos|nra].
  - replace (ge x) with (RInt (fun _ : R => ge x) 0 1).
    + unfold J0. apply RInt_le; [lra|exact E|apply (ex_RInt_const (V := R_NormedModule))|].
      intros t _. unfold hg, ge.
      apply Rle_trans with (exp (- x ^ 2) / 1).
      * unfold Rdiv. apply Rmult_le_compat; [left; apply exp_pos|left; apply Rinv_0_lt_compat; nra| |].
        -- apply exp_mono. nra.
        -- apply Rinv_le_contravar; nra.
      * lra.
    + apply is_RInt_unique. eapply RI_eq; [|apply RI_const]. ring.
Qed.

Lemma I0_pos (x : R) : 0 <= x -> 0 <= I0 x.
Proof.
  intros Hx. unfold I0. apply RInt_ge_0; [exact Hx|apply ge_int|].
  intros t _. left. apply exp_pos.
Qed.

Lemma sqrtPI_pos : 0 < sqrt PI.
Proof. apply sqrt_lt_R0, PI_RGT_0. Qed.
Lemma sqrtPI_sq : sqrt PI * sqrt PI = PI.
Proof. apply sqrt_sqrt. left. apply PI_RGT_0. Qed.
Lemma sqrtPI_gt1 : 1 < sqrt PI.
Proof.
  apply Rnot_le_lt. intros H. pose proof sqrtPI_sq. pose proof sqrtPI_pos.
  pose proof PI2_1. assert (sqrt PI * sqrt PI <= 1) by nra. lra.
Qed.

Lemma I0_limit (x : R) : 0 <= x -> Rabs (I0 x - sqrt PI / 2) <= 2 * ge x.
Proof.
  intros Hx. pose proof (IJ_const x Hx) as E. pose proof (J0_bound x) as B.
  pose proof (I0_pos x Hx) as P. pose proof sqrtPI_sq as Q. pose proof sqrtPI_gt1 as S.
  set (d := I0 x - sqrt PI / 2). set (s := I0 x + sqrt PI / 2).
  assert (K : d * s = - J0 x) by (unfold d, s; nra).
  assert (L : 1/2 <= s) by (unfold s; lra).
  assert (- (2 * ge x) <= d <= 2 * ge x).
  { split; apply Rnot_lt_le; intros C; nra. }
  apply Rabs_le. lra.
Qed.

(** e^{-x^2} -> 0 *)
Lemma ge_small (eps : R) : 0 < eps -> exists M, 0 <= M /\ forall x, M < x -> ge x < eps.
Proof.
  intros He. exists (1 + / eps). split.
  - pose proof (Rinv_0_lt_compat eps He). lra.
  - intros x Hx. pose proof (Rinv_0_lt_compat eps He) as Hi.
    unfold ge. rewrite exp_Ropp.
    apply Rle_lt_trans with (/ (1 + x ^ 2)).
    + apply Rinv_le_contravar; [nra|]. left. apply exp_ineq1. nra.
    + rewrite <- (Rinv_inv eps).
      apply Rinv_lt_contravar; [apply Rmult_lt_0_compat; nra|]. nra.
Qed.

Lemma ge_neg (x : R) : ge (- x) = ge x.
Proof. unfold ge. f_equal. ring. Qed.
