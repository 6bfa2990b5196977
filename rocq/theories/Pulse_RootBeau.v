(** The square root of the Beaulieu pulse: the waveform is the inverse Fourier
    transform of the square-root spectrum up to the error of the quadrature
    rule on one explicit integrand. *)
Set Warnings "-ambiguous-paths".
From Coq Require Import List ZArith Reals Lra Lia Psatz.
From Coquelicot Require Import Coquelicot.
From Verif Require Import Pulse_Model Pulse_Spec Pulse_Int Pulse_Basic Pulse_RC Pulse_RC2 Pulse_Beau.
Import ListNotations.
Local Open Scope R_scope.

Lemma RI_exists_cont (g : R -> R) (a b : R) :
  (forall x, continuous g x) -> exists w : R, is_RInt g a b w.
Proof.
  intros H.
  assert (E : ex_RInt (V := R_CompleteNormedModule) g a b).
  { apply (ex_RInt_continuous (V := R_CompleteNormedModule)). intros z _. apply H. }
  exact E.
Qed.

Section RB.
Variable a : R.
Hypothesis Ha : 0 < a <= 1.
Let f1 := (1 - a) / 2.
Let f2 := (1 + a) / 2.
Let b := ln 2 / a.
Let vmax := sqrt (a / 2).

Lemma rb_b : 0 < b.
Proof. unfold b. apply Rdiv_lt_0_compat; pose proof ln2_pos; lra. Qed.
Lemma rb_vmax : vmax * vmax = a / 2.
Proof. unfold vmax. apply sqrt_sqrt. lra. Qed.
Lemma rb_vpos : 0 < vmax.
Proof. unfold vmax. apply sqrt_lt_R0. lra. Qed.

Definition outer (t f : R) : R := sqrt (1 - exp (- (2 * b) * (f2 - f))) * cos (2 * PI * t * f).
Lemma outer_cont (t x : R) : continuous (outer t) x.
Proof.
  apply (continuous_mult (K := R_AbsRing)).
  - apply (continuous_sqrt_comp (fun f => 1 - exp (- (2 * b) * (f2 - f)))).
    apply (ex_derive_continuous (V := R_NormedModule)). auto_derive. exact I.
  - apply (ex_derive_continuous (V := R_NormedModule)). auto_derive. exact I.
Qed.

(** The outer band after the substitution f = f2 - v^2, on [-1, 1]. *)
Lemma outer_subst (t : R) :
  exists W : R,
    is_RInt (outer t) (1/2) f2 (W / 2) /\
    is_RInt (fun x => (vmax / 2) *
       (cos (2 * PI * t * (f2 - ((x + 1) * (vmax / 2)) ^ 2))
        * (4 * ((x + 1) * (vmax / 2)) * sqrt (1 - exp (-2 * b * ((x + 1) * (vmax / 2)) ^ 2)))))
      (-1) 1 W.
Proof.
  destruct (RI_exists_cont (outer t) (1/2) f2 (outer_cont t)) as [I HI].
  exists (2 * I). split; [replace (2 * I / 2) with I by field; exact HI|].
  pose proof (is_RInt_comp (V := R_CompleteNormedModule) (outer t)
      (fun x => f2 - ((x + 1) * (vmax / 2)) ^ 2) (fun x => - (2 * ((x + 1) * (vmax / 2)) * (vmax / 2)))
      (-1) 1) as C.
  assert (H1 : forall x : R, Rmin (-1) 1 <= x <= Rmax (-1) 1 ->
     continuous (outer t) (f2 - ((x + 1) * (vmax / 2)) ^ 2)) by (intros; apply outer_cont).
  assert (H2 : forall x : R, Rmin (-1) 1 <= x <= Rmax (-1) 1 ->
     is_derive (fun x => f2 - ((x + 1) * (vmax / 2)) ^ 2) x (- (2 * ((x + 1) * (vmax / 2)) * (vmax / 2)))
     /\ continuous (fun x => - (2 * ((x + 1) * (vmax / 2)) * (vmax / 2))) x).
  { intros x _. split.
    - auto_derive; [exact Logic.I|]. field.
    - apply (ex_derive_continuous (V := R_NormedModule)). auto_derive. exact Logic.I. }
  specialize (C H1 H2). cbv beta in C.
  replace (f2 - ((-1 + 1) * (vmax / 2)) ^ 2) with f2 in C by field.
  replace (f2 - ((1 + 1) * (vmax / 2)) ^ 2) with (1/2) in C.
  2:{ replace (((1 + 1) * (vmax / 2)) ^ 2) with (vmax * vmax) by field. rewrite rb_vmax.
      unfold f2. field. }
  assert (E : RInt (V := R_CompleteNormedModule) (outer t) f2 (1/2) = - I).
  { apply is_RInt_unique. apply RI_swap. exact HI. }
  rewrite E in C.
  apply (RI_ext (fun y => -2 * ((- (2 * ((y + 1) * (vmax / 2)) * (vmax / 2)))
           * outer t (f2 - ((y + 1) * (vmax / 2)) ^ 2)))).
  - intros x _. unfold outer.
    replace (- (2 * b) * (f2 - (f2 - ((x + 1) * (vmax / 2)) ^ 2)))
      with (-2 * b * ((x + 1) * (vmax / 2)) ^ 2) by ring. ring.
  - replace (2 * I) with (-2 * - I) by ring. apply RI_scal. exact C.
Qed.

Lemma rb_half1 : exp (- b * (1/2) + b * f1) = 1 / sqrt 2.
Proof.
  replace (- b * (1/2) + b * f1) with (- (ln 2 / 2)) by (unfold b, f1; field; lra).
  rewrite exp_Ropp. unfold Rdiv at 2. rewrite Rmult_1_l. f_equal.
  assert (E : exp (ln 2 / 2) * exp (ln 2 / 2) = 2).
  { rewrite <- exp_plus. replace (ln 2 / 2 + ln 2 / 2) with (ln 2) by field. apply exp_ln. lra. }
  symmetry. apply sqrt_lem_1; [lra|left; apply exp_pos|exact E].
Qed.

Lemma sqrt_exp (x : R) : sqrt (exp (2 * x)) = exp x.
Proof.
  apply sqrt_lem_1; [left; apply exp_pos|left; apply exp_pos|].
  rewrite <- exp_plus. f_equal. ring.
Qed.

Let w t := 2 * PI * t.
Definition rb_mid (t : R) : R :=
  (b * cos (2 * PI * f1 * t) - 2 * PI * t * sin (2 * PI * f1 * t)
   - b / sqrt 2 * cos (PI * t) + sqrt 2 * PI * t * sin (PI * t)) / (b ^ 2 + (2 * PI * t) ^ 2).

Lemma rb_half_sqrt (t W : R) :
  is_RInt (outer t) (1/2) f2 (W / 2) ->
  is_RInt (fun f => sqrt (beaulieu_spectrum a f) * cos (2 * PI * t * f)) 0 f2
    (((1 - a) * sinc ((1 - a) * t) + 2 * rb_mid t + W) / 2).
Proof.
  intros HW. pose proof rb_b as B. pose proof PI_RGT_0 as HP.
  pose proof (bl_f a Ha) as F. fold f1 f2 in F.
  eapply RI_eq.
  2:{ eapply (bl_split a Ha) with
        (g1 := fun f => cos (2 * PI * t * f))
        (g2 := fun f => exp (- b * f + b * f1) * cos (2 * PI * t * f))
        (g3 := outer t).
      - intros f Hf. fold f1 in Hf. rewrite (bl_low a Ha); [rewrite sqrt_1; ring|]. fold f1. rewrite Rabs_right; lra.
      - intros f Hf. fold f1 in Hf. rewrite (bl_mid a Ha); fold f1; rewrite Rabs_right by lra; [|lra].
        rewrite <- (sqrt_exp (- b * f + b * f1)).
        replace (- (2 * ln 2 / a) * (f - f1)) with (2 * (- b * f + b * f1)) by (unfold b; field; lra). reflexivity.
      - intros f Hf. fold f2 in Hf. rewrite (bl_hi a Ha); fold f2; rewrite Rabs_right by lra; [|lra].
        unfold outer.
        replace (- (2 * ln 2 / a) * (f2 - f)) with (- (2 * b) * (f2 - f)) by (unfold b; field; lra). reflexivity.
      - apply band_low.
      - apply RI_expcos. lra.
      - exact HW. }
  unfold expcos_prim. fold f1. rewrite rb_half1.
  replace (- b * f1 + b * f1) with 0 by ring. rewrite exp_0.
  replace (2 * f1 * t) with ((1 - a) * t) by (unfold f1; field).
  unfold rb_mid.
  replace (2 * PI * t * (1/2)) with (PI * t) by field.
  replace (2 * PI * f1 * t) with (2 * PI * t * f1) by ring.
  replace (sqrt 2 * PI * t) with (2 * PI * t * (1 / sqrt 2)).
  2:{ pose proof sqrt2_pos. apply Rmult_eq_reg_r with (sqrt 2); [|lra].
      replace (2 * PI * t * (1 / sqrt 2) * sqrt 2) with (2 * PI * t) by (field; lra).
      replace (sqrt 2 * PI * t * sqrt 2) with (PI * t * (sqrt 2 * sqrt 2)) by ring.
      rewrite sq2. ring. }
  replace (b / sqrt 2) with (b * (1 / sqrt 2)) by (field; pose proof sqrt2_pos; lra).
  replace ((- b) ^ 2) with (b ^ 2) by ring.
  set (q := 1 / sqrt 2). set (om := 2 * PI * t).
  unfold f1. field. nra.
Qed.

Lemma rb_odd_ex (t : R) :
  exists w : R, is_RInt (fun f => sqrt (beaulieu_spectrum a f) * sin (2 * PI * t * f)) 0 f2 w.
Proof.
  pose proof rb_b as B. pose proof (bl_f a Ha) as F. fold f1 f2 in F.
  destruct (RI_exists (fun f => sin (2 * PI * t * f)) 0 f1) as [u Hu].
  { intros x. auto_derive. exact I. }
  destruct (RI_exists (fun f => exp (- b * f + b * f1) * sin (2 * PI * t * f)) f1 (1/2)) as [v Hv].
  { intros x. auto_derive. exact I. }
  destruct (RI_exists_cont (fun f => sqrt (1 - exp (- (2 * b) * (f2 - f))) * sin (2 * PI * t * f)) (1/2) f2) as [x Hx].
  { intros x. apply (continuous_mult (K := R_AbsRing)).
    - apply (continuous_sqrt_comp (fun f => 1 - exp (- (2 * b) * (f2 - f)))).
      apply (ex_derive_continuous (V := R_NormedModule)). auto_derive. exact I.
    - apply (ex_derive_continuous (V := R_NormedModule)). auto_derive. exact I. }
  exists (u + (v + x)). eapply (bl_split a Ha); [| | |exact Hu|exact Hv|exact Hx].
  - intros f Hf. fold f1 in Hf. rewrite (bl_low a Ha); [rewrite sqrt_1; ring|]. fold f1. rewrite Rabs_right; lra.
  - intros f Hf. fold f1 in Hf. rewrite (bl_mid a Ha); fold f1; rewrite Rabs_right by lra; [|lra].
    rewrite <- (sqrt_exp (- b * f + b * f1)).
        replace (- (2 * ln 2 / a) * (f - f1)) with (2 * (- b * f + b * f1)) by (unfold b; field; lra). reflexivity.
  - intros f Hf. fold f2 in Hf. rewrite (bl_hi a Ha); fold f2; rewrite Rabs_right by lra; [|lra].
    replace (- (2 * ln 2 / a) * (f2 - f)) with (- (2 * b) * (f2 - f)) by (unfold b; field; lra). reflexivity.
Qed.
End RB.
