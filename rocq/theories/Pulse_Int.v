Set Warnings "-ambiguous-paths".
(** Integration lemmas for the pulse properties. *)
From Coq Require Import List ZArith Reals Lra Lia Psatz.
From Coquelicot Require Import Coquelicot.
From Verif Require Import Pulse_Model Pulse_Spec.
Import ListNotations.
Local Open Scope R_scope.

Lemma integral_intro (g : R -> R) (v : R) :
  (forall eps : R, 0 < eps -> exists M : R, forall a b : R, a < - M -> M < b ->
     exists v', is_RInt g a b v' /\ Rabs (v' - v) < eps) ->
  integral g v.
Proof.
  intros H P HP.
  destruct HP as [eps HP].
  destruct (H eps (cond_pos eps)) as [M HM].
  unfold filtermapi.
  apply Filter_prod with (fun a => a < - M) (fun b => M < b).
  - exists (- M); auto.
  - exists M; auto.
  - intros a b Ha Hb. simpl.
    destruct (HM a b Ha Hb) as [v' [Hv' He]].
    exists v'; split; [exact Hv'|].
    apply HP. exact He.
Qed.

(** What [integral] gives back. *)
Lemma integral_elim (g : R -> R) (v : R) :
  integral g v ->
  forall eps : R, 0 < eps -> exists M : R, forall a b : R, a < - M -> M < b ->
     exists v', is_RInt g a b v' /\ Rabs (v' - v) < eps.
Proof.
  intros H eps He.
  unfold integral, is_RInt_gen, filterlimi, filter_le, filtermapi in H.
  specialize (H (fun y => Rabs (y - v) < eps)).
  assert (L : locally v (fun y => Rabs (y - v) < eps)).
  { exists (mkposreal eps He). intros y Hy. exact Hy. }
  specialize (H L). destruct H as [Q S [M1 HQ] [M2 HS] HQS].
  exists (Rmax (- M1) M2). intros a b Ha Hb.
  pose proof (Rmax_l (- M1) M2); pose proof (Rmax_r (- M1) M2).
  apply (HQS a b); [apply HQ; lra | apply HS; lra].
Qed.

Lemma integral_ext (g h : R -> R) (v : R) :
  (forall x, g x = h x) -> integral g v -> integral h v.
Proof.
  intros E H. apply integral_intro. intros eps He.
  destruct (integral_elim _ _ H eps He) as [M HM]. exists M. intros a b Ha Hb.
  destruct (HM a b Ha Hb) as [v' [H1 H2]]. exists v'; split; [|exact H2].
  apply (is_RInt_ext g); auto.
Qed.

(** The value of an integral is unique. *)
Lemma integral_unique (g : R -> R) (v w : R) : integral g v -> integral g w -> v = w.
Proof.
  intros H1 H2.
  destruct (Req_EM_T v w) as [E|N]; [exact E|exfalso].
  set (e := Rabs (v - w) / 2).
  assert (He : 0 < e) by (unfold e; pose proof (Rabs_pos_lt (v - w)); lra).
  destruct (integral_elim _ _ H1 e He) as [M1 K1].
  destruct (integral_elim _ _ H2 e He) as [M2 K2].
  pose proof (Rmax_l M1 M2); pose proof (Rmax_r M1 M2).
  destruct (K1 (- Rmax M1 M2 - 1) (Rmax M1 M2 + 1)) as [v1 [I1 E1]]; try lra.
  destruct (K2 (- Rmax M1 M2 - 1) (Rmax M1 M2 + 1)) as [v2 [I2 E2]]; try lra.
  assert (v1 = v2).
  { rewrite <- (is_RInt_unique _ _ _ _ I1). apply is_RInt_unique. exact I2. }
  subst v2. unfold e in *. revert E1 E2. unfold Rabs; repeat destruct Rcase_abs; lra.
Qed.

Lemma is_RInt_zero_on (g : R -> R) (a b : R) :
  (forall x, Rmin a b < x < Rmax a b -> g x = 0) -> is_RInt g a b 0.
Proof.
  intros H. apply (is_RInt_ext (fun _ => 0)).
  - intros x Hx. symmetry. auto.
  - pose proof (is_RInt_const (V := R_NormedModule) a b 0) as C.
    change (is_RInt (fun _ : R => 0) a b ((b - a) * 0)) in C.
    rewrite Rmult_0_r in C. exact C.
Qed.

(** A function that vanishes outside [a, b]. *)
Lemma integral_compact (g : R -> R) (a b v : R) :
  a <= b -> (forall x, x < a \/ b < x -> g x = 0) -> is_RInt g a b v -> integral g v.
Proof.
  intros Hab Hz Hv. apply integral_intro. intros eps He.
  exists (Rmax (- a) b). intros x y Hx Hy.
  pose proof (Rmax_l (- a) b); pose proof (Rmax_r (- a) b).
  exists v. split; [|rewrite Rminus_eq_0, Rabs_R0; exact He].
  replace v with (0 + (v + 0)) by ring.
  apply (is_RInt_Chasles (V := R_NormedModule) g x a y).
  - apply is_RInt_zero_on. intros z Hz'. apply Hz. left.
    rewrite Rmax_right in Hz' by lra. lra.
  - apply (is_RInt_Chasles (V := R_NormedModule) g a b y); [exact Hv|].
    apply is_RInt_zero_on. intros z Hz'. apply Hz. right.
    rewrite Rmin_left in Hz' by lra. lra.
Qed.

(** Sums and multiples of ordinary integrals, over R. *)
Lemma RI_plus (f g : R -> R) (a b u v : R) :
  is_RInt f a b u -> is_RInt g a b v -> is_RInt (fun x => f x + g x) a b (u + v).
Proof. apply (is_RInt_plus (V := R_NormedModule)). Qed.
Lemma RI_minus (f g : R -> R) (a b u v : R) :
  is_RInt f a b u -> is_RInt g a b v -> is_RInt (fun x => f x - g x) a b (u - v).
Proof. apply (is_RInt_minus (V := R_NormedModule)). Qed.
Lemma RI_scal (f : R -> R) (k a b u : R) :
  is_RInt f a b u -> is_RInt (fun x => k * f x) a b (k * u).
Proof. apply (is_RInt_scal (V := R_NormedModule)). Qed.
Lemma RI_opp (f : R -> R) (a b u : R) :
  is_RInt f a b u -> is_RInt (fun x => - f x) a b (- u).
Proof. apply (is_RInt_opp (V := R_NormedModule)). Qed.
Lemma RI_const (k a b : R) : is_RInt (fun _ => k) a b (k * (b - a)).
Proof.
  pose proof (is_RInt_const (V := R_NormedModule) a b k) as C.
  change (is_RInt (fun _ : R => k) a b ((b - a) * k)) in C.
  rewrite Rmult_comm. exact C.
Qed.
Lemma RI_chasles (f : R -> R) (a b c u v : R) :
  is_RInt f a b u -> is_RInt f b c v -> is_RInt f a c (u + v).
Proof. apply (is_RInt_Chasles (V := R_NormedModule)). Qed.
Lemma RI_swap (f : R -> R) (a b u : R) : is_RInt f b a u -> is_RInt f a b (- u).
Proof. apply (is_RInt_swap (V := R_NormedModule)). Qed.
Lemma RI_ext (f g : R -> R) (a b u : R) :
  (forall x, Rmin a b < x < Rmax a b -> f x = g x) -> is_RInt f a b u -> is_RInt g a b u.
Proof. apply is_RInt_ext. Qed.
Lemma RI_ext_le (f g : R -> R) (a b u : R) :
  a <= b -> (forall x, a < x < b -> f x = g x) -> is_RInt f a b u -> is_RInt g a b u.
Proof.
  intros Hab H. apply is_RInt_ext. intros x Hx. apply H.
  rewrite Rmin_left, Rmax_right in Hx by lra. exact Hx.
Qed.
Lemma RI_eq (f : R -> R) (a b u v : R) : u = v -> is_RInt f a b u -> is_RInt f a b v.
Proof. intros ->; auto. Qed.
Lemma RI_unique (f : R -> R) (a b u v : R) : is_RInt f a b u -> is_RInt f a b v -> u = v.
Proof. intros H1 H2. rewrite <- (is_RInt_unique _ _ _ _ H1). apply is_RInt_unique. exact H2. Qed.
Lemma RI_neg (f : R -> R) (a b u : R) :
  is_RInt f (- a) (- b) u -> is_RInt (fun x => f (- x)) a b (- u).
Proof.
  intros H. apply (is_RInt_comp_opp (V := R_NormedModule)) in H.
  apply RI_opp in H.
  apply (RI_ext (fun x => - (- f (- x)))); [intros; ring|exact H].
Qed.

(** Fundamental theorem, for antiderivatives that are differentiable
    everywhere. *)
Lemma RI_derive (F f : R -> R) (a b : R) :
  (forall x, is_derive F x (f x)) -> (forall x, continuous f x) ->
  is_RInt f a b (F b - F a).
Proof.
  intros HF Hf. apply (is_RInt_derive (V := R_CompleteNormedModule) F f); intros x _; auto.
Qed.

(** Even and odd functions over a symmetric interval. *)
Lemma RI_even (f : R -> R) (b v : R) :
  (forall x, f (- x) = f x) -> is_RInt f 0 b v -> is_RInt f (- b) b (2 * v).
Proof.
  intros E H. replace (2 * v) with (v + v) by ring. apply RI_chasles with 0; [|exact H].
  apply (RI_ext (fun x => f (- x))); [intros; apply E|].
  replace v with (- - v) by ring. apply RI_neg. apply RI_swap.
  rewrite Ropp_0, Ropp_involutive. exact H.
Qed.
Lemma RI_odd (f : R -> R) (b v : R) :
  (forall x, f (- x) = - f x) -> is_RInt f 0 b v -> is_RInt f (- b) b 0.
Proof.
  intros E H. replace 0 with (- v + v) by ring. apply RI_chasles with 0; [|exact H].
  apply (RI_ext (fun x => - - f x)); [intros; ring|].
  apply RI_opp.
  apply (RI_ext (fun x => f (- x))); [intros; apply E|].
  replace v with (- - v) by ring. apply RI_neg. apply RI_swap.
  rewrite Ropp_0, Ropp_involutive. exact H.
Qed.

(** ** sinc *)
Lemma sinc_0 : sinc 0 = 1.
Proof. unfold sinc. destruct Req_EM_T; lra. Qed.
Lemma sinc_mul (x : R) : PI * x * sinc x = sin (PI * x).
Proof.
  unfold sinc. destruct (Req_EM_T x 0) as [->|N].
  - rewrite Rmult_0_r, sin_0. ring.
  - field. pose proof PI_RGT_0. split; lra.
Qed.
Lemma sinc_nz (x : R) : x <> 0 -> sinc x = sin (PI * x) / (PI * x).
Proof. intros; unfold sinc; destruct Req_EM_T; [contradiction|reflexivity]. Qed.
Lemma sinc_even (x : R) : sinc (- x) = sinc x.
Proof.
  destruct (Req_EM_T x 0) as [->|N]; [rewrite Ropp_0; reflexivity|].
  rewrite !sinc_nz by lra. replace (PI * - x) with (- (PI * x)) by ring. rewrite sin_neg.
  field. pose proof PI_RGT_0. split; lra.
Qed.

Lemma cos_cont (k c x : R) : continuous (fun f => cos (k * f + c)) x.
Proof.
  apply (ex_derive_continuous (V := R_NormedModule)). auto_derive. exact I.
Qed.
Lemma sin_cont (k c x : R) : continuous (fun f => sin (k * f + c)) x.
Proof.
  apply (ex_derive_continuous (V := R_NormedModule)). auto_derive. exact I.
Qed.

(** The integral of a cosine, at every frequency, zero included. *)
Lemma RI_cos (k c a b : R) :
  is_RInt (fun x => cos (2 * PI * k * x + c)) a b
    ((b - a) * sinc (k * (b - a)) * cos (PI * k * (a + b) + c)).
Proof.
  pose proof PI_RGT_0 as HP.
  destruct (Req_EM_T k 0) as [->|N].
  - apply (RI_ext (fun _ => cos c)).
    + intros x _. f_equal. ring.
    + replace (0 * (b - a)) with 0 by ring. rewrite sinc_0.
      replace (PI * 0 * (a + b) + c) with c by ring.
      replace ((b - a) * 1 * cos c) with (cos c * (b - a)) by ring. apply RI_const.
  - eapply RI_eq.
    2:{ apply (RI_derive (fun x => sin (2 * PI * k * x + c) / (2 * PI * k))).
        - intros x. auto_derive; [exact I|]. field. split; lra.
        - intros x. apply cos_cont. }
    assert (E : (b - a) * sinc (k * (b - a)) = sin (PI * k * (b - a)) / (PI * k)).
    { pose proof (sinc_mul (k * (b - a))) as S.
      replace (PI * k * (b - a)) with (PI * (k * (b - a))) by ring. rewrite <- S.
      field. split; lra. }
    rewrite E.
    replace (2 * PI * k * b + c) with ((PI * k * (a + b) + c) + PI * k * (b - a)) by ring.
    replace (2 * PI * k * a + c) with ((PI * k * (a + b) + c) - PI * k * (b - a)) by ring.
    rewrite sin_plus, sin_minus. field. split; lra.
Qed.

Lemma RI_sin (k c a b : R) :
  is_RInt (fun x => sin (2 * PI * k * x + c)) a b
    ((b - a) * sinc (k * (b - a)) * sin (PI * k * (a + b) + c)).
Proof.
  apply (RI_ext (fun x => cos (2 * PI * k * x + (c - PI / 2)))).
  - intros x _. replace (2 * PI * k * x + (c - PI / 2)) with (- (PI / 2 - (2 * PI * k * x + c))) by ring.
    rewrite cos_neg. apply cos_shift.
  - eapply RI_eq; [|apply RI_cos].
    f_equal. replace (PI * k * (a + b) + (c - PI / 2)) with (- (PI / 2 - (PI * k * (a + b) + c))) by ring.
    rewrite cos_neg. apply cos_shift.
Qed.

(** Whole-line integrals of the even/odd integrands of a band-limited pulse. *)
Lemma integral_even_band (g : R -> R) (b v : R) :
  0 <= b -> (forall x, g (- x) = g x) -> (forall x, b < x -> g x = 0) ->
  is_RInt g 0 b v -> integral g (2 * v).
Proof.
  intros Hb He Hz Hv. apply integral_compact with (- b) b; [lra| |].
  - intros x [Hx|Hx]; [|apply Hz; exact Hx]. rewrite <- He. apply Hz. lra.
  - apply RI_even; assumption.
Qed.
Lemma integral_odd_band (g : R -> R) (b v : R) :
  0 <= b -> (forall x, g (- x) = - g x) -> (forall x, b < x -> g x = 0) ->
  is_RInt g 0 b v -> integral g 0.
Proof.
  intros Hb He Hz Hv. apply integral_compact with (- b) b; [lra| |].
  - intros x [Hx|Hx]; [|apply Hz; exact Hx].
    pose proof (He (- x)) as E. rewrite Ropp_involutive in E. rewrite E, Hz by lra. ring.
  - eapply RI_odd; eassumption.
Qed.
