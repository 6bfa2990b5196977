(** The Fourier transform of a Gaussian, over the whole line. *)
Set Warnings "-ambiguous-paths".
From Coq Require Import List ZArith Reals Lra Lia Psatz.
From Coquelicot Require Import Coquelicot.
From Verif Require Import Pulse_Model Pulse_Spec Pulse_Int Pulse_Basic Pulse_RC Pulse_RC2 Pulse_Beau Pulse_RootBeau Pulse_Gauss.
Import ListNotations.
Local Open Scope R_scope.

Definition HA (A z : R) : R := RInt (fun t => ge t * cos (2 * z * t)) 0 A.

Lemma gc_cont (z t : R) : continuous (fun t => ge t * cos (2 * z * t)) t.
Proof. apply (ex_derive_continuous (V := R_NormedModule)). unfold ge. auto_derive. exact I. Qed.
Lemma gs_cont (z t : R) : continuous (fun t => ge t * sin (2 * z * t)) t.
Proof. apply (ex_derive_continuous (V := R_NormedModule)). unfold ge. auto_derive. exact I. Qed.

Lemma HA_is (A z : R) : is_RInt (fun t => ge t * cos (2 * z * t)) 0 A (HA A z).
Proof.
  apply (RInt_correct (V := R_CompleteNormedModule)).
  apply (ex_RInt_continuous (V := R_CompleteNormedModule)). intros t _. apply gc_cont.
Qed.

Definition dHA (z t : R) : R := - 2 * t * ge t * sin (2 * z * t).
Lemma dHA_int (A z : R) : RInt (dHA z) 0 A = ge A * sin (2 * z * A) - 2 * z * HA A z.
Proof.
  apply is_RInt_unique.
  apply (RI_ext (fun t => (dHA z t + 2 * z * (ge t * cos (2 * z * t)))
                        - 2 * z * (ge t * cos (2 * z * t)))); [intros; ring|].
  apply RI_minus; [|apply RI_scal; apply HA_is].
  eapply RI_eq; [|apply (RI_derive (fun t => ge t * sin (2 * z * t)))].
  - rewrite !Rmult_0_r, sin_0. ring.
  - intros x. unfold dHA, ge. auto_derive; [exact I|].
    replace (- (x * (x * 1))) with (- x ^ 2) by ring. ring.
  - intros x. apply (ex_derive_continuous (V := R_NormedModule)). unfold dHA, ge. auto_derive. exact I.
Qed.

Lemma HA_derive (A z : R) : is_derive (HA A) z (ge A * sin (2 * z * A) - 2 * z * HA A z).
Proof.
  rewrite <- dHA_int.
  apply (param_derive (fun z t => ge t * cos (2 * z * t)) dHA).
  - intros u t. unfold dHA. auto_derive; [exact I|]. ring.
  - intros u t. unfold dHA, ge.
    apply continuity_2d_pt_mult; [apply continuity_2d_pt_mult; [apply continuity_2d_pt_mult|]|].
    + apply continuity_2d_pt_const.
    + apply continuity_2d_pt_id2.
    + apply c2_exp. apply continuity_2d_pt_opp.
      apply (continuity_1d_2d_pt_comp (fun z => z ^ 2) (fun u v => v)).
      * apply derivable_continuous_pt. apply derivable_pt_pow.
      * apply continuity_2d_pt_id2.
    + apply (continuity_1d_2d_pt_comp sin (fun u v => 2 * u * v)).
      * apply derivable_continuous_pt. apply derivable_pt_sin.
      * apply continuity_2d_pt_mult; [apply continuity_2d_pt_mult|];
          [apply continuity_2d_pt_const|apply continuity_2d_pt_id1|apply continuity_2d_pt_id2].
  - intros u t. apply gc_cont.
Qed.

Lemma HA_0 (A : R) : HA A 0 = I0 A.
Proof.
  unfold HA, I0. apply (RInt_ext (V := R_CompleteNormedModule)). intros t _.
  change (ge t * cos (2 * 0 * t) = ge t).
  replace (2 * 0 * t) with 0 by ring. rewrite cos_0. ring.
Qed.

Lemma HA_close (A z : R) : Rabs (HA A z - exp (- z ^ 2) * I0 A) <= Rabs z * ge A.
Proof.
  set (Phi := fun z => HA A z * exp (z ^ 2)).
  assert (D : forall x, is_derive Phi x (exp (x ^ 2) * (ge A * sin (2 * x * A)))).
  { intros x. unfold Phi. evar_last.
    - apply (is_derive_mult (HA A) (fun z => exp (z ^ 2)) x
              (ge A * sin (2 * x * A) - 2 * x * HA A x) (2 * x * exp (x ^ 2))).
      + apply HA_derive.
      + auto_derive; [exact I|]. replace (x * (x * 1)) with (x ^ 2) by ring. ring.
      + intros n m. apply Rmult_comm.
    - change ((ge A * sin (2 * x * A) - 2 * x * HA A x) * exp (x ^ 2) + HA A x * (2 * x * exp (x ^ 2))
              = exp (x ^ 2) * (ge A * sin (2 * x * A))). ring. }
  destruct (MVT_gen Phi 0 z (fun x => exp (x ^ 2) * (ge A * sin (2 * x * A)))) as [c [Hc Ec]].
  - intros x _. apply D.
  - intros x _. apply derivable_continuous_pt. exists (exp (x ^ 2) * (ge A * sin (2 * x * A))).
    apply is_derive_Reals. apply D.
  - assert (P0 : Phi 0 = I0 A).
    { unfold Phi. rewrite HA_0. replace (0 ^ 2) with 0 by ring. rewrite exp_0. ring. }
    rewrite P0, Rminus_0_r in Ec.
    assert (E : HA A z - exp (- z ^ 2) * I0 A
                = exp (- z ^ 2) * (exp (c ^ 2) * (ge A * sin (2 * c * A)) * z)).
    { rewrite <- Ec. unfold Phi.
      assert (X : exp (- z ^ 2) * exp (z ^ 2) = 1).
      { rewrite <- exp_plus. replace (- z ^ 2 + z ^ 2) with 0 by ring. apply exp_0. }
      replace (exp (- z ^ 2) * (HA A z * exp (z ^ 2) - I0 A))
        with (HA A z * (exp (- z ^ 2) * exp (z ^ 2)) - exp (- z ^ 2) * I0 A) by ring.
      rewrite X. ring. }
    rewrite E.
    replace (exp (- z ^ 2) * (exp (c ^ 2) * (ge A * sin (2 * c * A)) * z))
      with (z * ge A * (exp (- z ^ 2 + c ^ 2) * sin (2 * c * A))) by (rewrite exp_plus; ring).
    assert (Hcz : c ^ 2 <= z ^ 2).
    { revert Hc. unfold Rmin, Rmax. destruct Rle_dec; intros; nra. }
    assert (X1 : 0 < exp (- z ^ 2 + c ^ 2) <= 1).
    { split; [apply exp_pos|]. apply exp_le1. lra. }
    assert (X2 : Rabs (exp (- z ^ 2 + c ^ 2) * sin (2 * c * A)) <= 1).
    { rewrite Rabs_mult, (Rabs_right (exp _)) by lra.
      assert (Rabs (sin (2 * c * A)) <= 1) by (apply Rabs_le; apply SIN_bound).
      pose proof (Rabs_pos (sin (2 * c * A))). nra. }
    rewrite !Rabs_mult in *. rewrite (Rabs_right (ge A)) by (left; apply exp_pos).
    assert (0 <= Rabs z * ge A) by (apply Rmult_le_pos; [apply Rabs_pos|left; apply exp_pos]).
    nra.
Qed.

Lemma gauss_cos (z : R) :
  integral (fun t => ge t * cos (2 * z * t)) (sqrt PI * exp (- z ^ 2)).
Proof.
  apply integral_intro. intros eps He.
  set (K := Rabs z + 2).
  assert (HK : 0 < K) by (unfold K; pose proof (Rabs_pos z); lra).
  destruct (ge_small (eps / (2 * K))) as [M [HM Hs]].
  { apply Rdiv_lt_0_compat; lra. }
  assert (B : forall x, M < x ->
     Rabs (HA x z - sqrt PI / 2 * exp (- z ^ 2)) < eps / 2).
  { intros x Hx. specialize (Hs x Hx).
    replace (HA x z - sqrt PI / 2 * exp (- z ^ 2))
      with ((HA x z - exp (- z ^ 2) * I0 x) + exp (- z ^ 2) * (I0 x - sqrt PI / 2)) by ring.
    eapply Rle_lt_trans; [apply Rabs_triang|].
    pose proof (HA_close x z) as C. rewrite Rabs_mult, (Rabs_right (exp (- z ^ 2))) by (left; apply exp_pos).
    assert (L : Rabs (I0 x - sqrt PI / 2) <= 2 * ge x) by (apply I0_limit; lra).
    assert (X : exp (- z ^ 2) <= 1) by (apply exp_le1; nra).
    pose proof (exp_pos (- z ^ 2)). pose proof (Rabs_pos (I0 x - sqrt PI / 2)).
    assert (exp (- z ^ 2) * Rabs (I0 x - sqrt PI / 2) <= 2 * ge x) by nra.
    assert (K * ge x < eps / 2).
    { apply Rmult_lt_compat_l with (r := K) in Hs; [|exact HK].
      replace (K * (eps / (2 * K))) with (eps / 2) in Hs by (field; lra). exact Hs. }
    unfold K in *. nra. }
  exists M. intros a b Ha Hb.
  exists (HA (- a) z + HA b z). split.
  - apply RI_chasles with 0; [|apply HA_is].
    apply (RI_ext (fun x => (fun t => ge t * cos (2 * z * t)) (- x))).
    + intros x _. cbv beta. rewrite ge_neg. replace (2 * z * - x) with (- (2 * z * x)) by ring.
      rewrite cos_neg. reflexivity.
    + replace (HA (- a) z) with (- - HA (- a) z) by ring.
      apply (RI_neg (fun t => ge t * cos (2 * z * t)) a 0 (- HA (- a) z)).
      rewrite Ropp_0. apply RI_swap. apply HA_is.
  - replace (HA (- a) z + HA b z - sqrt PI * exp (- z ^ 2))
      with ((HA (- a) z - sqrt PI / 2 * exp (- z ^ 2)) + (HA b z - sqrt PI / 2 * exp (- z ^ 2))) by field.
    eapply Rle_lt_trans; [apply Rabs_triang|].
    pose proof (B (- a)). pose proof (B b). lra.
Qed.

Lemma gauss_sin (z : R) : integral (fun t => ge t * sin (2 * z * t)) 0.
Proof.
  set (s := fun t => ge t * sin (2 * z * t)).
  assert (Ex : forall a b, ex_RInt (V := R_CompleteNormedModule) s a b).
  { intros a b. apply (ex_RInt_continuous (V := R_CompleteNormedModule)). intros t _. apply gs_cont. }
  assert (Tail : forall x y, 0 <= x -> x <= y -> Rabs (RInt s x y) <= 2 * ge x + 2 * ge y).
  { intros x y Hx Hy.
    assert (H1 : Rabs (RInt s x y) <= RInt ge x y).
    { eapply Rle_trans; [apply abs_RInt_le; [exact Hy|apply Ex]|].
      apply RInt_le; [exact Hy| |apply ge_int|].
      - apply (ex_RInt_continuous (V := R_CompleteNormedModule)). intros t _.
        apply (continuous_comp s Rabs); [apply gs_cont|apply continuous_Rabs].
      - intros t _. unfold s. rewrite Rabs_mult, (Rabs_right (ge t)) by (left; apply exp_pos).
        assert (Rabs (sin (2 * z * t)) <= 1) by (apply Rabs_le; apply SIN_bound).
        pose proof (exp_pos (- t ^ 2)). unfold ge. nra. }
    assert (H2 : RInt ge x y = I0 y - I0 x).
    { apply is_RInt_unique. replace (I0 y - I0 x) with (- I0 x + I0 y) by ring.
      apply RI_chasles with 0; [apply RI_swap|]; apply I0_is. }
    pose proof (I0_limit x Hx) as L1. assert (Hy0 : 0 <= y) by lra. pose proof (I0_limit y Hy0) as L2.
    apply Rabs_le_between in L1. apply Rabs_le_between in L2. lra. }
  apply integral_intro. intros eps He.
  destruct (ge_small (eps / 8)) as [M [HM Hs]]; [lra|].
  exists M. intros a b Ha Hb.
  exists (RInt s (- a) b). split.
  - replace (RInt s (- a) b) with (0 + RInt s (- a) b) by ring.
    apply RI_chasles with (- a).
    + replace a with (- - a) at 1 by ring.
      apply (RI_odd s (- a) (RInt s 0 (- a))).
      * intros x. unfold s. rewrite ge_neg. replace (2 * z * - x) with (- (2 * z * x)) by ring.
        rewrite sin_neg. ring.
      * apply (RInt_correct (V := R_CompleteNormedModule)). apply Ex.
    + apply (RInt_correct (V := R_CompleteNormedModule)). apply Ex.
  - rewrite Rminus_0_r.
    assert (G1 : ge (- a) < eps / 8) by (apply Hs; lra).
    assert (G2 : ge b < eps / 8) by (apply Hs; lra).
    destruct (Rle_or_lt (- a) b) as [L|L].
    + pose proof (Tail (- a) b). lra.
    + rewrite <- (opp_RInt_swap (V := R_CompleteNormedModule)) by apply Ex.
      change (opp (RInt s b (- a))) with (- RInt s b (- a)). rewrite Rabs_Ropp.
      pose proof (Tail b (- a)). lra.
Qed.

(** Change of variables. *)
Lemma integral_lin (g : R -> R) (k c v : R) : 0 < k ->
  integral g v -> integral (fun t => g (k * t + c)) (v / k).
Proof.
  intros Hk H. apply integral_intro. intros eps He.
  destruct (integral_elim _ _ H (eps * k)) as [M HM]; [nra|].
  assert (HN : exists N, forall x, (N < x -> M < k * x + c) /\ (x < - N -> k * x + c < - M)).
  { exists ((Rabs M + Rabs c) / k). intros x.
    pose proof (Rle_abs M); pose proof (Rle_abs c); pose proof (Rle_abs (- M)); pose proof (Rle_abs (- c)).
    rewrite Rabs_Ropp in *.
    split; intros Hx.
    - apply Rmult_lt_compat_l with (r := k) in Hx; [|exact Hk].
      replace (k * ((Rabs M + Rabs c) / k)) with (Rabs M + Rabs c) in Hx by (field; lra). lra.
    - apply Rmult_lt_compat_l with (r := k) in Hx; [|exact Hk].
      replace (k * - ((Rabs M + Rabs c) / k)) with (- (Rabs M + Rabs c)) in Hx by (field; lra). lra. }
  destruct HN as [N HN]. exists N. intros a b Ha Hb.
  destruct (HM (k * a + c) (k * b + c)) as [v' [I E]]; [apply HN; exact Ha|apply HN; exact Hb|].
  exists (v' / k). split.
  - apply (RI_ext (fun y => / k * (k * g (k * y + c)))).
    + intros x _. field. lra.
    + replace (v' / k) with (/ k * v') by (field; lra). apply RI_scal.
      apply (is_RInt_comp_lin (V := R_NormedModule) g k c a b). exact I.
  - replace (v' / k - v / k) with ((v' - v) / k) by (field; lra).
    unfold Rdiv. rewrite Rabs_mult, (Rabs_right (/ k)) by (apply Rle_ge, Rlt_le, Rinv_0_lt_compat, Hk).
    apply Rmult_lt_reg_r with k; [exact Hk|]. rewrite Rmult_assoc, Rinv_l by lra. lra.
Qed.
