From Coq Require Import NArith ZArith Lia List Bool Znumtheory.
From Verif Require Import Common Bits_Model BinPoly_Model BlockCode_Model Eval_Model Eval_Spec.
From Verif Require Bits_Proof PolyVec_Proof.
Import ListNotations.
Local Open Scope Z_scope.

(* Euclid on the integers *)
Lemma mod_abs x y : y <> 0 -> (Z.abs_nat (x mod y) < Z.abs_nat y)%nat.
Proof.
  intros H. destruct (Z_lt_le_dec 0 y).
  - pose proof (Z.mod_pos_bound x y ltac:(lia)). lia.
  - pose proof (Z.mod_neg_bound x y ltac:(lia)). lia.
Qed.
Lemma gcd_mod x y : y <> 0 -> Z.gcd y (x mod y) = Z.gcd x y.
Proof.
  intros H. rewrite (Z.gcd_comm x y). rewrite Z.mod_eq by auto. replace (x - y * (x / y)) with (x + (- (x / y)) * y) by ring.
  apply Z.gcd_add_mult_diag_r.
Qed.
Lemma int_gcd_loop_ok fuel : forall x y, (Z.abs_nat y < fuel)%nat -> exists g, int_gcd_loop fuel x y = Some g /\ Z.abs g = Z.gcd x y.
Proof.
  induction fuel as [|f IH]; intros x y H; [lia|]. cbn [int_gcd_loop]. destruct (Z.eqb_spec y 0) as [->|n].
  - exists x. split; auto. now rewrite Z.gcd_0_r.
  - pose proof (mod_abs x y n). destruct (IH y (x mod y)) as (g & E & A); [lia|]. exists g. split; auto. now rewrite A, gcd_mod.
Qed.
Lemma int_gcd_ok x y : exists g, int_gcd x y = Some g /\ Z.abs g = Z.gcd x y.
Proof. apply int_gcd_loop_ok. lia. Qed.
(* the sign: that of the last non-zero remainder, which takes the sign of the second argument *)
Lemma int_gcd_loop_sign fuel : forall x y g, int_gcd_loop fuel x y = Some g -> y <> 0 -> 0 < g * y.
Proof.
  induction fuel as [|f IH]; intros x y g E n; cbn [int_gcd_loop] in E; destruct (Z.eqb_spec y 0) as [e|_]; try lia; try discriminate.
  destruct (Z.eq_dec (x mod y) 0) as [z|z].
  - rewrite z in E. destruct f; cbn in E; injection E as <-; nia.
  - pose proof (IH _ _ _ E z) as G. destruct (Z_lt_le_dec 0 y).
    + pose proof (Z.mod_pos_bound x y ltac:(lia)). nia.
    + pose proof (Z.mod_neg_bound x y ltac:(lia)). nia.
Qed.
Lemma int_gcd_sign x y g : int_gcd x y = Some g -> y <> 0 -> 0 < g * y.
Proof. apply int_gcd_loop_sign. Qed.

Lemma int_xgcd_loop_ok fuel : forall x y, (Z.abs_nat x < fuel)%nat ->
  exists d s t, int_xgcd_loop fuel x y = Some (d, s, t) /\ Z.abs d = Z.gcd x y /\ s * x + t * y = d.
Proof.
  induction fuel as [|f IH]; intros x y H; [lia|]. cbn [int_xgcd_loop]. destruct (Z.eqb_spec x 0) as [->|n].
  - exists y, 0, 1. split; auto. split; [reflexivity|ring].
  - pose proof (mod_abs y x n). destruct (IH (y mod x) x) as (d & s & t & E & A & B); [lia|]. rewrite E. exists d, (t - s * (y / x)), s.
    split; auto. split.
    + rewrite A, Z.gcd_comm, gcd_mod by auto. apply Z.gcd_comm.
    + rewrite <- B. rewrite (Z.mod_eq y x) by auto. ring.
Qed.
Lemma int_xgcd_ok x y : exists d s t, int_xgcd x y = Some (d, s, t) /\ Z.abs d = Z.gcd x y /\ s * x + t * y = d.
Proof. apply int_xgcd_loop_ok. lia. Qed.

Lemma int_lcm_ok x y : exists m, int_lcm x y = Some m /\ Z.abs m = Z.lcm x y.
Proof.
  unfold int_lcm. destruct (Z.eqb_spec x 0) as [->|nx]; [exists 0; auto|]. destruct (Z.eqb_spec y 0) as [->|ny]; [exists 0; rewrite Z.lcm_0_r; auto|].
  cbn [orb]. destruct (int_gcd_ok x y) as (g & -> & A). exists (x / g * y). split; auto.
  assert (Hg : g <> 0). { intros ->. symmetry in A. cbn in A. apply Z.gcd_eq_0 in A. lia. }
  unfold Z.lcm. rewrite !Z.abs_mul. rewrite <- A.
  assert (D : (g | x)). { apply Z.divide_abs_l. rewrite A. apply Z.gcd_divide_l. }
  assert (D' : (g | y)). { apply Z.divide_abs_l. rewrite A. apply Z.gcd_divide_r. }
  destruct D as [u ->], D' as [v ->]. rewrite Z.div_mul by auto.
  replace (v * g / Z.abs g) with (v * Z.sgn g).
  - rewrite !Z.abs_mul. replace (Z.abs (Z.sgn g)) with 1 by (destruct g; [now destruct Hg|reflexivity|reflexivity]). ring.
  - destruct (Z_lt_le_dec 0 g).
    + rewrite Z.abs_eq, Z.sgn_pos by lia. rewrite Z.div_mul by lia. ring.
    + rewrite Z.abs_neq, Z.sgn_neg by lia. replace (v * g) with ((- v) * (- g)) by ring. rewrite Z.div_mul by lia. ring.
Qed.
