(** Error analysis of phase constellations in double precision: geometry of small perturbations. *)
Set Warnings "-ambiguous-paths".
From Coq Require Import Reals Lra.
From Flocq Require Import Core.
From Coquelicot Require Import Complex.
From Verif Require Import Common Float_Model FloatFano_Proof FloatShannon_Proof FloatConst_Proof Corr_Model Corr_Proof Const_Model Const_Proof FloatPhase_Model FloatPhase_Spec.
From Verif Require Chain_Proof Pulse_Tol.
Local Open Scope R_scope.

Lemma polar_cexp z rho t : polar z rho t <-> z = Cmult (RtoC rho) (cexp t).
Proof. unfold polar, Cmult, RtoC, cexp. cbn [fst snd]. split; intros ->; f_equal; ring. Qed.
Lemma sin_concave c x : 0 <= c <= 1 -> 0 <= x <= PI -> c * sin x <= sin (c * x).
Proof.
  intros [C0 C1] [X0 X1]. destruct (Req_dec c 0) as [->|Nc]; [rewrite !Rmult_0_l, sin_0; lra|]. destruct (Req_dec c 1) as [->|N1]; [rewrite !Rmult_1_l; lra|].
  destruct (Req_dec x 0) as [->|Nx]; [rewrite Rmult_0_r, sin_0; lra|]. set (y := c * x). assert (Y : 0 < y < x) by (unfold y; split; [apply Rmult_lt_0_compat; lra|nra]).
  destruct (MVT_cor2 sin cos 0 y ltac:(lra)) as (a & Ea & Ha); [intros; apply derivable_pt_lim_sin|].
  destruct (MVT_cor2 sin cos y x ltac:(lra)) as (b & Eb & Hb); [intros; apply derivable_pt_lim_sin|].
  rewrite sin_0 in Ea. assert (cos b <= cos a) by (left; apply cos_decreasing_1; lra).
  assert (sin x = sin y + cos b * (x - y)) by lra. assert (sin y = cos a * y) by lra. rewrite H0, H1. assert (c * (x - y) = (1 - c) * y) by (unfold y; ring).
  assert (cos b * ((1 - c) * y) <= cos a * ((1 - c) * y)) by (apply Rmult_le_compat_r; [apply Rmult_le_pos; lra|lra]).
  replace (c * (cos a * y + cos b * (x - y))) with (c * (cos a * y) + cos b * (c * (x - y))) by ring. rewrite H2. nra.
Qed.
Lemma sin_half x : 0 <= x <= 1 -> x / 2 <= sin x.
Proof.
  intros H. pose proof PI_RGT_0. pose proof PI_4. pose proof PI2_1. assert (C : 0 <= x / (PI / 2) <= 1).
  { split; [apply Rmult_le_pos; [lra|left; apply Rinv_0_lt_compat; lra]|apply Rmult_le_reg_r with (PI / 2); [lra|]]. unfold Rdiv at 1. rewrite Rmult_assoc, Rinv_l by lra. lra. }
  pose proof (sin_concave (x / (PI / 2)) (PI / 2) C ltac:(lra)) as S. rewrite sin_PI2, Rmult_1_r in S. replace (x / (PI / 2) * (PI / 2)) with x in S by (field; lra).
  eapply Rle_trans; [|exact S]. unfold Rdiv. apply Rmult_le_compat_l; [lra|]. apply Rinv_le_contravar; lra.
Qed.
Lemma sin_abs x : Rabs (sin x) <= Rabs x.
Proof.
  assert (P : forall x, 0 <= x -> Rabs (sin x) <= x).
  { clear. intros x Hx. destruct (Req_dec x 0) as [->|N]; [rewrite sin_0, Rabs_R0; lra|]. destruct (MVT_cor2 sin cos 0 x ltac:(lra)) as (a & E & _); [intros; apply derivable_pt_lim_sin|].
    rewrite sin_0 in E. replace (sin x) with (cos a * x) by lra. rewrite Rabs_mult, (Rabs_pos_eq x) by lra. assert (Rabs (cos a) <= 1) by (apply Rabs_le; pose proof (COS_bound a); lra). nra. }
  destruct (Rle_dec 0 x) as [H|H]; [rewrite (Rabs_pos_eq x) by lra; now apply P|]. rewrite (Rabs_left x) by lra. rewrite <- Rabs_Ropp, <- sin_neg. apply P. lra.
Qed.
Lemma Cmod_le z a : 0 <= a -> fst z ^ 2 + snd z ^ 2 <= a ^ 2 -> Cmod z <= a.
Proof. intros Ha H. rewrite <- Cmod2 in H. apply Rsqr_incr_0_var; [unfold Rsqr; lra|exact Ha]. Qed.
Lemma cexp_near a b : Cmod (Cminus (cexp a) (cexp b)) <= Rabs (a - b).
Proof.
  apply Cmod_le; [apply Rabs_pos|]. rewrite pow2_abs. unfold Cminus, Cplus, Copp, cexp. cbn [fst snd].
  replace ((cos a + - cos b) ^ 2 + (sin a + - sin b) ^ 2) with (2 - 2 * cos (a - b)).
  2:{ rewrite cos_minus. pose proof (sin2_cos2 a). pose proof (sin2_cos2 b). unfold Rsqr in *. nra. }
  replace (a - b) with (2 * ((a - b) / 2)) at 1 by field. rewrite cos_2a_sin. pose proof (sin_abs ((a - b) / 2)) as S. apply pow_maj_Rabs with (n := 2%nat) in S. rewrite pow2_abs in S. nra.
Qed.
(* a number at a distance of at most rho sin alpha has an argument within alpha *)
Lemma arg_near z rho t alpha : 0 < rho -> 0 <= alpha < PI / 2 -> Cmod (Cminus z (Cmult (RtoC rho) (cexp t))) <= rho * sin alpha ->
  exists rho' psi, 0 < rho' /\ Rabs psi <= alpha /\ polar z rho' (t + psi).
Proof.
  intros Hr Ha H. pose proof PI_RGT_0 as P. set (v := Cmult z (cexp (- t))). pose proof (angle_spec v) as E. pose proof (angle_bound v) as B. set (r := Cmod v) in *. set (th := angle v) in *.
  assert (Sa : 0 <= sin alpha) by (apply sin_ge_0; lra).
  assert (D : (r * cos th - rho) ^ 2 + (r * sin th) ^ 2 <= (rho * sin alpha) ^ 2).
  { assert (E1 : Cmod (Cminus z (Cmult (RtoC rho) (cexp t))) ^ 2 = (r * cos th - rho) ^ 2 + (r * sin th) ^ 2).
    { rewrite Cmod2. replace (r * cos th) with (fst v) by (rewrite E; reflexivity). replace (r * sin th) with (snd v) by (rewrite E; reflexivity).
      unfold v, Cmult, Cminus, Cplus, Copp, RtoC, cexp. cbn [fst snd]. rewrite cos_neg, sin_neg. pose proof (sin2_cos2 t) as T. unfold Rsqr in T.
      set (x := fst z). set (y := snd z). set (c := cos t) in *. set (s := sin t) in *. assert (K : c * c = 1 - s * s) by lra.
      transitivity (x ^ 2 + y ^ 2 + rho ^ 2 * (s * s + c * c) - 2 * rho * (x * c + y * s)); [ring|]. transitivity ((x ^ 2 + y ^ 2) * (s * s + c * c) + rho ^ 2 - 2 * rho * (x * c + y * s)); [rewrite T; ring|ring]. }
    rewrite <- E1. apply pow_incr. split; [apply Cmod_ge_0|exact H]. }
  assert (R0 : 0 <= r) by apply Cmod_ge_0. pose proof (sin2_cos2 th) as T. unfold Rsqr in T.
  assert (SA1 : sin alpha < 1). { rewrite <- sin_PI2. apply sin_increasing_1; lra. }
  assert (C0 : 0 < r * cos th).
  { destruct (Rlt_dec 0 (r * cos th)) as [|G]; [assumption|exfalso]. assert (rho ^ 2 <= (r * cos th - rho) ^ 2) by nra. assert ((rho * sin alpha) ^ 2 < rho ^ 2); [|nra].
    assert (rho * sin alpha < rho) by nra. assert (0 <= rho * sin alpha) by (apply Rmult_le_pos; lra). nra. }
  assert (R1 : 0 < r) by (destruct (Req_dec r 0) as [Z|]; [rewrite Z in C0; lra|lra]). assert (C1 : 0 < cos th) by (apply Rmult_lt_reg_l with r; lra).
  assert (Ss : (rho * sin th) ^ 2 <= (rho * sin alpha) ^ 2).
  { eapply Rle_trans; [|exact D]. assert (0 <= (r - rho * cos th) ^ 2) by apply pow2_ge_0. replace ((r * cos th - rho) ^ 2 + (r * sin th) ^ 2) with (r ^ 2 * (sin th * sin th + cos th * cos th) - 2 * r * rho * cos th + rho ^ 2) by ring.
    rewrite T. replace (rho ^ 2) with (rho ^ 2 * (sin th * sin th + cos th * cos th)) at 1 by (rewrite T; ring). nra. }
  assert (Bt : Rabs th < PI / 2).
  { destruct (Rlt_dec (Rabs th) (PI / 2)) as [|G]; [assumption|exfalso]. rewrite <- cos_abs in C1. assert (Rabs th <= PI) by (apply Rabs_le; lra). assert (cos (Rabs th) <= 0) by (apply cos_le_0; lra). lra. }
  assert (Bs : Rabs th <= alpha).
  { destruct (Rle_dec (Rabs th) alpha) as [|G]; [assumption|exfalso]. assert (L : sin alpha < sin (Rabs th)) by (apply sin_increasing_1; lra).
    assert (Q : sin (Rabs th) ^ 2 = sin th ^ 2). { unfold Rabs. destruct (Rcase_abs th); [rewrite sin_neg; ring|reflexivity]. } assert (sin alpha ^ 2 < sin th ^ 2) by (rewrite <- Q; nra). assert (0 < rho ^ 2) by nra. nra. }
  exists r, th. split; [exact R1|]. split; [exact Bs|]. apply polar_cexp. assert (Z : z = Cmult v (cexp t)).
  { unfold v. rewrite <- Cmult_assoc, <- cexp_add, Rplus_opp_l, cexp_0, Cmult_1_r. reflexivity. }
  rewrite Z, E. rewrite cexp_add. unfold Cmult, RtoC, cexp. cbn [fst snd]. f_equal; ring.
Qed.
(* a relative error of delta <= 1/2 turns the argument by at most 2 delta *)
Lemma arg_error z rho t delta : 0 < rho -> 0 <= delta <= 1 / 2 -> Cmod (Cminus z (Cmult (RtoC rho) (cexp t))) <= delta * rho ->
  exists rho' psi, 0 < rho' /\ Rabs psi <= 2 * delta /\ polar z rho' (t + psi).
Proof.
  intros Hr Hd H. apply arg_near with rho; auto; [pose proof PI2_1; lra|]. pose proof (sin_half (2 * delta) ltac:(lra)). nra.
Qed.
Lemma Ctri a b c : Cmod (Cminus a c) <= Cmod (Cminus a b) + Cmod (Cminus b c).
Proof. replace (Cminus a c) with (Cplus (Cminus a b) (Cminus b c)) by (unfold Cminus; ring). apply Cmod_triangle. Qed.
Lemma Cmod_near a b e : Cmod (Cminus a b) <= e -> Cmod a <= Cmod b + e.
Proof. intros H. replace a with (Cplus (Cminus a b) b) by (unfold Cminus; ring). eapply Rle_trans; [apply Cmod_triangle|lra]. Qed.
Lemma Cmod_box z e : 0 <= e -> Rabs (fst z) <= e -> Rabs (snd z) <= e -> Cmod z <= 3 / 2 * e.
Proof.
  intros He H1 H2. apply Cmod_le; [lra|]. apply pow_maj_Rabs with (n := 2%nat) in H1, H2. nra.
Qed.
Lemma Rabs_fst_le z : Rabs (fst z) <= Cmod z.
Proof. apply Rsqr_incr_0_var; [|apply Cmod_ge_0]. rewrite <- Rsqr_abs. unfold Rsqr. pose proof (Cmod2 z). nra. Qed.
Lemma Rabs_snd_le z : Rabs (snd z) <= Cmod z.
Proof. apply Rsqr_incr_0_var; [|apply Cmod_ge_0]. rewrite <- Rsqr_abs. unfold Rsqr. pose proof (Cmod2 z). nra. Qed.
Lemma polar_unique z r1 t1 r2 t2 : 0 < r1 -> 0 < r2 -> polar z r1 t1 -> polar z r2 t2 -> exists k : Z, t1 = t2 + 2 * PI * IZR k.
Proof.
  intros H1 H2 P1 P2. destruct (Chain_Proof.angle_of_polar r1 t1 H1) as [k1 K1]. destruct (Chain_Proof.angle_of_polar r2 t2 H2) as [k2 K2].
  apply polar_cexp in P1, P2. rewrite <- P1 in K1. rewrite <- P2 in K2. exists (k2 - k1)%Z. rewrite minus_IZR. lra.
Qed.
Lemma polar_mod z r t : 0 <= r -> polar z r t -> Cmod z = r.
Proof. intros H P. apply polar_cexp in P. rewrite P, Cmod_mult, cexp_mod, Cmod_R, Rabs_pos_eq by lra. ring. Qed.
Lemma polar_zero z r t : 0 < r -> polar z r t -> z <> (0, 0).
Proof. intros H P E. pose proof (polar_mod z r t ltac:(lra) P) as M. rewrite E in M. replace (0, 0) with (RtoC 0) in M by reflexivity. rewrite Cmod_0 in M. lra. Qed.

(* ---- rounding errors of the angles, in units of U = 2^-53 *)
Lemma U_52 : / 2 ^ 52 = 2 * U.
Proof. unfold U. change 53%nat with (52 + 1)%nat. rewrite inv_pow_add. replace (/ 2 ^ 1) with (/ 2) by (f_equal; lra). lra. Qed.
Lemma U_51 : / 2 ^ 51 = 4 * U.
Proof. unfold U. change 53%nat with (51 + 2)%nat. rewrite inv_pow_add. replace (/ 2 ^ 2) with (/ 4) by (f_equal; lra). lra. Qed.
Lemma U_small : 0 < U < / 1000000.
Proof. rewrite U_val. split; [apply Rinv_0_lt_compat; lra|apply Rinv_lt_contravar; lra]. Qed.
(* one rounding of a value that is near an ideal one *)
Lemma b64_step x y e B : Rabs (x - y) <= e -> Rabs y <= B -> Rabs (binary64 x - y) <= e + U * (B + e + / 1024).
Proof.
  intros H1 H2. replace (binary64 x - y) with ((binary64 x - x) + (x - y)) by ring. eapply Rle_trans; [apply Rabs_triang|]. pose proof (b64_unit x).
  assert (Rabs x <= B + e). { replace x with (y + (x - y)) by ring. eapply Rle_trans; [apply Rabs_triang|lra]. } pose proof U_pos. nra.
Qed.
Lemma two_pi_near : Rabs (two_pi - 2 * PI) <= 20 * U.
Proof.
  pose proof PI_RGT_0. pose proof PI_4. pose proof U_small. assert (HP : Rabs (np_pi - PI) <= 5 * U).
  { unfold np_pi. pose proof (b64_unit PI) as B. rewrite (Rabs_pos_eq PI) in B by lra. nra. }
  unfold two_pi. eapply Rle_trans; [apply (b64_step _ (2 * PI) (10 * U) 8)|].
  - replace (2 * np_pi - 2 * PI) with (2 * (np_pi - PI)) by ring. rewrite Rabs_mult, (Rabs_pos_eq 2) by lra. lra.
  - rewrite Rabs_pos_eq; lra.
  - nra.
Qed.
Lemma two_pi_range : 6 - 20 * U <= two_pi <= 8 + 20 * U.
Proof. pose proof two_pi_near as H. apply Rabs_le_inv in H. pose proof PI_4. pose proof Pulse_Tol.PI_gt3. lra. Qed.
Lemma near_mul x y x0 y0 ex ey X Y : Rabs (x - x0) <= ex -> Rabs (y - y0) <= ey -> Rabs x0 <= X -> Rabs y <= Y -> Rabs (x * y - x0 * y0) <= ex * Y + X * ey.
Proof.
  intros H1 H2 HX HY. replace (x * y - x0 * y0) with ((x - x0) * y + x0 * (y - y0)) by ring. eapply Rle_trans; [apply Rabs_triang|]. rewrite !Rabs_mult.
  apply Rplus_le_compat; apply Rmult_le_compat; auto using Rabs_pos.
Qed.
Lemma phase_near M i : (i < M)%nat -> INR M <= 2 ^ 48 -> Rabs (float_phase M i - 2 * PI * INR i / INR M) <= 48 * U.
Proof.
  intros Hi HM. pose proof U_small as [U0 U1]. pose proof PI_RGT_0. pose proof PI_4. assert (I0 : 0 <= INR i) by apply pos_INR. assert (IM : INR i + 1 <= INR M) by now apply S_INR_le.
  assert (M1 : 1 <= INR M) by lra. set (m := / INR M). assert (Hm : 0 < m <= 1) by (unfold m; split; [apply Rinv_0_lt_compat; lra|rewrite <- Rinv_1; apply Rinv_le_contravar; lra]).
  assert (Em : m * INR M = 1) by (unfold m; apply Rinv_l; lra). assert (Im : INR i * m <= 1) by nra.
  set (y := binary64 (two_pi * INR i)). assert (Hy : Rabs (y - 2 * PI * INR i) <= 29 * U * INR i + U / 512).
  { unfold y. eapply Rle_trans; [apply (b64_step _ (2 * PI * INR i) (20 * U * INR i) (8 * INR i))|].
    - replace (two_pi * INR i - 2 * PI * INR i) with ((two_pi - 2 * PI) * INR i) by ring. rewrite Rabs_mult, (Rabs_pos_eq (INR i)) by lra. apply Rmult_le_compat_r; [lra|apply two_pi_near].
    - rewrite Rabs_pos_eq by (apply Rmult_le_pos; lra). apply Rmult_le_compat_r; lra.
    - assert (0 <= U * INR i) by (apply Rmult_le_pos; lra). nra. }
  set (q := binary64 (1 / INR M)). assert (Hq : Rabs (q - m) <= U * m).
  { unfold q. replace (1 / INR M) with m by (unfold m; lra). assert (/ 2 ^ 1003 <= m). { unfold m. apply Rinv_le_contravar; [lra|]. eapply Rle_trans; [exact HM|]. apply Rle_pow; [lra|lia]. }
    destruct (b64_err m (or_intror H1)) as [A B]. apply Rabs_le. lra. }
  assert (Qm : Rabs q <= 2 * m). { replace q with (m + (q - m)) by ring. eapply Rle_trans; [apply Rabs_triang|]. rewrite (Rabs_pos_eq m) by lra. nra. }
  unfold float_phase. fold y q. eapply Rle_trans; [apply (b64_step _ (2 * PI * INR i / INR M) (38 * U) 8)|].
  - replace (y * q - 2 * PI * INR i / INR M) with (q * (y - 2 * PI * INR i) + (q - m) * (2 * PI * INR i)) by (unfold m; field; lra). eapply Rle_trans; [apply Rabs_triang|]. rewrite !Rabs_mult.
    assert (A1 : Rabs q <= (1 + U) * m). { replace q with (m + (q - m)) by ring. eapply Rle_trans; [apply Rabs_triang|]. rewrite (Rabs_pos_eq m) by lra. lra. }
    assert (A2 : Rabs (2 * PI * INR i) <= 8 * INR i). { rewrite Rabs_pos_eq by (apply Rmult_le_pos; lra). apply Rmult_le_compat_r; lra. }
    assert (A3 : Rabs q * Rabs (y - 2 * PI * INR i) <= (1 + U) * m * (29 * U * INR i + U / 512)) by (apply Rmult_le_compat; auto using Rabs_pos).
    assert (A4 : Rabs (q - m) * Rabs (2 * PI * INR i) <= U * m * (8 * INR i)) by (apply Rmult_le_compat; auto using Rabs_pos).
    replace (Rabs (2 * PI) * Rabs (INR i)) with (Rabs (2 * PI * INR i)) in * by apply Rabs_mult.
    assert (A5 : (1 + U) * m * (29 * U * INR i + U / 512) <= (1 + U) * (29 * U + U / 512)).
    { replace ((1 + U) * m * (29 * U * INR i + U / 512)) with ((1 + U) * (29 * U * (INR i * m) + U / 512 * m)) by ring. apply Rmult_le_compat_l; [lra|]. nra. }
    assert (A6 : U * m * (8 * INR i) <= 8 * U) by (replace (U * m * (8 * INR i)) with (8 * U * (INR i * m)) by ring; nra). rewrite <- ?Rabs_mult in *. nra.
  - rewrite Rabs_pos_eq. + replace (2 * PI * INR i / INR M) with (2 * PI * (INR i * m)) by (unfold m; field; lra). nra. + unfold Rdiv. fold m. apply Rmult_le_pos; [apply Rmult_le_pos; lra|lra].
  - nra.
Qed.
Lemma angle_near s phi : s = two_pi \/ s = - two_pi -> Rabs (binary64 (s * phi) - (if Rle_dec 0 s then 2 * PI * phi else - (2 * PI * phi))) <= 30 * U * (1 + Rabs phi).
Proof.
  intros Hs. pose proof U_small as [U0 U1]. pose proof PI_RGT_0. pose proof PI_4. pose proof two_pi_range as R. pose proof (Rabs_pos phi) as P.
  assert (G : Rabs (binary64 (two_pi * phi) - 2 * PI * phi) <= 30 * U * (1 + Rabs phi)).
  { eapply Rle_trans; [apply (b64_step _ (2 * PI * phi) (20 * U * Rabs phi) (8 * Rabs phi))|].
    - replace (two_pi * phi - 2 * PI * phi) with ((two_pi - 2 * PI) * phi) by ring. rewrite Rabs_mult. apply Rmult_le_compat_r; [lra|apply two_pi_near].
    - rewrite Rabs_mult, (Rabs_pos_eq (2 * PI)) by lra. apply Rmult_le_compat_r; lra.
    - assert (0 <= U * Rabs phi) by (apply Rmult_le_pos; lra). nra. }
  destruct Hs as [->| ->].
  - destruct (Rle_dec 0 two_pi); [exact G|lra].
  - destruct (Rle_dec 0 (- two_pi)); [lra|]. replace (- two_pi * phi) with (- (two_pi * phi)) by ring. rewrite b64_opp. replace (- binary64 (two_pi * phi) - - (2 * PI * phi)) with (- (binary64 (two_pi * phi) - 2 * PI * phi)) by ring. now rewrite Rabs_Ropp.
Qed.
Lemma rot_near phi : Rabs (binary64 (two_pi * phi) - 2 * PI * phi) <= 30 * U * (1 + Rabs phi).
Proof. pose proof (angle_near two_pi phi (or_introl eq_refl)) as H. pose proof two_pi_range. pose proof U_small. destruct (Rle_dec 0 two_pi); [exact H|lra]. Qed.
Lemma unrot_near phi : Rabs (binary64 (- two_pi * phi) - - (2 * PI * phi)) <= 30 * U * (1 + Rabs phi).
Proof. pose proof (angle_near (- two_pi) phi (or_intror eq_refl)) as H. pose proof two_pi_range. pose proof U_small. destruct (Rle_dec 0 (- two_pi)); [lra|exact H]. Qed.
Lemma round15_near x : Rabs (round15 x - x) <= 8 * U + 4 * U * Rabs x.
Proof.
  pose proof U_small as [U0 U1]. pose proof (Rabs_pos x) as P. unfold round15. set (T := 10 ^ 15). assert (ET : T = 1000000000000000) by (unfold T; lra). set (y := binary64 (x * T)).
  assert (Hy : Rabs (y - x * T) <= U * (Rabs x * T + / 1024)). { unfold y. pose proof (b64_unit (x * T)) as B. rewrite Rabs_mult, (Rabs_pos_eq T) in B by lra. exact B. }
  pose proof (npround_near y) as Hn. set (n := IZR (npround y)) in *.
  assert (Hv : Rabs (n / T - x) <= 1 / 2 / T + U * Rabs x + U / 1024).
  { replace (n / T - x) with ((- (y - n) + (y - x * T)) * / T) by (field; lra). rewrite Rabs_mult, (Rabs_pos_eq (/ T)) by (left; apply Rinv_0_lt_compat; lra).
    assert (Rabs (- (y - n) + (y - x * T)) <= 1 / 2 + U * (Rabs x * T + / 1024)) by (eapply Rle_trans; [apply Rabs_triang|rewrite Rabs_Ropp; lra]).
    apply Rmult_le_reg_r with T; [lra|]. rewrite Rmult_assoc, Rinv_l by lra. replace ((1 / 2 / T + U * Rabs x + U / 1024) * T) with (1 / 2 + U * Rabs x * T + U / 1024 * T) by (field; lra). rewrite ET in *. nra. }
  eapply Rle_trans; [apply (b64_step _ x _ _ Hv (Rle_refl _))|]. rewrite ET. assert (1 / 2 / 1000000000000000 <= 5 * U) by (rewrite U_val; lra). assert (0 <= U * Rabs x) by (apply Rmult_le_pos; lra). nra.
Qed.
Section Lib.
Variables (L : library) (HL : accurate_library L).
Lemma fcexp_near t' t e : Rabs (t' - t) <= e -> Cmod (Cminus (float_cexp L t') (cexp t)) <= 3 * U + e.
Proof.
  intros H. eapply Rle_trans; [apply (Ctri _ (cexp t'))|]. apply Rplus_le_compat; [|eapply Rle_trans; [apply cexp_near|exact H]].
  replace (3 * U) with (3 / 2 * (/ 2 ^ 52)) by (rewrite U_52; lra). apply Cmod_box; [left; apply inv_pow_pos| |]; [apply (acc_cos L HL)|apply (acc_sin L HL)].
Qed.
Lemma fcexp_mod t : Cmod (float_cexp L t) <= 1 + 3 * U.
Proof. pose proof (fcexp_near t t 0 ltac:(rewrite Rminus_diag_eq, Rabs_R0 by reflexivity; lra)) as H. apply Cmod_near in H. rewrite cexp_mod in H. lra. Qed.
Lemma Cmul_diff a b c d : Cminus (Cmult a b) (Cmult c d) = Cplus (Cmult (Cminus a c) b) (Cmult c (Cminus b d)).
Proof. unfold Cminus. ring. Qed.
(* the product of a number near z0 and one near w0, computed *)
Lemma mul_near z w z0 w0 ez ew : Cmod (Cminus z z0) <= ez -> Cmod (Cminus w w0) <= ew -> Cmod w <= 2 ->
  Cmod (Cminus (lib_mul L z w) (Cmult z0 w0)) <= 4 * U * (Cmod z * Cmod w) + / 2 ^ 1072 + ez * Cmod w + Cmod z0 * ew.
Proof.
  intros Hz Hw W. eapply Rle_trans; [apply (Ctri _ (Cmult z w))|]. pose proof (acc_mul L HL z w) as A. rewrite U_51 in A. rewrite (Cmul_diff z w z0 w0).
  pose proof (Cmod_triangle (Cmult (Cminus z z0) w) (Cmult z0 (Cminus w w0))) as T. rewrite !Cmod_mult in T.
  assert (Cmod (Cminus z z0) * Cmod w <= ez * Cmod w) by (apply Rmult_le_compat_r; [apply Cmod_ge_0|exact Hz]).
  assert (Cmod z0 * Cmod (Cminus w w0) <= Cmod z0 * ew) by (apply Rmult_le_compat_l; [apply Cmod_ge_0|exact Hw]). lra.
Qed.
End Lib.
