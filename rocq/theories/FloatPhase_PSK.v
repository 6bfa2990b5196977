(** PSK in double precision: stored points and decisions. *)
Set Warnings "-ambiguous-paths".
From Coq Require Import Reals Lra.
From Flocq Require Import Core.
From Coquelicot Require Import Complex.
From Verif Require Import Common Float_Model FloatFano_Proof FloatShannon_Proof FloatConst_Model FloatConst_Proof Corr_Model Corr_Proof Const_Model Const_Proof FloatPhase_Model FloatPhase_Spec FloatPhase_Proof.
From Verif Require Pulse_Tol.
Local Open Scope R_scope.

Lemma eta_small : 0 < / 2 ^ 1072 <= U / 1024.
Proof.
  split; [apply inv_pow_pos|]. pose proof (pow_small 63 1072 ltac:(lia)) as H. eapply Rle_trans; [exact H|]. right. unfold U. change 63%nat with (53 + 10)%nat. rewrite inv_pow_add. replace (/ 2 ^ 10) with (/ 1024) by (f_equal; lra). lra.
Qed.
Lemma U_46 : / 2 ^ 46 = 128 * U.
Proof. unfold U. change 53%nat with (46 + 7)%nat. rewrite inv_pow_add. replace (/ 2 ^ 7) with (/ 128) by (f_equal; lra). lra. Qed.
Lemma U_49 : / 2 ^ 49 = 16 * U.
Proof. unfold U. change 53%nat with (49 + 4)%nat. rewrite inv_pow_add. replace (/ 2 ^ 4) with (/ 16) by (f_equal; lra). lra. Qed.
Section Lib.
Variables (L : library) (HL : accurate_library L).

Lemma float_psk_length M A phi : length (float_psk_points L M A phi) = M.
Proof. unfold float_psk_points. now rewrite map_length, seq_length. Qed.
Lemma psk_point_near M A phi i : (i < M)%nat -> INR M <= 2 ^ 48 -> 0 <= A ->
  Cmod (Cminus (nth i (float_psk_points L M A phi) (RtoC 0)) (nth i (psk_points M A phi) (RtoC 0))) <= / 2 ^ 49 + (1 + Rabs phi) / 2 ^ 46 * A.
Proof.
  intros Hi HM HA. pose proof U_small as [U0 U1]. pose proof eta_small as [N0 N1]. pose proof (Rabs_pos phi) as P. set (K := 1 + Rabs phi) in *.
  set (z1 := lib_mul L (RtoC A) (float_cexp L (float_phase M i))). set (z2 := lib_mul L z1 (float_rotation L phi)).
  assert (E1 : nth i (float_psk_points L M A phi) (RtoC 0) = (round15 (fst z2), round15 (snd z2))).
  { unfold float_psk_points. rewrite nth_map_seq by exact Hi. reflexivity. }
  set (t := 2 * PI * INR i / INR M). set (w1 := Cmult (RtoC A) (cexp t)). set (w2 := Cmult w1 (rotation phi)).
  assert (E2 : nth i (psk_points M A phi) (RtoC 0) = w2) by (unfold psk_points; rewrite nth_map_seq by exact Hi; reflexivity).
  rewrite E1, E2. assert (MA : Cmod (RtoC A) = A) by (rewrite Cmod_R, Rabs_pos_eq; lra).
  pose proof (fcexp_near L HL _ _ _ (phase_near M i Hi HM)) as C1. fold t in C1. pose proof (fcexp_mod L HL (float_phase M i)) as B1.
  pose proof (fcexp_near L HL _ _ _ (rot_near phi)) as C2. fold K in C2. pose proof (fcexp_mod L HL (binary64 (two_pi * phi))) as B2.
  change (float_cexp L (binary64 (two_pi * phi))) with (float_rotation L phi) in C2, B2. change (cexp (2 * PI * phi)) with (rotation phi) in C2.
  assert (D1 : Cmod (Cminus z1 w1) <= 56 * U * A + / 2 ^ 1072).
  { unfold z1, w1. eapply Rle_trans; [apply (mul_near L HL _ _ (RtoC A) (cexp t) 0 (51 * U))|].
    - unfold Cminus. rewrite Cplus_opp_r, Cmod_0. lra.
    - lra.
    - lra.
    - rewrite MA. assert (A * Cmod (float_cexp L (float_phase M i)) <= A * (1 + 3 * U)) by (apply Rmult_le_compat_l; lra). assert (0 <= U * A) by (apply Rmult_le_pos; lra).
      assert (U * (A * Cmod (float_cexp L (float_phase M i))) <= U * (A * (1 + 3 * U))) by (apply Rmult_le_compat_l; lra). assert (U * (A * (1 + 3 * U)) <= 5 / 4 * (U * A)) by nra. lra. }
  assert (M1 : Cmod w1 = A) by (unfold w1; rewrite Cmod_mult, cexp_mod, MA; ring). pose proof (Cmod_near _ _ _ D1) as Z1. rewrite M1 in Z1.
  assert (UA : 0 <= U * A) by (apply Rmult_le_pos; lra). assert (UKA : U * A <= U * K * A) by (unfold K; nra).
  assert (D2 : Cmod (Cminus z2 w2) <= 100 * U * K * A + 4 * / 2 ^ 1072).
  { unfold z2, w2. eapply Rle_trans; [apply (mul_near L HL _ _ w1 (rotation phi) _ _ D1 C2); lra|]. rewrite M1.
    assert (Z1' : Cmod z1 <= 11 / 10 * A + / 2 ^ 1072) by nra. pose proof (Cmod_ge_0 z1). pose proof (Cmod_ge_0 (float_rotation L phi)).
    assert (X1 : Cmod z1 * Cmod (float_rotation L phi) <= (11 / 10 * A + / 2 ^ 1072) * (11 / 10)) by (apply Rmult_le_compat; lra).
    assert (X2 : U * (Cmod z1 * Cmod (float_rotation L phi)) <= U * ((11 / 10 * A + / 2 ^ 1072) * (11 / 10))) by (apply Rmult_le_compat_l; lra).
    assert (X3 : (56 * U * A + / 2 ^ 1072) * Cmod (float_rotation L phi) <= (56 * U * A + / 2 ^ 1072) * (11 / 10)) by (apply Rmult_le_compat_l; lra).
    assert (X4 : A * (3 * U + 30 * U * K) <= 3 * (U * A) + 30 * (U * K * A)) by (right; ring). assert (U * / 2 ^ 1072 <= / 2 ^ 1072) by nra. nra. }
  pose proof (Cmod_near _ _ _ D2) as Z2. assert (M2 : Cmod w2 = A) by (unfold w2; rewrite Cmod_mult, M1; unfold rotation; rewrite cexp_mod; ring). rewrite M2 in Z2.
  eapply Rle_trans; [apply (Ctri _ z2)|]. assert (D3 : Cmod (Cminus (round15 (fst z2), round15 (snd z2)) z2) <= 3 / 2 * (8 * U + 4 * U * Cmod z2)).
  { pose proof (Cmod_ge_0 z2). assert (0 <= U * Cmod z2) by (apply Rmult_le_pos; lra). apply Cmod_box; [lra| |]; unfold Cminus, Cplus, Copp; cbn [fst snd].
    - eapply Rle_trans; [apply round15_near|]. pose proof (Rabs_fst_le z2). nra.
    - eapply Rle_trans; [apply round15_near|]. pose proof (Rabs_snd_le z2). nra. }
  assert (UZ : U * Cmod z2 <= U * (A + (100 * U * K * A + 4 * / 2 ^ 1072))) by (apply Rmult_le_compat_l; lra).
  assert (UUKA : U * (100 * U * K * A) <= U * K * A). { replace (U * (100 * U * K * A)) with (100 * U * (U * K * A)) by ring. nra. }
  assert (U * (4 * / 2 ^ 1072) <= U / 256) by nra. rewrite U_49. unfold Rdiv. rewrite U_46. replace (K * (128 * U) * A) with (128 * (U * K * A)) by ring. nra.
Qed.

(* the decision variable M * turn, for a received number with a given argument *)
Lemma psk_variable M phi w rho tau : (1 <= M)%nat -> INR M <= 2 ^ 48 -> 1 + Rabs phi <= 2 ^ 40 -> / 2 ^ 900 <= rho -> polar w rho (2 * PI * tau) ->
  exists k : Z, Rabs (binary64 (INR M * binary64 (lib_atan2 L (snd (lib_mul L w (float_cexp L (binary64 (- two_pi * phi))))) (fst (lib_mul L w (float_cexp L (binary64 (- two_pi * phi))))) / two_pi))
    - INR M * (tau - phi - IZR k)) <= INR M * ((1 + Rabs phi) / 2 ^ 47).
Proof.
  intros H1 HM HK Hr Pw. pose proof U_small as [U0 U1]. pose proof eta_small as [N0 N1]. pose proof (Rabs_pos phi) as P. set (K := 1 + Rabs phi) in *. pose proof (inv_pow_pos 900) as P9.
  pose proof PI_RGT_0 as PP. pose proof PI_4 as P4. pose proof Pulse_Tol.PI_gt3 as P3. assert (M1 : 1 <= INR M) by (apply le_INR in H1; cbn in H1; lra).
  set (z := lib_mul L w _). assert (UK : U * K <= / 4096). { apply Rle_trans with (U * 2 ^ 40); [apply Rmult_le_compat_l; lra|]. rewrite U_val. lra. }
  assert (K1 : 1 <= K) by (unfold K; lra).
  assert (Pw' : w = Cmult (RtoC rho) (cexp (2 * PI * tau))) by now apply polar_cexp. assert (Mw : Cmod w = rho) by (apply (polar_mod w rho (2 * PI * tau)); auto; lra).
  assert (D : Cmod (Cminus z (Cmult (RtoC rho) (cexp (2 * PI * (tau - phi))))) <= (42 * U * K) * rho).
  { replace (cexp (2 * PI * (tau - phi))) with (Cmult (cexp (2 * PI * tau)) (cexp (- (2 * PI * phi)))) by (rewrite <- cexp_add; f_equal; ring). rewrite Cmult_assoc, <- Pw'.
    unfold z. eapply Rle_trans; [apply (mul_near L HL w _ w _ 0 _ ltac:(unfold Cminus; rewrite Cplus_opp_r, Cmod_0; lra) (fcexp_near L HL _ _ _ (unrot_near phi)))|].
    - pose proof (fcexp_mod L HL (binary64 (- two_pi * phi))). lra.
    - fold K. rewrite Mw. pose proof (fcexp_mod L HL (binary64 (- two_pi * phi))) as B. assert (rho * Cmod (float_cexp L (binary64 (- two_pi * phi))) <= rho * (5 / 4)) by (apply Rmult_le_compat_l; lra).
      assert (U * (rho * Cmod (float_cexp L (binary64 (- two_pi * phi)))) <= U * (rho * (5 / 4))) by (apply Rmult_le_compat_l; lra).
      assert (/ 2 ^ 1072 <= U * rho). { apply Rle_trans with (U * / 2 ^ 900); [|apply Rmult_le_compat_l; lra]. unfold U. rewrite <- inv_pow_add. apply pow_small. lia. }
      assert (0 < U * rho) by (apply Rmult_lt_0_compat; lra). assert (U * rho <= U * K * rho) by nra. replace (rho * (3 * U + 30 * U * K)) with (3 * (U * rho) + 30 * (U * K * rho)) by ring. lra. }
  destruct (arg_error z rho (2 * PI * (tau - phi)) (42 * U * K) ltac:(lra) ltac:(nra) D) as (r1 & psi & Hr1 & Hpsi & Pz).
  pose proof (polar_zero z r1 _ Hr1 Pz) as NZ. assert (NZ' : (fst z, snd z) <> (0, 0)) by (rewrite <- surjective_pairing; exact NZ).
  destruct (acc_atan2 L HL (fst z) (snd z) NZ') as (r2 & t & Hr2 & Ht & Pt & Ha). rewrite <- surjective_pairing in Pt.
  destruct (polar_unique z r1 _ r2 t Hr1 Hr2 Pz Pt) as [k Hk]. exists k. set (a := lib_atan2 L (snd z) (fst z)) in *. rewrite U_51 in Ha.
  set (T := tau - phi - IZR k). assert (ET : t = 2 * PI * T + psi) by (unfold T; lra).
  assert (Dt : Rabs (t / (2 * PI) - T) <= 28 * U * K).
  { replace (t / (2 * PI) - T) with (psi * / (2 * PI)) by (rewrite ET; field; lra). rewrite Rabs_mult, (Rabs_pos_eq (/ (2 * PI))) by (left; apply Rinv_0_lt_compat; lra).
    assert (/ (2 * PI) <= / 6) by (apply Rinv_le_contravar; lra). assert (0 < / (2 * PI)) by (apply Rinv_0_lt_compat; lra). assert (0 <= U * K) by (apply Rmult_le_pos; lra). apply Rle_trans with (84 * U * K * / 6); [|lra].
    apply Rmult_le_compat; [apply Rabs_pos|lra| |lra]. lra. }
  pose proof two_pi_range as TR. assert (Dq : Rabs (a / two_pi - t / (2 * PI)) <= 5 * U).
  { replace (a / two_pi - t / (2 * PI)) with (((a - t) - t * (two_pi - 2 * PI) * / (2 * PI)) * / two_pi) by (field; split; lra).
    rewrite Rabs_mult, (Rabs_pos_eq (/ two_pi)) by (left; apply Rinv_0_lt_compat; lra).
    assert (/ two_pi <= / 5) by (apply Rinv_le_contravar; lra). assert (0 < / two_pi) by (apply Rinv_0_lt_compat; lra).
    assert (Y : Rabs ((a - t) - t * (two_pi - 2 * PI) * / (2 * PI)) <= 15 * U).
    { unfold Rminus at 1. eapply Rle_trans; [apply Rabs_triang|]. rewrite Rabs_Ropp. replace (t * (two_pi - 2 * PI) * / (2 * PI)) with (t * / (2 * PI) * (two_pi - 2 * PI)) by ring. rewrite (Rabs_mult (t * / (2 * PI))).
      assert (Rabs (t * / (2 * PI)) <= 1 / 2). { rewrite Rabs_mult, (Rabs_pos_eq (/ (2 * PI))) by (left; apply Rinv_0_lt_compat; lra). apply Rmult_le_reg_r with (2 * PI); [lra|]. rewrite Rmult_assoc, Rinv_l by lra. assert (Rabs t <= PI) by (apply Rabs_le; lra). lra. }
      pose proof two_pi_near. assert (Rabs (t * / (2 * PI)) * Rabs (two_pi - 2 * PI) <= 1 / 2 * (20 * U)) by (apply Rmult_le_compat; auto using Rabs_pos). lra. }
    apply Rle_trans with (15 * U * / 5); [|lra]. apply Rmult_le_compat; [apply Rabs_pos|lra|exact Y|lra]. }
  assert (Bt : Rabs (t / (2 * PI)) <= 1 / 2). { unfold Rdiv at 1. rewrite Rabs_mult, (Rabs_pos_eq (/ (2 * PI))) by (left; apply Rinv_0_lt_compat; lra). apply Rmult_le_reg_r with (2 * PI); [lra|]. rewrite Rmult_assoc, Rinv_l by lra. assert (Rabs t <= PI) by (apply Rabs_le; lra). lra. }
  set (turn := binary64 (a / two_pi)). assert (Dturn : Rabs (turn - t / (2 * PI)) <= 6 * U).
  { unfold turn. eapply Rle_trans; [apply (b64_step _ _ _ _ Dq Bt)|]. nra. }
  assert (Bturn : Rabs (INR M * turn) <= INR M). { rewrite Rabs_mult, (Rabs_pos_eq (INR M)) by lra. assert (Rabs turn <= 1); [|nra]. replace turn with (t / (2 * PI) + (turn - t / (2 * PI))) by ring. eapply Rle_trans; [apply Rabs_triang|]. nra. }
  replace (binary64 (INR M * turn) - INR M * T) with ((binary64 (INR M * turn) - INR M * turn) + INR M * ((turn - t / (2 * PI)) + (t / (2 * PI) - T))) by ring.
  eapply Rle_trans; [apply Rabs_triang|]. rewrite (Rabs_mult (INR M)), (Rabs_pos_eq (INR M)) by lra. pose proof (b64_unit (INR M * turn)) as B.
  assert (Rabs ((turn - t / (2 * PI)) + (t / (2 * PI) - T)) <= 6 * U + 28 * U * K) by (eapply Rle_trans; [apply Rabs_triang|lra]).
  assert (E47 : / 2 ^ 47 = 64 * U). { unfold U. change 53%nat with (47 + 6)%nat. rewrite inv_pow_add. replace (/ 2 ^ 6) with (/ 64) by (f_equal; lra). lra. }
  replace (INR M * (K / 2 ^ 47)) with (INR M * (K * (64 * U))) by (rewrite <- E47; reflexivity). apply Rle_trans with (U * (INR M + / 1024) + INR M * (6 * U + 28 * U * K)); [apply Rplus_le_compat; [nra|apply Rmult_le_compat_l; lra]|].
  assert (U * INR M <= INR M * (U * K)) by (assert (0 <= U * INR M) by (apply Rmult_le_pos; lra); nra). assert (U <= U * INR M) by nra. nra.
Qed.
End Lib.
