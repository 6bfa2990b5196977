Set Warnings "-ambiguous-paths".
(** C91, C92: special functions. *)
From Coq Require Import List ZArith Reals Lra Lia Psatz.
From Coquelicot Require Import Coquelicot.
From Verif Require Import Special_Model Special_Spec Special_Gauss Special_Marcum Special_Marcum2.
Import ListNotations.
Local Open Scope R_scope.

(** ** C91: the Gaussian Q-function and its inverse *)

(** gaussian_q(x) is the documented integral. *)
Theorem C91_gaussian_q (x : R) : integral_from (fun u => / sqrt (2 * PI) * exp (- u ^ 2 / 2)) x (gaussian_q x).
Proof. apply gq_integral. Qed.

Theorem C91_shape (x y : R) :
  0 < gaussian_q x < 1 /\ gaussian_q 0 = 1/2 /\ gaussian_q (- x) = 1 - gaussian_q x /\
  (x < y <-> gaussian_q y < gaussian_q x) /\
  (0 <= x -> gaussian_q x <= 1/2 * exp (- x ^ 2 / 2)).
Proof.
  pose proof (Gn_range x).
  assert (Z : Gn 0 = 0) by (pose proof (Gn_odd 0) as O; rewrite Ropp_0 in O; lra).
  rewrite !gq_closed. split; [lra|]. split; [lra|]. split; [rewrite Gn_odd; lra|]. split.
  - split; intros L.
    + pose proof (Gn_incr x y L). lra.
    + destruct (Rtotal_order x y) as [C|[C|C]]; [exact C|subst; lra|]. pose proof (Gn_incr y x C). lra.
  - intros Hx. rewrite <- gq_closed. apply gq_chernoff. exact Hx.
Qed.

(** gaussian_q_inv is the inverse of gaussian_q, raises exactly outside [0, 1], and
    is plus (minus) infinity at 0 (1). *)
Theorem C91_inverse (inv_cdf : R -> R) : is_inv_cdf inv_cdf ->
  (forall x, gaussian_q_inv inv_cdf (gaussian_q x) = Some (Finite x)) /\
  (forall y, 0 < y < 1 -> exists x, gaussian_q_inv inv_cdf y = Some (Finite x) /\ gaussian_q x = y) /\
  gaussian_q_inv inv_cdf 0 = Some p_infty /\ gaussian_q_inv inv_cdf 1 = Some m_infty /\
  (forall y, gaussian_q_inv inv_cdf y = None <-> y < 0 \/ 1 < y).
Proof.
  intros H.
  assert (B : forall y, 0 < y < 1 -> gaussian_q_inv inv_cdf y = Some (Finite (- inv_cdf y)) /\ gaussian_q (- inv_cdf y) = y).
  { intros y Hy. unfold gaussian_q_inv.
    destruct Req_EM_T; [lra|]. destruct Req_EM_T; [lra|]. destruct Rlt_dec; [|lra]. destruct Rlt_dec; [|lra].
    rewrite Rplus_0_r. split; [reflexivity|].
    pose proof (to_unique _ _ _ _ (H y Hy) (cdf_integral (inv_cdf y))) as E.
    rewrite gq_closed in *. rewrite Gn_odd. lra. }
  split; [|split; [|split; [|split]]].
  - intros x. assert (Hx : 0 < gaussian_q x < 1) by apply (C91_shape x 0).
    destruct (B _ Hx) as [E1 E2]. rewrite E1. do 2 f_equal.
    destruct (Rtotal_order (- inv_cdf (gaussian_q x)) x) as [C|[C|C]]; [|exact C|];
      apply (proj1 (proj1 (proj2 (proj2 (proj2 (C91_shape _ _)))))) in C; lra.
  - intros y Hy. exists (- inv_cdf y). apply B. exact Hy.
  - unfold gaussian_q_inv. destruct Req_EM_T; [reflexivity|lra].
  - unfold gaussian_q_inv. destruct Req_EM_T; [lra|]. destruct Req_EM_T; [reflexivity|lra].
  - intros y. unfold gaussian_q_inv. destruct Req_EM_T; [split; [discriminate|lra]|].
    destruct Req_EM_T; [split; [discriminate|lra]|]. destruct Rlt_dec; [destruct Rlt_dec|]; split; intros; try lra; try discriminate; auto.
Qed.
(** Such a function exists, so the hypothesis can be met. *)
Theorem C91_inverse_exists : exists inv_cdf, is_inv_cdf inv_cdf.
Proof.
  exists (fun p => match Rlt_dec 0 p with
                   | left H1 => match Rlt_dec p 1 with
                                | left H2 => proj1_sig (Gn_onto (p - 1/2) ltac:(lra))
                                | right _ => 0 end
                   | right _ => 0 end).
  intros p Hp. destruct Rlt_dec as [H1|]; [|lra]. destruct Rlt_dec as [H2|]; [|lra].
  destruct Gn_onto as [x Ex]. cbn [proj1_sig].
  replace p with (1 - gaussian_q x) at 1 by (rewrite gq_closed, Ex; field). apply cdf_integral.
Qed.

(** logcosh(x) = ln(cosh x). *)
Theorem C91_logcosh (x : R) : logcosh x = ln ((exp x + exp (- x)) / 2).
Proof.
  assert (G : forall s, s + ln (1 + exp (-2 * s)) - ln 2 = ln ((exp s + exp (- s)) / 2)).
  { intros s. pose proof (exp_pos s). pose proof (exp_pos (- s)). pose proof (exp_pos (-2 * s)).
    replace ((exp s + exp (- s)) / 2) with (exp s * (1 + exp (-2 * s)) * / 2).
    - rewrite !ln_mult, ln_exp, ln_Rinv; nra.
    - replace (exp (- s)) with (exp s * exp (-2 * s)) by (rewrite <- exp_plus; f_equal; ring). field. }
  unfold logcosh, np_sign. destruct Rlt_dec as [L|L]; [|destruct Rlt_dec as [L2|L2]].
  - rewrite G. replace (-1 * x) with (- x) by ring. rewrite Ropp_involutive. f_equal. lra.
  - rewrite G, Rmult_1_l. reflexivity.
  - rewrite G. assert (x = 0) by lra. subst. rewrite Rmult_0_l. reflexivity.
Qed.

(** ** C92: Marcum's Q-function *)

(** Rejects exactly m = 0 and negative arguments. *)
Theorem C92_domain (m : nat) (a x : R) :
  marcum_q m a x = None <-> m = 0%nat \/ a < 0 \/ x < 0.
Proof.
  unfold marcum_q. destruct (Nat.ltb_spec 0 m) as [H|H].
  - destruct Rle_dec as [Ha|Ha]; [destruct Rle_dec as [Hx|Hx]|].
    + split; [discriminate|]. intros [C|[C|C]]; [lia|lra|lra].
    + split; [|reflexivity]. intros _. lra.
    + split; [|reflexivity]. intros _. lra.
  - split; [|reflexivity]. intros _. left. lia.
Qed.

(** The function the code approximates exists for all arguments and is a probability. *)
Theorem C92_defined (m : nat) (a x : R) : (0 < m)%nat -> 0 <= a -> 0 <= x ->
  exists q, marcum_value m a x q /\ 0 <= q <= 1 /\ forall q', marcum_value m a x q' -> q' = q.
Proof.
  intros Hm Ha Hx. destruct m as [|n]; [lia|]. exists (Qs (S n) (a ^ 2 / 2) (x ^ 2 / 2)).
  split; [|split; [apply Q_range; nra|]].
  - destruct (Req_EM_T a 0) as [->|N]; [right|left]; (split; [lra|]).
    + replace (0 ^ 2 / 2) with 0 by field. apply Q_chi.
    + apply Q_marcum; lra.
  - intros q' [[H1 H]|[-> H]].
    + exact (from_unique _ _ _ _ H (Q_marcum n a x ltac:(lra))).
    + replace (0 ^ 2 / 2) with 0 by field. exact (from_unique _ _ _ _ H (Q_chi n x)).
Qed.
Lemma value_Qs (m : nat) (a x q : R) : (0 < m)%nat -> marcum_value m a x q -> q = Qs m (a ^ 2 / 2) (x ^ 2 / 2).
Proof.
  intros Hm H. destruct m as [|n]; [lia|]. destruct H as [[H1 H]|[-> H]].
  - exact (from_unique _ _ _ _ H (Q_marcum n a x ltac:(lra))).
  - replace (0 ^ 2 / 2) with 0 by field. exact (from_unique _ _ _ _ H (Q_chi n x)).
Qed.

(** marcum_q never exceeds the true value, and the error is at most
    2e-16 (2 e)^(x^2/2) + e^(x^2/2) / 2^100, for every order m and every a. *)
Theorem C92_error (m : nat) (a x r q : R) :
  marcum_q m a x = Some r -> marcum_value m a x q ->
  0 <= r <= q /\
  q - r <= 2 / 10 ^ 16 * exp (x ^ 2 / 2 + ln 2 * (x ^ 2 / 2)) + exp (x ^ 2 / 2) / 2 ^ 100.
Proof.
  intros E H. destruct (marcum_sum m a x r E) as (Hm & _).
  pose proof (marcum_error m a x r E) as K. cbv zeta in K. rewrite (value_Qs m a x q Hm H). lra.
Qed.

Lemma exp_INR (n : nat) (x : R) : exp (INR n * x) = exp x ^ n.
Proof.
  induction n as [|n IH]; [cbn; rewrite Rmult_0_l; apply exp_0|].
  rewrite S_INR. replace ((INR n + 1) * x) with (x + INR n * x) by ring. rewrite exp_plus, IH. reflexivity.
Qed.
Lemma exp_1_low : 5/2 <= exp 1.
Proof.
  replace 1 with (INR 10 * (1/10)) by (cbn; lra). rewrite exp_INR.
  apply Rle_trans with ((1 + 1/10) ^ 10); [lra|]. apply pow_incr. split; [lra|]. apply exp_ineq1_le.
Qed.
Lemma exp_low (n : nat) : (5/2) ^ n <= exp (INR n).
Proof.
  rewrite <- (Rmult_1_r (INR n)), exp_INR. apply pow_incr. split; [lra|]. apply exp_1_low.
Qed.
Lemma exp_high (n : nat) : exp (INR n) <= 3 ^ n.
Proof.
  rewrite <- (Rmult_1_r (INR n)), exp_INR. apply pow_incr. split; [left; apply exp_pos|]. apply exp_le_3.
Qed.

(** In particular, for x <= 4 the result is right to nine decimals. *)
Theorem C92_accurate (m : nat) (a x r q : R) :
  marcum_q m a x = Some r -> marcum_value m a x q -> x <= 4 -> q - 1 / 10 ^ 9 <= r <= q.
Proof.
  intros E H Hx. destruct (C92_error m a x r q E H) as [R1 R2].
  destruct (marcum_sum m a x r E) as (_ & _ & X0 & _).
  assert (B : 0 <= x ^ 2 / 2 <= INR 8) by (cbn [INR]; nra).
  assert (L2 : 0 < ln 2) by (rewrite <- ln_1; apply ln_increasing; lra).
  assert (Mono : forall u v, u <= v -> exp u <= exp v).
  { intros u v [L|L]; [left; apply exp_increasing; exact L|right; rewrite L; reflexivity]. }
  assert (E8 : exp (INR 8) <= 3 ^ 8) by apply exp_high.
  assert (F8 : exp (INR 8 * ln 2) = 2 ^ 8) by (rewrite exp_INR, exp_ln by lra; reflexivity).
  assert (G1 : exp (x ^ 2 / 2 + ln 2 * (x ^ 2 / 2)) <= 3 ^ 8 * 2 ^ 8).
  { apply Rle_trans with (exp (INR 8 + INR 8 * ln 2)); [apply Mono; nra|]. rewrite exp_plus, F8.
    apply Rmult_le_compat_r; [apply pow_le; lra|exact E8]. }
  assert (G2 : exp (x ^ 2 / 2) <= 3 ^ 8) by (eapply Rle_trans; [apply Mono; apply B|exact E8]).
  split; [|lra].
  assert (2 / 10 ^ 16 * exp (x ^ 2 / 2 + ln 2 * (x ^ 2 / 2)) <= 5 / 10 ^ 10) by lra.
  assert (exp (x ^ 2 / 2) / 2 ^ 100 <= 5 / 10 ^ 10) by lra.
  lra.
Qed.
Example C92_case : exists r, marcum_q 2 (1/2) (6/5) = Some r.
Proof.
  destruct (marcum_q 2 (1/2) (6/5)) as [r|] eqn:E; [exists r; reflexivity|].
  apply C92_domain in E. destruct E as [E|[E|E]]; [discriminate|lra|lra].
Qed.

(** A lower bound for the true value. *)
Lemma Qs_low (m J : nat) (A b : R) : 0 <= A -> 0 <= b ->
  (1 - 2 ^ (J - m) * exp (- (A / 2))) * (1 - exp b / 2 ^ J) <= Qs m A b \/ 1 < 2 ^ (J - m) * exp (- (A / 2)).
Proof.
  intros HA Hb. set (d := 2 ^ (J - m) * exp (- (A / 2))).
  destruct (Rle_or_lt d 1) as [D|D]; [left|right; exact D].
  rewrite (rest_split m A b J HA Hb). pose proof (rest_pos m A b J HA Hb) as RP.
  assert (D0 : 0 < d) by (unfold d; apply Rmult_lt_0_compat; [apply pow_lt; lra|apply exp_pos]).
  assert (Tl : forall j, (j < J)%nat -> 1 - d <= T m A j).
  { intros j Hj. unfold T.
    assert (M : np_sum (pois A) (j + 1 - m) <= np_sum (pois A) (J - m)).
    { assert (M : forall p q, np_sum (pois A) p <= np_sum (pois A) (p + q)).
      { intros p q. induction q as [|q IH]; [rewrite Nat.add_0_r; lra|].
        rewrite Nat.add_succ_r, np_sum_S. pose proof (pois_pos A (p + q) HA). lra. }
      replace (J - m)%nat with (j + 1 - m + (J - m - (j + 1 - m)))%nat by lia. apply M. }
    pose proof (pois_lower A (J - m) HA). unfold d. lra. }
  assert (G : forall p, (p <= J)%nat -> (1 - d) * np_sum (pois b) p <= np_sum (tm m A b) p).
  { induction p as [|p IH]; intros Hp; [unfold np_sum; cbn; lra|].
    rewrite !np_sum_S. specialize (IH ltac:(lia)). specialize (Tl p ltac:(lia)).
    pose proof (pois_pos b p Hb). unfold tm at 2. nra. }
  specialize (G J (le_n J)).
  pose proof (series_split (pois b) J (pois_ex b)) as Sp. rewrite pois_total in Sp.
  pose proof (pois_upper b J Hb) as U.
  assert ((1 - d) * (1 - exp b / 2 ^ J) <= (1 - d) * np_sum (pois b) J) by (apply Rmult_le_compat_l; lra).
  lra.
Qed.

(** Without the bound on x the code is wrong: the loop stops at the first term
    below 1e-16, which for large x comes before the terms that matter.  Here the
    true value is more than 0.8 and the code returns less than 1e-16. *)
Theorem C92_early_stop_refuted : exists r q,
  marcum_q 1 20 10 = Some r /\ marcum_value 1 20 10 q /\ r < 1 / 10 ^ 16 /\ 8/10 < q.
Proof.
  set (q := Qs 1 (20 ^ 2 / 2) (10 ^ 2 / 2)).
  assert (EA : 20 ^ 2 / 2 = 200) by lra. assert (Eb : 10 ^ 2 / 2 = 50) by lra.
  assert (E50 : (5/2) ^ 50 <= exp 50) by (replace 50 with (INR 50) by (cbn; lra); apply exp_low).
  assert (N1 : 51 * 10 ^ 17 < (5/2) ^ 50) by lra.
  assert (I50 : exp (Ropp 50) < 1 / (51 * 10 ^ 17)).
  { rewrite exp_Ropp. unfold Rdiv. rewrite Rmult_1_l. apply Rinv_lt_contravar; [|lra].
    apply Rmult_lt_0_compat; [lra|apply exp_pos]. }
  pose proof (exp_pos (- 50)) as P50.
  assert (P0 : pois 50 0 = exp (Ropp 50)) by (unfold pois; cbn; field).
  assert (P1 : pois 50 1 = 50 * exp (Ropp 50)) by (unfold pois; cbn; field).
  exists (pois 50 0 + tm 1 200 50 1), q. split; [|split; [|split]].
  - unfold marcum_q. cbn [Nat.ltb Nat.leb]. destruct Rle_dec; [|lra]. destruct Rle_dec; [|lra]. f_equal.
    rewrite Eb. unfold auxiliary_p.
    assert (EI : INR 1 * (20 ^ 2 / (2 * INR 1)) = 200) by (cbn; lra).
    rewrite (aux_start_eq 1 200). change (100 - 1)%nat with (S 98). cbn [aux_loop].
    rewrite aux_term_eq by lia. rewrite EI.
    pose proof (Q_term_pos 1 200 50 1 ltac:(lra) ltac:(lra)) as TP. fold (tm 1 200 50 1) in TP.
    assert (TL : tm 1 200 50 1 <= pois 50 1).
    { unfold tm. pose proof (T_range 1 200 1 ltac:(lra)). pose proof (pois_pos 50 1 ltac:(lra)). nra. }
    destruct Rlt_dec as [L|L].
    + f_equal. unfold np_sum. cbn [map seq fold_right]. unfold tm. rewrite (T_low 1 200 0) by lia. ring.
    + exfalso. apply L. rewrite Rabs_right by lra. rewrite P1 in TL. lra.
  - left. split; [lra|]. apply (Q_marcum 0 20 10). lra.
  - assert (TL : tm 1 200 50 1 <= pois 50 1).
    { unfold tm. pose proof (T_range 1 200 1 ltac:(lra)). pose proof (pois_pos 50 1 ltac:(lra)). nra. }
    rewrite P1 in TL. rewrite P0. lra.
  - unfold q. rewrite EA, Eb.
    assert (D : 2 ^ (101 - 1) * exp (- (200 / 2)) <= 1/20).
    { replace (200 / 2) with (INR 100) by (cbn; lra). rewrite exp_Ropp. change (101 - 1)%nat with 100%nat.
      assert (E100 : (5/2) ^ 100 <= exp (INR 100)) by apply exp_low.
      assert (0 < (5/2) ^ 100) by (apply pow_lt; lra).
      apply Rle_trans with (2 ^ 100 * / (5/2) ^ 100).
      - apply Rmult_le_compat_l; [apply pow_le; lra|]. apply Rinv_le_contravar; assumption.
      - apply Rmult_le_reg_r with ((5/2) ^ 100); [assumption|]. rewrite Rmult_assoc, Rinv_l by lra. lra. }
    assert (U : exp 50 / 2 ^ 101 <= 1/20).
    { assert (exp 50 <= 3 ^ 50) by (replace 50 with (INR 50) at 1 by (cbn; lra); apply exp_high). lra. }
    destruct (Qs_low 1 101 200 50 ltac:(lra) ltac:(lra)) as [G|G]; [|lra].
    assert (0 < exp 50 / 2 ^ 101) by (apply Rdiv_lt_0_compat; [apply exp_pos|apply pow_lt; lra]).
    assert (0 < 2 ^ (101 - 1) * exp (- (200 / 2))) by (apply Rmult_lt_0_compat; [apply pow_lt; lra|apply exp_pos]).
    nra.
Qed.

(** For orders of 100 and more, the loop does not run and the parameter a is ignored. *)
Theorem C92_large_order_ignores_a (m : nat) (a a' x : R) : (100 <= m)%nat -> 0 <= a -> 0 <= a' ->
  marcum_q m a x = marcum_q m a' x.
Proof.
  intros Hm Ha Ha'. unfold marcum_q. destruct (Nat.ltb_spec 0 m); [|reflexivity].
  destruct (Rle_dec 0 a); [|lra]. destruct (Rle_dec 0 a'); [|lra]. destruct (Rle_dec 0 x); [|reflexivity].
  unfold auxiliary_p. replace (100 - m)%nat with 0%nat by lia. reflexivity.
Qed.
Theorem C92_large_order_refuted : exists r q,
  marcum_q 100 40 20 = Some r /\ marcum_value 100 40 20 q /\ r < 1 / 10 ^ 9 /\ 8/10 < q.
Proof.
  assert (EA : 40 ^ 2 / 2 = 800) by lra. assert (Eb : 20 ^ 2 / 2 = 200) by lra.
  exists (aux_start 100 (20 ^ 2 / 2)), (Qs 100 (40 ^ 2 / 2) (20 ^ 2 / 2)). split; [|split; [|split]].
  - unfold marcum_q. replace (0 <? 100)%nat with true by reflexivity.
    destruct Rle_dec; [|lra]. destruct Rle_dec; [|lra]. reflexivity.
  - left. split; [lra|]. apply (Q_marcum 99 40 20). lra.
  - rewrite Eb. change (aux_start 100 200) with (np_sum (pois 200) 100).
    eapply Rle_lt_trans; [apply pois_lower; lra|].
    replace (200 / 2) with (INR 100) by (cbn; lra). rewrite exp_Ropp.
    assert (E100 : (5/2) ^ 100 <= exp (INR 100)) by apply exp_low.
    assert (0 < (5/2) ^ 100) by (apply pow_lt; lra).
    apply Rle_lt_trans with (2 ^ 100 * / (5/2) ^ 100).
    + apply Rmult_le_compat_l; [apply pow_le; lra|]. apply Rinv_le_contravar; assumption.
    + apply Rmult_lt_reg_r with ((5/2) ^ 100); [assumption|]. rewrite Rmult_assoc, Rinv_l by lra. lra.
  - rewrite EA, Eb.
    assert (D : 2 ^ (400 - 100) * exp (- (800 / 2)) <= 1/20).
    { replace (800 / 2) with (INR 400) by (rewrite INR_IZR_INZ; cbn; lra). rewrite exp_Ropp. change (400 - 100)%nat with 300%nat.
      assert (E400 : (5/2) ^ 400 <= exp (INR 400)) by apply exp_low.
      assert (P : 0 < (5/2) ^ 400) by (apply pow_lt; lra).
      apply Rle_trans with (2 ^ 300 * / (5/2) ^ 400).
      - apply Rmult_le_compat_l; [apply pow_le; lra|]. apply Rinv_le_contravar; assumption.
      - apply Rmult_le_reg_r with ((5/2) ^ 400); [exact P|]. rewrite Rmult_assoc, Rinv_l by lra. lra. }
    assert (U : exp 200 / 2 ^ 400 <= 1/20).
    { assert (exp 200 <= 3 ^ 200) by (replace 200 with (INR 200) at 1 by (rewrite INR_IZR_INZ; cbn; lra); apply exp_high). lra. }
    destruct (Qs_low 100 400 800 200 ltac:(lra) ltac:(lra)) as [G|G]; [|lra].
    assert (0 < exp 200 / 2 ^ 400) by (apply Rdiv_lt_0_compat; [apply exp_pos|apply pow_lt; lra]).
    assert (0 < 2 ^ (400 - 100) * exp (- (800 / 2))) by (apply Rmult_lt_0_compat; [apply pow_lt; lra|apply exp_pos]).
    nra.
Qed.
