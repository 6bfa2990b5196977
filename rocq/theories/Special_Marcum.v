Set Warnings "-ambiguous-paths".
(** Marcum's Q-function: Poisson sums, the integral of the documentation. *)
From Coq Require Import List ZArith Reals Lra Lia Psatz.
From Coquelicot Require Import Coquelicot.
From Verif Require Import Pulse_Int Special_Model Special_Spec Special_Gauss.
Import ListNotations.
Local Open Scope R_scope.

Lemma np_sum_S (g : nat -> R) (n : nat) : np_sum g (S n) = np_sum g n + g n.
Proof.
  unfold np_sum. rewrite seq_S, map_app, Nat.add_0_l.
  assert (H : forall l x, fold_right Rplus 0 (l ++ [x]) = fold_right Rplus 0 l + x).
  { intros l x. induction l as [|y l IH]; cbn; [ring|rewrite IH; ring]. }
  cbn [map]. apply H.
Qed.
Lemma np_sum_ext (g h : nat -> R) (n : nat) : (forall i, (i < n)%nat -> g i = h i) -> np_sum g n = np_sum h n.
Proof.
  induction n as [|n IH]; [reflexivity|]. intros H. rewrite !np_sum_S, IH by (intros; apply H; lia).
  f_equal. apply H. lia.
Qed.
Lemma np_sum_f_R0 (g : nat -> R) (n : nat) : np_sum g (S n) = sum_f_R0 g n.
Proof. induction n as [|n IH]; [unfold np_sum; cbn; ring|]. rewrite np_sum_S, IH. reflexivity. Qed.
Lemma np_sum_pos (g : nat -> R) (n : nat) : (forall i, 0 <= g i) -> 0 <= np_sum g n.
Proof. intros H. induction n as [|n IH]; [unfold np_sum; cbn; lra|]. rewrite np_sum_S. pose proof (H n). lra. Qed.

(** A convergent series of non-negative terms splits into a partial sum and a non-negative rest. *)
Lemma series_split (g : nat -> R) (n : nat) : ex_series g ->
  Series g = np_sum g n + Series (fun k => g (n + k)%nat).
Proof.
  intros H. destruct n as [|n].
  - unfold np_sum. cbn. rewrite Rplus_0_l. reflexivity.
  - rewrite (Series_incr_n g (S n)) by (exact H || lia). cbn [pred]. rewrite np_sum_f_R0. reflexivity.
Qed.
Lemma series_nonneg (g : nat -> R) : (forall n, 0 <= g n) -> ex_series g -> 0 <= Series g.
Proof.
  intros P H. replace 0 with (Series (fun _ => 0)).
  - apply Series_le; [intros n; split; [lra|apply P]|exact H].
  - rewrite <- (Rmult_0_l 0). rewrite Series_scal_l. ring.
Qed.
Lemma ex_series_shift (g : nat -> R) (n : nat) : ex_series g -> ex_series (fun k => g (n + k)%nat).
Proof. intros H. apply (ex_series_incr_n (V := R_NormedModule) g n). exact H. Qed.
Lemma partial_le (g : nat -> R) (n : nat) : (forall n, 0 <= g n) -> ex_series g -> np_sum g n <= Series g.
Proof.
  intros P H. rewrite (series_split g n H).
  pose proof (series_nonneg (fun k => g (n + k)%nat) ltac:(intros; apply P) (ex_series_shift g n H)). lra.
Qed.

Definition pois (b : R) (j : nat) : R := exp (- b) * b ^ j / INR (fact j).
Lemma fact_pos (n : nat) : 0 < INR (fact n).
Proof. apply INR_fact_lt_0. Qed.
Lemma pois_pos (b : R) (j : nat) : 0 <= b -> 0 <= pois b j.
Proof.
  intros H. unfold pois. apply Rmult_le_pos; [|left; apply Rinv_0_lt_compat, fact_pos].
  apply Rmult_le_pos; [left; apply exp_pos|apply pow_le; exact H].
Qed.
Lemma pois_S (b : R) (j : nat) : pois b (S j) = pois b j * (b / INR (S j)).
Proof.
  unfold pois. change (fact (S j)) with (S j * fact j)%nat. rewrite mult_INR.
  pose proof (fact_pos j). assert (0 < INR (S j)) by (apply lt_0_INR; lia).
  cbn [pow]. field. lra.
Qed.
Lemma exp_series (x : R) : is_series (fun n => x ^ n / INR (fact n)) (exp x).
Proof.
  pose proof (is_exp_Reals x) as H. unfold is_pseries in H.
  eapply is_series_ext; [|exact H]. intros n. rewrite pow_n_pow.
  change (x ^ n * / INR (fact n) = x ^ n / INR (fact n)). reflexivity.
Qed.
Lemma pois_series (b : R) : is_series (pois b) 1.
Proof.
  replace 1 with (exp (- b) * exp b) by (rewrite <- exp_plus, Rplus_opp_l, exp_0; reflexivity).
  eapply is_series_ext; [|apply (is_series_scal (V := R_NormedModule) (exp (- b)) _ _ (exp_series b))].
  intros n. change (exp (- b) * (b ^ n / INR (fact n)) = pois b n). unfold pois, Rdiv. ring.
Qed.
Lemma pois_ex (b : R) : ex_series (pois b).
Proof. exists 1. apply pois_series. Qed.
Lemma pois_total (b : R) : Series (pois b) = 1.
Proof. apply is_series_unique, pois_series. Qed.
Lemma pois_partial (b : R) (n : nat) : 0 <= b -> 0 <= np_sum (pois b) n <= 1.
Proof.
  intros H. split; [apply np_sum_pos; intros; apply pois_pos; exact H|].
  rewrite <- (pois_total b). apply partial_le; [intros; apply pois_pos; exact H|apply pois_ex].
Qed.
Lemma pois_le1 (b : R) (n : nat) : 0 <= b -> pois b n <= 1.
Proof.
  intros H. pose proof (pois_partial b (S n) H) as P. rewrite np_sum_S in P.
  pose proof (pois_partial b n H). lra.
Qed.
(** pois b j <= (j + 1) / b *)
Lemma pois_decay (b : R) (j : nat) : 0 < b -> pois b j <= INR (S j) / b.
Proof.
  intros H. pose proof (pois_le1 b (S j) ltac:(lra)) as L. rewrite pois_S in L.
  assert (P : 0 < INR (S j)) by (apply lt_0_INR; lia).
  apply Rmult_le_reg_r with (b / INR (S j)); [apply Rdiv_lt_0_compat; lra|].
  replace (INR (S j) / b * (b / INR (S j))) with 1 by (field; lra). exact L.
Qed.

(** T m A j: the probability that a Poisson variable of mean A exceeds j - m. *)
Definition T (m : nat) (A : R) (j : nat) : R := 1 - np_sum (pois A) (j + 1 - m).
Lemma T_range (m : nat) (A : R) (j : nat) : 0 <= A -> 0 <= T m A j <= 1.
Proof. intros H. unfold T. pose proof (pois_partial A (j + 1 - m) H). lra. Qed.
Lemma T_low (m : nat) (A : R) (j : nat) : (j < m)%nat -> T m A j = 1.
Proof. intros H. unfold T. replace (j + 1 - m)%nat with 0%nat by lia. unfold np_sum. cbn. ring. Qed.
Lemma T_step (n : nat) (A : R) (j : nat) :
  T (S n) A j - T (S n) A (S j) = if le_lt_dec n j then pois A (j - n) else 0.
Proof.
  unfold T. destruct le_lt_dec as [L|L].
  - replace (S j + 1 - S n)%nat with (S (j - n)) by lia.
    replace (j + 1 - S n)%nat with (j - n)%nat by lia. rewrite np_sum_S. ring.
  - replace (S j + 1 - S n)%nat with 0%nat by lia. replace (j + 1 - S n)%nat with 0%nat by lia. ring.
Qed.
Lemma T_decr (m : nat) (A : R) (i k : nat) : 0 <= A -> T m A (i + k) <= T m A i.
Proof.
  intros H. unfold T.
  assert (M : forall p q, np_sum (pois A) p <= np_sum (pois A) (p + q)).
  { intros p q. induction q as [|q IH]; [rewrite Nat.add_0_r; lra|].
    rewrite Nat.add_succ_r, np_sum_S. pose proof (pois_pos A (p + q) H). lra. }
  pose proof (M (i + 1 - m)%nat (i + k + 1 - m - (i + 1 - m))%nat) as L.
  replace (i + 1 - m + (i + k + 1 - m - (i + 1 - m)))%nat with (i + k + 1 - m)%nat in L by lia. lra.
Qed.
Lemma T_lim (m : nat) (A eps : R) : 0 <= A -> 0 < eps -> exists J, forall j, (J <= j)%nat -> T m A j < eps.
Proof.
  intros HA He. pose proof (pois_series A) as S.
  apply is_series_Reals in S. destruct (S eps He) as [N HN].
  exists (N + m)%nat. intros j Hj. specialize (HN (j - m)%nat ltac:(lia)).
  unfold T. replace (j + 1 - m)%nat with (Datatypes.S (j - m)) by lia. rewrite np_sum_f_R0.
  unfold R_dist in HN. revert HN. unfold Rabs. destruct Rcase_abs; lra.
Qed.

(** The function the code's series converges to. *)
Definition Qs (m : nat) (A b : R) : R := Series (fun j => pois b j * T m A j).
Lemma Q_ex (m : nat) (A b : R) : 0 <= A -> 0 <= b -> ex_series (fun j => pois b j * T m A j).
Proof.
  intros HA Hb. apply (ex_series_le (V := R_CompleteNormedModule) _ (pois b)); [|apply pois_ex].
  intros n. change (Rabs (pois b n * T m A n) <= pois b n).
  pose proof (pois_pos b n Hb). pose proof (T_range m A n HA). rewrite Rabs_right; nra.
Qed.
Lemma Q_term_pos (m : nat) (A b : R) (j : nat) : 0 <= A -> 0 <= b -> 0 <= pois b j * T m A j.
Proof. intros HA Hb. pose proof (pois_pos b j Hb). pose proof (T_range m A j HA). nra. Qed.
Lemma Q_range (m : nat) (A b : R) : 0 <= A -> 0 <= b -> 0 <= Qs m A b <= 1.
Proof.
  intros HA Hb. split.
  - apply series_nonneg; [intros; apply Q_term_pos; assumption|apply Q_ex; assumption].
  - rewrite <- (pois_total b). apply Series_le; [|apply pois_ex].
    intros n. pose proof (pois_pos b n Hb). pose proof (T_range m A n HA). nra.
Qed.

(** As a power series in b. *)
Definition cQ (m : nat) (A : R) (j : nat) : R := T m A j / INR (fact j).
Lemma radius (c : nat -> R) : (forall n, Rabs (c n) <= / INR (fact n)) -> CV_radius c = p_infty.
Proof.
  intros H. pose proof (CV_radius_bounded c) as [U _].
  assert (B : forall r : R, Rbar_le r (CV_radius c)).
  { intros r. apply U. exists (exp (Rabs r)). intros n. rewrite Rabs_mult.
    pose proof (H n) as Hn. pose proof (fact_pos n) as F.
    rewrite <- RPow_abs.
    apply Rle_trans with (Rabs r ^ n / INR (fact n)).
    - unfold Rdiv. rewrite Rmult_comm. apply Rmult_le_compat_l; [apply pow_le, Rabs_pos|exact Hn].
    - pose proof (pois_le1 (Rabs r) n (Rabs_pos r)) as L. unfold pois in L.
      replace (Rabs r ^ n / INR (fact n)) with (exp (Rabs r) * (exp (- Rabs r) * Rabs r ^ n / INR (fact n))).
      + rewrite <- (Rmult_1_r (exp (Rabs r))) at 2. apply Rmult_le_compat_l; [left; apply exp_pos|exact L].
      + unfold Rdiv. rewrite <- !Rmult_assoc. rewrite <- exp_plus, Rplus_opp_r, exp_0. ring. }
  destruct (CV_radius c) as [r| |]; [|reflexivity|].
  - specialize (B (r + 1)). cbn in B. lra.
  - specialize (B 0). cbn in B. contradiction.
Qed.
Lemma cQ_radius (m : nat) (A : R) : 0 <= A -> CV_radius (cQ m A) = p_infty.
Proof.
  intros HA. apply radius. intros n. unfold cQ. pose proof (T_range m A n HA). pose proof (fact_pos n) as F.
  pose proof (Rinv_0_lt_compat _ F).
  unfold Rdiv. rewrite Rabs_mult, !Rabs_right by lra. nra.
Qed.
Lemma Q_pseries (m : nat) (A b : R) : Qs m A b = exp (- b) * PSeries (cQ m A) b.
Proof.
  unfold Qs, PSeries. rewrite <- Series_scal_l. apply Series_ext. intros n. unfold pois, cQ, Rdiv. ring.
Qed.

(** Derivative in b. *)
Definition dQ (n : nat) (A : R) (k : nat) : R := pois A k / INR (fact (k + n)).
Lemma dQ_radius (n : nat) (A : R) : 0 <= A -> CV_radius (dQ n A) = p_infty.
Proof.
  intros HA. apply radius. intros k. unfold dQ.
  pose proof (pois_pos A k HA). pose proof (pois_le1 A k HA). pose proof (fact_pos (k + n)) as F.
  pose proof (Rinv_0_lt_compat _ F).
  unfold Rdiv. rewrite Rabs_mult, !Rabs_right by lra.
  assert (L : / INR (fact (k + n)) <= / INR (fact k)).
  { apply Rinv_le_contravar; [apply fact_pos|]. apply le_INR, fact_le. lia. }
  nra.
Qed.
Lemma Q_derive (n : nat) (A b : R) : 0 <= A ->
  is_derive (Qs (S n) A) b (- (exp (- b) * (b ^ n * PSeries (dQ n A) b))).
Proof.
  intros HA.
  apply (is_derive_ext (fun b => exp (- b) * PSeries (cQ (S n) A) b)).
  { intros t. symmetry. apply Q_pseries. }
  assert (Ra : forall m, Rbar_lt (Rabs b) (CV_radius (cQ m A))) by (intros m; rewrite cQ_radius by exact HA; exact I).
  assert (D : is_derive (PSeries (cQ (S n) A)) b (PSeries (PS_derive (cQ (S n) A)) b))
    by (apply is_derive_PSeries, Ra).
  evar_last.
  - apply (is_derive_mult (fun b => exp (- b)) (PSeries (cQ (S n) A)) b (- exp (- b)) (PSeries (PS_derive (cQ (S n) A)) b)).
    + auto_derive; [exact I|ring].
    + exact D.
    + intros x y. apply Rmult_comm.
  - change (- exp (- b) * PSeries (cQ (S n) A) b + exp (- b) * PSeries (PS_derive (cQ (S n) A)) b
            = - (exp (- b) * (b ^ n * PSeries (dQ n A) b))).
    assert (E : PSeries (cQ (S n) A) b - PSeries (PS_derive (cQ (S n) A)) b = b ^ n * PSeries (dQ n A) b).
    { rewrite <- PSeries_incr_n. rewrite <- PSeries_minus.
      - apply PSeries_ext. intros j.
        change (cQ (S n) A j - PS_derive (cQ (S n) A) j = PS_incr_n (dQ n A) n j).
        unfold PS_derive, cQ.
        replace (INR (S j) * (T (S n) A (S j) / INR (fact (S j)))) with (T (S n) A (S j) / INR (fact j)).
        2:{ change (fact (S j)) with (S j * fact j)%nat. rewrite mult_INR.
            pose proof (fact_pos j). assert (0 < INR (S j)) by (apply lt_0_INR; lia). field. lra. }
        replace (T (S n) A j / INR (fact j) - T (S n) A (S j) / INR (fact j))
          with ((T (S n) A j - T (S n) A (S j)) / INR (fact j)) by (unfold Rdiv; ring).
        rewrite T_step, PS_incr_n_simplify. destruct le_lt_dec as [L|L].
        + unfold dQ. replace (j - n + n)%nat with j by lia. reflexivity.
        + unfold Rdiv. rewrite Rmult_0_l. reflexivity.
      - apply CV_radius_inside, Ra.
      - apply CV_radius_inside. rewrite CV_radius_derive. apply Ra. }
    rewrite <- E. ring.
Qed.

(** The integral of the documentation. *)
Lemma density (n : nat) (a u : R) : a <> 0 ->
  marcum_integrand (S n) a u =
  u * (exp (- (u ^ 2 / 2)) * ((u ^ 2 / 2) ^ n * PSeries (dQ n (a ^ 2 / 2)) (u ^ 2 / 2))).
Proof.
  intros Ha. unfold marcum_integrand, bessel_I, PSeries. replace (S n - 1)%nat with n by lia.
  rewrite <- !Series_scal_l. apply Series_ext. intros k. unfold dQ, pois.
  pose proof (fact_pos k). pose proof (fact_pos (k + n)).
  replace (exp (- (u ^ 2 + a ^ 2) / 2)) with (exp (- (u ^ 2 / 2)) * exp (- (a ^ 2 / 2)))
    by (rewrite <- exp_plus; f_equal; field).
  assert (Hn : a ^ n <> 0) by (apply pow_nonzero; exact Ha).
  assert (H2 : forall i, 2 ^ i <> 0) by (intros i; apply pow_nonzero; lra).
  assert (Eh : forall y i, (y ^ 2 / 2) ^ i = y ^ i * y ^ i * / 2 ^ i).
  { intros y i. unfold Rdiv. rewrite Rpow_mult_distr, <- pow_mult, pow_inv. f_equal.
    rewrite <- pow_add. f_equal. lia. }
  assert (Eb : (a * u / 2) ^ (2 * k + n) = (a ^ k * a ^ k * a ^ n) * (u ^ k * u ^ k * u ^ n) * / (2 ^ k * 2 ^ k * 2 ^ n)).
  { replace (2 * k + n)%nat with (k + k + n)%nat by lia. unfold Rdiv.
    rewrite !Rpow_mult_distr, pow_inv, !pow_add. reflexivity. }
  rewrite Eb, !Eh. cbn [pow]. pose proof (H2 k). pose proof (H2 n).
  field. repeat split; auto; lra.
Qed.
Lemma density0 (n : nat) (u : R) :
  u ^ (2 * S n - 1) * exp (- u ^ 2 / 2) / (2 ^ (S n - 1) * INR (fact (S n - 1))) =
  u * (exp (- (u ^ 2 / 2)) * ((u ^ 2 / 2) ^ n * PSeries (dQ n 0) (u ^ 2 / 2))).
Proof.
  assert (E : PSeries (dQ n 0) (u ^ 2 / 2) = / INR (fact n)).
  { unfold PSeries. rewrite (Series_incr_1 (fun k => dQ n 0 k * (u ^ 2 / 2) ^ k)).
    - rewrite (Series_ext _ (fun k => 0 * 0)).
      + rewrite Series_scal_l. unfold dQ, pois. cbn [fact Nat.add pow INR]. rewrite Ropp_0, exp_0. field.
        apply INR_fact_neq_0.
      + intros k. unfold dQ, pois. cbn [pow]. unfold Rdiv. ring.
    - apply ex_pseries_R. apply (CV_radius_inside (dQ n 0)). rewrite dQ_radius by lra. exact I. }
  rewrite E. replace (S n - 1)%nat with n by lia. replace (2 * S n - 1)%nat with (S (n + n)) by lia.
  assert (Eh : forall y i, (y ^ 2 / 2) ^ i = y ^ i * y ^ i * / 2 ^ i).
  { intros y i. unfold Rdiv. rewrite Rpow_mult_distr, <- pow_mult, pow_inv. f_equal.
    rewrite <- pow_add. f_equal. lia. }
  rewrite Eh. replace (- u ^ 2 / 2) with (- (u ^ 2 / 2)) by field.
  change (u ^ S (n + n)) with (u * u ^ (n + n)). rewrite pow_add.
  pose proof (fact_pos n). assert (2 ^ n <> 0) by (apply pow_nonzero; lra).
  field. split; [lra|assumption].
Qed.
Lemma Q_at_inf (m : nat) (A eps : R) : 0 <= A -> 0 < eps ->
  exists M, 0 <= M /\ forall b, M < b -> Rabs (Qs m A b) < eps.
Proof.
  intros HA He. destruct (T_lim m A (eps / 2) HA ltac:(lra)) as [J HJ].
  set (K := INR J * INR J).
  assert (HK : 0 <= K) by (unfold K; pose proof (pos_INR J); nra).
  exists (2 * K / eps). assert (HM : 0 <= 2 * K / eps).
  { apply Rmult_le_pos; [lra|left; apply Rinv_0_lt_compat; exact He]. }
  split; [exact HM|]. intros b Hb. assert (B : 0 < b) by lra.
  pose proof (Q_range m A b HA ltac:(lra)) as R0. rewrite Rabs_right by lra.
  unfold Qs. rewrite (series_split _ J (Q_ex m A b HA ltac:(lra))).
  assert (P1 : np_sum (fun j => pois b j * T m A j) J <= K / b).
  { assert (G : forall p, (p <= J)%nat -> np_sum (fun j => pois b j * T m A j) p <= INR p * (INR J / b)).
    { induction p as [|p IH]; intros Hp; [unfold np_sum; cbn; lra|].
      rewrite np_sum_S, S_INR. specialize (IH ltac:(lia)).
      pose proof (pois_decay b p B) as D. pose proof (pois_pos b p ltac:(lra)). pose proof (T_range m A p HA).
      assert (D2 : INR (S p) / b <= INR J / b).
      { unfold Rdiv. apply Rmult_le_compat_r; [left; apply Rinv_0_lt_compat; exact B|]. apply le_INR. lia. }
      assert (pois b p * T m A p <= INR J / b) by nra. lra. }
    specialize (G J (le_n J)). unfold K. replace (INR J * INR J / b) with (INR J * (INR J / b)) by (field; lra). exact G. }
  assert (P2 : Series (fun k => pois b (J + k) * T m A (J + k)) <= eps / 2).
  { apply Rle_trans with (Series (fun k => eps / 2 * pois b (J + k))).
    - apply Series_le.
      + intros k. split; [apply Q_term_pos; lra|].
        pose proof (HJ (J + k)%nat ltac:(lia)). pose proof (pois_pos b (J + k) ltac:(lra)). nra.
      + apply (ex_series_scal (V := R_NormedModule) (eps / 2) (fun k => pois b (J + k))). apply ex_series_shift, pois_ex.
    - rewrite Series_scal_l. rewrite <- (Rmult_1_r (eps / 2)) at 2. apply Rmult_le_compat_l; [lra|].
      pose proof (series_split (pois b) J (pois_ex b)) as Sp. rewrite pois_total in Sp.
      pose proof (pois_partial b J ltac:(lra)). lra. }
  assert (P3 : K / b < eps / 2).
  { apply Rmult_lt_reg_r with (2 * b / eps); [apply Rdiv_lt_0_compat; lra|].
    replace (K / b * (2 * b / eps)) with (2 * K / eps) by (field; lra).
    replace (eps / 2 * (2 * b / eps)) with b by (field; lra). exact Hb. }
  lra.
Qed.
Lemma Q_integral (n : nat) (A x : R) : 0 <= A ->
  integral_from (fun u => u * (exp (- (u ^ 2 / 2)) * ((u ^ 2 / 2) ^ n * PSeries (dQ n A) (u ^ 2 / 2)))) x
                (Qs (S n) A (x ^ 2 / 2)).
Proof.
  intros HA.
  replace (Qs (S n) A (x ^ 2 / 2)) with (0 - - Qs (S n) A (x ^ 2 / 2)) by ring.
  apply (from_derive (fun u => - Qs (S n) A (u ^ 2 / 2))).
  - intros u. evar_last.
    + apply (is_derive_opp (V := R_NormedModule) (fun u => Qs (S n) A (u ^ 2 / 2))).
      apply (is_derive_comp (V := R_NormedModule) (Qs (S n) A) (fun u => u ^ 2 / 2)).
      * apply Q_derive. exact HA.
      * instantiate (1 := u). auto_derive; [exact I|]. field.
    + change (- (u * - (exp (- (u ^ 2 / 2)) * ((u ^ 2 / 2) ^ n * PSeries (dQ n A) (u ^ 2 / 2))))
              = u * (exp (- (u ^ 2 / 2)) * ((u ^ 2 / 2) ^ n * PSeries (dQ n A) (u ^ 2 / 2)))). ring.
  - intros u. apply (ex_derive_continuous (V := R_NormedModule)).
    assert (Dp : ex_derive (fun u => PSeries (dQ n A) (u ^ 2 / 2)) u).
    { apply (ex_derive_comp (V := R_NormedModule) (PSeries (dQ n A)) (fun u => u ^ 2 / 2)).
      - apply ex_derive_PSeries. rewrite dQ_radius by exact HA. exact I.
      - auto_derive. exact I. }
    apply (ex_derive_mult (fun u => u)); [auto_derive; exact I|].
    apply (ex_derive_mult (fun u => exp (- (u ^ 2 / 2)))); [auto_derive; exact I|].
    apply (ex_derive_mult (fun u => (u ^ 2 / 2) ^ n)); [auto_derive; exact I|exact Dp].
  - intros eps He. destruct (Q_at_inf (S n) A eps HA He) as [M [HM H]].
    exists (2 * M + 2). intros t Ht. rewrite Rminus_0_r, Rabs_Ropp. apply H. nra.
Qed.
Lemma Q_marcum (n : nat) (a x : R) : a <> 0 -> is_marcum (S n) a x (Qs (S n) (a ^ 2 / 2) (x ^ 2 / 2)).
Proof.
  intros Ha. unfold is_marcum.
  pose proof (Q_integral n (a ^ 2 / 2) x ltac:(nra)) as H.
  apply from_intro. intros eps He. destruct (from_elim _ _ _ H eps He) as [M HM].
  exists M. intros b Hb. destruct (HM b Hb) as [v [I1 I2]]. exists v. split; [|exact I2].
  eapply RI_ext; [|exact I1]. intros u _. cbv beta. symmetry. apply density. exact Ha.
Qed.
Lemma Q_chi (n : nat) (x : R) : is_chi_tail (S n) x (Qs (S n) 0 (x ^ 2 / 2)).
Proof.
  unfold is_chi_tail. pose proof (Q_integral n 0 x ltac:(lra)) as H.
  apply from_intro. intros eps He. destruct (from_elim _ _ _ H eps He) as [M HM].
  exists M. intros b Hb. destruct (HM b Hb) as [v [I1 I2]]. exists v. split; [|exact I2].
  eapply RI_ext; [|exact I1]. intros u _. cbv beta. symmetry. apply density0.
Qed.
