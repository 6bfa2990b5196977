Set Warnings "-ambiguous-paths".
(** The code's partial sums against Marcum's function. *)
From Coq Require Import List ZArith Reals Lra Lia Psatz.
From Coquelicot Require Import Coquelicot.
From Verif Require Import Special_Model Special_Spec Special_Marcum.
Import ListNotations.
Local Open Scope R_scope.

Definition tm (m : nat) (A b : R) (j : nat) : R := pois b j * T m A j.

Lemma aux_start_eq (m : nat) (A b : R) : aux_start m b = np_sum (tm m A b) m.
Proof.
  unfold aux_start. apply np_sum_ext. intros i Hi. unfold tm. rewrite T_low by exact Hi.
  unfold pois. ring.
Qed.
Lemma aux_term_eq (m : nat) (a b : R) (i : nat) : (m <= i)%nat -> aux_term m a b i = tm m (INR m * a) b i.
Proof.
  intros H. unfold aux_term, tm, T. replace (i + 1 - m)%nat with (i - m + 1)%nat by lia. reflexivity.
Qed.
Lemma loop_spec (tol : R) (m : nat) (a b : R) : 0 <= INR m * a -> 0 <= b ->
  forall count i, (m <= i)%nat ->
  exists N, aux_loop tol m a b i count (np_sum (tm m (INR m * a) b) i) = np_sum (tm m (INR m * a) b) N /\
    (i <= N <= i + count)%nat /\
    (N = (i + count)%nat \/ ((i < N)%nat /\ tm m (INR m * a) b (N - 1) < tol)).
Proof.
  intros Ha Hb. induction count as [|count IH]; intros i Hi.
  - exists i. split; [reflexivity|]. split; [lia|left; lia].
  - cbn [aux_loop]. rewrite aux_term_eq by exact Hi. rewrite <- np_sum_S.
    destruct Rlt_dec as [L|L].
    + exists (S i). split; [reflexivity|]. split; [lia|]. right. split; [lia|].
      replace (S i - 1)%nat with i by lia. revert L. unfold Rabs. destruct Rcase_abs; [|auto].
      pose proof (Q_term_pos m (INR m * a) b i Ha Hb) as P. unfold tm in *. lra.
    + destruct (IH (S i) ltac:(lia)) as [N (E & HN & C)]. exists N. split; [exact E|]. split; [lia|].
      destruct C as [C|[C1 C2]]; [left; lia|right; split; [lia|exact C2]].
Qed.
Lemma marcum_sum (m : nat) (a x r : R) : marcum_q m a x = Some r ->
  (0 < m)%nat /\ 0 <= a /\ 0 <= x /\
  exists N, r = np_sum (tm m (a ^ 2 / 2) (x ^ 2 / 2)) N /\ (m <= N)%nat /\
    ((100 <= N)%nat \/ ((m < N)%nat /\ tm m (a ^ 2 / 2) (x ^ 2 / 2) (N - 1) < 1 / 10 ^ 16)).
Proof.
  unfold marcum_q. destruct (Nat.ltb_spec 0 m) as [Hm|]; [|discriminate].
  destruct Rle_dec as [Ha|]; [|discriminate]. destruct Rle_dec as [Hx|]; [|discriminate].
  intros E. injection E as <-. split; [exact Hm|]. split; [exact Ha|]. split; [exact Hx|].
  assert (Hm' : 0 < INR m) by (apply lt_0_INR; exact Hm).
  assert (EA : INR m * (a ^ 2 / (2 * INR m)) = a ^ 2 / 2) by (field; lra).
  unfold auxiliary_p. rewrite (aux_start_eq m (a ^ 2 / 2)).
  destruct (loop_spec (1 / 10 ^ 16) m (a ^ 2 / (2 * INR m)) (x ^ 2 / 2)) with (count := (100 - m)%nat) (i := m)
    as [N (E & HN & C)]; [rewrite EA; nra|nra|lia|].
  rewrite EA in *. exists N. split; [exact E|]. split; [lia|].
  destruct C as [C|C]; [left; lia|right; exact C].
Qed.

(** Tails of the Poisson series. *)
Lemma pois_double (b : R) : 0 <= b -> is_series (fun j => pois b j * 2 ^ j) (exp b).
Proof.
  intros Hb.
  replace (exp b) with (exp (- b) * exp (2 * b)) by (rewrite <- exp_plus; f_equal; ring).
  eapply is_series_ext; [|apply (is_series_scal (V := R_NormedModule) (exp (- b)) _ _ (exp_series (2 * b)))].
  intros n. change (exp (- b) * ((2 * b) ^ n / INR (fact n)) = pois b n * 2 ^ n).
  unfold pois. rewrite Rpow_mult_distr. unfold Rdiv. ring.
Qed.
Lemma pois_upper (b : R) (N : nat) : 0 <= b -> Series (fun k => pois b (N + k)) <= exp b / 2 ^ N.
Proof.
  intros Hb. pose proof (pois_double b Hb) as D.
  assert (P2 : forall n, 0 < 2 ^ n) by (intros; apply pow_lt; lra).
  assert (P : forall n, 0 <= pois b n * 2 ^ n) by (intros; apply Rmult_le_pos; [apply pois_pos; exact Hb|left; apply P2]).
  assert (Ex : ex_series (fun j => pois b j * 2 ^ j)) by (eexists; exact D).
  apply Rmult_le_reg_r with (2 ^ N); [apply P2|].
  replace (exp b / 2 ^ N * 2 ^ N) with (exp b) by (field; pose proof (P2 N); lra).
  rewrite Rmult_comm, <- Series_scal_l. rewrite <- (is_series_unique _ _ D).
  rewrite (series_split _ N Ex).
  pose proof (np_sum_pos (fun j => pois b j * 2 ^ j) N P) as Q.
  apply Rle_trans with (Series (fun k => pois b (N + k) * 2 ^ (N + k))); [|lra].
  apply Series_le; [|apply (ex_series_shift (fun j => pois b j * 2 ^ j)); exact Ex].
  intros k. pose proof (pois_pos b (N + k) Hb). pose proof (P2 N). pose proof (P2 (N + k)%nat).
  split; [apply Rmult_le_pos; lra|]. rewrite Rmult_comm. apply Rmult_le_compat_l; [assumption|].
  apply Rle_pow; [lra|lia].
Qed.
(** P(K < N) for a Poisson variable of mean A. *)
Lemma pois_lower (A : R) (N : nat) : 0 <= A -> np_sum (pois A) N <= 2 ^ N * exp (- (A / 2)).
Proof.
  intros HA.
  assert (D : np_sum (fun k => pois A k * (/ 2) ^ k) N <= exp (- (A / 2))).
  { assert (D : is_series (fun k => pois A k * (/ 2) ^ k) (exp (- (A / 2)))).
    { replace (exp (- (A / 2))) with (exp (- A) * exp (A / 2)) by (rewrite <- exp_plus; f_equal; field).
      eapply is_series_ext; [|apply (is_series_scal (V := R_NormedModule) (exp (- A)) _ _ (exp_series (A / 2)))].
      intros n. change (exp (- A) * ((A / 2) ^ n / INR (fact n)) = pois A n * (/ 2) ^ n).
      unfold pois. replace ((A / 2) ^ n) with (A ^ n * (/ 2) ^ n) by (unfold Rdiv; rewrite Rpow_mult_distr; reflexivity). unfold Rdiv. ring. }
    rewrite <- (is_series_unique _ _ D). apply partial_le; [|eexists; exact D].
    intros n. apply Rmult_le_pos; [apply pois_pos; exact HA|apply pow_le; lra]. }
  apply Rle_trans with (2 ^ N * np_sum (fun k => pois A k * (/ 2) ^ k) N).
  - assert (G : forall p, (p <= N)%nat -> np_sum (pois A) p <= 2 ^ N * np_sum (fun k => pois A k * (/ 2) ^ k) p).
    { induction p as [|p IH]; intros Hp; [unfold np_sum; cbn; lra|].
      rewrite !np_sum_S. specialize (IH ltac:(lia)).
      assert (L : 1 <= 2 ^ N * (/ 2) ^ p).
      { replace N with (N - p + p)%nat by lia. rewrite pow_add, Rmult_assoc, <- Rpow_mult_distr.
        replace (2 * / 2) with 1 by field. rewrite pow1, Rmult_1_r. apply pow_R1_Rle. lra. }
      pose proof (pois_pos A p HA). nra. }
    apply G. lia.
  - apply Rmult_le_compat_l; [apply pow_le; lra|exact D].
Qed.

Lemma rest_split (m : nat) (A b : R) (N : nat) : 0 <= A -> 0 <= b ->
  Qs m A b = np_sum (tm m A b) N + Series (fun k => tm m A b (N + k)).
Proof. intros HA Hb. unfold Qs. apply (series_split (tm m A b)). apply Q_ex; assumption. Qed.
Lemma rest_pos (m : nat) (A b : R) (N : nat) : 0 <= A -> 0 <= b -> 0 <= Series (fun k => tm m A b (N + k)).
Proof.
  intros HA Hb. apply series_nonneg.
  - intros n. apply Q_term_pos; assumption.
  - apply (ex_series_shift (tm m A b)). apply Q_ex; assumption.
Qed.
Lemma rest_le (m : nat) (A b : R) (N : nat) : 0 <= A -> 0 <= b ->
  Series (fun k => tm m A b (S N + k)) <= T m A N * Series (fun k => pois b (S N + k)).
Proof.
  intros HA Hb. rewrite <- Series_scal_l. apply Series_le.
  - intros k. split; [apply Q_term_pos; assumption|]. unfold tm.
    pose proof (pois_pos b (S N + k) Hb). pose proof (T_decr m A N (S k) HA) as D.
    replace (N + S k)%nat with (S N + k)%nat in D by lia. rewrite Rmult_comm. apply Rmult_le_compat_r; lra.
  - apply (ex_series_scal (V := R_NormedModule) (T m A N) (fun k => pois b (S N + k))).
    apply (ex_series_shift (pois b)), pois_ex.
Qed.
Lemma pois_tail_le1 (b : R) (N : nat) : 0 <= b -> Series (fun k => pois b (N + k)) <= 1.
Proof.
  intros Hb. pose proof (series_split (pois b) N (pois_ex b)) as Sp. rewrite pois_total in Sp.
  pose proof (pois_partial b N Hb). lra.
Qed.

(** Lower bound on the probabilities up to twice the mean. *)
Lemma pois_floor (b : R) (i : nat) : 0 <= b -> INR i <= 2 * b ->
  1/2 * exp (- b - ln 2 * b) <= pois b i.
Proof.
  intros Hb.
  assert (L2 : 0 < ln 2) by (rewrite <- ln_1; apply ln_increasing; lra).
  assert (G : INR i <= 2 * b -> Rmin 1 (1/2 * exp (ln 2 * (b - INR i))) <= b ^ i / INR (fact i)).
  { induction i as [|i IH]; intros Hi.
    - cbn. eapply Rle_trans; [apply Rmin_l|]. lra.
    - rewrite S_INR in Hi. specialize (IH ltac:(lra)).
      assert (Pi : 0 <= INR i) by apply pos_INR.
      assert (E : b ^ S i / INR (fact (S i)) = b ^ i / INR (fact i) * (b / (INR i + 1))).
      { change (fact (S i)) with (S i * fact i)%nat. rewrite mult_INR, S_INR. pose proof (fact_pos i).
        cbn [pow]. field. lra. }
      rewrite E, S_INR.
      assert (Pr : 0 <= b ^ i / INR (fact i)).
      { apply Rmult_le_pos; [apply pow_le; exact Hb|left; apply Rinv_0_lt_compat, fact_pos]. }
      assert (H2 : 1/2 <= b / (INR i + 1)).
      { apply Rmult_le_reg_r with (INR i + 1); [lra|]. unfold Rdiv. rewrite Rmult_assoc, (Rmult_assoc b), Rinv_l by lra. lra. }
      destruct (Rle_or_lt (INR i + 1) b) as [C|C].
      + assert (H1 : 1 <= b / (INR i + 1)).
        { apply Rmult_le_reg_r with (INR i + 1); [lra|]. unfold Rdiv. rewrite (Rmult_assoc b), Rinv_l by lra. lra. }
        eapply Rle_trans; [apply Rmin_l|].
        (* all previous values are at least 1 *)
        assert (One : 1 <= b ^ i / INR (fact i)).
        { clear - C Hb. induction i as [|i IHi]; [cbn; lra|]. rewrite S_INR in C.
          specialize (IHi ltac:(lra)). assert (Pi : 0 <= INR i) by apply pos_INR.
          replace (b ^ S i / INR (fact (S i))) with (b ^ i / INR (fact i) * (b / (INR i + 1))).
          - assert (1 <= b / (INR i + 1)).
            { apply Rmult_le_reg_r with (INR i + 1); [lra|]. unfold Rdiv. rewrite (Rmult_assoc b), Rinv_l by lra. lra. }
            nra.
          - change (fact (S i)) with (S i * fact i)%nat. rewrite mult_INR, S_INR. pose proof (fact_pos i).
            cbn [pow]. field. lra. }
        nra.
      + eapply Rle_trans; [apply Rmin_r|].
        assert (Ex : exp (ln 2 * (b - (INR i + 1))) = exp (ln 2 * (b - INR i)) / 2).
        { replace (ln 2 * (b - (INR i + 1))) with (ln 2 * (b - INR i) + - ln 2) by ring.
          rewrite exp_plus, exp_Ropp, exp_ln by lra. field. }
        rewrite Ex. unfold Rmin in IH. destruct Rle_dec as [D|D].
        * (* the previous value is at least 1 *)
          assert (exp (ln 2 * (b - INR i)) <= 2).
          { replace 2 with (exp (ln 2)) at 2 by (apply exp_ln; lra).
            assert (ln 2 * (b - INR i) <= ln 2) by nra.
            destruct H as [H|H]; [left; apply exp_increasing; exact H|right; f_equal; exact H]. }
          nra.
        * pose proof (exp_pos (ln 2 * (b - INR i))). nra. }
  intros Hi. specialize (G Hi).
  replace (pois b i) with (exp (- b) * (b ^ i / INR (fact i))) by (unfold pois, Rdiv; ring).
  replace (- b - ln 2 * b) with (- b + - (ln 2 * b)) by ring. rewrite exp_plus.
  replace (1/2 * (exp (- b) * exp (- (ln 2 * b)))) with (exp (- b) * (1/2 * exp (- (ln 2 * b)))) by ring.
  apply Rmult_le_compat_l; [left; apply exp_pos|].
  eapply Rle_trans; [|exact G]. apply Rmin_glb.
  - assert (exp (- (ln 2 * b)) <= 1); [|lra]. rewrite <- exp_0.
    assert (- (ln 2 * b) <= 0) by nra. destruct H as [H|H]; [left; apply exp_increasing; exact H|right; f_equal; exact H].
  - apply Rmult_le_compat_l; [lra|]. assert (- (ln 2 * b) <= ln 2 * (b - INR i)) by nra.
    destruct H as [H|H]; [left; apply exp_increasing; exact H|right; f_equal; exact H].
Qed.

(** Beyond twice the mean the probabilities fall faster than powers of 1/2. *)
Lemma pois_geom (b : R) (i : nat) : 0 <= b -> 2 * b <= INR i ->
  Series (fun k => pois b (S i + k)) <= pois b i.
Proof.
  intros Hb Hi.
  assert (G : forall k, pois b (S i + k) <= pois b i * (/ 2) ^ S k).
  { assert (St : forall j, INR i <= INR j -> pois b (S j) <= pois b j * / 2).
    { intros j Hj. rewrite pois_S, S_INR. apply Rmult_le_compat_l; [apply pois_pos; exact Hb|].
      assert (0 <= INR i) by apply pos_INR.
      apply Rmult_le_reg_r with (INR j + 1); [lra|]. unfold Rdiv. rewrite (Rmult_assoc b), Rinv_l by lra. lra. }
    induction k as [|k IH].
    - rewrite Nat.add_0_r. cbn [pow]. rewrite Rmult_1_r. apply St. lra.
    - replace (S i + S k)%nat with (S (S i + k)) by lia.
      eapply Rle_trans; [apply St; apply le_INR; lia|].
      change ((/ 2) ^ S (S k)) with (/ 2 * (/ 2) ^ S k). lra. }
  assert (GS : is_series (fun k => (/ 2) ^ S k) 1).
  { assert (H0 : is_series (fun k => (/ 2) ^ k) (/ (1 - / 2))) by (apply is_series_geom; rewrite Rabs_right; lra).
    replace 1 with (/ 2 * / (1 - / 2)) by (field; lra).
    apply (is_series_scal (V := R_NormedModule) (/ 2) _ _ H0). }
  apply Rle_trans with (Series (fun k => pois b i * (/ 2) ^ S k)).
  - apply Series_le; [intros k; split; [apply pois_pos; exact Hb|apply G]|].
    apply (ex_series_scal (V := R_NormedModule) (pois b i) (fun k => (/ 2) ^ S k)). exists 1. exact GS.
  - rewrite Series_scal_l, (is_series_unique _ _ GS). lra.
Qed.

Lemma marcum_error (m : nat) (a x r : R) : marcum_q m a x = Some r ->
  let Q := Qs m (a ^ 2 / 2) (x ^ 2 / 2) in
  0 <= r /\ r <= Q /\
  Q - r <= 2 / 10 ^ 16 * exp (x ^ 2 / 2 + ln 2 * (x ^ 2 / 2)) + exp (x ^ 2 / 2) / 2 ^ 100.
Proof.
  intros E. destruct (marcum_sum m a x r E) as (Hm & Ha & Hx & N & -> & HN & C).
  set (A := a ^ 2 / 2) in *. set (b := x ^ 2 / 2) in *.
  assert (HA : 0 <= A) by (unfold A; nra). assert (Hb : 0 <= b) by (unfold b; nra).
  cbv zeta. rewrite (rest_split m A b N HA Hb). pose proof (rest_pos m A b N HA Hb) as RP.
  split; [apply np_sum_pos; intros; apply Q_term_pos; assumption|]. split; [lra|].
  replace (np_sum (tm m A b) N + Series (fun k => tm m A b (N + k)) - np_sum (tm m A b) N)
    with (Series (fun k => tm m A b (N + k))) by ring.
  assert (P1 : 0 < exp b / 2 ^ 100) by (apply Rdiv_lt_0_compat; [apply exp_pos|apply pow_lt; lra]).
  assert (T0 : 0 < 1 / 10 ^ 16) by (apply Rdiv_lt_0_compat; [lra|apply pow_lt; lra]).
  assert (L2 : 0 < ln 2) by (rewrite <- ln_1; apply ln_increasing; lra).
  assert (Ep : 1 <= exp (b + ln 2 * b)).
  { rewrite <- exp_0. assert (0 <= b + ln 2 * b) by nra.
    destruct H as [H|H]; [left; apply exp_increasing; exact H|right; rewrite <- H; reflexivity]. }
  assert (P0 : 1 / 10 ^ 16 <= 2 / 10 ^ 16 * exp (b + ln 2 * b)) by (unfold Rdiv in *; nra).
  destruct C as [C|[C1 C2]].
  - apply Rle_trans with (exp b / 2 ^ 100); [|lra].
    apply Rle_trans with (Series (fun k => pois b (N + k))).
    + apply Series_le; [|apply (ex_series_shift (pois b)), pois_ex].
      intros k. split; [apply Q_term_pos; assumption|]. unfold tm.
      pose proof (pois_pos b (N + k) Hb). pose proof (T_range m A (N + k) HA). nra.
    + eapply Rle_trans; [apply pois_upper; exact Hb|]. unfold Rdiv.
      apply Rmult_le_compat_l; [left; apply exp_pos|]. apply Rinv_le_contravar; [apply pow_lt; lra|].
      apply Rle_pow; [lra|exact C].
  - destruct N as [|i]; [lia|]. replace (S i - 1)%nat with i in C2 by lia.
    pose proof (rest_le m A b i HA Hb) as RL. pose proof (T_range m A i HA) as TR.
    destruct (Rle_or_lt (INR i) (2 * b)) as [D|D].
    + pose proof (pois_floor b i Hb D) as F. pose proof (pois_tail_le1 b (S i) Hb) as T1.
      assert (Ti : T m A i <= 2 / 10 ^ 16 * exp (b + ln 2 * b)).
      { set (e := exp (b + ln 2 * b)) in *.
        assert (Ee : exp (- b - ln 2 * b) = / e) by (unfold e; rewrite <- exp_Ropp; f_equal; ring).
        rewrite Ee in F. unfold tm in C2.
        assert (I1 : e * / e = 1) by (apply Rinv_r; lra).
        assert (0 < / e) by (apply Rinv_0_lt_compat; lra).
        assert (1/2 * / e * T m A i <= 1 / 10 ^ 16) by nra.
        replace (T m A i) with (2 * e * (1/2 * / e * T m A i)) by (field; lra).
        replace (2 / 10 ^ 16 * e) with (2 * e * (1 / 10 ^ 16)) by (unfold Rdiv; ring).
        apply Rmult_le_compat_l; [lra|assumption]. }
      assert (T m A i * Series (fun k => pois b (S i + k)) <= T m A i) by nra. lra.
    + pose proof (pois_geom b i Hb ltac:(lra)) as G. unfold tm in C2.
      assert (T m A i * Series (fun k => pois b (S i + k)) <= T m A i * pois b i) by nra. lra.
Qed.
