Set Warnings "-ambiguous-paths".
(** Trapezoid sums converge to the integral; error of the trapezoid rule. *)
From Coq Require Import List ZArith Reals Lra Lia Psatz.
From Coquelicot Require Import Coquelicot.
From Verif Require Import Quant_Model Mse_Model Pulse_Spec Pulse_Int.
Import ListNotations.
Local Open Scope R_scope.

Fixpoint gsum (F : nat -> R) (s m : nat) : R :=
  match m with O => 0 | S m' => F s + gsum F (S s) m' end.
Lemma gsum_ext (F G : nat -> R) (s m : nat) : (forall k, (s <= k < s + m)%nat -> F k = G k) -> gsum F s m = gsum G s m.
Proof. revert s. induction m as [|m IH]; intros s H; [reflexivity|]. cbn. rewrite H by lia. f_equal. apply IH. intros k Hk. apply H. lia. Qed.
Lemma gsum_snoc (F : nat -> R) (s m : nat) : gsum F s (S m) = gsum F s m + F (s + m)%nat.
Proof.
  revert s. induction m as [|m IH]; intros s; [cbn; rewrite Nat.add_0_r; ring|].
  change (gsum F s (S (S m))) with (F s + gsum F (S s) (S m)). rewrite IH. cbn [gsum].
  replace (S s + m)%nat with (s + S m)%nat by lia. ring.
Qed.
Lemma gsum_rev (F : nat -> R) (m : nat) : gsum F 0 m = gsum (fun k => F (m - 1 - k)%nat) 0 m.
Proof.
  enough (G : forall s, gsum F s m = gsum (fun k => F (s + (m - 1 - k))%nat) 0 m) by apply G.
  induction m as [|m IH]; intros s; [reflexivity|].
  rewrite (gsum_snoc (fun k => F (s + (S m - 1 - k))%nat)). change (gsum F s (S m)) with (F s + gsum F (S s) m). rewrite IH.
  cbn [Nat.add]. replace (s + (S m - 1 - m))%nat with s by lia. rewrite Rplus_comm. f_equal.
  apply gsum_ext. intros k Hk. f_equal. lia.
Qed.
Lemma gsum_plus (F G : nat -> R) (s m : nat) : gsum (fun k => F k + G k) s m = gsum F s m + gsum G s m.
Proof. revert s. induction m as [|m IH]; intros s; cbn; [ring|]. rewrite IH. ring. Qed.
Lemma gsum_scal (c : R) (F : nat -> R) (s m : nat) : gsum (fun k => c * F k) s m = c * gsum F s m.
Proof. revert s. induction m as [|m IH]; intros s; cbn; [ring|]. rewrite IH. ring. Qed.

(** The trapezoid rule on the points p s, ..., p (s + m). *)
Lemma trapezoid_seq (f : R -> R) (p : nat -> R) (m s : nat) :
  trapezoid (map f (map p (seq s (S m)))) (map p (seq s (S m))) =
  gsum (fun k => (p (S k) - p k) * (f (p k) + f (p (S k))) / 2) s m.
Proof.
  revert s. induction m as [|m IH]; intros s; [reflexivity|].
  cbn [gsum]. rewrite <- IH. reflexivity.
Qed.

(** ** Tagged partitions *)
Fixpoint part (p tag : nat -> R) (s m : nat) : SF_seq :=
  match m with O => SF_nil (p s) | S m' => SF_cons (p s, tag s) (part p tag (S s) m') end.
Lemma part_h (p tag : nat -> R) (s m : nat) : SF_h (part p tag s m) = p s.
Proof. destruct m; reflexivity. Qed.
Lemma part_sum (f : R -> R) (p tag : nat -> R) (s m : nat) :
  Riemann_sum (V := R_NormedModule) f (part p tag s m) = gsum (fun k => (p (S k) - p k) * f (tag k)) s m.
Proof.
  revert s. induction m as [|m IH]; intros s; [reflexivity|].
  cbn [part gsum]. rewrite Riemann_sum_cons, IH, part_h. reflexivity.
Qed.
Lemma part_last (p tag : nat -> R) (s m : nat) (d : R) : seq.last d (SF_lx (part p tag s m)) = p (s + m)%nat.
Proof.
  revert s d. induction m as [|m IH]; intros s d; [cbn; f_equal; lia|].
  cbn [part]. rewrite SF_lx_cons. cbn [seq.last fst]. rewrite IH. f_equal. lia.
Qed.
Lemma part_ptd (p tag : nat -> R) (s m : nat) :
  (forall k, p k <= tag k <= p (S k)) -> pointed_subdiv (part p tag s m).
Proof.
  intros H. revert s. induction m as [|m IH]; intros s i Hi; [cbn in Hi; lia|].
  cbn [part] in *. destruct i as [|i].
  - cbn. rewrite part_h. apply H.
  - apply (IH (S s) i). rewrite SF_size_cons in Hi. lia.
Qed.
Lemma part_step (p tag : nat -> R) (s m : nat) (d : R) : 0 < d ->
  (forall k, Rabs (p (S k) - p k) < d) -> seq_step (SF_lx (part p tag s m)) < d.
Proof.
  intros Hd H. revert s. induction m as [|m IH]; intros s; [cbn; exact Hd|].
  specialize (IH (S s)). cbn [part]. rewrite SF_lx_cons.
  assert (E : exists r, SF_lx (part p tag (S s) m) = p (S s) :: r).
  { destruct m; eexists; reflexivity. }
  destruct E as [r E]. rewrite E in *. unfold seq_step in *. cbn in *.
  apply Rmax_lub_lt; [apply H|exact IH].
Qed.

Definition pt (a h : R) (k : nat) : R := a + INR k * h.
Lemma pt_S (a h : R) (k : nat) : pt a h (S k) = pt a h k + h.
Proof. unfold pt. rewrite S_INR. ring. Qed.

Lemma sums_converge (f : R -> R) (a b I : R) (tag : nat -> nat -> R) : a < b -> is_RInt f a b I ->
  (forall m k, pt a ((b - a) / INR (S m)) k <= tag m k <= pt a ((b - a) / INR (S m)) (S k)) ->
  is_lim_seq (fun m => gsum (fun k => ((b - a) / INR (S m)) * f (tag m k)) 0 (S m)) I.
Proof.
  intros Hab HI Ht. apply is_lim_seq_spec. intros eps.
  unfold is_RInt, filterlim, filter_le, filtermap in HI.
  specialize (HI (ball I eps) (locally_ball I eps)).
  unfold Riemann_fine, within, locally_dist in HI. destruct HI as [d Hd].
  destruct (nfloor_ex ((b - a) / d)) as [n Hn]; [apply Rlt_le, Rdiv_lt_0_compat; [lra|apply cond_pos]|].
  exists n. intros m Hm.
  assert (Hh : 0 < (b - a) / INR (S m)) by (apply Rdiv_lt_0_compat; [lra|apply lt_0_INR; lia]).
  assert (Hs : (b - a) / INR (S m) < d).
  { apply Rmult_lt_reg_r with (INR (S m)); [apply lt_0_INR; lia|].
    unfold Rdiv. rewrite Rmult_assoc, Rinv_l, Rmult_1_r by (apply not_0_INR; lia).
    assert (B : (b - a) / d < INR (S m)).
    { rewrite S_INR. apply le_INR in Hm. lra. }
    apply Rmult_lt_compat_l with (r := pos d) in B; [|apply cond_pos].
    replace (d * ((b - a) / d)) with (b - a) in B by (field; apply Rgt_not_eq, cond_pos). exact B. }
  specialize (Hd (part (pt a ((b - a) / INR (S m))) (tag m) 0 (S m))).
  assert (D1 : seq_step (SF_lx (part (pt a ((b - a) / INR (S m))) (tag m) 0 (S m))) < d).
  { apply part_step; [apply cond_pos|]. intros k. rewrite pt_S.
    replace (pt a ((b - a) / INR (S m)) k + (b - a) / INR (S m) - pt a ((b - a) / INR (S m)) k)
      with ((b - a) / INR (S m)) by ring. rewrite Rabs_right; lra. }
  specialize (Hd D1).
  assert (D2 : ball I eps (scal (V := R_NormedModule) (sign (b - a))
                 (Riemann_sum f (part (pt a ((b - a) / INR (S m))) (tag m) 0 (S m))))).
  { apply Hd. split; [apply part_ptd, Ht|]. split.
    - rewrite part_h. unfold pt. cbn [INR]. rewrite Rmin_left by lra. ring.
    - rewrite part_last, Rmax_right by lra. unfold pt. cbn [Nat.add]. field. apply not_0_INR. lia. }
  rewrite sign_eq_1 in D2 by lra.
  rewrite (part_sum f) in D2.
  change (Rabs (1 * gsum (fun k => (pt a ((b - a) / INR (S m)) (S k) - pt a ((b - a) / INR (S m)) k) * f (tag m k)) 0 (S m) - I) < eps) in D2.
  rewrite Rmult_1_l in D2.
  rewrite (gsum_ext _ (fun k => (pt a ((b - a) / INR (S m)) (S k) - pt a ((b - a) / INR (S m)) k) * f (tag m k))); [exact D2|].
  intros k _. rewrite pt_S. f_equal. ring.
Qed.

Definition trap (f : R -> R) (a b : R) (m : nat) : R :=
  gsum (fun k => (b - a) / INR m * (f (pt a ((b - a) / INR m) k) + f (pt a ((b - a) / INR m) (S k))) / 2) 0 m.
Lemma trapezoid_trap (f : R -> R) (a b : R) (m : nat) :
  trapezoid (map f (linspace a b (S m))) (linspace a b (S m)) = trap f a b m.
Proof.
  unfold linspace. replace (INR (S m) - 1) with (INR m) by (rewrite S_INR; ring).
  change (fun k : nat => a + INR k * ((b - a) / INR m)) with (pt a ((b - a) / INR m)).
  rewrite trapezoid_seq. unfold trap. apply gsum_ext. intros k _. rewrite pt_S. f_equal. ring.
Qed.
Lemma trap_swap (f : R -> R) (a b : R) (m : nat) : trap f b a m = - trap f a b m.
Proof.
  unfold trap. rewrite gsum_rev. destruct m as [|m]; [cbn; ring|].
  replace (- _) with (-1 * gsum (fun k => (b - a) / INR (S m) * (f (pt a ((b - a) / INR (S m)) k) + f (pt a ((b - a) / INR (S m)) (S k))) / 2) 0 (S m)) by ring.
  rewrite <- gsum_scal. apply gsum_ext. intros k Hk.
  assert (N : INR (S m) <> 0) by (apply not_0_INR; lia).
  assert (E : forall j, (j <= S m)%nat -> pt b ((a - b) / INR (S m)) (S m - j) = pt a ((b - a) / INR (S m)) j).
  { intros j Hj. unfold pt. rewrite minus_INR by lia. field. exact N. }
  replace (S m - 1 - k)%nat with (S m - S k)%nat by lia. rewrite E by lia.
  replace (S (S m - S k)) with (S m - k)%nat by lia. rewrite E by lia. field. exact N.
Qed.
Lemma trap_point (f : R -> R) (a : R) (m : nat) : trap f a a m = 0.
Proof.
  unfold trap. rewrite (gsum_ext _ (fun k => 0 * 0)); [rewrite gsum_scal; ring|].
  intros k _. rewrite Rminus_eq_0. unfold Rdiv. ring.
Qed.
Lemma trap_lim_lt (f : R -> R) (a b I : R) : a < b -> is_RInt f a b I -> is_lim_seq (fun m => trap f a b m) I.
Proof.
  intros Hab HI. apply is_lim_seq_incr_1.
  pose proof (sums_converge f a b I (fun m => pt a ((b - a) / INR (S m))) Hab HI) as L1.
  pose proof (sums_converge f a b I (fun m k => pt a ((b - a) / INR (S m)) (S k)) Hab HI) as L2.
  assert (Hh : forall m, 0 < (b - a) / INR (S m)) by (intros m; apply Rdiv_lt_0_compat; [lra|apply lt_0_INR; lia]).
  specialize (L1 ltac:(intros m k; cbv beta; rewrite !pt_S; specialize (Hh m); split; lra)).
  specialize (L2 ltac:(intros m k; cbv beta; rewrite !pt_S; specialize (Hh m); split; lra)).
  pose proof (is_lim_seq_plus' _ _ _ _ L1 L2) as L.
  apply is_lim_seq_scal_l with (a := /2) in L.
  replace (Rbar_mult (/2) (Finite (I + I))) with (Finite I) in L by (cbn; f_equal; field).
  eapply is_lim_seq_ext; [|exact L]. intros m. cbv beta.
  rewrite <- gsum_plus, <- gsum_scal. apply gsum_ext. intros k _. field. apply not_0_INR. lia.
Qed.
Lemma trap_lim (f : R -> R) (a b I : R) : is_RInt f a b I -> is_lim_seq (fun m => trap f a b m) I.
Proof.
  intros HI. destruct (Rtotal_order a b) as [H|[H|H]].
  - apply trap_lim_lt; assumption.
  - subst b. replace I with 0; [|symmetry; exact (RI_unique f a a I 0 HI (is_RInt_point (V := R_NormedModule) f a))].
    apply is_lim_seq_ext with (fun _ => 0); [intros m; symmetry; apply trap_point|apply is_lim_seq_const].
  - pose proof (trap_lim_lt f b a (- I) H (RI_swap f b a I HI)) as L.
    apply is_lim_seq_opp in L. cbn [Rbar_opp] in L. rewrite Ropp_involutive in L.
    eapply is_lim_seq_ext; [|exact L]. intros m. cbv beta. rewrite (trap_swap f a b). ring.
Qed.
