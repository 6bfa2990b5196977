(* Arimoto-Blahut: the iterates are positive pmfs, the mutual information never
   decreases, and after k passes it is within ln n / k of the capacity. *)
From Coq Require Import Reals List Lia Lra Arith Psatz Bool.
From Verif Require Import FB_Model FB_Proof Quant_Model Quant_Proof Info_Model Info_Spec Info_Sums Info_Proof Info_Link.
Import ListNotations.
Local Open Scope R_scope.

Definition positive_pmf (n : nat) (r : list R) : Prop := is_pmf n r /\ forall x, (x < n)%nat -> 0 < nth x r 0.

Lemma nth_map_seq0 (f : nat -> R) n x : (x < n)%nat -> nth x (map f (seq 0 n)) 0 = f x.
Proof.
  intros Hx. rewrite (nth_indep _ 0 (f 0%nat)) by (rewrite map_length, seq_length; assumption).
  rewrite (map_nth f), seq_nth by assumption. reflexivity.
Qed.

Lemma nth_repeat_lt (a : R) n i : (i < n)%nat -> nth i (repeat a n) 0 = a.
Proof. revert i. induction n; intros i Hi; [lia|]. destruct i; [reflexivity|]. cbn [repeat nth]. apply IHn. lia. Qed.

Lemma prod_exp (g : nat -> R) l : fold_right Rmult 1 (map (fun y => exp (g y)) l) = exp (Rsum (map g l)).
Proof.
  induction l as [|a l IH]; cbn [map fold_right]; [rewrite Rsum_nil, exp_0; reflexivity|]. rewrite IH, Rsum_cons, exp_plus. reflexivity.
Qed.

Section AB.
Variables (n m : nat) (W : list (list R)).
Hypothesis HW : is_channel n m W.
Hypothesis Hn : (0 < n)%nat.
Notation w x y := (nth y (nth x W []) 0).

Section Step.
Variable r : list R.
Hypothesis Hr : positive_pmf n r.
Let Hp : is_pmf n r := proj1 Hr.
Let rpos : forall x, (x < n)%nat -> 0 < nth x r 0 := proj2 Hr.
Notation q y := (out_prob n r W y).

(* sum over y of W ln Q(x|y), with Q(x|y) = r_x W / q_y *)
Let L (x : nat) : R := sum_to m (fun y => w x y * (ln (nth x r 0) + ln (w x y) - ln (q y))).
Let Z : R := sum_to n (fun x => exp (L x)).

Lemma Z_pos : 0 < Z.
Proof. apply (sum_pos n (fun x => exp (L x)) 0%nat); [|assumption|apply exp_pos]. intros. left. apply exp_pos. Qed.

Lemma q_zero_col x y : (x < n)%nat -> (y < m)%nat -> q y = 0 -> w x y = 0.
Proof. intros Hx Hy E. pose proof (out_zero n m W HW r Hp x y Hx Hy E). pose proof (rpos x Hx). nra. Qed.

Lemma prod_L x : (x < n)%nat ->
  fold_right Rmult 1 (map (fun y => rpow (if Reqb (Rsum (map (fun x => nth x r 0 * entry W x y) (seq 0 n))) 0 then 0
      else nth x r 0 * entry W x y / Rsum (map (fun x => nth x r 0 * entry W x y) (seq 0 n))) (entry W x y)) (seq 0 m)) = exp (L x).
Proof.
  intros Hx. unfold L. rewrite <- Rsum_seq, <- prod_exp. f_equal. apply map_ext_in. intros y Hy. apply in_seq in Hy.
  unfold entry. rewrite Rsum_seq. change (sum_to n (fun x0 => nth x0 r 0 * nth y (nth x0 W []) 0)) with (q y).
  pose proof (w_nonneg n m W HW x y Hx ltac:(lia)) as W0. unfold rpow. destruct (Reqb_spec (w x y) 0) as [E|Nz].
  - rewrite E, Rmult_0_l, exp_0. reflexivity.
  - destruct (Reqb_spec (q y) 0) as [E|Nq]; [exfalso; apply Nz, q_zero_col; [assumption|lia|assumption]|].
    pose proof (rpos x Hx). pose proof (out_nonneg n m W HW r Hp y ltac:(lia)). assert (0 < w x y) by lra. assert (0 < q y) by lra.
    assert (0 < nth x r 0 * w x y / q y) by (apply Rdiv_lt_0_compat; [apply Rmult_lt_0_compat|]; assumption).
    destruct (Reqb_spec (nth x r 0 * w x y / q y) 0); [lra|]. do 2 f_equal.
    rewrite ln_div, ln_mult; try assumption; [lra|apply Rmult_lt_0_compat; assumption].
Qed.

Lemma step_nth x : (x < n)%nat -> nth x (ab_step W r) 0 = exp (L x) / Z.
Proof.
  intros Hx. unfold ab_step. destruct (matrix_valid n m W 0 HW Hn (Rle_refl 0)) as [_ NC]. pose proof HW as (LW & _). rewrite LW, NC.
  rewrite nth_map_seq0 by assumption. rewrite prod_L by assumption. f_equal. rewrite Rsum_seq. apply sum_ext. intros. apply prod_L. assumption.
Qed.
Lemma step_len : length (ab_step W r) = n.
Proof. unfold ab_step. rewrite map_length, seq_length. apply HW. Qed.
Lemma step_pmf : positive_pmf n (ab_step W r).
Proof.
  pose proof Z_pos.
  assert (P : forall x, (x < n)%nat -> 0 < nth x (ab_step W r) 0).
  { intros. rewrite step_nth by assumption. apply Rdiv_lt_0_compat; [apply exp_pos|assumption]. }
  split; [split; [apply step_len|split]|assumption].
  - intros. left. auto.
  - rewrite (sum_ext n _ (fun x => exp (L x) * / Z)) by (intros; rewrite step_nth by assumption; reflexivity).
    rewrite sum_scal_r. fold Z. field. lra.
Qed.
Lemma step_ln x : (x < n)%nat -> ln (nth x (ab_step W r) 0) = L x - ln Z.
Proof. intros. rewrite step_nth by assumption. rewrite ln_div; [|apply exp_pos|apply Z_pos]. rewrite ln_exp. reflexivity. Qed.

Lemma L_split x : (x < n)%nat -> L x - ln (nth x r 0) = sum_to m (fun y => w x y * (ln (w x y) - ln (q y))).
Proof.
  intros Hx. unfold L. rewrite (sum_ext m (fun y => w x y * (ln (nth x r 0) + ln (w x y) - ln (q y)))
    (fun y => w x y * ln (nth x r 0) + w x y * (ln (w x y) - ln (q y)))) by (intros; lra).
  rewrite sum_plus, sum_scal_r, (w_sum n m W HW) by assumption. lra.
Qed.

(* for every competitor r*: I( r* ) - ln Z <= sum r* (ln r' - ln r) *)
Lemma step_compare s : is_pmf n s ->
  I_nats n m s W - ln Z <= sum_to n (fun x => nth x s 0 * (ln (nth x (ab_step W r) 0) - ln (nth x r 0))).
Proof.
  intros Hs. rewrite (I_alt n m W HW s Hs).
  rewrite (sum_ext n (fun x => nth x s 0 * (ln (nth x (ab_step W r) 0) - ln (nth x r 0)))
    (fun x => sum_to m (fun y => nth x s 0 * w x y * (ln (w x y) - ln (q y))) - nth x s 0 * ln Z)).
  2:{ intros x Hx. rewrite step_ln by assumption.
      replace (L x - ln Z - ln (nth x r 0)) with (L x - ln (nth x r 0) - ln Z) by lra. rewrite L_split, Rmult_minus_distr_l by assumption.
      f_equal. rewrite <- sum_scal. apply sum_ext. intros. lra. }
  rewrite sum_minus, sum_scal_r, (P_sum n s Hs), Rmult_1_l. apply Rplus_le_compat_r.
  rewrite !(I_split n m W s). apply Rplus_le_compat_l. apply Ropp_le_contravar.
  pose proof (gibbs m (fun y => out_prob n s W y) (fun y => q y)) as G. cbv beta in G.
  rewrite (out_sum n m W HW s Hs), (out_sum n m W HW r Hp) in G.
  rewrite (sum_ext m (fun i => out_prob n s W i * (ln (out_prob n s W i) - ln (q i))) (fun i => out_prob n s W i * ln (out_prob n s W i) - out_prob n s W i * ln (q i))), sum_minus in G by (intros; lra).
  enough (1 - 1 <= sum_to m (fun i => out_prob n s W i * ln (out_prob n s W i)) - sum_to m (fun i => out_prob n s W i * ln (q i))) by lra. apply G.
  - intros. apply (out_nonneg n m W HW s Hs). assumption.
  - intros. apply (out_nonneg n m W HW r Hp). assumption.
  - intros y Hy E. unfold out_prob. rewrite (sum_ext n _ (fun _ => 0)); [apply sum_0|]. intros x Hx. rewrite (q_zero_col x y Hx Hy E). lra.
Qed.

(* ln Z <= I(r') *)
Lemma lnZ_le_next : ln Z <= I_nats n m (ab_step W r) W.
Proof.
  set (r' := ab_step W r). assert (Hr' : positive_pmf n r') by apply step_pmf. destruct Hr' as [Hp' rpos'].
  rewrite (I_alt n m W HW r' Hp').
  assert (E : ln Z = sum_to n (fun x => sum_to m (fun y => nth x r' 0 * w x y * (ln (nth x r 0) + ln (w x y) - ln (q y) - ln (nth x r' 0))))).
  { transitivity (sum_to n (fun x => nth x r' 0 * ln Z)); [rewrite sum_scal_r, (P_sum n r' Hp'); lra|]. apply sum_ext. intros x Hx.
    replace (ln Z) with (L x - ln (nth x r' 0)) by (unfold r'; rewrite step_ln by assumption; lra).
    assert (LC : forall c, L x - c = sum_to m (fun y => w x y * (ln (nth x r 0) + ln (w x y) - ln (q y)) - w x y * c)).
    { intros c. rewrite sum_minus, sum_scal_r, (w_sum n m W HW x Hx). unfold L. lra. }
    rewrite LC, <- sum_scal. apply sum_ext. intros. lra. }
  rewrite E.
  (* Gibbs on pairs *)
  assert (G : forall x y, (x < n)%nat -> (y < m)%nat ->
     nth x r' 0 * w x y - nth x r 0 * w x y / q y * out_prob n r' W y <=
     nth x r' 0 * w x y * (ln (w x y) - ln (out_prob n r' W y)) - nth x r' 0 * w x y * (ln (nth x r 0) + ln (w x y) - ln (q y) - ln (nth x r' 0))).
  { intros x y Hx Hy. pose proof (w_nonneg n m W HW x y Hx Hy). pose proof (rpos x Hx). pose proof (rpos' x Hx).
    destruct (Req_dec (w x y) 0) as [E0|N0].
    { rewrite E0. unfold Rdiv. rewrite !Rmult_0_r, !Rmult_0_l. lra. }
    assert (Q0 : 0 < q y). { pose proof (out_ge n m W HW r Hp x y Hx Hy). assert (0 < nth x r 0 * w x y) by (apply Rmult_lt_0_compat; lra). lra. }
    assert (Q1 : 0 < out_prob n r' W y). { pose proof (out_ge n m W HW r' Hp' x y Hx Hy). assert (0 < nth x r' 0 * w x y) by (apply Rmult_lt_0_compat; lra). lra. }
    assert (W0 : 0 < w x y) by lra.
    assert (A0 : 0 < nth x r' 0 * w x y) by (apply Rmult_lt_0_compat; lra).
    assert (A1 : 0 < nth x r 0 * w x y) by (apply Rmult_lt_0_compat; lra).
    assert (A2 : 0 < nth x r 0 * w x y / q y) by (apply Rdiv_lt_0_compat; assumption).
    assert (B : 0 < nth x r 0 * w x y / q y * out_prob n r' W y) by (apply Rmult_lt_0_compat; assumption).
    pose proof (gibbs1 (nth x r' 0 * w x y) (nth x r 0 * w x y / q y * out_prob n r' W y) ltac:(lra) ltac:(lra) ltac:(lra)) as G1.
    rewrite (ln_mult (nth x r 0 * w x y / q y)), ln_div, !ln_mult in G1 by assumption.
    eapply Rle_trans; [exact G1|]. right. ring. }
  assert (S : sum_to n (fun x => sum_to m (fun y => nth x r' 0 * w x y - nth x r 0 * w x y / q y * out_prob n r' W y)) >= 0).
  { rewrite sum_swap.
    rewrite (sum_ext m _ (fun y => out_prob n r' W y - (q y / q y) * out_prob n r' W y)).
    2:{ intros y Hy. rewrite sum_minus. f_equal. unfold Rdiv. rewrite sum_scal_r, sum_scal_r. reflexivity. }
    apply Rle_ge, sum_nonneg. intros y Hy. pose proof (out_nonneg n m W HW r' Hp' y Hy). destruct (Req_dec (q y) 0) as [E0|N0].
    - unfold Rdiv. rewrite E0, Rmult_0_l. lra.
    - unfold Rdiv. rewrite Rinv_r by assumption. lra. }
  enough (sum_to n (fun x => sum_to m (fun y => nth x r' 0 * w x y - nth x r 0 * w x y / q y * out_prob n r' W y)) <=
    sum_to n (fun x => sum_to m (fun y => nth x r' 0 * w x y * (ln (w x y) - ln (out_prob n r' W y)))) -
    sum_to n (fun x => sum_to m (fun y => nth x r' 0 * w x y * (ln (nth x r 0) + ln (w x y) - ln (q y) - ln (nth x r' 0))))) by lra.
  rewrite <- sum_minus. apply sum_le. intros x Hx. rewrite <- sum_minus. apply sum_le. intros y Hy. apply G; assumption.
Qed.

Lemma step_increases : I_nats n m r W <= I_nats n m (ab_step W r) W.
Proof.
  eapply Rle_trans; [|apply lnZ_le_next]. pose proof (step_compare r Hp) as C.
  pose proof (gibbs n (fun x => nth x r 0) (fun x => nth x (ab_step W r) 0)) as G. cbv beta in G.
  destruct step_pmf as [Sp Spos]. rewrite (P_sum n r Hp), (P_sum n _ Sp) in G.
  assert (1 - 1 <= sum_to n (fun i => nth i r 0 * (ln (nth i r 0) - ln (nth i (ab_step W r) 0)))).
  { apply G; intros x Hx; [left; apply rpos; assumption|left; apply Spos; assumption|]. intros E. specialize (Spos x Hx). lra. }
  assert (sum_to n (fun x => nth x r 0 * (ln (nth x (ab_step W r) 0) - ln (nth x r 0))) =
     - sum_to n (fun i => nth i r 0 * (ln (nth i r 0) - ln (nth i (ab_step W r) 0)))).
  { transitivity (sum_to n (fun i => (-1) * (nth i r 0 * (ln (nth i r 0) - ln (nth i (ab_step W r) 0))))); [|rewrite sum_scal; lra]. apply sum_ext. intros. lra. }
  lra.
Qed.

Lemma step_gain s : is_pmf n s ->
  I_nats n m s W - I_nats n m (ab_step W r) W <= sum_to n (fun x => nth x s 0 * (ln (nth x (ab_step W r) 0) - ln (nth x r 0))).
Proof. intros Hs. pose proof (step_compare s Hs). pose proof lnZ_le_next. lra. Qed.
End Step.

(* k passes *)
Definition iterate k r := Nat.iter k (ab_step W) r.

Lemma iterate_pmf k r : positive_pmf n r -> positive_pmf n (iterate k r).
Proof. intros H. induction k; [assumption|]. apply step_pmf; assumption. Qed.
Lemma iterate_mono k r : positive_pmf n r -> I_nats n m (iterate k r) W <= I_nats n m (iterate (S k) r) W.
Proof. intros H. apply step_increases. apply iterate_pmf. assumption. Qed.
Lemma iterate_from k r : positive_pmf n r -> I_nats n m r W <= I_nats n m (iterate k r) W.
Proof. intros H. induction k; [apply Rle_refl|]. pose proof (iterate_mono k r H). lra. Qed.

Lemma iterate_gap k r s : positive_pmf n r -> is_pmf n s ->
  INR k * (I_nats n m s W - I_nats n m (iterate k r) W) <= sum_to n (fun x => nth x s 0 * (ln (nth x (iterate k r) 0) - ln (nth x r 0))).
Proof.
  intros H Hs. induction k.
  - cbn [INR]. rewrite Rmult_0_l. right. rewrite (sum_ext n _ (fun _ => 0)), sum_0; [reflexivity|]. intros. cbn [iterate Nat.iter nat_rect]. unfold iterate. simpl. lra.
  - rewrite S_INR. pose proof (iterate_mono k r H). pose proof (step_gain (iterate k r) (iterate_pmf k r H) s Hs).
    pose proof (pos_INR k). change (ab_step W (iterate k r)) with (iterate (S k) r) in *.
    rewrite (sum_ext n _ (fun x => nth x s 0 * (ln (nth x (iterate (S k) r) 0) - ln (nth x (iterate k r) 0)) + nth x s 0 * (ln (nth x (iterate k r) 0) - ln (nth x r 0)))), sum_plus by (intros; lra).
    nra.
Qed.

Lemma uniform_pmf : positive_pmf n (repeat (1 / INR n) n).
Proof.
  pose proof (lt_0_INR n Hn) as P. assert (0 < 1 / INR n) by (apply Rdiv_lt_0_compat; lra).
  assert (E : forall i, (i < n)%nat -> nth i (repeat (1 / INR n) n) 0 = 1 / INR n) by (intros; apply nth_repeat_lt; assumption).
  split; [split; [apply repeat_length|split]|].
  - intros. rewrite E by assumption. lra.
  - rewrite (sum_ext n _ (fun _ => 1 / INR n)) by assumption. rewrite sum_const. field. lra.
  - intros. rewrite E by assumption. assumption.
Qed.

Lemma uniform_gap k s : is_pmf n s -> INR k * (I_nats n m s W - I_nats n m (iterate k (repeat (1 / INR n) n)) W) <= ln (INR n).
Proof.
  intros Hs. eapply Rle_trans; [apply iterate_gap; [apply uniform_pmf|assumption]|].
  pose proof (iterate_pmf k _ uniform_pmf) as [Hk Pk]. pose proof (lt_0_INR n Hn) as P.
  apply Rle_trans with (sum_to n (fun x => nth x s 0 * ln (INR n))).
  - apply sum_le. intros x Hx. apply Rmult_le_compat_l; [apply Hs; assumption|].
    rewrite nth_repeat_lt by assumption. rewrite ln_div, ln_1 by lra.
    pose proof (ln_le0 _ (Pk x Hx) (pmf_le1 n _ x Hk Hx)). lra.
  - rewrite sum_scal_r, (P_sum n s Hs). lra.
Qed.

(* the loop performs k passes; it stops at max_iter or when the last pass moved
   no coordinate by more than tol *)
Lemma loop_iterate fuel tol r last : length r = n -> exists k, (k <= fuel)%nat /\
  arimoto_blahut fuel tol W r last = iterate k r /\
  (k = fuel \/ (exists j, k = S j /\ forall x, (x < n)%nat -> Rabs (nth x (iterate k r) 0 - nth x (iterate j r) 0) <= tol) \/
   (k = 0%nat /\ ab_continues tol r last = false)).
Proof.
  revert r last. induction fuel as [|fuel IH]; intros r last LR; cbn [arimoto_blahut].
  { exists 0%nat. split; [lia|split; [reflexivity|left; reflexivity]]. }
  destruct (ab_continues tol r last) eqn:C.
  2:{ exists 0%nat. split; [lia|split; [reflexivity|right; right; auto]]. }
  destruct (IH (ab_step W r) (Some r) (step_len r)) as (k & Hk & E & D).
  assert (IS : forall j, iterate j (ab_step W r) = iterate (S j) r).
  { intros j. unfold iterate. cbn [Nat.iter]. induction j; [reflexivity|]. cbn [Nat.iter nat_rect] in *. unfold Nat.iter in *. simpl in *. rewrite IHj. reflexivity. }
  exists (S k). split; [lia|split; [rewrite E; apply IS|]].
  destruct D as [->|[(j & -> & D)|(-> & D)]]; [left; reflexivity|right; left|right; left].
  - exists (S j). split; [reflexivity|]. intros. rewrite <- !IS. apply D. assumption.
  - exists 0%nat. split; [reflexivity|]. intros x Hx. cbn [ab_continues] in D.
    change (iterate 1 r) with (ab_step W r). change (iterate 0 r) with r.
    destruct (Nat.lt_ge_cases x (length r)) as [Hl|Hl].
    + assert (In (nth x (ab_step W r) 0, nth x r 0) (combine (ab_step W r) r)).
      { assert (SL : length (ab_step W r) = n) by (unfold ab_step; rewrite map_length, seq_length; apply HW).
        assert (CL : (x < length (combine (ab_step W r) r))%nat) by (rewrite combine_length, SL; lia).
        pose proof (nth_In _ (0, 0) CL) as NI.
        clear - NI CL. revert NI CL. generalize (ab_step W r). intros l. revert r x. induction l; intros r x NI CL; [cbn in CL; lia|]. destruct r; [cbn in CL; lia|]. destruct x; [left; reflexivity|]. right. cbn [nth combine] in *. apply IHl; [|cbn in CL; lia]. apply nth_In. cbn in CL. lia. }
      destruct (Rle_dec (Rabs (nth x (ab_step W r) 0 - nth x r 0)) tol) as [|Nle]; [assumption|exfalso].
      assert (existsb (fun ab => Rltb tol (Rabs (fst ab - snd ab))) (combine (ab_step W r) r) = true).
      { apply existsb_exists. eexists. split; [exact H|]. cbn [fst snd]. destruct (Rltb_spec tol (Rabs (nth x (ab_step W r) 0 - nth x r 0))); [reflexivity|lra]. }
      congruence.
    + lia.
Qed.
End AB.
