(* Finite sums and Gibbs' inequality. *)
From Coq Require Import Reals List Lia Lra Arith Psatz.
From Verif Require Import FB_Model FB_Proof Info_Spec.
Import ListNotations.
Local Open Scope R_scope.

Lemma sum_ext n f g : (forall i, (i < n)%nat -> f i = g i) -> sum_to n f = sum_to n g.
Proof. induction n; intros E; [reflexivity|]. cbn [sum_to]. rewrite IHn by (intros; apply E; lia). rewrite E by lia. reflexivity. Qed.
Lemma sum_plus n f g : sum_to n (fun i => f i + g i) = sum_to n f + sum_to n g.
Proof. induction n; cbn [sum_to]; [lra|]. rewrite IHn. lra. Qed.
Lemma sum_minus n f g : sum_to n (fun i => f i - g i) = sum_to n f - sum_to n g.
Proof. induction n; cbn [sum_to]; [lra|]. rewrite IHn. lra. Qed.
Lemma sum_scal n c f : sum_to n (fun i => c * f i) = c * sum_to n f.
Proof. induction n; cbn [sum_to]; [lra|]. rewrite IHn. lra. Qed.
Lemma sum_scal_r n c f : sum_to n (fun i => f i * c) = sum_to n f * c.
Proof. induction n; cbn [sum_to]; [lra|]. rewrite IHn. lra. Qed.
Lemma sum_0 n : sum_to n (fun _ => 0) = 0.
Proof. induction n; cbn [sum_to]; lra. Qed.
Lemma sum_const n c : sum_to n (fun _ => c) = INR n * c.
Proof. induction n; cbn [sum_to]; [cbn [INR]; lra|]. rewrite IHn, S_INR. lra. Qed.
Lemma sum_swap n m f : sum_to n (fun x => sum_to m (fun y => f x y)) = sum_to m (fun y => sum_to n (fun x => f x y)).
Proof. induction n; cbn [sum_to]; [symmetry; apply sum_0|]. rewrite IHn, <- sum_plus. reflexivity. Qed.
Lemma sum_le n f g : (forall i, (i < n)%nat -> f i <= g i) -> sum_to n f <= sum_to n g.
Proof. induction n; intros E; cbn [sum_to]; [lra|]. assert (sum_to n f <= sum_to n g) by (apply IHn; intros; apply E; lia). assert (f n <= g n) by (apply E; lia). lra. Qed.
Lemma sum_nonneg n f : (forall i, (i < n)%nat -> 0 <= f i) -> 0 <= sum_to n f.
Proof. intros. rewrite <- (sum_0 n). apply sum_le. assumption. Qed.
Lemma sum_eq_le n f g : (forall i, (i < n)%nat -> f i <= g i) -> sum_to n f = sum_to n g -> forall i, (i < n)%nat -> f i = g i.
Proof.
  induction n; intros L E i Hi; [lia|]. cbn [sum_to] in E.
  assert (sum_to n f <= sum_to n g) by (apply sum_le; intros; apply L; lia). assert (f n <= g n) by (apply L; lia).
  destruct (Nat.eq_dec i n) as [->|]; [lra|]. apply IHn; [intros; apply L; lia|lra|lia].
Qed.
Lemma sum_pos n f i : (forall j, (j < n)%nat -> 0 <= f j) -> (i < n)%nat -> 0 < f i -> 0 < sum_to n f.
Proof.
  intros L Hi P. destruct (Rlt_dec 0 (sum_to n f)); [assumption|]. assert (0 <= sum_to n f) by (apply sum_nonneg; assumption).
  assert (sum_to n (fun _ => 0) = sum_to n f) by (rewrite sum_0; lra).
  pose proof (sum_eq_le n (fun _ => 0) f L H0 i Hi). cbv beta in *. lra.
Qed.
Lemma sum_ge_term n f i : (forall j, (j < n)%nat -> 0 <= f j) -> (i < n)%nat -> f i <= sum_to n f.
Proof.
  induction n; intros L Hi; [lia|]. cbn [sum_to]. destruct (Nat.eq_dec i n) as [->|].
  - assert (0 <= sum_to n f) by (apply sum_nonneg; intros; apply L; lia). lra.
  - assert (f i <= sum_to n f) by (apply IHn; [intros; apply L; lia|lia]). assert (0 <= f n) by (apply L; lia). lra.
Qed.
Lemma sum_delta n i f : (i < n)%nat -> sum_to n (fun j => if Nat.eqb j i then f j else 0) = f i.
Proof.
  intros Hi. induction n; [lia|]. cbn [sum_to]. destruct (Nat.eq_dec i n) as [->|].
  - rewrite Nat.eqb_refl, (sum_ext n _ (fun _ => 0)), sum_0; [lra|].
    intros j Hj. destruct (Nat.eqb_spec j n); [lia|reflexivity].
  - rewrite IHn by lia. destruct (Nat.eqb_spec n i); [lia|lra].
Qed.

Lemma Rsum_seq f n : Rsum (map f (seq 0 n)) = sum_to n f.
Proof.
  induction n; [reflexivity|]. rewrite seq_S, map_app, Rsum_app, IHn. cbn [map plus]. rewrite Rsum_cons, Rsum_nil. cbn [sum_to]. lra.
Qed.
Lemma map_nth_seq {A B} (f : A -> B) l d : map f l = map (fun i => f (nth i l d)) (seq 0 (length l)).
Proof.
  induction l as [|a l IH]; [reflexivity|]. cbn [length seq map]. f_equal. rewrite IH, <- seq_shift, map_map. reflexivity.
Qed.
Lemma Rsum_map_nth {A} (f : A -> R) l d : Rsum (map f l) = sum_to (length l) (fun i => f (nth i l d)).
Proof. rewrite (map_nth_seq f l d). apply Rsum_seq. Qed.
Lemma Rsum_nth l : Rsum l = sum_to (length l) (fun i => nth i l 0).
Proof. rewrite <- (map_id l) at 1. apply (Rsum_map_nth (fun x => x)). Qed.

(* logarithms *)
Lemma ln_le_sub x : 0 < x -> ln x <= x - 1.
Proof.
  intros Hx. pose proof (exp_ineq1_le (ln x)). rewrite exp_ln in H by assumption. lra.
Qed.
Lemma ln_lt_sub x : 0 < x -> x <> 1 -> ln x < x - 1.
Proof.
  intros Hx N. assert (ln x <> 0). { intros E. apply N. rewrite <- (exp_ln x Hx), E. apply exp_0. }
  pose proof (exp_ineq1 (ln x) H). rewrite exp_ln in H0 by assumption. lra.
Qed.
Lemma ln_div a b : 0 < a -> 0 < b -> ln (a / b) = ln a - ln b.
Proof. intros. unfold Rdiv. rewrite ln_mult by (try assumption; apply Rinv_0_lt_compat; assumption). rewrite ln_Rinv by assumption. lra. Qed.

(* one term of Gibbs' inequality *)
Lemma gibbs1 p q : 0 <= p -> 0 <= q -> (q = 0 -> p = 0) -> p - q <= p * (ln p - ln q).
Proof.
  intros Hp Hq Z. destruct (Req_dec p 0) as [->|Np]; [lra|]. destruct (Req_dec q 0) as [E|Nq]; [specialize (Z E); lra|].
  assert (0 < p) by lra. assert (0 < q) by lra. assert (0 < q / p) by (apply Rdiv_lt_0_compat; assumption).
  pose proof (ln_le_sub (q / p) H1). rewrite ln_div in H2 by assumption.
  assert (p * (ln q - ln p) <= p * (q / p - 1)) by (apply Rmult_le_compat_l; lra).
  replace (p * (q / p - 1)) with (q - p) in H3 by (field; lra). lra.
Qed.
Lemma gibbs1_eq p q : 0 <= p -> 0 <= q -> (q = 0 -> p = 0) -> p - q = p * (ln p - ln q) -> p = q.
Proof.
  intros Hp Hq Z E. destruct (Req_dec p 0) as [->|Np]; [lra|]. destruct (Req_dec q 0) as [E'|Nq]; [specialize (Z E'); lra|].
  assert (0 < p) by lra. assert (0 < q) by lra. assert (0 < q / p) by (apply Rdiv_lt_0_compat; assumption).
  destruct (Req_dec (q / p) 1) as [E1|N1].
  - replace q with (q / p * p) by (field; lra). rewrite E1. lra.
  - exfalso. pose proof (ln_lt_sub (q / p) H1 N1). rewrite ln_div in H2 by assumption.
    assert (p * (ln q - ln p) < p * (q / p - 1)) by (apply Rmult_lt_compat_l; lra).
    replace (p * (q / p - 1)) with (q - p) in H3 by (field; lra). lra.
Qed.

Lemma gibbs n p q : (forall i, (i < n)%nat -> 0 <= p i) -> (forall i, (i < n)%nat -> 0 <= q i) ->
  (forall i, (i < n)%nat -> q i = 0 -> p i = 0) ->
  sum_to n p - sum_to n q <= sum_to n (fun i => p i * (ln (p i) - ln (q i))).
Proof. intros. rewrite <- sum_minus. apply sum_le. intros. apply gibbs1; auto. Qed.
Lemma gibbs_eq n p q : (forall i, (i < n)%nat -> 0 <= p i) -> (forall i, (i < n)%nat -> 0 <= q i) ->
  (forall i, (i < n)%nat -> q i = 0 -> p i = 0) ->
  sum_to n p - sum_to n q = sum_to n (fun i => p i * (ln (p i) - ln (q i))) -> forall i, (i < n)%nat -> p i = q i.
Proof.
  intros Hp Hq Z E i Hi. rewrite <- sum_minus in E. apply gibbs1_eq; auto.
  apply (sum_eq_le n (fun i => p i - q i) (fun i => p i * (ln (p i) - ln (q i)))); auto. intros. apply gibbs1; auto.
Qed.

(* p ln (p / q) with the conventions *)
Lemma pln_div p q : 0 <= p -> 0 <= q -> (q = 0 -> p = 0) -> p * ln (p / q) = p * (ln p - ln q).
Proof.
  intros. destruct (Req_dec p 0) as [->|]; [lra|]. destruct (Req_dec q 0) as [E|]; [specialize (H1 E); lra|]. rewrite ln_div by lra. reflexivity.
Qed.
Lemma pln_inv p : 0 <= p -> p * ln (/ p) = - (p * ln p).
Proof. intros. destruct (Req_dec p 0) as [->|]; [lra|]. rewrite ln_Rinv by lra. lra. Qed.
