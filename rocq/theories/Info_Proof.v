(* Facts about entropy, relative entropy and mutual information, and the link
   between the model and the textbook definitions. *)
From Coq Require Import Reals List Lia Lra Arith Psatz Bool.
From Verif Require Import FB_Model FB_Proof Quant_Model Quant_Proof Info_Model Info_Spec Info_Sums.
Import ListNotations.
Local Open Scope R_scope.

Lemma Reqb_spec x y : reflect (x = y) (Reqb x y).
Proof. unfold Reqb. destruct (Req_EM_T x y); constructor; auto. Qed.

(* ---- entropy ---- *)
Lemma pmf_le1 n p i : is_pmf n p -> (i < n)%nat -> nth i p 0 <= 1.
Proof. intros (L & N & S) Hi. rewrite <- S. apply (sum_ge_term n (fun i => nth i p 0)); auto. Qed.

Lemma ln_mono x y : 0 < x -> x <= y -> ln x <= ln y.
Proof. intros. destruct (Req_dec x y) as [->|]; [lra|]. left. apply ln_increasing; lra. Qed.

Lemma ln_le0 x : 0 < x -> x <= 1 -> ln x <= 0.
Proof. intros. pose proof (ln_le_sub x H). lra. Qed.

Lemma H_nats_alt n p : is_pmf n p -> H_nats n p = - sum_to n (fun i => nth i p 0 * ln (nth i p 0)).
Proof.
  intros (L & N & S). unfold H_nats.
  transitivity (sum_to n (fun i => (-1) * (nth i p 0 * ln (nth i p 0)))); [|rewrite sum_scal; lra].
  apply sum_ext. intros. rewrite pln_inv by auto. lra.
Qed.

Lemma H_term_nonneg x : 0 <= x -> x <= 1 -> 0 <= x * ln (/ x).
Proof.
  intros. rewrite pln_inv by assumption. destruct (Req_dec x 0) as [->|]; [lra|]. assert (ln x <= 0) by (apply ln_le0; lra). nra.
Qed.

Lemma H_nonneg n p : is_pmf n p -> 0 <= H_nats n p.
Proof. intros P. apply sum_nonneg. intros. apply H_term_nonneg; [apply P; assumption|apply (pmf_le1 n); assumption]. Qed.

Lemma H_zero n p : is_pmf n p -> (H_nats n p = 0 <-> exists i, (i < n)%nat /\ nth i p 0 = 1).
Proof.
  intros P. pose proof P as (L & N & S). split.
  - intros E.
    assert (T : forall i, (i < n)%nat -> 0 = nth i p 0 * ln (/ nth i p 0)).
    { apply (sum_eq_le n (fun _ => 0)); [|rewrite sum_0; symmetry; exact E].
      intros. apply H_term_nonneg; [apply N; assumption|apply (pmf_le1 n); assumption]. }
    destruct (Classical_Prop.classic (exists i, (i < n)%nat /\ nth i p 0 = 1)) as [?|C]; [assumption|exfalso].
    assert (Z : forall i, (i < n)%nat -> nth i p 0 = 0).
    { intros i Hi. destruct (Req_dec (nth i p 0) 0); [assumption|exfalso]. assert (0 < nth i p 0) by (specialize (N i Hi); lra).
      assert (nth i p 0 <> 1) by (intros E'; apply C; eauto). pose proof (pmf_le1 n p i P Hi).
      specialize (T i Hi). rewrite ln_Rinv in T by assumption.
      pose proof (ln_lt_sub _ H0 H1). assert (ln (nth i p 0) < 0) by lra. nra. }
    rewrite (sum_ext n _ (fun _ => 0) Z), sum_0 in S. lra.
  - intros (i & Hi & E).
    assert (Z : forall j, (j < n)%nat -> j <> i -> nth j p 0 = 0).
    { intros j Hj D. pose proof (N j Hj).
      assert (sum_to n (fun k => if Nat.eqb k i then nth k p 0 else 0) + nth j p 0 <= sum_to n (fun k => nth k p 0)).
      { assert (X: sum_to n (fun k => if Nat.eqb k j then nth k p 0 else 0) = nth j p 0) by (apply (sum_delta n j (fun k => nth k p 0)); assumption).
        rewrite <- X, <- sum_plus. apply sum_le. intros k Hk. pose proof (N k Hk). destruct (Nat.eqb_spec k i), (Nat.eqb_spec k j); try lia; lra. }
      rewrite (sum_delta n i (fun k => nth k p 0)) in H0 by assumption. lra. }
    unfold H_nats. rewrite (sum_ext n _ (fun _ => 0)); [apply sum_0|]. intros j Hj. destruct (Nat.eq_dec j i) as [->|D].
    + rewrite E. replace (/ 1) with 1 by lra. rewrite ln_1. lra.
    + rewrite (Z j Hj D). lra.
Qed.

Lemma pmf_pos_n n p : is_pmf n p -> (0 < n)%nat.
Proof. intros (L & N & S). destruct n; [|lia]. cbn [sum_to] in S. lra. Qed.

Lemma H_max_eq n p : is_pmf n p -> ln (INR n) - H_nats n p = sum_to n (fun i => nth i p 0 * (ln (nth i p 0) - ln (1 / INR n))).
Proof.
  intros P. pose proof P as (L & N & S). pose proof (lt_0_INR n (pmf_pos_n n p P)) as HI. rewrite (H_nats_alt n p P).
  rewrite (sum_ext n (fun i => nth i p 0 * (ln (nth i p 0) - ln (1 / INR n)))
    (fun i => nth i p 0 * ln (nth i p 0) + nth i p 0 * ln (INR n))), sum_plus, sum_scal_r, S; [lra|].
  intros. rewrite ln_div by lra. rewrite ln_1. lra.
Qed.

Lemma H_max n p : is_pmf n p -> H_nats n p <= ln (INR n).
Proof.
  intros P. pose proof P as (L & N & S). pose proof (lt_0_INR n (pmf_pos_n n p P)) as HI.
  pose proof (gibbs n (fun i => nth i p 0) (fun _ => 1 / INR n)) as G. cbv beta in G. rewrite S, sum_const, <- (H_max_eq n p P) in G.
  replace (INR n * (1 / INR n)) with 1 in G by (field; lra).
  assert (0 < 1 / INR n) by (apply Rdiv_lt_0_compat; lra).
  assert (1 - 1 <= ln (INR n) - H_nats n p); [apply G; [exact N| |]; intros; lra|lra].
Qed.

Lemma H_max_iff n p : is_pmf n p -> (H_nats n p = ln (INR n) <-> forall i, (i < n)%nat -> nth i p 0 = 1 / INR n).
Proof.
  intros P. pose proof P as (L & N & S). pose proof (lt_0_INR n (pmf_pos_n n p P)) as HI.
  assert (0 < 1 / INR n) by (apply Rdiv_lt_0_compat; lra).
  split.
  - intros E. apply (gibbs_eq n (fun i => nth i p 0) (fun _ => 1 / INR n)); [exact N|intros; lra|intros; lra|].
    rewrite S, sum_const, <- (H_max_eq n p P), E. field. lra.
  - intros U. unfold H_nats. rewrite (sum_ext n _ (fun _ => 1 / INR n * ln (INR n))), sum_const.
    + field. lra.
    + intros i Hi. rewrite U by assumption. do 2 f_equal. field. lra.
Qed.

(* ---- relative entropy ---- *)
Lemma D_alt n p q : is_pmf n p -> is_pmf n q -> (forall i, (i < n)%nat -> nth i q 0 = 0 -> nth i p 0 = 0) ->
  D_nats n p q = sum_to n (fun i => nth i p 0 * (ln (nth i p 0) - ln (nth i q 0))).
Proof. intros (? & N & ?) (? & N' & ?) Z. apply sum_ext. intros. apply pln_div; auto. Qed.
Lemma D_nonneg n p q : is_pmf n p -> is_pmf n q -> (forall i, (i < n)%nat -> nth i q 0 = 0 -> nth i p 0 = 0) -> 0 <= D_nats n p q.
Proof.
  intros P Q Z. rewrite (D_alt n p q P Q Z). destruct P as (? & N & S), Q as (? & N' & S').
  pose proof (gibbs n (fun i => nth i p 0) (fun i => nth i q 0) N N' Z) as G. cbv beta in G. rewrite S, S' in G. lra.
Qed.
Lemma D_zero n p q : is_pmf n p -> is_pmf n q -> (forall i, (i < n)%nat -> nth i q 0 = 0 -> nth i p 0 = 0) -> (D_nats n p q = 0 <-> p = q).
Proof.
  intros P Q Z. split.
  - intros E. rewrite (D_alt n p q P Q Z) in E. destruct P as (L & N & S), Q as (L' & N' & S').
    apply (nth_ext p q 0 0); [congruence|]. rewrite L. apply (gibbs_eq n (fun i => nth i p 0) (fun i => nth i q 0)); auto. cbv beta. rewrite S, S'. lra.
  - intros ->. rewrite (D_alt n q q Q Q Z), (sum_ext n _ (fun _ => 0)); [apply sum_0|]. intros. lra.
Qed.

(* ---- mutual information ---- *)
Section MI.
Variables (n m : nat) (W : list (list R)).
Hypothesis HW : is_channel n m W.
Notation w x y := (nth y (nth x W []) 0).
Variable p : list R.
Hypothesis Hp : is_pmf n p.
Notation P x := (nth x p 0).
Notation out y := (out_prob n p W y).

Lemma w_nonneg x y : (x < n)%nat -> (y < m)%nat -> 0 <= w x y.
Proof. intros. apply HW; assumption. Qed.
Lemma w_sum x : (x < n)%nat -> sum_to m (fun y => w x y) = 1.
Proof. intros. apply HW; assumption. Qed.
Lemma P_nonneg x : (x < n)%nat -> 0 <= P x. Proof. apply Hp. Qed.
Lemma P_sum : sum_to n (fun x => P x) = 1. Proof. apply Hp. Qed.
Lemma out_nonneg y : (y < m)%nat -> 0 <= out y.
Proof. intros. apply sum_nonneg. intros. apply Rmult_le_pos; [apply P_nonneg|apply w_nonneg]; assumption. Qed.
Lemma out_sum : sum_to m (fun y => out y) = 1.
Proof.
  unfold out_prob. rewrite <- sum_swap, <- P_sum. apply sum_ext. intros. rewrite sum_scal, w_sum by assumption. lra.
Qed.
Lemma out_ge x y : (x < n)%nat -> (y < m)%nat -> P x * w x y <= out y.
Proof.
  intros. apply (sum_ge_term n (fun x => P x * w x y)); [|assumption].
  intros. apply Rmult_le_pos; [apply P_nonneg|apply w_nonneg]; assumption.
Qed.
Lemma out_zero x y : (x < n)%nat -> (y < m)%nat -> out y = 0 -> P x * w x y = 0.
Proof. intros. pose proof (out_ge x y H H0). pose proof (P_nonneg x H). pose proof (w_nonneg x y H H0). nra. Qed.

Lemma I_term x y : (x < n)%nat -> (y < m)%nat -> P x * w x y * ln (w x y / out y) = P x * w x y * (ln (w x y) - ln (out y)).
Proof.
  intros. destruct (Req_dec (P x * w x y) 0) as [->|N]; [lra|].
  assert (out y <> 0) by (intros E; apply N, out_zero; assumption). pose proof (out_nonneg y H0). pose proof (w_nonneg x y H H0).
  assert (w x y <> 0) by (intros E; rewrite E in N; lra). rewrite ln_div by lra. reflexivity.
Qed.
Lemma I_alt : I_nats n m p W = sum_to n (fun x => sum_to m (fun y => P x * w x y * (ln (w x y) - ln (out y)))).
Proof. apply sum_ext. intros. apply sum_ext. intros. apply I_term; assumption. Qed.

Lemma out_cross (f : nat -> R) : sum_to n (fun x => sum_to m (fun y => P x * w x y * f y)) = sum_to m (fun y => out y * f y).
Proof. rewrite sum_swap. apply sum_ext. intros. unfold out_prob. rewrite <- sum_scal_r. reflexivity. Qed.

Lemma I_split (f : nat -> R) : sum_to n (fun x => sum_to m (fun y => P x * w x y * (ln (w x y) - f y))) =
  sum_to n (fun x => P x * sum_to m (fun y => w x y * ln (w x y))) - sum_to m (fun y => out y * f y).
Proof.
  rewrite <- out_cross, <- sum_minus. apply sum_ext. intros. rewrite <- sum_scal, <- sum_minus. apply sum_ext. intros. lra.
Qed.

Lemma I_entropy : I_nats n m p W = sum_to m (fun y => out y * ln (/ out y)) - sum_to n (fun x => P x * H_nats m (nth x W [])).
Proof.
  rewrite I_alt, I_split.
  rewrite (sum_ext m (fun y => out y * ln (/ out y)) (fun y => (-1) * (out y * ln (out y)))).
  2:{ intros. rewrite pln_inv by (apply out_nonneg; assumption). lra. }
  rewrite sum_scal.
  rewrite (sum_ext n (fun x => P x * H_nats m (nth x W [])) (fun x => (-1) * (P x * sum_to m (fun y => w x y * ln (w x y))))).
  2:{ intros. rewrite H_nats_alt by (apply HW; assumption). lra. }
  rewrite sum_scal. lra.
Qed.

Lemma out_is_pmf l : length l = m -> (forall y, (y < m)%nat -> nth y l 0 = out y) -> is_pmf m l.
Proof.
  intros L E. split; [assumption|split].
  - intros. rewrite E by assumption. apply out_nonneg. assumption.
  - rewrite (sum_ext m _ (fun y => out y)) by assumption. apply out_sum.
Qed.

Lemma I_nonneg : 0 <= I_nats n m p W.
Proof.
  rewrite I_alt.
  assert (E : sum_to n (fun x => sum_to m (fun y => P x * w x y - P x * out y)) = 0).
  { rewrite (sum_ext n _ (fun _ => 0)); [apply sum_0|]. intros x Hx. rewrite sum_minus, !sum_scal.
    assert (O1 : sum_to m (out_prob n p W) = 1) by exact out_sum. pose proof (w_sum x Hx) as O2. cbv beta in *. rewrite O1, O2. lra. }
  refine (Rle_trans _ _ _ (Req_le _ _ (eq_sym E)) _). apply sum_le. intros x Hx. apply sum_le. intros y Hy.
  pose proof (P_nonneg x Hx). pose proof (w_nonneg x y Hx Hy). pose proof (out_nonneg y Hy).
  destruct (Req_dec (P x) 0) as [E0|]. { rewrite E0, !Rmult_0_l. lra. }
  pose proof (gibbs1 (w x y) (out y) H0 H1). assert (0 < P x) by lra.
  assert (w x y - out y <= w x y * (ln (w x y) - ln (out y))).
  { apply H3. intros E'. pose proof (out_zero x y Hx Hy E'). nra. }
  nra.
Qed.

Lemma I_le_HX : I_nats n m p W <= H_nats n p.
Proof.
  unfold I_nats, H_nats. apply sum_le. intros x Hx. 
  apply Rle_trans with (sum_to m (fun y => P x * w x y * ln (/ P x))).
  2:{ rewrite sum_scal_r, sum_scal, (w_sum x Hx). lra. }
  apply sum_le. intros y Hy.
  pose proof (P_nonneg x Hx). pose proof (w_nonneg x y Hx Hy). pose proof (out_nonneg y Hy). pose proof (out_ge x y Hx Hy).
  destruct (Req_dec (P x * w x y) 0) as [E|N].
  { rewrite E, !Rmult_0_l. lra. }
  assert (P x <> 0) by (intros E; apply N; rewrite E; lra). assert (w x y <> 0) by (intros E; apply N; rewrite E; lra).
  assert (0 < P x) by lra. assert (0 < w x y) by lra. assert (0 < P x * w x y) by nra.
  apply Rmult_le_compat_l; [lra|].
  apply ln_mono; [apply Rdiv_lt_0_compat; lra|].
  apply (Rmult_le_reg_r (out y * P x)); [apply Rmult_lt_0_compat; lra|].
  replace (w x y / out y * (out y * P x)) with (P x * w x y) by (field; lra).
  replace (/ P x * (out y * P x)) with (out y) by (field; lra). assumption.
Qed.

End MI.
