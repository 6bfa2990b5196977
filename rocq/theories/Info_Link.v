(* The model's functions compute the textbook quantities. *)
From Coq Require Import Reals List Lia Lra Arith Psatz Bool.
From Verif Require Import FB_Model FB_Proof Quant_Model Quant_Proof Info_Model Info_Spec Info_Sums Info_Proof.
Import ListNotations.
Local Open Scope R_scope.

Lemma pmf_valid n p tol : is_pmf n p -> 0 <= tol -> validate_pmf tol p = true.
Proof.
  intros (L & N & S) T. unfold validate_pmf. rewrite Rsum_nth, L, S, Rminus_diag_eq by reflexivity. rewrite Rabs_R0.
  apply andb_true_intro. split.
  - apply forallb_forall. intros x Hx. apply (In_nth _ _ 0) in Hx. destruct Hx as (i & Hi & <-). rewrite L in Hi.
    destruct (Rleb_spec 0 (nth i p 0)) as [|C]; [reflexivity|]. specialize (N i Hi). lra.
  - destruct (Rleb_spec 0 tol); [reflexivity|lra].
Qed.

Lemma valid_pmf_exact p : validate_pmf 0 p = true -> is_pmf (length p) p.
Proof.
  intros V. apply andb_prop in V. destruct V as [V1 V2]. rewrite forallb_forall in V1. split; [reflexivity|split].
  - intros i Hi. specialize (V1 _ (nth_In p 0 Hi)). destruct (Rleb_spec 0 (nth i p 0)); [assumption|discriminate].
  - rewrite <- Rsum_nth. destruct (Rleb_spec (Rabs (Rsum p - 1)) 0) as [A|]; [|discriminate].
    pose proof (Rabs_pos (Rsum p - 1)). assert (Rabs (Rsum p - 1) = 0) by lra. destruct (Req_dec (Rsum p - 1) 0); [lra|]. apply Rabs_no_R0 in H1. lra.
Qed.

Lemma log_in_ln b x : log_in b x = ln x / ln (base_value b).
Proof. destruct b; cbn [log_in base_value]; [|reflexivity]. rewrite ln_exp. field. Qed.

Lemma base_pos b : validate_log_base b = true -> 0 < base_value b.
Proof.
  destruct b as [|v]; cbn [validate_log_base base_value]; intros V; [apply exp_pos|].
  destruct (Rleb_spec v 0); [discriminate|]. lra.
Qed.
Lemma base_ln b : validate_log_base b = true -> ln (base_value b) <> 0.
Proof.
  intros V. pose proof (base_pos b V) as P. destruct b as [|v]; cbn [validate_log_base base_value] in *; [rewrite ln_exp; lra|].
  destruct (Reqb_spec v 1) as [|N]; [rewrite orb_true_r in V; discriminate|].
  intros E. apply N. rewrite <- (exp_ln v P), E. apply exp_0.
Qed.

Lemma filter_sum (f : R -> R) l : (forall x, In x l -> ~ 0 < x -> f x = 0) ->
  Rsum (map f (filter (fun p => Rltb 0 p) l)) = Rsum (map f l).
Proof.
  induction l as [|a l IH]; intros Z; [reflexivity|]. cbn [filter]. destruct (Rltb_spec 0 a).
  - cbn [map]. rewrite !Rsum_cons, IH; [reflexivity|]. intros. apply Z; [right; assumption|assumption].
  - cbn [map]. rewrite Rsum_cons, IH, (Z a); [lra|left; reflexivity|assumption|]. intros. apply Z; [right; assumption|assumption].
Qed.

Lemma entropy_link n p tol b : is_pmf n p -> 0 <= tol -> validate_log_base b = true ->
  entropy tol b p = Some (H_nats n p / ln (base_value b)).
Proof.
  intros P T V. unfold entropy. rewrite (pmf_valid n p tol P T), V. cbn [andb]. f_equal. destruct P as (L & N & S).
  rewrite filter_sum.
  - rewrite (Rsum_map_nth _ p 0), L. unfold H_nats, Rdiv. rewrite <- sum_scal_r. apply sum_ext. intros.
    rewrite log_in_ln. unfold Rdiv. rewrite Rmult_1_l. lra.
  - intros x Hx Z. apply (In_nth _ _ 0) in Hx. destruct Hx as (i & Hi & <-). rewrite L in Hi. specialize (N i Hi).
    replace (nth i p 0) with 0 by lra. lra.
Qed.

Lemma matrix_valid n m W tol : is_channel n m W -> (0 < n)%nat -> 0 <= tol -> validate_matrix tol W = true /\ ncols W = m.
Proof.
  intros (L & C) Hn T.
  assert (C0 : length (hd [] W) = m). { destruct W as [|r W]; [cbn in L; lia|]. apply (C 0%nat Hn). }
  split; [|exact C0]. unfold validate_matrix. rewrite C0.
  assert (R : forall row, In row W -> is_pmf m row).
  { intros row Hr. apply (In_nth _ _ []) in Hr. destruct Hr as (i & Hi & <-). apply C. rewrite <- L. assumption. }
  rewrite !andb_true_iff, !forallb_forall. split; [split|]; intros row Hr.
  - apply Nat.eqb_eq. apply (R row Hr).
  - pose proof (pmf_valid m row tol (R row Hr) T) as V. apply andb_prop in V. apply V.
  - pose proof (pmf_valid m row tol (R row Hr) T) as V. apply andb_prop in V. apply V.
Qed.

Lemma output_pmf_nth p W n m y : is_channel n m W -> ncols W = m -> (y < m)%nat -> nth y (output_pmf p W) 0 = out_prob n p W y.
Proof.
  intros (L & _) C Hy. unfold output_pmf. rewrite C, L.
  rewrite (nth_indep _ 0 ((fun y => Rsum (map (fun x => nth x p 0 * entry W x y) (seq 0 n))) 0%nat)) by (rewrite map_length, seq_length; assumption).
  rewrite (map_nth (fun y => Rsum (map (fun x => nth x p 0 * entry W x y) (seq 0 n)))), seq_nth by assumption. cbn [plus]. apply Rsum_seq.
Qed.
Lemma output_pmf_len p W : length (output_pmf p W) = ncols W.
Proof. unfold output_pmf. rewrite map_length, seq_length. reflexivity. Qed.

Lemma sequence_some {A B} (f : A -> option B) (g : A -> B) l : (forall x, In x l -> f x = Some (g x)) -> sequence (map f l) = Some (map g l).
Proof.
  induction l as [|a l IH]; intros E; [reflexivity|]. cbn [map sequence]. rewrite E by (left; reflexivity). rewrite IH; [reflexivity|]. intros. apply E. right. assumption.
Qed.

Lemma mi_link n m W p tol b : is_channel n m W -> is_pmf n p -> 0 <= tol -> validate_log_base b = true ->
  mutual_information tol b p W = Some (I_nats n m p W / ln (base_value b)).
Proof.
  intros HW P T V. pose proof (pmf_pos_n n p P) as Hn. destruct (matrix_valid n m W tol HW Hn T) as [MV NC].
  unfold mutual_information. rewrite (pmf_valid n p tol P T), V, MV. destruct P as (L & N & S) eqn:EP. clear EP. pose proof HW as (LW & C).
  rewrite L, LW, Nat.eqb_refl. cbn [andb].
  assert (OP : is_pmf m (output_pmf p W)).
  { apply (out_is_pmf n m W HW p); [repeat split; assumption|rewrite output_pmf_len; assumption|]. intros. apply (output_pmf_nth p W n m); assumption. }
  rewrite (entropy_link m (output_pmf p W) tol b OP T V).
  rewrite (sequence_some (entropy tol b) (fun row => H_nats m row / ln (base_value b)) W).
  2:{ intros row Hr. apply entropy_link; [|assumption|assumption]. apply (In_nth _ _ []) in Hr. destruct Hr as (i & Hi & <-). apply C. rewrite <- LW. assumption. }
  f_equal. rewrite (I_entropy n m W HW p) by (repeat split; assumption). rewrite Rsum_seq. unfold Rdiv. rewrite Rmult_minus_distr_r. f_equal.
  - f_equal. unfold H_nats. apply sum_ext. intros y Hy. rewrite (output_pmf_nth p W n m) by assumption. reflexivity.
  - rewrite <- sum_scal_r. apply sum_ext. intros x Hx.
    rewrite (nth_indep (map _ W) 0 ((fun row => H_nats m row * / ln (base_value b)) [])) by (rewrite map_length, LW; assumption).
    rewrite (map_nth (fun row => H_nats m row * / ln (base_value b))). lra.
Qed.
