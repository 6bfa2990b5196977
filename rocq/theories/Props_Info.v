(* C76-C79: entropies, mutual information, channel capacity, Arimoto-Blahut.
   Quantities in the statements are the textbook ones of Info_Spec, in nats; a
   value in base b is that number divided by ln b.  [tol] is numpy's comparison
   tolerance: the statements hold for any tol >= 0 and exact pmfs. *)
From Coq Require Import Reals List Lia Lra Arith Psatz Bool.
From Verif Require Import FB_Model FB_Proof Quant_Model Quant_Proof Info_Model Info_Spec Info_Sums Info_Proof Info_Link Info_AB Info_Binary.
Import ListNotations.
Local Open Scope R_scope.

(* a base greater than one *)
Definition good_base (b : log_base) : Prop := 1 < base_value b.
Lemma good_valid b : good_base b -> validate_log_base b = true.
Proof.
  destruct b as [|v]; cbn [validate_log_base]; [reflexivity|]. unfold good_base. cbn [base_value]. intros H.
  destruct (Rleb_spec v 0); [lra|]. destruct (Reqb_spec v 1); [lra|reflexivity].
Qed.
Lemma good_ln b : good_base b -> 0 < ln (base_value b).
Proof. intros H. rewrite <- ln_1. apply ln_increasing; unfold good_base in H; lra. Qed.

Lemma Rsum_filter_pos (l : list (R * R)) (f : R * R -> R) : (forall x, In x l -> ~ 0 < fst x -> f x = 0) ->
  Rsum (map f l) = Rsum (map f (filter (fun pq => Rltb 0 (fst pq)) l)).
Proof.
  induction l as [|a l IH]; intros Z; [reflexivity|]. cbn [filter]. destruct (Rltb_spec 0 (fst a)).
  - cbn [map]. rewrite !Rsum_cons, IH; [reflexivity|]. intros. apply Z; [right; assumption|assumption].
  - cbn [map]. rewrite Rsum_cons, IH, (Z a); [lra|left; reflexivity|assumption|]. intros. apply Z; [right; assumption|assumption].
Qed.

(* ---- C76 ---- *)

(* entropy() is the textbook entropy, for every accepted base *)
Theorem C76_entropy tol b n p : 0 <= tol -> is_pmf n p -> validate_log_base b = true ->
  entropy tol b p = Some (H_nats n p / ln (base_value b)).
Proof. intros. apply entropy_link; assumption. Qed.

(* what is rejected *)
Theorem C76_entropy_rejects tol b p :
  entropy tol b p = None <->
  ((exists x, In x p /\ x < 0) \/ tol < Rabs (Rsum p - 1)) \/ (exists v, b = Base v /\ (v <= 0 \/ v = 1)).
Proof.
  unfold entropy. destruct (validate_pmf tol p && validate_log_base b) eqn:V; split; intros Hyp; try discriminate.
  - exfalso. apply andb_prop in V. destruct V as [V B]. apply andb_prop in V. destruct V as [V1 V2]. rewrite forallb_forall in V1.
    destruct Hyp as [[(x & Hx & Lx)|Hs]|(v & -> & Hv)].
    + specialize (V1 x Hx). destruct (Rleb_spec 0 x); [lra|discriminate].
    + destruct (Rleb_spec (Rabs (Rsum p - 1)) tol); [lra|discriminate].
    + cbn [validate_log_base] in B. destruct (Rleb_spec v 0); [discriminate|]. destruct (Reqb_spec v 1); [discriminate|]. lra.
  - apply andb_false_iff in V. destruct V as [V|B].
    + left. apply andb_false_iff in V. destruct V as [V|V].
      * left. assert (E : exists x, In x p /\ Rleb 0 x = false).
        { clear - V. induction p as [|a p IH]; [discriminate|]. cbn [forallb] in V. apply andb_false_iff in V. destruct V as [V|V].
          - exists a. split; [left; reflexivity|assumption].
          - destruct (IH V) as (x & Hx & E). exists x. split; [right; assumption|assumption]. }
        destruct E as (x & Hx & E). exists x. split; [assumption|]. destruct (Rleb_spec 0 x); [discriminate|lra].
      * right. destruct (Rleb_spec (Rabs (Rsum p - 1)) tol); [discriminate|lra].
    + right. destruct b as [|v]; [discriminate|]. exists v. split; [reflexivity|]. cbn [validate_log_base] in B.
      destruct (Rleb_spec v 0); [left; assumption|]. destruct (Reqb_spec v 1); [right; assumption|discriminate].
  - reflexivity.
Qed.

(* 0 <= H <= log n; zero iff deterministic, maximal iff uniform *)
Theorem C76_entropy_bounds tol b n p h : 0 <= tol -> is_pmf n p -> good_base b -> entropy tol b p = Some h ->
  (0 <= h <= ln (INR n) / ln (base_value b)) /\
  (h = 0 <-> exists i, (i < n)%nat /\ nth i p 0 = 1) /\
  (h = ln (INR n) / ln (base_value b) <-> forall i, (i < n)%nat -> nth i p 0 = 1 / INR n).
Proof.
  intros T P B E. rewrite (entropy_link n p tol b P T (good_valid b B)) in E. apply (f_equal (fun o => match o with Some v => v | None => 0 end)) in E. cbv beta iota in E. subst h.
  pose proof (good_ln b B) as L. pose proof (Rinv_0_lt_compat _ L) as LI. pose proof (H_nonneg n p P). pose proof (H_max n p P).
  assert (EQ : forall u v, u / ln (base_value b) = v / ln (base_value b) <-> u = v).
  { intros u v. split; [|intros ->; reflexivity]. unfold Rdiv. intros E. apply Rmult_eq_reg_r in E; [assumption|lra]. }
  refine (conj (conj _ _) (conj _ _)).
  - unfold Rdiv. nra.
  - unfold Rdiv. nra.
  - rewrite <- (H_zero n p P). rewrite <- (EQ (H_nats n p) 0). replace (0 / ln (base_value b)) with 0 by (field; lra). reflexivity.
  - rewrite EQ. apply H_max_iff. assumption.
Qed.

(* independent sources: the entropies add up *)
Theorem C76_entropy_product tol b n m p q : 0 <= tol -> is_pmf n p -> is_pmf m q -> good_base b ->
  exists hp hq, entropy tol b p = Some hp /\ entropy tol b q = Some hq /\
    entropy tol b (flat_map (fun x => map (fun y => x * y) q) p) = Some (hp + hq).
Proof.
  intros T P Q B. pose proof (good_valid b B) as V. pose proof (good_ln b B) as L.
  set (pq := flat_map (fun x => map (fun y => x * y) q) p).
  assert (SM : forall f : R -> R, Rsum (map f pq) = sum_to n (fun i => sum_to m (fun j => f (nth i p 0 * nth j q 0)))).
  { intros f. unfold pq. destruct P as (LP & _), Q as (LQ & _). rewrite flat_map_concat_map, concat_map, map_map.
    rewrite <- flat_map_concat_map, Rsum_flat_map, (Rsum_map_nth _ p 0), LP. apply sum_ext. intros i Hi. rewrite map_map, (Rsum_map_nth _ q 0), LQ. reflexivity. }
  assert (PQ : is_pmf (length pq) pq).
  { split; [reflexivity|split].
    - intros i Hi. pose proof (nth_In pq 0 Hi) as Hin. revert Hin. generalize (nth i pq 0). intros z Hz. unfold pq in Hz.
      apply in_flat_map in Hz. destruct Hz as (x & Hx & Hz). apply in_map_iff in Hz. destruct Hz as (y & <- & Hy).
      apply (In_nth _ _ 0) in Hx. apply (In_nth _ _ 0) in Hy. destruct Hx as (ix & Hx & <-), Hy as (iy & Hy & <-).
      destruct P as (LP & NP & _), Q as (LQ & NQ & _). apply Rmult_le_pos; [apply NP|apply NQ]; congruence.
    - rewrite <- Rsum_nth, <- (map_id pq), SM. rewrite (sum_ext n _ (fun i => nth i p 0)); [apply P|].
      intros. rewrite sum_scal. destruct Q as (_ & _ & S). rewrite S. lra. }
  eexists. eexists. split; [apply (entropy_link n p tol b P T V)|]. split; [apply (entropy_link m q tol b Q T V)|].
  rewrite (entropy_link (length pq) pq tol b PQ T V). f_equal. unfold Rdiv. rewrite <- Rmult_plus_distr_r. f_equal.
  unfold H_nats. rewrite <- (Rsum_map_nth (fun x => x * ln (/ x)) pq 0), SM.
  transitivity (sum_to n (fun i => nth i p 0 * ln (/ nth i p 0) + nth i p 0 * sum_to m (fun j => nth j q 0 * ln (/ nth j q 0)))).
  - apply sum_ext. intros i Hi.
    transitivity (sum_to m (fun j => (nth i p 0 * ln (/ nth i p 0)) * nth j q 0 + nth i p 0 * (nth j q 0 * ln (/ nth j q 0)))).
    + apply sum_ext. intros j Hj. destruct P as (_ & NP & _), Q as (_ & NQ & _). specialize (NP i Hi). specialize (NQ j Hj).
      rewrite !pln_inv by (try apply Rmult_le_pos; assumption). destruct (Req_dec (nth i p 0) 0) as [->|]; [lra|]. destruct (Req_dec (nth j q 0) 0) as [->|]; [lra|].
      rewrite ln_mult by lra. ring.
    + rewrite sum_plus, !sum_scal. destruct Q as (_ & _ & S). rewrite S. lra.
  - rewrite sum_plus, sum_scal_r. destruct P as (_ & _ & S). rewrite S. lra.
Qed.

(* binary_entropy *)
Theorem C76_binary_entropy p :
  (0 <= p <= 1 -> exists v, binary_entropy p = Some v /\ v = h_nats p / ln 2 /\ 0 <= v <= 1 /\
     entropy 0 (Base 2) [1 - p; p] = Some v /\ binary_entropy (1 - p) = Some v) /\
  (~ 0 <= p <= 1 -> binary_entropy p = None).
Proof.
  pose proof ln2_pos as L2. split.
  - intros H. exists (h_nats p / ln 2). split; [apply binary_entropy_link; assumption|]. split; [reflexivity|].
    pose proof (h_nonneg p H). pose proof (h_le_ln2 p H). pose proof (Rinv_0_lt_compat _ L2). split; [|split].
    + unfold Rdiv. split; [nra|]. apply (Rmult_le_reg_r (ln 2)); [assumption|]. replace (h_nats p * / ln 2 * ln 2) with (h_nats p) by (field; lra). lra.
    + assert (V : validate_log_base (Base 2) = true) by (apply good_valid; unfold good_base; cbn [base_value]; lra).
      rewrite (entropy_link 2 [1 - p; p] 0 (Base 2)); [|apply pmf2_intro; assumption|lra|assumption].
      cbn [base_value]. do 2 f_equal. unfold H_nats, h_nats. cbn [sum_to nth]. lra.
    + rewrite binary_entropy_link by lra. rewrite h_sym. reflexivity.
  - intros H. unfold binary_entropy. destruct (validate_probability p) eqn:V; [|reflexivity]. exfalso. apply H.
    unfold validate_probability in V. destruct (Rleb_spec 0 p), (Rleb_spec p 1); try discriminate. lra.
Qed.

Theorem C76_binary_entropy_increasing a b va vb : 0 <= a -> a < b -> b <= 1/2 ->
  binary_entropy a = Some va -> binary_entropy b = Some vb -> va < vb.
Proof.
  intros. pose proof ln2_pos as L2. rewrite binary_entropy_link in * by lra.
  assert (va = h_nats a / ln 2) by congruence. assert (vb = h_nats b / ln 2) by congruence. subst.
  apply Rmult_lt_compat_r; [apply Rinv_0_lt_compat; assumption|]. apply h_increasing; assumption.
Qed.

(* binary_entropy_inv: for 0 <= h <= 1 and tol > 0 the search ends, there is
   exactly one p in [0, 1/2] with Hb(p) = h and the result is within tol / 2 of
   it (exact at the end points) *)
Theorem C76_binary_entropy_inv tol h : 0 < tol -> 0 <= h <= 1 ->
  exists p, (0 <= p <= 1/2 /\ binary_entropy p = Some h) /\
    (forall p', 0 <= p' <= 1/2 -> binary_entropy p' = Some h -> p' = p) /\
    exists N r, (forall fuel, (N <= fuel)%nat -> binary_entropy_inv fuel tol h = Some r) /\ Rabs (r - p) <= tol / 2 /\
      (h = 0 \/ h = 1 -> r = p).
Proof.
  intros Ht Hh. pose proof ln2_pos as L2. destruct (h_onto (h * ln 2)) as (p & Hp & E); [split; nra|].
  exists p.
  assert (EP : binary_entropy p = Some h). { rewrite binary_entropy_link by lra. f_equal. rewrite E. field. lra. }
  assert (U : forall p', 0 <= p' <= 1/2 -> binary_entropy p' = Some h -> p' = p).
  { intros p' Hp' E'. destruct (Rtotal_order p' p) as [C|[C|C]]; [|assumption|].
    - pose proof (C76_binary_entropy_increasing p' p h h ltac:(lra) C ltac:(lra) E' EP). lra.
    - pose proof (C76_binary_entropy_increasing p p' h h ltac:(lra) C ltac:(lra) EP E'). lra. }
  split; [split; assumption|]. split; [assumption|]. unfold binary_entropy_inv.
  destruct (Rleb_spec 0 h); [|lra]. destruct (Rleb_spec h 1); [|lra]. cbn [andb].
  destruct (Reqb_spec h 0) as [Z|NZ]; [|destruct (Reqb_spec h 1) as [O|NO]]; cbn [orb].
  - exists 0%nat, (0.5 * h). split; [reflexivity|]. assert (0.5 * h = p) as ->.
    { apply U; [lra|]. rewrite Z, Rmult_0_r, binary_entropy_link, h_0 by lra. f_equal. field. lra. }
    split; [|reflexivity]. rewrite Rminus_diag_eq, Rabs_R0 by reflexivity. lra.
  - exists 0%nat, (0.5 * h). split; [reflexivity|]. assert (0.5 * h = p) as ->.
    { apply U; [lra|]. replace (0.5 * h) with (1/2) by lra. rewrite binary_entropy_link, h_half by lra. f_equal. rewrite O. field. lra. }
    split; [|reflexivity]. rewrite Rminus_diag_eq, Rabs_R0 by reflexivity. lra.
  - assert (HPos : 0 < p). { destruct (Req_dec p 0) as [->|]; [|lra]. rewrite h_0 in E. exfalso. nra. }
    destruct (Pow_x_infinity 2 ltac:(rewrite Rabs_right; lra) (0.5 / tol)) as (N & HN).
    assert (PW : 0.5 - 0 <= tol * 2 ^ N).
    { specialize (HN N ltac:(lia)). rewrite Rabs_right in HN by (apply Rle_ge; left; apply pow_lt; lra).
      apply Rge_le in HN. apply (Rmult_le_compat_l tol) in HN; [|lra]. replace (tol * (0.5 / tol)) with 0.5 in HN by (field; lra). lra. }
    pose proof (bisect_terminates N tol h 0 0.5 ltac:(lra) ltac:(lra) ltac:(lra) PW) as NT.
    pose proof (bisect_invariant (S N) tol h 0 0.5 p ltac:(lra) ltac:(lra) HPos ltac:(lra)) as INV.
    destruct (bisect (S N) tol h 0 0.5) as [res|] eqn:EB; [|congruence].
    exists (S N), res. split; [intros; apply (bisect_more _ _ _ _ _ _ EB); assumption|]. split; [|intros [?|?]; lra].
    apply INV. rewrite E. field. lra.
Qed.

(* a non-positive tolerance never ends (except at the end points) *)
Theorem C76_binary_entropy_inv_diverges tol h fuel : tol <= 0 -> 0 < h < 1 -> binary_entropy_inv fuel tol h = None.
Proof.
  intros. unfold binary_entropy_inv. destruct (Rleb_spec 0 h); [|lra]. destruct (Rleb_spec h 1); [|lra].
  destruct (Reqb_spec h 0); [lra|]. destruct (Reqb_spec h 1); [lra|]. cbn [andb orb]. apply bisect_diverges; lra.
Qed.

(* values outside [0, 1] are rejected *)
Theorem C76_binary_entropy_inv_rejects tol h fuel : h < 0 \/ 1 < h -> binary_entropy_inv fuel tol h = None.
Proof. intros H. unfold binary_entropy_inv. destruct (Rleb_spec 0 h), (Rleb_spec h 1); cbn [andb]; try reflexivity; lra. Qed.

(* relative_entropy: infinite exactly when q vanishes where p does not;
   otherwise the textbook value, never negative and zero only for p = q *)
Theorem C76_relative_entropy tol b n p q : 0 <= tol -> is_pmf n p -> is_pmf n q -> good_base b ->
  ((exists i, (i < n)%nat /\ 0 < nth i p 0 /\ nth i q 0 = 0) -> relative_entropy tol b p q = Some PInf) /\
  (~ (exists i, (i < n)%nat /\ 0 < nth i p 0 /\ nth i q 0 = 0) ->
     exists d, relative_entropy tol b p q = Some (Fin d) /\ d = D_nats n p q / ln (base_value b) /\ 0 <= d /\ (d = 0 <-> p = q)).
Proof.
  intros T P Q B. pose proof (good_ln b B) as L. unfold relative_entropy.
  rewrite (pmf_valid n p tol P T), (pmf_valid n q tol Q T), (good_valid b B). cbn [andb].
  pose proof P as (LP & NP & _). pose proof Q as (LQ & NQ & _). rewrite LP, LQ, Nat.eqb_refl.
  assert (CN : forall i, nth i (combine p q) (0, 0) = (nth i p 0, nth i q 0)) by (intros; apply combine_nth; congruence).
  assert (CL : length (combine p q) = n) by (rewrite combine_length, LP, LQ; apply Nat.min_id).
  set (pairs := filter _ (combine p q)).
  assert (EX : existsb (fun pq => Reqb (snd pq) 0) pairs = true <-> exists i, (i < n)%nat /\ 0 < nth i p 0 /\ nth i q 0 = 0).
  { rewrite existsb_exists. unfold pairs. split.
    - intros (pq & Hin & Z). apply filter_In in Hin. destruct Hin as [Hin F]. apply (In_nth _ _ (0, 0)) in Hin. destruct Hin as (i & Hi & <-). rewrite CN in *. cbn [fst snd] in *.
      exists i. rewrite CL in Hi. destruct (Rltb_spec 0 (nth i p 0)); [|discriminate]. destruct (Reqb_spec (nth i q 0) 0); [|discriminate]. auto.
    - intros (i & Hi & Hp & Z). exists (nth i p 0, nth i q 0). split.
      + apply filter_In. split; [rewrite <- CN; apply nth_In; lia|]. cbn [fst]. destruct (Rltb_spec 0 (nth i p 0)); [reflexivity|lra].
      + cbn [snd]. destruct (Reqb_spec (nth i q 0) 0); [reflexivity|contradiction]. }
  split.
  - intros H. apply EX in H. rewrite H. destruct b as [|v]; [reflexivity|]. unfold good_base in B. cbn [base_value] in B. destruct (Rltb_spec 1 v); [reflexivity|lra].
  - intros H. destruct (existsb _ pairs) eqn:EB; [exfalso; apply H, EX; reflexivity|].
    assert (Z : forall i, (i < n)%nat -> nth i q 0 = 0 -> nth i p 0 = 0).
    { intros i Hi E. destruct (Req_dec (nth i p 0) 0); [assumption|]. exfalso. apply H. exists i. specialize (NP i Hi). repeat split; [assumption|lra|assumption]. }
    pose proof (D_nonneg n p q P Q Z) as D0. pose proof (D_zero n p q P Q Z) as DZ.
    eexists. split; [reflexivity|].
    assert (EQ : Rsum (map (fun pq => fst pq * log_in b (fst pq / snd pq)) pairs) = D_nats n p q / ln (base_value b)).
    { unfold pairs. rewrite <- Rsum_filter_pos.
      - rewrite (Rsum_map_nth _ (combine p q) (0, 0)), CL. unfold D_nats, Rdiv. rewrite <- sum_scal_r. apply sum_ext. intros i Hi. rewrite CN. cbn [fst snd]. rewrite log_in_ln. unfold Rdiv. ring.
      - intros pq Hin Hp. apply (In_nth _ _ (0, 0)) in Hin. destruct Hin as (i & Hi & <-). rewrite CN in *. cbn [fst snd] in *. rewrite CL in Hi. specialize (NP i Hi). replace (nth i p 0) with 0 by lra. ring. }
    split; [exact EQ|]. rewrite EQ. split.
    + unfold Rdiv. apply Rmult_le_pos; [assumption|left; apply Rinv_0_lt_compat; assumption].
    + rewrite <- DZ. split; [|intros ->; field; lra]. intros E. apply (Rmult_eq_compat_r (ln (base_value b))) in E.
      replace (D_nats n p q / ln (base_value b) * ln (base_value b)) with (D_nats n p q) in E by (field; lra). lra.
Qed.

(* non-vacuity *)
Example pmf_example : is_pmf 3 [1/2; 1/4; 1/4].
Proof. split; [reflexivity|split]; [|cbn [sum_to nth]; lra]. intros [|[|[|i]]] Hi; cbn [nth]; try lra. lia. Qed.
Example base_example : good_base (Base 2) /\ good_base BaseE /\ validate_log_base (Base (1/2)) = true.
Proof.
  repeat apply conj; try (unfold good_base; cbn [base_value]; lra).
  - unfold good_base. cbn [base_value]. pose proof (exp_increasing 0 1 ltac:(lra)) as X. rewrite exp_0 in X. exact X.
  - cbn [validate_log_base]. destruct (Rleb_spec (1/2) 0); [lra|]. destruct (Reqb_spec (1/2) 1); [lra|reflexivity].
Qed.
Example entropy_example : entropy 0 (Base 2) [1/2; 1/4; 1/4] = Some (3 / 2).
Proof.
  pose proof ln2_pos. rewrite (C76_entropy 0 (Base 2) 3); [|lra|apply pmf_example|apply good_valid, base_example].
  f_equal. unfold H_nats. cbn [sum_to nth base_value]. replace (/ (1/2)) with 2 by field. replace (/ (1/4)) with (2 * 2) by field.
  rewrite ln_mult by lra. field. lra.
Qed.

(* ---- C77 ---- *)

(* mutual_information() is sum P(x) W(y|x) log (W(y|x) / P(y)) *)
Theorem C77_mutual_information tol b n m p W : 0 <= tol -> is_channel n m W -> is_pmf n p -> validate_log_base b = true ->
  mutual_information tol b p W = Some (I_nats n m p W / ln (base_value b)).
Proof. intros. apply mi_link; assumption. Qed.

(* never negative, at most the entropy of the input and of the output *)
Theorem C77_bounds tol b n m p W i hx : 0 <= tol -> is_channel n m W -> is_pmf n p -> good_base b ->
  mutual_information tol b p W = Some i -> entropy tol b p = Some hx ->
  0 <= i /\ i <= hx /\ i <= ln (INR n) / ln (base_value b) /\ i <= ln (INR m) / ln (base_value b).
Proof.
  intros T HW P B E EX. rewrite (mi_link n m W p tol b HW P T (good_valid b B)) in E. rewrite (entropy_link n p tol b P T (good_valid b B)) in EX.
  assert (i = I_nats n m p W / ln (base_value b)) by congruence. assert (hx = H_nats n p / ln (base_value b)) by congruence. subst.
  pose proof (Rinv_0_lt_compat _ (good_ln b B)). pose proof (I_nonneg n m W HW p P). pose proof (I_le_HX n m W HW p P). pose proof (H_max n p P).
  assert (I_nats n m p W <= ln (INR m)).
  { rewrite (I_entropy n m W HW p P).
    set (o := map (out_prob n p W) (seq 0 m)).
    assert (EO : forall y, (y < m)%nat -> nth y o 0 = out_prob n p W y) by (intros; apply nth_map_seq0; assumption).
    assert (PO : is_pmf m o) by (apply (out_is_pmf n m W HW p P); [unfold o; rewrite map_length, seq_length; reflexivity|assumption]).
    pose proof (H_max m o PO) as HM. unfold H_nats in HM. rewrite (sum_ext m _ (fun y => out_prob n p W y * ln (/ out_prob n p W y))) in HM by (intros; rewrite EO by assumption; reflexivity).
    assert (0 <= sum_to n (fun x => nth x p 0 * H_nats m (nth x W []))).
    { apply sum_nonneg. intros. apply Rmult_le_pos; [apply P; assumption|]. apply H_nonneg. apply HW. assumption. }
    lra. }
  unfold Rdiv. repeat split; nra.
Qed.

Lemma div_log2 b v : validate_log_base b = true -> v / ln 2 / log2 (base_value b) = v / ln (base_value b).
Proof. intros V. unfold log2. pose proof ln2_pos. pose proof (base_ln b V). field. lra. Qed.

(* the closed forms of the three named channels *)
Theorem C77_bsc tol b p pmf : 0 <= tol -> 0 <= p <= 1 -> is_pmf 2 pmf -> validate_log_base b = true ->
  bsc_mutual_information tol p b pmf = mutual_information tol b pmf (bsc_matrix p) /\
  bsc_mutual_information tol p b pmf = Some (I_nats 2 2 pmf (bsc_matrix p) / ln (base_value b)).
Proof.
  intros T Hp P V. rewrite (mi_link 2 2 _ pmf tol b (bsc_channel p Hp) P T V).
  enough (E : bsc_mutual_information tol p b pmf = Some (I_nats 2 2 pmf (bsc_matrix p) / ln (base_value b))) by (split; exact E).
  unfold bsc_mutual_information. rewrite (pmf_valid 2 pmf tol P T), V. apply pmf2 in P. destruct P as (t & -> & Ht). cbn [andb second nth_error].
  rewrite !binary_entropy_link by nra. cbn [opt2]. f_equal. rewrite bsc_I by assumption. rewrite <- div_log2 by assumption. unfold Rdiv. ring.
Qed.
Theorem C77_bec tol b e pmf : 0 <= tol -> 0 <= e <= 1 -> is_pmf 2 pmf -> validate_log_base b = true ->
  bec_mutual_information tol e b pmf = mutual_information tol b pmf (bec_matrix e) /\
  bec_mutual_information tol e b pmf = Some (I_nats 2 3 pmf (bec_matrix e) / ln (base_value b)).
Proof.
  intros T Hp P V. rewrite (mi_link 2 3 _ pmf tol b (bec_channel e Hp) P T V).
  enough (E : bec_mutual_information tol e b pmf = Some (I_nats 2 3 pmf (bec_matrix e) / ln (base_value b))) by (split; exact E).
  unfold bec_mutual_information. rewrite (pmf_valid 2 pmf tol P T), V. apply pmf2 in P. destruct P as (t & -> & Ht). cbn [andb second nth_error].
  rewrite !binary_entropy_link by lra. cbn [option_map]. f_equal. rewrite bec_I by assumption. rewrite <- div_log2 by assumption. unfold Rdiv. ring.
Qed.
Theorem C77_z tol b p pmf : 0 <= tol -> 0 <= p <= 1 -> is_pmf 2 pmf -> validate_log_base b = true ->
  z_mutual_information tol p b pmf = mutual_information tol b pmf (z_matrix p) /\
  z_mutual_information tol p b pmf = Some (I_nats 2 2 pmf (z_matrix p) / ln (base_value b)).
Proof.
  intros T Hp P V. rewrite (mi_link 2 2 _ pmf tol b (z_channel p Hp) P T V).
  enough (E : z_mutual_information tol p b pmf = Some (I_nats 2 2 pmf (z_matrix p) / ln (base_value b))) by (split; exact E).
  unfold z_mutual_information. rewrite (pmf_valid 2 pmf tol P T), V. apply pmf2 in P. destruct P as (t & -> & Ht). cbn [andb second nth_error].
  rewrite !binary_entropy_link by nra. cbn [opt2]. f_equal. rewrite z_I by assumption. rewrite <- div_log2 by assumption. unfold Rdiv. ring.
Qed.

(* Finding: the closed forms read input_pmf[1] and never look at the length: a
   pmf over three symbols is accepted where the general channel raises *)
Theorem C77_length_refuted : exists pmf v, length pmf = 3%nat /\
  bsc_mutual_information 0 0 (Base 2) pmf = Some v /\ mutual_information 0 (Base 2) pmf (bsc_matrix 0) = None.
Proof.
  exists [1/2; 1/4; 1/4]. unfold bsc_mutual_information, mutual_information. rewrite (pmf_valid 3 [1/2; 1/4; 1/4] 0 pmf_example (Rle_refl 0)).
  rewrite (good_valid (Base 2) (proj1 base_example)). cbn [andb second nth_error]. rewrite !binary_entropy_link by lra. cbn [opt2].
  eexists. split; [reflexivity|]. split; [reflexivity|]. cbn [length bsc_matrix]. rewrite andb_false_r. reflexivity.
Qed.

(* ---- C78 ---- *)

Theorem C78_bsc p b : 0 <= p <= 1 -> validate_log_base b = true ->
  exists c, is_capacity 2 2 (bsc_matrix p) c /\ bsc_capacity p b = Some (c / ln (base_value b)).
Proof.
  intros Hp V. exists (ln 2 - h_nats p). split; [apply bsc_cap; assumption|]. unfold bsc_capacity. rewrite V, binary_entropy_link by assumption.
  cbn [option_map]. f_equal. rewrite <- div_log2 by assumption. pose proof ln2_pos. pose proof (base_ln b V). unfold log2. field. lra.
Qed.
Theorem C78_bec e b : 0 <= e <= 1 -> validate_log_base b = true ->
  exists c, is_capacity 2 3 (bec_matrix e) c /\ bec_capacity e b = Some (c / ln (base_value b)).
Proof.
  intros Hp V. exists ((1 - e) * ln 2). split; [apply bec_cap; assumption|]. unfold bec_capacity. rewrite V.
  f_equal. rewrite <- div_log2 by assumption. pose proof ln2_pos. pose proof (base_ln b V). unfold log2. field. lra.
Qed.
Theorem C78_z p b : 0 <= p <= 1 -> validate_log_base b = true ->
  exists c, is_capacity 2 2 (z_matrix p) c /\ z_capacity p b = Some (c / ln (base_value b)).
Proof.
  intros Hp V. unfold z_capacity. rewrite V. destruct (Reqb_spec p 1) as [->|N].
  - exists 0. split; [apply z_cap_one|]. f_equal. field. apply base_ln. assumption.
  - exists (ln (1 + (1 - p) * rpow p (p / (1 - p)))). split; [apply z_cap; lra|]. f_equal. unfold log2 at 1. apply div_log2. assumption.
Qed.

(* a capacity is unique, so the three values above are the capacities *)
Theorem C78_unique n m W c c' : is_capacity n m W c -> is_capacity n m W c' -> c = c'.
Proof. intros [(p & P & <-) M] [(q & Q & <-) M']. apply Rle_antisym; auto. Qed.

(* ---- C79 ---- *)

(* every pass returns a positive pmf whose mutual information is not smaller *)
Theorem C79_monotone n m W r : is_channel n m W -> is_pmf n r -> (forall x, (x < n)%nat -> 0 < nth x r 0) ->
  is_pmf n (ab_step W r) /\ (forall x, (x < n)%nat -> 0 < nth x (ab_step W r) 0) /\
  I_nats n m r W <= I_nats n m (ab_step W r) W.
Proof.
  intros HW P Pos. pose proof (pmf_pos_n n r P) as Hn. assert (PP : positive_pmf n r) by (split; assumption).
  destruct (step_pmf n m W HW Hn r PP) as [A B]. split; [assumption|split; [assumption|]]. apply (step_increases n m W HW Hn r PP).
Qed.

(* DiscreteMemorylessChannel.capacity(): the value is the mutual information of
   some pmf -- so never above the capacity --, never below that of the uniform
   pmf, and within log(n) / k of the mutual information of every pmf, where k is
   the number of passes made: 1000, or fewer when a pass moved no probability by
   more than 1e-12 *)
Theorem C79_capacity tol b n m W : 0 <= tol -> (0 < n)%nat -> is_channel n m W -> good_base b ->
  exists v r k, dmc_capacity tol b W = Some v /\ is_pmf n r /\ v = I_nats n m r W / ln (base_value b) /\
    I_nats n m (repeat (1 / INR n) n) W / ln (base_value b) <= v /\
    (1 <= k <= 1000)%nat /\
    (forall s, is_pmf n s -> I_nats n m s W / ln (base_value b) <= v + ln (INR n) / ln (base_value b) / INR k) /\
    (k = 1000%nat \/ exists r', is_pmf n r' /\ r = ab_step W r' /\ forall x, (x < n)%nat -> Rabs (nth x r 0 - nth x r' 0) <= / 1000000000000).
Proof.
  intros T Hn HW B. pose proof HW as (LW & _). unfold dmc_capacity. rewrite LW.
  set (u := repeat (1 / INR n) n). pose proof (uniform_pmf n Hn) as PU. fold u in PU.
  remember 1000%nat as fuel eqn:EF.
  destruct (loop_iterate n m W HW Hn fuel (/ 1000000000000) u None (repeat_length _ _)) as (k & Hk & E & D). rewrite E.
  pose proof (iterate_pmf n m W HW Hn k u PU) as [Pk _]. rewrite (mi_link n m W _ tol b HW Pk T (good_valid b B)).
  pose proof (Rinv_0_lt_compat _ (good_ln b B)) as LI.
  assert (K1 : (1 <= k)%nat). { destruct D as [->|[(j & -> & _)|(_ & D)]]; [rewrite EF; clear; lia|lia|discriminate]. }
  eexists. exists (iterate W k u), k. split; [reflexivity|]. split; [exact Pk|]. split; [reflexivity|]. split; [|split; [|split]].
  - unfold Rdiv. apply Rmult_le_compat_r; [lra|]. apply (iterate_from n m W HW Hn k u PU).
  - split; assumption.
  - intros s Hs. pose proof (uniform_gap n m W HW Hn k s Hs) as G. fold u in G. assert (KP : 0 < INR k) by (apply lt_0_INR; lia).
    replace (I_nats n m (iterate W k u) W / ln (base_value b) + ln (INR n) / ln (base_value b) / INR k)
      with ((I_nats n m (iterate W k u) W + ln (INR n) / INR k) / ln (base_value b)) by (field; pose proof (good_ln b B); lra).
    unfold Rdiv at 1 2. apply Rmult_le_compat_r; [lra|].
    assert (I_nats n m s W - I_nats n m (iterate W k u) W <= ln (INR n) / INR k); [|lra].
    apply (Rmult_le_reg_l (INR k)); [assumption|]. replace (INR k * (ln (INR n) / INR k)) with (ln (INR n)) by (field; lra). assumption.
  - destruct D as [->|[(j & -> & D)|(_ & D)]]; [left; reflexivity| |discriminate].
    right. exists (iterate W j u). split; [apply (iterate_pmf n m W HW Hn j u PU)|]. split; [reflexivity|]. exact D.
Qed.

(* for a channel with capacity c (in nats) *)
Corollary C79_capacity_error tol b n m W c : 0 <= tol -> (0 < n)%nat -> is_channel n m W -> good_base b -> is_capacity n m W c ->
  exists v k, dmc_capacity tol b W = Some v /\ (1 <= k <= 1000)%nat /\
    v <= c / ln (base_value b) <= v + ln (INR n) / ln (base_value b) / INR k /\
    (k = 1000%nat \/ exists r r', is_pmf n r' /\ r = ab_step W r' /\ v = I_nats n m r W / ln (base_value b) /\
       forall x, (x < n)%nat -> Rabs (nth x r 0 - nth x r' 0) <= / 1000000000000).
Proof.
  intros T Hn HW B [(p & P & Ep) M]. destruct (C79_capacity tol b n m W T Hn HW B) as (v & r & k & E & R & Ev & _ & K & U & D).
  exists v, k. split; [assumption|]. split; [assumption|]. split; [split|].
  - rewrite Ev. unfold Rdiv. apply Rmult_le_compat_r; [left; apply Rinv_0_lt_compat, good_ln; assumption|]. apply M. assumption.
  - rewrite <- Ep. apply U. assumption.
  - destruct D as [D|(r' & D1 & D2 & D3)]; [left; assumption|right]. exists r, r'. auto.
Qed.

Example channel_example : is_channel 2 3 (bec_matrix (1/4)) /\ is_capacity 2 3 (bec_matrix (1/4)) ((1 - 1/4) * ln 2).
Proof. split; [apply bec_channel; lra|apply bec_cap; lra]. Qed.
