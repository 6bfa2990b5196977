(* The binary entropy function, its inverse, and the closed-form channels. *)
From Coq Require Import Reals List Lia Lra Arith Psatz Bool.
From Verif Require Import FB_Model FB_Proof Quant_Model Quant_Proof Info_Model Info_Spec Info_Sums Info_Proof Info_Link.
Import ListNotations.
Local Open Scope R_scope.

Lemma ln2_pos : 0 < ln 2.
Proof. rewrite <- ln_1. apply ln_increasing; lra. Qed.

Lemma h_sym p : h_nats (1 - p) = h_nats p.
Proof. unfold h_nats. replace (1 - (1 - p)) with p by lra. lra. Qed.
Lemma h_0 : h_nats 0 = 0.
Proof. unfold h_nats. replace (1 - 0) with 1 by lra. rewrite Rinv_1, ln_1. lra. Qed.
Lemma h_1 : h_nats 1 = 0.
Proof. rewrite <- h_sym. replace (1 - 1) with 0 by lra. apply h_0. Qed.
Lemma h_half : h_nats (1 / 2) = ln 2.
Proof. unfold h_nats. replace (1 - 1 / 2) with (1 / 2) by lra. replace (/ (1 / 2)) with 2 by field. lra. Qed.

(* cross entropy bound *)
Lemma h_cross a b : 0 <= a <= 1 -> 0 < b < 1 -> h_nats a <= - (a * ln b) - (1 - a) * ln (1 - b).
Proof.
  intros Ha Hb. unfold h_nats. rewrite !pln_inv by lra.
  pose proof (gibbs1 a b ltac:(lra) ltac:(lra) ltac:(lra)). pose proof (gibbs1 (1 - a) (1 - b) ltac:(lra) ltac:(lra) ltac:(lra)). lra.
Qed.
Lemma h_cross_lt a b : 0 <= a <= 1 -> 0 < b < 1 -> a <> b -> h_nats a < - (a * ln b) - (1 - a) * ln (1 - b).
Proof.
  intros Ha Hb Nab. unfold h_nats. rewrite !pln_inv by lra.
  pose proof (gibbs1 a b ltac:(lra) ltac:(lra) ltac:(lra)). pose proof (gibbs1 (1 - a) (1 - b) ltac:(lra) ltac:(lra) ltac:(lra)).
  assert (a - b <> a * (ln a - ln b)). { intros E. apply Nab. apply gibbs1_eq; lra. } lra.
Qed.
Lemma h_le_ln2 a : 0 <= a <= 1 -> h_nats a <= ln 2.
Proof.
  intros Ha. pose proof (h_cross a (1/2) Ha ltac:(lra)). replace (1 - 1/2) with (1/2) in H by lra.
  rewrite ln_div, ln_1 in H by lra. lra.
Qed.
Lemma h_nonneg a : 0 <= a <= 1 -> 0 <= h_nats a.
Proof. intros. unfold h_nats. pose proof (H_term_nonneg a ltac:(lra) ltac:(lra)). pose proof (H_term_nonneg (1 - a) ltac:(lra) ltac:(lra)). lra. Qed.
Lemma h_increasing a b : 0 <= a -> a < b -> b <= 1/2 -> h_nats a < h_nats b.
Proof.
  intros. pose proof (h_cross_lt a b ltac:(lra) ltac:(lra) ltac:(lra)).
  assert (ln b <= ln (1 - b)) by (apply ln_mono; lra).
  assert (E : h_nats b = - (b * ln b) - (1 - b) * ln (1 - b)) by (unfold h_nats; rewrite !pln_inv by lra; lra).
  rewrite E. nra.
Qed.

(* continuity *)
Lemma xlnx_bound y : 0 < y -> y <= 1 -> - (y * ln y) <= 2 * sqrt y.
Proof.
  intros Hy H1. assert (S : 0 < sqrt y) by (apply sqrt_lt_R0; assumption). pose proof (sqrt_def y ltac:(lra)) as SD.
  pose proof (ln_le_sub (/ sqrt y) ltac:(apply Rinv_0_lt_compat; assumption)) as B. rewrite ln_Rinv in B by assumption.
  assert (LY : ln y = 2 * ln (sqrt y)) by (rewrite <- SD at 1; rewrite ln_mult by assumption; lra).
  assert (y * (- ln y) <= y * (2 * / sqrt y)). { apply Rmult_le_compat_l; lra. }
  replace (y * (2 * / sqrt y)) with (2 * sqrt y) in H; [lra|]. rewrite <- SD at 2. field. lra.
Qed.
Lemma ln_nonpos x : x <= 0 -> ln x = 0.
Proof. intros. unfold ln. destruct (Rlt_dec 0 x); [exfalso; lra|reflexivity]. Qed.

Lemma xlnx_continuous : continuity (fun x => x * ln x).
Proof.
  intros x. destruct (Rtotal_order x 0) as [Hx|[->|Hx]].
  - intros eps He. exists (- x). split; [lra|]. intros y [_ D]. simpl in *. unfold R_dist in *.
    assert (y < 0). { apply Rabs_def2 in D. lra. } rewrite !ln_nonpos by lra. rewrite !Rmult_0_r, Rminus_0_r, Rabs_R0. assumption.
  - intros eps He. exists (Rmin 1 ((eps / 2) * (eps / 2))). split; [apply Rmin_glb_lt; [lra|nra]|].
    intros y [_ D]. simpl in *. unfold R_dist in *. rewrite Rmult_0_l, Rminus_0_r in *.
    destruct (Rle_dec y 0) as [Hy|Hy]; [rewrite ln_nonpos by assumption; rewrite Rmult_0_r, Rabs_R0; assumption|].
    assert (0 < y) by lra. rewrite (Rabs_right y) in D by lra.
    pose proof (Rmin_l 1 (eps / 2 * (eps / 2))). pose proof (Rmin_r 1 (eps / 2 * (eps / 2))).
    pose proof (xlnx_bound y H ltac:(lra)). pose proof (ln_le0 y H ltac:(lra)).
    assert (sqrt y < eps / 2). { rewrite <- (sqrt_square (eps / 2)) by lra. apply sqrt_lt_1_alt. lra. }
    rewrite Rabs_left1 by nra. lra.
  - apply derivable_continuous_pt. apply derivable_pt_mult; [apply derivable_pt_id|]. exists (/ x). apply derivable_pt_lim_ln. assumption.
Qed.

Definition hc (x : R) : R := - (x * ln x) - ((1 - x) * ln (1 - x)).
Lemma hc_continuous : continuity hc.
Proof.
  unfold hc. apply (continuity_minus (fun x => - (x * ln x)) (fun x => (1 - x) * ln (1 - x))).
  - apply (continuity_opp (fun x => x * ln x)), xlnx_continuous.
  - apply (continuity_comp (fun x => 1 - x) (fun x => x * ln x)); [|apply xlnx_continuous].
    apply (continuity_minus (fun _ => 1) (fun x => x)); [apply continuity_const; intros ? ?; reflexivity|apply derivable_continuous, derivable_id].
Qed.
Lemma hc_h x : 0 <= x <= 1 -> hc x = h_nats x.
Proof. intros. unfold hc, h_nats. rewrite !pln_inv by lra. lra. Qed.

Lemma h_onto v : 0 <= v <= ln 2 -> exists p, 0 <= p <= 1/2 /\ h_nats p = v.
Proof.
  intros Hv. destruct (IVT_cor (fun x => hc x - v) 0 (1/2)) as (z & Hz & E).
  - apply (continuity_minus hc (fun _ => v)); [apply hc_continuous|apply continuity_const; intros ? ?; reflexivity].
  - lra.
  - rewrite !hc_h, h_0, h_half by lra. nra.
  - exists z. split; [assumption|]. rewrite <- hc_h by lra. lra.
Qed.

Lemma validate_probability_true p : 0 <= p <= 1 -> validate_probability p = true.
Proof. intros. unfold validate_probability. destruct (Rleb_spec 0 p), (Rleb_spec p 1); try lra; reflexivity. Qed.
Lemma binary_entropy_link p : 0 <= p <= 1 -> binary_entropy p = Some (h_nats p / ln 2).
Proof.
  intros Hp. pose proof ln2_pos. unfold binary_entropy. rewrite validate_probability_true by assumption. f_equal.
  destruct (Reqb_spec p 0) as [->|]; cbn [orb]; [rewrite h_0; field; lra|].
  destruct (Reqb_spec p 1) as [->|]; [rewrite h_1; field; lra|].
  unfold log2, h_nats. rewrite !pln_inv by lra. field. lra.
Qed.

(* the bisection *)
Lemma bisect_invariant fuel : forall tol h low high p, 0 <= low -> high <= 1/2 -> low < p -> p <= high -> h = h_nats p / ln 2 ->
  match bisect fuel tol h low high with Some r => Rabs (r - p) <= tol / 2 | None => True end.
Proof.
  pose proof ln2_pos as L2. induction fuel as [|fuel IH]; intros tol h low high p H0 H1 H2 H3 E; cbn [bisect]; [exact I|].
  destruct (Rltb_spec tol (high - low)) as [C|C].
  - rewrite binary_entropy_link by lra. destruct (Rltb_spec (h_nats ((low + high) / 2) / ln 2) h) as [D|D].
    + apply IH; try lra. destruct (Rle_dec p ((low + high) / 2)) as [Q|]; [exfalso|lra].
      assert (h_nats p <= h_nats ((low + high) / 2)). { destruct (Req_dec p ((low + high) / 2)) as [<-|]; [lra|]. left. apply h_increasing; lra. }
      rewrite E in D. apply Rmult_lt_reg_r in D; [lra|apply Rinv_0_lt_compat; assumption].
    + apply IH; try lra. destruct (Rle_dec p ((low + high) / 2)) as [|Q]; [assumption|exfalso].
      assert (h_nats ((low + high) / 2) < h_nats p) by (apply h_increasing; lra).
      apply D. rewrite E. apply Rmult_lt_compat_r; [apply Rinv_0_lt_compat; assumption|assumption].
  - unfold Rabs. destruct (Rcase_abs _); lra.
Qed.
Lemma bisect_S fuel tol h low high : bisect (S fuel) tol h low high =
  if Rltb tol (high - low) then
    match binary_entropy ((low + high) / 2) with
    | Some v => if Rltb v h then bisect fuel tol h ((low + high) / 2) high else bisect fuel tol h low ((low + high) / 2)
    | None => None
    end
  else Some ((low + high) / 2).
Proof. reflexivity. Qed.
Lemma bisect_terminates fuel : forall tol h low high, 0 <= low -> high <= 1/2 -> low <= high -> high - low <= tol * 2 ^ fuel ->
  bisect (S fuel) tol h low high <> None.
Proof.
  induction fuel as [|fuel IH]; intros tol h low high H0 H1 H2 H3.
  - cbn [bisect]. destruct (Rltb_spec tol (high - low)); [cbn [pow] in H3; lra|]. discriminate.
  - rewrite bisect_S. destruct (Rltb_spec tol (high - low)) as [C|]; [|discriminate]. rewrite binary_entropy_link by lra. cbn [pow] in H3.
    destruct (Rltb _ h); apply IH; try lra.
Qed.
Lemma bisect_more fuel : forall tol h low high r, bisect fuel tol h low high = Some r -> forall fuel', (fuel <= fuel')%nat -> bisect fuel' tol h low high = Some r.
Proof.
  induction fuel as [|fuel IH]; intros tol h low high r E fuel' Hf; [discriminate|]. destruct fuel' as [|fuel']; [lia|]. cbn [bisect] in *.
  destruct (Rltb tol (high - low)); [|assumption]. destruct (binary_entropy ((low + high) / 2)); [|discriminate].
  destruct (Rltb r0 h); apply (IH _ _ _ _ _ E); lia.
Qed.
Lemma bisect_diverges fuel : forall tol h low high, 0 <= low -> high <= 1/2 -> low < high -> tol <= 0 -> bisect fuel tol h low high = None.
Proof.
  induction fuel as [|fuel IH]; intros; [reflexivity|]. cbn [bisect]. destruct (Rltb_spec tol (high - low)); [|lra].
  rewrite binary_entropy_link by lra. destruct (Rltb _ h); apply IH; lra.
Qed.

(* ---- closed-form channels, in nats ---- *)
Lemma pmf2 p : is_pmf 2 p -> exists t, p = [1 - t; t] /\ 0 <= t <= 1.
Proof.
  intros (L & N & S). destruct p as [|a [|t [|? ?]]]; try discriminate. pose proof (N 0%nat ltac:(lia)). pose proof (N 1%nat ltac:(lia)).
  cbn [sum_to nth] in *. exists t. split; [|lra]. f_equal. lra.
Qed.
Lemma pmf2_intro t : 0 <= t <= 1 -> is_pmf 2 [1 - t; t].
Proof.
  intros. split; [reflexivity|split]; [|cbn [sum_to nth]; lra]. intros [|[|i]] Hi; cbn [nth]; try lra. lia.
Qed.

Lemma bsc_channel p : 0 <= p <= 1 -> is_channel 2 2 (bsc_matrix p).
Proof.
  intros. split; [reflexivity|]. intros [|[|x]] Hx; cbn [bsc_matrix nth]; [apply pmf2_intro; assumption| |lia].
  replace p with (1 - (1 - p)) at 1 by lra. apply pmf2_intro. lra.
Qed.
Lemma z_channel p : 0 <= p <= 1 -> is_channel 2 2 (z_matrix p).
Proof.
  intros. split; [reflexivity|]. intros [|[|x]] Hx; cbn [z_matrix nth]; [| |lia].
  - replace 1 with (1 - 0) by lra. apply pmf2_intro. lra.
  - replace p with (1 - (1 - p)) at 1 by lra. apply pmf2_intro. lra.
Qed.
Lemma bec_channel e : 0 <= e <= 1 -> is_channel 2 3 (bec_matrix e).
Proof.
  intros. split; [reflexivity|]. intros [|[|x]] Hx; cbn [bec_matrix nth]; [| |lia]; (split; [reflexivity|split]; [|cbn [sum_to nth]; lra]); intros [|[|[|i]]] Hi; cbn [nth]; try lra; lia.
Qed.

Lemma h_pair (s : R) : (1 - s) * ln (/ (1 - s)) + s * ln (/ s) = h_nats s.
Proof. unfold h_nats. lra. Qed.

Lemma bsc_I p t : 0 <= p <= 1 -> 0 <= t <= 1 -> I_nats 2 2 [1 - t; t] (bsc_matrix p) = h_nats (p + t - 2 * p * t) - h_nats p.
Proof.
  intros Hp Ht. rewrite (I_entropy 2 2 (bsc_matrix p) (bsc_channel p Hp) [1 - t; t] (pmf2_intro t Ht)).
  unfold H_nats, out_prob, bsc_matrix. cbn [sum_to nth].
  replace (0 + (1 - t) * (1 - p) + t * p) with (1 - (p + t - 2 * p * t)) by ring.
  replace (0 + (1 - t) * p + t * (1 - p)) with (p + t - 2 * p * t) by ring.
  unfold h_nats. ring.
Qed.
Lemma z_I p t : 0 <= p <= 1 -> 0 <= t <= 1 -> I_nats 2 2 [1 - t; t] (z_matrix p) = h_nats (t * (1 - p)) - t * h_nats p.
Proof.
  intros Hp Ht. rewrite (I_entropy 2 2 (z_matrix p) (z_channel p Hp) [1 - t; t] (pmf2_intro t Ht)).
  unfold H_nats, out_prob, z_matrix. cbn [sum_to nth].
  replace (0 + (1 - t) * 1 + t * p) with (1 - t * (1 - p)) by ring.
  replace (0 + (1 - t) * 0 + t * (1 - p)) with (t * (1 - p)) by ring.
  rewrite Rinv_1, ln_1. unfold h_nats. ring.
Qed.
Lemma bec_I e t : 0 <= e <= 1 -> 0 <= t <= 1 -> I_nats 2 3 [1 - t; t] (bec_matrix e) = (1 - e) * h_nats t.
Proof.
  intros He Ht. unfold I_nats, out_prob, bec_matrix. cbn [sum_to nth].
  replace (0 + (1 - t) * (1 - e) + t * 0) with ((1 - t) * (1 - e)) by ring.
  replace (0 + (1 - t) * 0 + t * (1 - e)) with (t * (1 - e)) by ring.
  replace (0 + (1 - t) * e + t * e) with e by ring.
  assert (EE : forall c, c * e * ln (e / e) = 0).
  { intros c. destruct (Req_dec e 0) as [->|]; [ring|]. unfold Rdiv. rewrite Rinv_r by assumption. rewrite ln_1. ring. }
  rewrite !EE.
  assert (TT : forall c, c * (1 - e) * ln ((1 - e) / (c * (1 - e))) = (1 - e) * (c * ln (/ c))).
  { intros c. destruct (Req_dec (c * (1 - e)) 0) as [Z|Z].
    - rewrite Z. transitivity ((c * (1 - e)) * ln (/ c)); [rewrite Z; ring|ring].
    - replace ((1 - e) / (c * (1 - e))) with (/ c); [ring|]. field. split; intros E; apply Z; rewrite E; ring. }
  rewrite !TT. unfold h_nats. ring.
Qed.

Lemma bsc_cap p : 0 <= p <= 1 -> is_capacity 2 2 (bsc_matrix p) (ln 2 - h_nats p).
Proof.
  intros Hp. split.
  - exists [1 - 1/2; 1/2]. split; [apply pmf2_intro; lra|]. rewrite bsc_I by lra. replace (p + 1 / 2 - 2 * p * (1 / 2)) with (1/2) by field. rewrite h_half. reflexivity.
  - intros q Hq. apply pmf2 in Hq. destruct Hq as (t & -> & Ht). rewrite bsc_I by assumption.
    assert (0 <= p + t - 2 * p * t <= 1) by nra. pose proof (h_le_ln2 _ H). lra.
Qed.
Lemma bec_cap e : 0 <= e <= 1 -> is_capacity 2 3 (bec_matrix e) ((1 - e) * ln 2).
Proof.
  intros He. split.
  - exists [1 - 1/2; 1/2]. split; [apply pmf2_intro; lra|]. rewrite bec_I, h_half by lra. reflexivity.
  - intros q Hq. apply pmf2 in Hq. destruct Hq as (t & -> & Ht). rewrite bec_I by assumption.
    apply Rmult_le_compat_l; [lra|]. apply h_le_ln2. assumption.
Qed.

Lemma z_cap_one : is_capacity 2 2 (z_matrix 1) 0.
Proof.
  split.
  - exists [1 - 0; 0]. split; [apply pmf2_intro; lra|]. rewrite z_I by lra. rewrite Rmult_0_l, h_0. lra.
  - intros q Hq. apply pmf2 in Hq. destruct Hq as (t & -> & Ht). rewrite z_I by lra. replace (t * (1 - 1)) with 0 by ring. rewrite h_0, h_1. lra.
Qed.

Lemma z_power p : 0 <= p < 1 -> (1 - p) * rpow p (p / (1 - p)) = exp (- (h_nats p / (1 - p))).
Proof.
  intros Hp. unfold rpow. destruct (Reqb_spec (p / (1 - p)) 0) as [E|NE].
  - assert (p = 0). { apply (Rmult_eq_compat_r (1 - p)) in E. replace (p / (1 - p) * (1 - p)) with p in E by (field; lra). lra. }
    subst p. rewrite h_0. replace (- (0 / (1 - 0))) with 0 by field. rewrite exp_0. lra.
  - destruct (Reqb_spec p 0) as [->|Np]; [exfalso; apply NE; field|].
    rewrite <- (exp_ln (1 - p)) at 1 by lra. rewrite <- exp_plus. f_equal. unfold h_nats. rewrite !pln_inv by lra. field. lra.
Qed.

Lemma z_cap p : 0 <= p < 1 -> is_capacity 2 2 (z_matrix p) (ln (1 + (1 - p) * rpow p (p / (1 - p)))).
Proof.
  intros Hp. rewrite z_power by assumption. set (q := 1 - p). assert (Hq : 0 < q <= 1) by (unfold q; lra).
  set (E := exp (h_nats p / q)).
  assert (E0 : 0 < E) by apply exp_pos. assert (EI : exp (- (h_nats p / q)) = / E) by (unfold E; apply exp_Ropp). rewrite EI.
  set (s := / (1 + E)). assert (S0 : 0 < s) by (unfold s; apply Rinv_0_lt_compat; lra).
  assert (S1 : 1 - s = E * s) by (unfold s; field; lra). assert (S2 : 0 < 1 - s) by (rewrite S1; apply Rmult_lt_0_compat; assumption).
  assert (LS : ln (1 - s) = h_nats p / q + ln s). { rewrite S1, ln_mult by assumption. unfold E. rewrite ln_exp. reflexivity. }
  assert (LC : ln (1 + / E) = - ln (1 - s)).
  { rewrite <- ln_Rinv by assumption. f_equal. rewrite S1. unfold s. field. lra. }
  rewrite LC.
  assert (B : forall t, 0 <= t <= 1 -> - (t * q * ln s) - (1 - t * q) * ln (1 - s) - t * h_nats p = - ln (1 - s)).
  { intros t Ht. assert (ln s = ln (1 - s) - h_nats p / q) as -> by lra. field. lra. }
  split.
  - (* attained at s / q *)
    assert (SQ : s <= q).
    { assert (h_nats p >= 0) by (apply Rle_ge, h_nonneg; lra).
      assert (PE : p <= q * E).
      { destruct (Req_dec p 0) as [->|]; [apply Rmult_le_pos; lra|].
        assert (ln p <= ln q + h_nats p / q).
        { assert (LP : ln p <= 0) by (apply ln_le0; lra).
          replace (ln q + h_nats p / q) with (- (p * ln p) / q).
          - assert (0 <= - (p * ln p) / q). { apply Rmult_le_pos; [nra|left; apply Rinv_0_lt_compat; lra]. } lra.
          - unfold h_nats. rewrite !pln_inv by lra. unfold q. field. unfold q in Hq. lra. }
        assert (PX : exp (ln p) <= exp (ln q + h_nats p / q)) by (destruct H1; [left; apply exp_increasing; assumption|right; f_equal; assumption]).
        rewrite exp_plus, !exp_ln in PX by lra. exact PX. }
      unfold s. apply (Rmult_le_reg_r (1 + E)); [lra|]. rewrite Rinv_l by lra. unfold q in *. nra. }
    assert (T : 0 <= s / q <= 1).
    { split; [apply Rmult_le_pos; [lra|left; apply Rinv_0_lt_compat; lra]|].
      apply (Rmult_le_reg_r q); [lra|]. replace (s / q * q) with s by (field; lra). lra. }
    exists [1 - s / q; s / q]. split; [apply pmf2_intro; assumption|]. rewrite z_I by lra. fold q.
    rewrite <- (B (s / q) T). replace (s / q * q) with s by (field; lra). unfold h_nats at 1. rewrite !pln_inv by lra. lra.
  - intros r Hr. apply pmf2 in Hr. destruct Hr as (t & -> & Ht). rewrite z_I by lra. fold q.
    rewrite <- (B t Ht). assert (0 <= t * q <= 1) by nra. pose proof (h_cross (t * q) s H ltac:(lra)). lra.
Qed.
