(* Vectors as polynomials: from_coefficients / coefficients. *)
From Verif Require Import Common Bits_Model Bits_Proof BinPoly_Model Vec_Model Vec_Proof LinAlg_Model LinAlg_Proof
  BlockCode_Model CosetLeaders_Proof Cyclic_Model.
From Verif Require PolyN_Proof.
Local Open Scope nat_scope.

Lemma bit_length_bound a w : bit_length a <= w <-> (a < 2 ^ N.of_nat w)%N.
Proof.
  unfold bit_length. revert w. destruct a as [|p]; intros w.
  - cbn [N.size_nat]. split; intros; [|lia]. pose proof (N.pow_nonzero 2 (N.of_nat w)). lia.
  - cbn [N.size_nat]. revert w. induction p as [p IH|p IH|]; intros w; cbn [Pos.size_nat].
    + destruct w as [|w]; [split; [lia|]; cbn [N.of_nat]; rewrite N.pow_0_r; lia|]. specialize (IH w).
      rewrite Nat2N.inj_succ, N.pow_succ_r by lia. lia.
    + destruct w as [|w]; [split; [lia|]; cbn [N.of_nat]; rewrite N.pow_0_r; lia|]. specialize (IH w).
      rewrite Nat2N.inj_succ, N.pow_succ_r by lia. lia.
    + destruct w as [|w]; [split; [lia|]; cbn [N.of_nat]; rewrite N.pow_0_r; lia|].
      rewrite Nat2N.inj_succ, N.pow_succ_r by lia. pose proof (N.pow_nonzero 2 (N.of_nat w)). split; lia.
Qed.

Notation pol := from_coefficients (only parsing).

Lemma pol_bound v : bit_length (pol v) <= length v.
Proof. apply bit_length_bound. apply bits_to_int_bound. Qed.

Lemma coefficients_length a w : w <> 0 -> length (coefficients a w) = w.
Proof. intros H. unfold coefficients. rewrite (proj2 (Nat.eqb_neq w 0)) by auto. apply int_to_bits_length. Qed.

Lemma nth_coefficients a w i : w <> 0 -> nth i (coefficients a w) false = if i <? w then N.testbit a (N.of_nat i) else false.
Proof.
  intros H. destruct (Nat.ltb_spec i w) as [L|L]; [|apply nth_overflow; rewrite coefficients_length; auto].
  unfold coefficients. rewrite (proj2 (Nat.eqb_neq w 0)) by auto. cbn [int_to_bits].
  rewrite (nth_indep _ false (bit_at a 0)) by (rewrite map_length, seq_length; auto).
  rewrite (map_nth (bit_at a)), seq_nth by auto. unfold bit_at. cbn [Nat.add]. rewrite N.testbit_odd. auto.
Qed.

Lemma testbit_pol v i : N.testbit (pol v) (N.of_nat i) = nth i v false.
Proof. apply bits_to_int_testbit. Qed.

Lemma N_bits_inj_nat a b : (forall i, N.testbit a (N.of_nat i) = N.testbit b (N.of_nat i)) -> a = b.
Proof. intros H. apply N.bits_inj. intros i. rewrite <- (N2Nat.id i). apply H. Qed.

Lemma testbit_big a i : bit_length a <= i -> N.testbit a (N.of_nat i) = false.
Proof.
  intros H. destruct (N.eq_dec a 0) as [->|N]; [apply N.bits_0|]. apply N.bits_above_log2.
  apply bit_length_bound in H. apply N.log2_lt_pow2; lia.
Qed.
Lemma bit_length_testbit a w : (forall i, w <= i -> N.testbit a (N.of_nat i) = false) -> bit_length a <= w.
Proof.
  intros H. apply bit_length_bound. destruct (N.lt_ge_cases a (2 ^ N.of_nat w)) as [|G]; auto. exfalso.
  assert (a <> 0%N) by (intros ->; pose proof (N.pow_nonzero 2 (N.of_nat w)); lia).
  assert (L : (N.of_nat w <= N.log2 a)%N) by (apply N.log2_le_pow2; lia).
  specialize (H (N.to_nat (N.log2 a)) ltac:(lia)). rewrite N2Nat.id, N.bit_log2 in H by auto. discriminate.
Qed.

Lemma pol_coefficients a w : w <> 0 -> bit_length a <= w -> pol (coefficients a w) = a.
Proof.
  intros H L. apply N_bits_inj_nat. intros i. rewrite testbit_pol, nth_coefficients by auto.
  destruct (Nat.ltb_spec i w); auto. rewrite testbit_big by lia. auto.
Qed.
Lemma coefficients_pol v w : w <> 0 -> length v = w -> coefficients (pol v) w = v.
Proof.
  intros H L. apply vec_ext; [rewrite coefficients_length; auto|]. intros i Hi. rewrite coefficients_length in Hi by auto.
  rewrite nth_coefficients by auto. rewrite (proj2 (Nat.ltb_lt i w)) by auto. apply testbit_pol.
Qed.
Lemma pol_inj u v : length u = length v -> pol u = pol v -> u = v.
Proof. intros L E. apply vec_ext; auto. intros i Hi. rewrite <- !testbit_pol, E. auto. Qed.
Lemma pol_vxor u v : length u = length v -> pol (vxor u v) = N.lxor (pol u) (pol v).
Proof. intros L. apply bits_to_int_vxor; auto. Qed.
Lemma coefficients_lxor a b w : w <> 0 -> coefficients (N.lxor a b) w = vxor (coefficients a w) (coefficients b w).
Proof.
  intros H. apply vec_ext; [rewrite vxor_length; rewrite !coefficients_length; auto|]. intros i _.
  rewrite nth_vxor by (rewrite !coefficients_length; auto). rewrite !nth_coefficients by auto.
  destruct (i <? w); auto. apply N.lxor_spec.
Qed.
Lemma pol_unit k i : i < k -> pol (unit_vec k i) = N.shiftl 1 (N.of_nat i).
Proof.
  intros H. apply N_bits_inj_nat. intros j. rewrite testbit_pol. destruct (le_lt_dec k j) as [L|L].
  - rewrite nth_overflow by (rewrite unit_vec_length; auto). symmetry. rewrite N.shiftl_1_l, N.pow2_bits_false; auto. lia.
  - rewrite nth_unit_vec by auto. rewrite N.shiftl_1_l. destruct (Nat.eqb_spec j i) as [->|N].
    + rewrite N.pow2_bits_true. auto.
    + rewrite N.pow2_bits_false; auto. lia.
Qed.
Lemma pol_zeros k : pol (zeros k) = 0%N.
Proof. apply N_bits_inj_nat. intros i. rewrite testbit_pol, nth_zeros, N.bits_0. auto. Qed.
Lemma coefficients_0 w : w <> 0 -> coefficients 0 w = zeros w.
Proof. intros H. rewrite <- (pol_zeros w). apply coefficients_pol; auto. apply zeros_length. Qed.
Lemma pol_zero_inv v : pol v = 0%N -> v = zeros (length v).
Proof. intros H. apply pol_inj; [rewrite zeros_length; auto|]. rewrite pol_zeros; auto. Qed.

(* a linear map is given by the images of the unit vectors *)
Lemma linear_matrix k n (f : vec -> vec) :
  (forall u, length u = k -> length (f u) = n) ->
  (forall u v, length u = k -> length v = k -> f (vxor u v) = vxor (f u) (f v)) ->
  forall u, length u = k -> f u = vecmat n u (map (fun i => f (unit_vec k i)) (seq 0 k)).
Proof.
  intros HL HA. set (M := map (fun i => f (unit_vec k i)) (seq 0 k)).
  assert (W : wf n M). { unfold wf, M. apply Forall_forall. intros r Hr. apply in_map_iff in Hr as (i & <- & _). apply HL, unit_vec_length. }
  assert (LM : length M = k) by (unfold M; rewrite map_length, seq_length; auto).
  assert (Z : f (zeros k) = zeros n).
  { assert (E : f (zeros k) = vxor (f (zeros k)) (f (zeros k))).
    { rewrite <- HA by apply zeros_length. rewrite vxor_self, zeros_length. auto. }
    rewrite E, vxor_self, HL by apply zeros_length. auto. }
  (* induct on the support: words with the last k - j entries zero *)
  assert (G : forall j u, j <= k -> length u = k -> (forall i, j <= i -> nth i u false = false) -> f u = vecmat n u M).
  { induction j as [|j IH]; intros u Hj Lu Hu.
    - assert (E : u = zeros k). { apply vec_ext; [rewrite zeros_length; auto|]. intros i _. rewrite nth_zeros. apply Hu. lia. }
      rewrite E, Z. symmetry. apply vecmat_zeros; auto.
    - destruct (nth j u false) eqn:B.
      + set (u' := vxor u (unit_vec k j)).
        assert (Lu' : length u' = k) by (unfold u'; rewrite vxor_length; auto; rewrite unit_vec_length; auto).
        assert (E : u = vxor u' (unit_vec k j)) by (unfold u'; rewrite vxor_cancel_r; auto; rewrite unit_vec_length; auto).
        rewrite E, HA by (auto; apply unit_vec_length). rewrite vecmat_vxor by (auto; rewrite unit_vec_length; auto).
        f_equal.
        * apply IH; auto; [lia|]. intros i Hi. unfold u'. rewrite nth_vxor by (rewrite unit_vec_length; auto).
          destruct (le_lt_dec k i) as [L|L]; [rewrite !nth_overflow; auto; rewrite ?unit_vec_length; lia|].
          rewrite nth_unit_vec by auto. destruct (Nat.eqb_spec i j) as [->|N]; [rewrite B; auto|]. rewrite Hu by lia. auto.
        * rewrite vecmat_unit by (auto; lia). unfold M.
          rewrite (nth_indep _ [] (f (unit_vec k 0))) by (rewrite map_length, seq_length; lia).
          rewrite (map_nth (fun i => f (unit_vec k i))), seq_nth by lia. auto.
      + apply IH; auto; [lia|]. intros i Hi. destruct (Nat.eq_dec i j) as [->|]; auto. apply Hu. lia. }
  intros u Lu. apply (G k); auto. intros i Hi. apply nth_overflow. lia.
Qed.
