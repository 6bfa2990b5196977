From Coq Require FinFun.
From Coq Require Import NArith ZArith Lia List Bool Sorted.
From Verif Require Import Common Bits_Model BinPoly_Model BlockCode_Model Algebra_Spec Eval_Model Eval_Spec.
From Verif Require Bits_Proof PolyVec_Proof Algebra_Proof PolyN_Proof Cyclic_Proof Eval_Proof.
Import ListNotations.
Local Open Scope nat_scope.

Lemma from_coefficients_bit cs i : N.testbit (poly_from_coefficients cs) (N.of_nat i) = negb (nth i cs 0%Z mod 256 =? 0)%Z.
Proof.
  unfold poly_from_coefficients. rewrite Bits_Proof.bits_to_int_testbit.
  exact (map_nth (fun c : Z => negb (c mod 256 =? 0)%Z) cs 0%Z i).
Qed.
Lemma coefficients_width p w : exists n, poly_coefficients p w = int_to_bits p n LSB_first /\
  n = match w with None => Nat.max (bit_length p) 1 | Some w => if (w =? 0)%Z then Nat.max (bit_length p) 1 else Z.to_nat w end.
Proof. eexists. split; reflexivity. Qed.
Lemma nth_int_to_bits p n i : nth i (int_to_bits p n LSB_first) false = if i <? n then N.testbit p (N.of_nat i) else false.
Proof.
  unfold int_to_bits. destruct (Nat.ltb_spec i n).
  - rewrite nth_indep with (d' := bit_at p 0) by (rewrite map_length, seq_length; lia). rewrite (map_nth (bit_at p) (seq 0 n) 0), seq_nth by lia.
    unfold bit_at. now rewrite <- N.bit0_odd, N.shiftr_spec'.
  - apply nth_overflow. rewrite map_length, seq_length. lia.
Qed.
Lemma bits_round p n : bits_to_int (int_to_bits p n LSB_first) LSB_first = (p mod 2 ^ N.of_nat n)%N.
Proof. rewrite Bits_Proof.bits_to_int_lsb. apply Bits_Proof.byte_of_int_to_bits. Qed.

(* exponents *)
Lemma exponents_filter p : poly_exponents p = filter (fun i => N.testbit p (N.of_nat i)) (seq 0 (Nat.max (bit_length p) 1)).
Proof.
  unfold poly_exponents, poly_coefficients. rewrite Bits_Proof.int_to_bits_length. unfold int_to_bits.
  generalize 0%nat (Nat.max (bit_length p) 1). intros s n. revert s. induction n as [|n IH]; intros s; [reflexivity|].
  cbn [seq map combine filter snd]. unfold bit_at at 1. rewrite <- N.bit0_odd, N.shiftr_spec'. cbn [N.add].
  destruct (N.testbit p (N.of_nat s)); cbn [map fst]; now rewrite IH.
Qed.
Lemma exponents_in p i : In i (poly_exponents p) <-> N.testbit p (N.of_nat i) = true.
Proof.
  rewrite exponents_filter, filter_In, in_seq. split; [tauto|]. intros H. split; [|exact H].
  destruct (Nat.le_gt_cases (bit_length p) i) as [l|l]; [|lia]. rewrite (PolyVec_Proof.testbit_big p i l) in H. discriminate.
Qed.
Lemma seq_sorted s n : StronglySorted lt (seq s n).
Proof. revert s. induction n as [|n IH]; intros s; constructor; auto. apply Forall_forall. intros i H. apply in_seq in H. lia. Qed.
Lemma filter_sorted {A} (r : A -> A -> Prop) f l : StronglySorted r l -> StronglySorted r (filter f l).
Proof.
  induction 1 as [|a l S IH H]; cbn; [constructor|]. destruct (f a); [|exact IH]. constructor; auto.
  apply Forall_forall. intros y Hy. apply filter_In in Hy. rewrite Forall_forall in H. now apply H.
Qed.
Lemma exponents_sorted p : StronglySorted lt (poly_exponents p).
Proof. rewrite exponents_filter. apply filter_sorted, seq_sorted. Qed.

Lemma bincount_nth l i : nth i (bincount 0 l) 0 = count_occ Nat.eq_dec l i.
Proof.
  unfold bincount. set (n := Nat.max 0 _). destruct (Nat.lt_ge_cases i n) as [h|h].
  - rewrite nth_indep with (d' := count_occ Nat.eq_dec l 0) by (rewrite map_length, seq_length; lia).
    rewrite (map_nth (fun w => count_occ Nat.eq_dec l w) (seq 0 n) 0), seq_nth by lia. reflexivity.
  - rewrite nth_overflow by (rewrite map_length, seq_length; lia). symmetry. apply count_occ_not_In. intros Hin.
    destruct l as [|a l]; [contradiction|]. assert (i <= list_max (a :: l)); [|lia].
    pose proof (proj1 (list_max_le (a :: l) _) (le_n _)) as F. rewrite Forall_forall in F. now apply F.
Qed.
Lemma from_exponents_bit es : Forall (fun e => (0 <= e)%Z) es -> exists p, poly_from_exponents es = Some p /\
  forall i, N.testbit p (N.of_nat i) = negb (Z.of_nat (count_occ Z.eq_dec es (Z.of_nat i)) mod 256 =? 0)%Z.
Proof.
  intros H. unfold poly_from_exponents. replace (existsb (fun e => (e <? 0)%Z) es) with false.
  - eexists. split; [reflexivity|]. intros i. rewrite from_coefficients_bit. do 3 f_equal.
    pose proof (map_nth Z.of_nat (bincount 0 (map Z.to_nat es)) 0 i) as M. change (Z.of_nat 0) with 0%Z in M. rewrite M, bincount_nth. f_equal. clear M.
    induction H as [|e es He H IH]; [reflexivity|]. cbn [map count_occ]. rewrite IH.
    destruct (Nat.eq_dec (Z.to_nat e) i), (Z.eq_dec e (Z.of_nat i)); lia.
  - symmetry. apply not_true_is_false. intros Q. apply existsb_exists in Q. destruct Q as (e & Hin & Q). rewrite Forall_forall in H. apply H in Hin. lia.
Qed.
Lemma from_exponents_neg es : poly_from_exponents es = None <-> exists e, In e es /\ (e < 0)%Z.
Proof.
  unfold poly_from_exponents. destruct (existsb _ es) eqn:Q.
  - apply existsb_exists in Q. destruct Q as (e & Hin & Q). split; auto. intros _. exists e. split; auto. lia.
  - split; [discriminate|]. intros (e & Hin & He). assert (existsb (fun e => (e <? 0)%Z) es = true); [|congruence].
    apply existsb_exists. exists e. split; auto. lia.
Qed.
Lemma from_exponents_in es : Forall (fun e => (0 <= e)%Z) es -> (forall e, count_occ Z.eq_dec es e < 256) ->
  exists p, poly_from_exponents es = Some p /\ forall i, N.testbit p (N.of_nat i) = true <-> In (Z.of_nat i) es.
Proof.
  intros H C. destruct (from_exponents_bit es H) as (p & E & B). exists p. split; auto. intros i. rewrite B.
  rewrite Z.mod_small by (specialize (C (Z.of_nat i)); lia). rewrite (count_occ_In Z.eq_dec). destruct (count_occ Z.eq_dec es (Z.of_nat i)); cbn; split; auto; lia.
Qed.
Lemma exponents_round p : poly_from_exponents (map Z.of_nat (poly_exponents p)) = Some p.
Proof.
  destruct (from_exponents_in (map Z.of_nat (poly_exponents p))) as (q & E & B).
  - apply Forall_forall. intros e He. apply in_map_iff in He. destruct He as (i & <- & _). lia.
  - intros e. assert (ND : NoDup (map Z.of_nat (poly_exponents p))).
    { apply FinFun.Injective_map_NoDup; [intros a b; lia|]. rewrite exponents_filter. apply NoDup_filter, seq_NoDup. }
    pose proof (proj1 (NoDup_count_occ Z.eq_dec _) ND e). lia.
  - rewrite E. f_equal. apply PolyVec_Proof.N_bits_inj_nat. intros i. apply eq_true_iff_eq. rewrite B.
    rewrite in_map_iff. setoid_rewrite exponents_in. split.
    + intros (j & Ej & H). assert (j = i) as -> by lia. exact H.
    + intros H. exists i. auto.
Qed.

Lemma pmulr0 a : pmul a 0 = 0%N. Proof. reflexivity. Qed.

(* reciprocal *)
Lemma nth_rev_bits p n i : nth i (rev (int_to_bits p n LSB_first)) false = if i <? n then N.testbit p (N.of_nat (n - 1 - i)) else false.
Proof.
  destruct (Nat.ltb_spec i n).
  - rewrite rev_nth by (rewrite Bits_Proof.int_to_bits_length; lia). rewrite Bits_Proof.int_to_bits_length, nth_int_to_bits.
    replace (n - S i) with (n - 1 - i) by lia. destruct (Nat.ltb_spec (n - 1 - i) n); [reflexivity|lia].
  - apply nth_overflow. rewrite rev_length, Bits_Proof.int_to_bits_length. lia.
Qed.
Definition rv (n : nat) (p : N) : N := bits_to_int (rev (int_to_bits p n LSB_first)) LSB_first.
Lemma rv_bit n p i : N.testbit (rv n p) (N.of_nat i) = if i <? n then N.testbit p (N.of_nat (n - 1 - i)) else false.
Proof. unfold rv. now rewrite Bits_Proof.bits_to_int_testbit, nth_rev_bits. Qed.
Lemma reciprocal_rv p : poly_reciprocal p None = rv (Nat.max (bit_length p) 1) p.
Proof. reflexivity. Qed.

Lemma top_bit p : p <> 0%N -> N.testbit p (N.of_nat (bit_length p - 1)) = true.
Proof.
  intros H. unfold bit_length. replace (N.of_nat (N.size_nat p - 1)) with (N.log2 p); [now apply N.bit_log2|].
  assert (N.size_nat p = N.to_nat (N.size p)) as ->. { destruct p as [|q]; [reflexivity|]. cbn. clear. induction q; cbn; lia. }
  rewrite N.size_log2 by auto. lia.
Qed.
Lemma bl_pos p : p <> 0%N -> bit_length p <> 0.
Proof. intros H Q. unfold bit_length in Q. destruct p as [|[]]; cbn in Q; try discriminate. now apply H. Qed.
Lemma bl_bit_lt p i : N.testbit p (N.of_nat i) = true -> i < bit_length p.
Proof. intros H. destruct (Nat.le_gt_cases (bit_length p) i) as [l|l]; [|lia]. rewrite (PolyVec_Proof.testbit_big p i l) in H. discriminate. Qed.

(* reversing twice removes the trailing zeros *)
Lemma reciprocal_twice p v : p <> 0%N -> (forall i, i < v -> N.testbit p (N.of_nat i) = false) -> N.testbit p (N.of_nat v) = true ->
  poly_reciprocal (poly_reciprocal p None) None = N.shiftr p (N.of_nat v).
Proof.
  intros H Z T. rewrite !reciprocal_rv. pose proof (bl_pos p H). pose proof (bl_bit_lt p v T).
  rewrite (Nat.max_l (bit_length p)) by lia. set (n := bit_length p) in *.
  assert (B : bit_length (rv n p) = n - v).
  { apply Nat.le_antisymm.
    - apply PolyVec_Proof.bit_length_testbit. intros i Hi. rewrite rv_bit. destruct (Nat.ltb_spec i n); [|reflexivity]. apply Z. lia.
    - assert (n - v - 1 < bit_length (rv n p)); [|lia]. apply bl_bit_lt. rewrite rv_bit. destruct (Nat.ltb_spec (n - v - 1) n); [|lia].
      now replace (n - 1 - (n - v - 1)) with v by lia. }
  rewrite B, Nat.max_l by lia. apply PolyVec_Proof.N_bits_inj_nat. intros i. rewrite rv_bit, rv_bit, Cyclic_Proof.testbit_shiftr.
  destruct (Nat.ltb_spec i (n - v)).
  - destruct (Nat.ltb_spec (n - v - 1 - i) n); [|lia]. do 2 f_equal. lia.
  - symmetry. apply PolyVec_Proof.testbit_big. fold n. lia.
Qed.
Lemma lowest_bit p : p <> 0%N -> exists v, (forall i, i < v -> N.testbit p (N.of_nat i) = false) /\ N.testbit p (N.of_nat v) = true.
Proof.
  intros H. assert (Q : forall n, N.testbit p (N.of_nat n) = true -> exists v, (forall i, i < v -> N.testbit p (N.of_nat i) = false) /\ N.testbit p (N.of_nat v) = true).
  { intros n. induction n as [n IH] using lt_wf_ind. intros T.
    destruct (existsb (fun i => N.testbit p (N.of_nat i)) (seq 0 n)) eqn:X.
    - apply existsb_exists in X. destruct X as (i & Hi & Ti). apply in_seq in Hi. apply (IH i); [lia|exact Ti].
    - exists n. split; auto. intros i Hi. apply not_true_is_false. intros Ti. assert (existsb (fun i => N.testbit p (N.of_nat i)) (seq 0 n) = true); [|congruence].
      apply existsb_exists. exists i. split; auto. apply in_seq. lia. }
  apply (Q _ (top_bit p H)).
Qed.
Lemma reciprocal_involutive p : poly_reciprocal (poly_reciprocal p None) None = p <-> p = 0%N \/ N.odd p = true.
Proof.
  destruct (N.eq_dec p 0) as [->|H]; [split; auto|]. destruct (lowest_bit p H) as (v & Z & T). rewrite (reciprocal_twice p v H Z T). split.
  - intros E. right. rewrite <- N.bit0_odd. destruct v as [|v]; [exact T|]. exfalso.
    assert (Q : N.testbit (N.shiftr p (N.of_nat (S v))) (N.of_nat (bit_length p - 1)) = true) by (rewrite E; now apply top_bit).
    rewrite Cyclic_Proof.testbit_shiftr in Q. pose proof (bl_pos p H). rewrite PolyVec_Proof.testbit_big in Q by lia. discriminate.
  - intros [e|o]; [contradiction|]. destruct v as [|v]; [apply N.shiftr_0_r|]. rewrite <- N.bit0_odd in o. change 0%N with (N.of_nat 0) in o. rewrite (Z 0) in o by lia. discriminate.
Qed.

(* the reversal is multiplicative *)
Lemma xpow_bits v p i : N.testbit (pmul (N.shiftl 1 (N.of_nat v)) p) (N.of_nat i) = if i <? v then false else N.testbit p (N.of_nat (i - v)).
Proof.
  assert (E : pmul (N.shiftl 1 (N.of_nat v)) p = N.shiftl p (N.of_nat v)).
  { revert p. induction v as [|v IH]; intros p.
    - rewrite !N.shiftl_0_r. apply Algebra_Proof.pmul1.
    - rewrite Nnat.Nat2N.inj_succ. replace (N.shiftl 1 (N.succ (N.of_nat v))) with (pmul 2 (N.shiftl 1 (N.of_nat v))).
      + rewrite <- Algebra_Proof.pmulA, IH. rewrite Algebra_Proof.pmulC, Eval_Proof.pmul_step. change (N.odd 2) with false. change (N.div2 2) with 1%N.
        rewrite Algebra_Proof.pmulC, Algebra_Proof.pmul1. unfold padd. rewrite N.lxor_0_l, N.double_spec, N.shiftl_succ_r. reflexivity.
      + rewrite Algebra_Proof.pmulC, Eval_Proof.pmul_step. change (N.odd 2) with false. change (N.div2 2) with 1%N.
        rewrite Algebra_Proof.pmulC, Algebra_Proof.pmul1. unfold padd. rewrite N.lxor_0_l, N.double_spec, N.shiftl_succ_r. reflexivity. }
  rewrite E. apply Cyclic_Proof.testbit_shiftl.
Qed.
Lemma rv_S n p : rv (S n) p = padd (if N.odd p then N.shiftl 1 (N.of_nat n) else 0%N) (rv n (N.div2 p)).
Proof.
  apply PolyVec_Proof.N_bits_inj_nat. intros i. unfold padd. rewrite N.lxor_spec, !rv_bit.
  replace (N.testbit (if N.odd p then N.shiftl 1 (N.of_nat n) else 0%N) (N.of_nat i)) with (N.odd p && (i =? n)).
  - rewrite N.div2_spec. destruct (Nat.ltb_spec i (S n)), (Nat.ltb_spec i n), (Nat.eqb_spec i n); try lia; rewrite ?andb_false_r, ?andb_true_r, ?xorb_false_l, ?xorb_false_r; auto.
    + rewrite N.shiftr_spec'. f_equal. lia.
    + subst i. replace (S n - 1 - n) with 0 by lia. now rewrite N.bit0_odd.
  - destruct (N.odd p); cbn [andb]; [|now rewrite N.bits_0]. rewrite Cyclic_Proof.testbit_shiftl. destruct (Nat.ltb_spec i n), (Nat.eqb_spec i n); try lia; auto.
    + subst. now rewrite Nat.sub_diag.
    + symmetry. change 1%N with (2 ^ 0)%N. apply N.pow2_bits_false. lia.
Qed.
Lemma rv_lxor n p q : rv n (N.lxor p q) = N.lxor (rv n p) (rv n q).
Proof.
  apply PolyVec_Proof.N_bits_inj_nat. intros i. rewrite N.lxor_spec, !rv_bit. destruct (i <? n); [apply N.lxor_spec|reflexivity].
Qed.
Lemma rv_pad n v p : bit_length p <= n -> rv (v + n) p = pmul (N.shiftl 1 (N.of_nat v)) (rv n p).
Proof.
  intros H. apply PolyVec_Proof.N_bits_inj_nat. intros i. rewrite xpow_bits, !rv_bit.
  destruct (Nat.ltb_spec i (v + n)), (Nat.ltb_spec i v); try lia; auto.
  - apply PolyVec_Proof.testbit_big. lia.
  - destruct (Nat.ltb_spec (i - v) n); [|lia]. do 2 f_equal. lia.
  - destruct (Nat.ltb_spec (i - v) n); [lia|reflexivity].
Qed.
Lemma rv_0 n : rv n 0 = 0%N.
Proof. apply PolyVec_Proof.N_bits_inj_nat. intros i. rewrite rv_bit, !N.bits_0. now destruct (i <? n). Qed.
Lemma rv_double n p : rv (S n) (N.double p) = rv n p.
Proof. rewrite rv_S, N.div2_double. replace (N.odd (N.double p)) with false by (now destruct p). apply N.lxor_0_l. Qed.
Lemma rv_mul w p : bit_length p <= w -> w <> 0 -> forall v q, bit_length q <= v -> rv (w + v - 1) (pmul p q) = pmul (rv w p) (rv v q).
Proof.
  intros Hp Hw. induction v as [|v IH]; intros q Hq.
  - assert (q = 0%N) as -> by (unfold bit_length in *; destruct q as [|[]]; cbn in *; [reflexivity|lia|lia|lia]).
    now rewrite pmulr0, !rv_0, pmulr0.
  - rewrite Eval_Proof.pmul_step. unfold padd. rewrite rv_lxor. replace (w + S v - 1) with (S (w + v - 1)) by lia.
    rewrite rv_double, IH by now apply Eval_Proof.size_div2. rewrite (rv_S v q).
    rewrite Algebra_Proof.pmulD. unfold padd. f_equal. destruct (N.odd q).
    + replace (S (w + v - 1)) with (v + w) by lia. rewrite rv_pad by auto. apply Algebra_Proof.pmulC.
    + now rewrite rv_0, Algebra_Proof.pmulC, Algebra_Proof.pmul0.
Qed.
Lemma reciprocal_mul p q : poly_reciprocal (pmul p q) None = pmul (poly_reciprocal p None) (poly_reciprocal q None).
Proof.
  destruct (N.eq_dec p 0) as [->|Hp]; [rewrite !Algebra_Proof.pmul0; reflexivity|].
  destruct (N.eq_dec q 0) as [->|Hq]; [now change (poly_reciprocal 0 None) with 0%N; rewrite !pmulr0|].
  pose proof (bl_pos p Hp). pose proof (bl_pos q Hq). rewrite !reciprocal_rv. rewrite (Algebra_Proof.bit_length_pmul Hp Hq).
  rewrite !Nat.max_l by lia. apply rv_mul; lia.
Qed.

(* shifts *)
Lemma shl_spec p n : (0 <= n)%Z -> poly_shl p n = Some (pmul p (N.shiftl 1 (Z.to_N n))).
Proof.
  intros H. unfold poly_shl. destruct (Z.ltb_spec n 0); [lia|]. f_equal. apply PolyVec_Proof.N_bits_inj_nat. intros i.
  rewrite Algebra_Proof.pmulC. replace (Z.to_N n) with (N.of_nat (Z.to_nat n)) by lia. now rewrite xpow_bits, Cyclic_Proof.testbit_shiftl.
Qed.
Lemma shr_spec p n : (0 <= n)%Z -> poly_shr p n = Some (pquo p (N.shiftl 1 (Z.to_N n))).
Proof.
  intros H. unfold poly_shr. destruct (Z.ltb_spec n 0); [lia|]. f_equal. set (k := Z.to_nat n). replace (Z.to_N n) with (N.of_nat k) by lia.
  assert (Nz : N.shiftl 1 (N.of_nat k) <> 0%N) by (rewrite N.shiftl_1_l; apply N.pow_nonzero; lia).
  destruct (@Algebra_Proof.divmod_unique p (N.shiftl 1 (N.of_nat k)) Nz) as (q & r & E & Q & S & U). unfold pquo. rewrite E.
  assert (B : bit_length (N.shiftl 1 (N.of_nat k)) = k + 1).
  { apply Nat.le_antisymm.
    - apply PolyVec_Proof.bit_length_testbit. intros i Hi. rewrite Cyclic_Proof.testbit_shiftl. destruct (Nat.ltb_spec i k); [lia|]. change 1%N with (2 ^ 0)%N. apply N.pow2_bits_false. lia.
    - assert (k < bit_length (N.shiftl 1 (N.of_nat k))); [|lia]. apply bl_bit_lt. rewrite Cyclic_Proof.testbit_shiftl, Nat.ltb_irrefl, Nat.sub_diag. reflexivity. }
  apply (U (N.shiftr p (N.of_nat k)) (N.land p (N.ones (N.of_nat k)))).
  - apply PolyVec_Proof.N_bits_inj_nat. intros i. unfold padd. rewrite N.lxor_spec, Algebra_Proof.pmulC, xpow_bits, N.land_spec.
    destruct (Nat.ltb_spec i k).
    + rewrite N.ones_spec_low by lia. now rewrite andb_true_r, xorb_false_l.
    + rewrite N.ones_spec_high by lia. rewrite andb_false_r, xorb_false_r, Cyclic_Proof.testbit_shiftr. do 2 f_equal. lia.
  - rewrite B. assert (bit_length (N.land p (N.ones (N.of_nat k))) <= k); [|lia]. apply PolyVec_Proof.bit_length_testbit. intros i Hi.
    rewrite N.land_spec, N.ones_spec_high by lia. apply andb_false_r.
Qed.
