(* Labeling.marginalize: C84. *)
From Coq Require Import Reals Lra.
From Verif Require Import Common Bits_Model Vec_Model FB_Model Labeling_Model Labeling_Spec Conv_Model BCJR_Model.
From Verif Require Conv_Proof Labeling_Proof BCJR_Proof Marginalize_Proof.
Local Open Scope nat_scope.

(* total metric, in block t, of the indices x whose label (the bits indices_to_bits gives x) has b at position j *)
Definition bit_metric (l : labeling) (metrics : list R) (t j : nat) (b : bool) : R :=
  Rsum (map (fun x => nth (t * 2 ^ num_bits l + x) metrics 0%R)
            (filter (fun x => match indices_to_bits l [Z.of_nat x] with Some bits => Bool.eqb (nth j bits false) b | None => false end) (seq 0 (2 ^ num_bits l)))).

(* rejected iff the number of metrics is not a multiple of the number of labels; otherwise num_bits values per block:
   ln (total of label bit 0 / total of label bit 1), with the limits for totals that are 0 *)
Theorem C84_marginalize : forall l metrics, constructed l -> Forall (fun p => (0 <= p)%R) metrics ->
  (marginalize l metrics = None <-> length metrics mod 2 ^ num_bits l <> 0) /\
  forall out, marginalize l metrics = Some out ->
    length out = length metrics / 2 ^ num_bits l * num_bits l /\
    forall t j, t < length metrics / 2 ^ num_bits l -> j < num_bits l ->
      let S b := bit_metric l metrics t j b in
      (0 <= S false)%R /\ (0 <= S true)%R /\
      ((0 < S false)%R -> (0 < S true)%R -> nth (t * num_bits l + j) out NaN = Fin (ln (S false / S true))) /\
      ((0 < S false)%R -> S true = 0%R -> nth (t * num_bits l + j) out NaN = PosInf) /\
      (S false = 0%R -> (0 < S true)%R -> nth (t * num_bits l + j) out NaN = NegInf) /\
      (S false = 0%R -> S true = 0%R -> nth (t * num_bits l + j) out NaN = NaN).
Proof.
  intros l metrics C F. destruct (Labeling_Proof.constructed_table l C) as [T EC]. pose proof T as (Lm & FL & _). unfold marginalize. rewrite EC. split.
  - destruct (Nat.eqb_spec (length metrics mod 2 ^ num_bits l) 0); split; try discriminate; auto. intros X; contradiction.
  - intros out. destruct (Nat.eqb_spec (length metrics mod 2 ^ num_bits l) 0) as [E|]; [|discriminate]. intros H; injection H as <-.
    pose proof (Conv_Proof.pow2_pos (num_bits l)) as P2. destruct (Conv_Proof.reshape_spec (2 ^ num_bits l) metrics P2 E) as (Cr & Lr & Fr).
    set (rows := reshape (2 ^ num_bits l) metrics) in *. set (K := num_bits l) in *.
    assert (FG : Forall (fun r => length r = K) (map (marginalize_row (matrix l) K) rows)).
    { apply Forall_forall. intros r I. apply in_map_iff in I as (x & <- & _). unfold marginalize_row. rewrite map_length, seq_length. reflexivity. }
    split. { rewrite (Labeling_Proof.concat_length_m K _ FG), map_length. congruence. }
    intros t j Ht Hj. set (S := fun b => bit_metric l metrics t j b). change (bit_metric l metrics t j) with S. rewrite <- Lr in Ht. rewrite (BCJR_Proof.concat_nth_gen NaN _ K) by (auto; rewrite map_length; auto).
    rewrite (nth_indep _ [] (marginalize_row (matrix l) K [])) by (rewrite map_length; auto). rewrite map_nth. set (row := nth t rows []).
    assert (Lrow : length row = 2 ^ K) by (rewrite Forall_forall in Fr; apply Fr, nth_In; auto).
    assert (NR : forall x, x < 2 ^ K -> nth x row 0%R = nth (t * 2 ^ K + x) metrics 0%R).
    { intros x Hx. rewrite <- Cr. unfold row. symmetry. apply (BCJR_Proof.concat_nth_gen 0%R); auto. }
    assert (ES : forall b, masked_sum (matrix l) row j b = S b).
    { intros b. rewrite BCJR_Proof.masked_sum_seq by congruence. rewrite Lrow. unfold S, bit_metric. fold K. rewrite BCJR_Proof.Rsum_filter.
      apply FB_Proof.Rsum_ext. intros x I. apply in_seq in I. rewrite NR by lia.
      change [Z.of_nat x] with (map Z.of_nat [x]). rewrite (Labeling_Proof.object_i2b l [x] C) by (repeat constructor; unfold K in I; lia).
      cbn [map concat]. rewrite app_nil_r. reflexivity. }
    assert (NN : Forall (fun p => (0 <= p)%R) row).
    { apply Forall_forall. intros p I. rewrite Forall_forall in F. apply F. rewrite <- Cr. apply in_concat. exists row. split; auto. apply nth_In; auto. }
    assert (S0 : (0 <= S false)%R) by (rewrite <- ES; apply Marginalize_Proof.masked_nonneg; auto).
    assert (S1 : (0 <= S true)%R) by (rewrite <- ES; apply Marginalize_Proof.masked_nonneg; auto).
    split; auto. split; auto. unfold marginalize_row. rewrite nth_map_seq by auto. rewrite !ES.
    assert (XZ : xlog 0 = None) by (unfold xlog; destruct (Rlt_dec 0 0); [lra|auto]).
    repeat split.
    + intros A B. rewrite !BCJR_Proof.xlog_pos by auto. cbn [lsub]. f_equal. unfold Rdiv. rewrite ln_mult, ln_Rinv by (auto; apply Rinv_0_lt_compat; auto). lra.
    + intros A B. rewrite B, XZ, BCJR_Proof.xlog_pos by auto. reflexivity.
    + intros A B. rewrite A, XZ, BCJR_Proof.xlog_pos by auto. reflexivity.
    + intros A B. rewrite A, B, XZ. reflexivity.
Qed.
(* positive metrics give finite values *)
Theorem C84_finite : forall l metrics out, constructed l -> Forall (fun p => (0 < p)%R) metrics -> marginalize l metrics = Some out ->
  forall t j, t < length metrics / 2 ^ num_bits l -> j < num_bits l ->
  nth (t * num_bits l + j) out NaN = Fin (ln (bit_metric l metrics t j false / bit_metric l metrics t j true)) /\
  (0 < bit_metric l metrics t j false)%R /\ (0 < bit_metric l metrics t j true)%R.
Proof.
  intros l metrics out C F E t j Ht Hj. destruct (Labeling_Proof.constructed_table l C) as [T _]. pose proof T as (Lm & _).
  assert (F0 : Forall (fun p => (0 <= p)%R) metrics) by (eapply Forall_impl; [|exact F]; cbn; intros; lra).
  destruct (C84_marginalize l metrics C F0) as [_ H]. destruct (H out E) as [_ G]. destruct (G t j Ht Hj) as (_ & _ & G1 & _).
  pose proof (Conv_Proof.pow2_pos (num_bits l)) as P2.
  assert (BP : forall b, (0 < bit_metric l metrics t j b)%R).
  { intros b. unfold bit_metric. apply BCJR_Proof.Rsum_pos.
    - assert (I : In (repeat b (num_bits l)) (matrix l)) by (apply (Labeling_Proof.table_complete _ _ T), repeat_length).
      apply (In_nth _ _ []) in I as (x & Hx & Ex). intros N.
      assert (I : In x (filter (fun x => match indices_to_bits l [Z.of_nat x] with Some bits => Bool.eqb (nth j bits false) b | None => false end) (seq 0 (2 ^ num_bits l)))).
      { apply filter_In. split; [apply in_seq; lia|]. change [Z.of_nat x] with (map Z.of_nat [x]). rewrite (Labeling_Proof.object_i2b l [x] C) by (repeat constructor; lia).
        cbn [map concat]. rewrite app_nil_r. unfold Labeling_Proof.label_of. rewrite Ex. rewrite (nth_indep _ false b) by (rewrite repeat_length; auto). rewrite nth_repeat. apply Bool.eqb_reflx. }
      rewrite N in I. destruct I.
    - intros x I. apply filter_In in I as [I _]. apply in_seq in I. rewrite Forall_forall in F. apply F, nth_In.
      pose proof (Nat.mul_div_le (length metrics) (2 ^ num_bits l) ltac:(lia)). nia. }
  split; auto.
Qed.
(* on independent factors the product labeling marginalizes each factor separately *)
Definition outer (p q : list R) : list R := flat_map (fun a => map (Rmult a) q) p.
Theorem C84_product : forall ls ps, Forall constructed ls -> Forall2 (fun l p => length p = 2 ^ num_bits l) ls ps -> Forall (Forall (fun x => (0 < x)%R)) ps ->
  exists outs, Forall2 (fun '(l, p) out => marginalize l p = Some out) (combine ls ps) outs /\
  marginalize (ProductLabeling ls) (fold_right outer [1%R] ps) = Some (concat outs).
Proof.
  intros ls ps C L P.
  assert (one : forall l p, constructed l -> length p = 2 ^ num_bits l -> marginalize l p = Some (marginalize_row (matrix l) (num_bits l) p)).
  { intros l p Cl Lp. destruct (Labeling_Proof.constructed_table l Cl) as [_ EC]. pose proof (Conv_Proof.pow2_pos (num_bits l)) as P2. unfold marginalize. rewrite EC, Lp, Nat.mod_same by lia. cbn [Nat.eqb].
    replace (reshape (2 ^ num_bits l) p) with [p]; [cbn; rewrite app_nil_r; reflexivity|]. unfold reshape. rewrite Lp, Nat.div_same by lia. cbn [reshape_rows]. rewrite <- Lp, firstn_all. reflexivity. }
  assert (EO : fold_right outer [1%R] ps = Marginalize_Proof.outer_all ps) by (clear; induction ps; cbn; auto; rewrite IHps; reflexivity).
  assert (T : Forall2 label_table (map num_bits ls) (map matrix ls)).
  { clear L. induction C; cbn; constructor; auto. apply Labeling_Proof.constructed_table; auto. }
  assert (L' : Forall2 (fun m p => length p = 2 ^ m) (map num_bits ls) ps) by (clear -L; induction L; cbn; constructor; auto).
  exists (map (fun '(l, p) => marginalize_row (matrix l) (num_bits l) p) (combine ls ps)). split.
  - clear T L' EO P. revert C. induction L as [|l p ls ps Lp L IH]; intros C; inversion C; subst; cbn [combine map]; constructor; auto.
  - pose proof (Marginalize_Proof.row_product _ _ _ T L' P) as R.
    assert (CP : cardinality (ProductLabeling ls) = 2 ^ num_bits (ProductLabeling ls)).
    { cbn [cardinality num_bits]. clear -C. induction C; cbn [map fold_right]; auto. destruct (Labeling_Proof.constructed_table x H) as [_ ->]. rewrite IHC, Nat.pow_add_r. reflexivity. }
    assert (LO : length (fold_right outer [1%R] ps) = 2 ^ num_bits (ProductLabeling ls)) by (rewrite EO; apply Marginalize_Proof.outer_all_length; auto).
    pose proof (Conv_Proof.pow2_pos (num_bits (ProductLabeling ls))) as P2. unfold marginalize. rewrite CP, LO, Nat.mod_same by lia. cbn [Nat.eqb].
    unfold reshape. rewrite LO, Nat.div_same by lia. cbn [reshape_rows map concat]. rewrite app_nil_r, <- LO, firstn_all, EO. f_equal.
    change (num_bits (ProductLabeling ls)) with (fold_right Nat.add 0 (map num_bits ls)). change (matrix (ProductLabeling ls)) with (product_rows (map matrix ls)). rewrite R. f_equal.
    clear -L. induction L; cbn [map combine]; auto. f_equal. auto.
Qed.
Example C84_satisfiable : exists l, constructed l /\ marginalize l [1; 2; 3; 4]%R = Some [Fin (ln (3 / 7)); Fin (ln (4 / 6))].
Proof.
  exists (NaturalLabeling 2). assert (C : constructed (NaturalLabeling 2)) by (apply (con_natural 2); reflexivity). split; auto.
  assert (F : Forall (fun p => (0 < p)%R) [1; 2; 3; 4]%R) by (repeat constructor; lra).
  destruct (marginalize (NaturalLabeling 2) [1; 2; 3; 4]%R) as [out|] eqn:E; [|cbn in E; discriminate].
  destruct (C84_marginalize _ [1; 2; 3; 4]%R C) as [_ L]; [repeat constructor; lra|]. destruct (L out E) as [L1 _]. change (length out = 2) in L1.
  pose proof (proj1 (C84_finite _ _ out C F E 0 0 ltac:(cbn; lia) ltac:(cbn; lia))) as H0. pose proof (proj1 (C84_finite _ _ out C F E 0 1 ltac:(cbn; lia) ltac:(cbn; lia))) as H1.
  assert (V : bit_metric (NaturalLabeling 2) [1; 2; 3; 4]%R 0 0 false = 3%R /\ bit_metric (NaturalLabeling 2) [1; 2; 3; 4]%R 0 0 true = 7%R /\
              bit_metric (NaturalLabeling 2) [1; 2; 3; 4]%R 0 1 false = 4%R /\ bit_metric (NaturalLabeling 2) [1; 2; 3; 4]%R 0 1 true = 6%R) by (unfold bit_metric, Rsum; cbn; lra).
  destruct V as (V1 & V2 & V3 & V4). rewrite V1, V2 in H0. rewrite V3, V4 in H1. destruct out as [|a [|b [|]]]; try (cbn in L1; discriminate L1). cbn [num_bits Nat.mul Nat.add nth] in H0, H1. congruence.
Qed.
