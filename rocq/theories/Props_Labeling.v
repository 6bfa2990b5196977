(* Labelings: C52, C53. *)
From Verif Require Import Common Bits_Model Labeling_Model Labeling_Spec.
From Verif Require Labeling_Proof.
Local Open Scope nat_scope.

(* the table of every object the constructors return is a bijection between 0 .. 2^m - 1 and the words of m bits,
   m = num_bits and 2^m = cardinality, and would itself be accepted by Labeling *)
Theorem C52_table : forall l, constructed l -> label_table (num_bits l) (matrix l) /\ cardinality l = 2 ^ num_bits l /\
  (forall b, length b = num_bits l -> exists i, i < 2 ^ num_bits l /\ nth i (matrix l) [] = b) /\
  mk_Labeling (map (map (fun b : bool => if b then 1%Z else 0%Z)) (matrix l)) = Some (Labeling (matrix l)).
Proof.
  intros l C. destruct (Labeling_Proof.constructed_table l C) as [T E]. split; auto. split; auto. split.
  - intros b Hb. apply (Labeling_Proof.table_complete _ _ T) in Hb. apply (In_nth _ _ []) in Hb as (i & Hi & Ei). exists i. split; auto. destruct T as (L & _). lia.
  - unfold mk_Labeling. rewrite (Labeling_Proof.labeling_matrix_accepts _ _ T). reflexivity.
Qed.
(* Labeling accepts exactly the 0/1 tables that are such bijections *)
Theorem C52_validation : forall mat l, mk_Labeling mat = Some l <->
  exists rows m, l = Labeling rows /\ label_table m rows /\ mat = map (map (fun b : bool => if b then 1%Z else 0%Z)) rows.
Proof.
  intros mat l. split.
  - unfold mk_Labeling. destruct (Labeling_matrix mat) as [rows|] eqn:E; [|discriminate]. intros H; inversion H; subst. exists rows, (length (nth 0 rows [])).
    split; auto. split; [eapply Labeling_Proof.labeling_matrix_table; eauto|]. unfold Labeling_matrix in E. destruct mat as [|r0 mat]; [discriminate|].
    destruct (negb (forallb _ _)); [discriminate|]. destruct (negb (length (r0 :: mat) =? _)); [discriminate|]. destruct (all_some _) as [rs|] eqn:A; [|discriminate].
    destruct (distinct rs); inversion E; subst rs. apply Labeling_Proof.all_some_iff in A. clear - A. revert rows A. induction (r0 :: mat) as [|r ms IH]; intros [|x rows] A; cbn in A; try discriminate; auto.
    inversion A. cbn. f_equal; auto. apply Labeling_Proof.all_some_iff in H0. clear - H0. revert x H0. induction r as [|z r IH]; intros [|b x] H0; cbn in H0; try discriminate; auto.
    inversion H0. cbn. f_equal; auto. unfold entry in H1. destruct (Z.eqb_spec z 0), (Z.eqb_spec z 1); inversion H1; subst; reflexivity.
  - intros (rows & m & -> & T & ->). unfold mk_Labeling. rewrite (Labeling_Proof.labeling_matrix_accepts m rows T). reflexivity.
Qed.
(* indices -> bits -> indices *)
Theorem C52_indices_bits : forall l idx, constructed l -> 0 < num_bits l -> idx <> [] -> Forall (fun i => i < 2 ^ num_bits l) idx ->
  exists bits, indices_to_bits l (map Z.of_nat idx) = Some bits /\ length bits = num_bits l * length idx /\ bits_to_indices l bits = Some idx /\
  bits = concat (map (fun i => nth i (matrix l) []) idx).
Proof.
  intros l idx C Hm NE F. pose proof (Labeling_Proof.object_pair l C) as P.
  destruct (Labeling_Proof.seq_round_trip _ _ _ P Hm idx NE F) as (L & M & rows & A & E & FL).
  exists (concat (map (Labeling_Proof.label_of l) idx)). split; [now apply Labeling_Proof.object_i2b|]. split; auto. split; auto.
  rewrite (Labeling_Proof.object_b2i l _ rows); auto. now rewrite E.
Qed.
(* bits -> indices -> bits *)
Theorem C52_bits_indices : forall l bits k, constructed l -> 0 < num_bits l -> 0 < k -> length bits = k * num_bits l ->
  exists idx, bits_to_indices l bits = Some idx /\ length idx = k /\ Forall (fun i => i < 2 ^ num_bits l) idx /\ indices_to_bits l (map Z.of_nat idx) = Some bits.
Proof.
  intros l bits k C Hm Hk L. pose proof (Labeling_Proof.object_pair l C) as P.
  destruct (Labeling_Proof.seq_round_trip' _ _ _ P Hm bits k Hk L) as (M & rows & A & Ln & FL & FB & E).
  exists (map (Labeling_Proof.index_of l) rows). split; [now apply Labeling_Proof.object_b2i|]. split; [now rewrite map_length|]. split; auto.
  rewrite Labeling_Proof.object_i2b by auto. now rewrite E.
Qed.
(* m is positive except for Labeling([[]]) and products of it *)
Theorem C52_positive : forall l, constructed l -> match l with Labeling rows => rows <> [[]] -> 0 < num_bits l | ProductLabeling _ => True | _ => 0 < num_bits l end.
Proof.
  intros l C. inversion C; subst; repeat match goal with
  | H : mk_Natural _ = _ |- _ => apply Labeling_Proof.mk_Natural_inv in H as [? ->]
  | H : mk_Reflected _ = _ |- _ => apply Labeling_Proof.mk_Reflected_inv in H as [? ->]
  | H : mk_Rect _ _ = _ |- _ => apply Labeling_Proof.mk_Rect_inv in H as (? & ? & ->)
  | H : mk_Product _ _ = _ |- _ => apply Labeling_Proof.mk_Product_inv in H as (? & -> & _)
  | H : mk_Rect1 ?n = _ |- _ => unfold mk_Rect1 in H; destruct ((0 <? n) && (n mod 2 =? 0)); [|discriminate]
  end; cbn [num_bits]; try lia; try exact Logic.I.
  unfold mk_Labeling in H. destruct (Labeling_matrix mat) as [rows|] eqn:E; inversion H; subst. intros N. apply Labeling_Proof.labeling_matrix_table in E as (L & F & D).
  cbn [num_bits]. destruct (length (nth 0 rows [])) eqn:E0; [|lia]. exfalso. apply N. cbn in L. destruct rows as [|[|? ?] [|]]; cbn in *; try lia; auto.
Qed.
(* what happens outside these hypotheses: an empty bit sequence is rejected by every class, a length that is not a multiple of m
   is rejected; an index out of range is rejected by the table classes but not by Natural and Reflected, which wrap *)
Theorem C52_rejects : forall l, constructed l -> 0 < num_bits l ->
  bits_to_indices l [] = None /\
  (forall bits, length bits mod num_bits l <> 0 -> bits_to_indices l bits = None) /\
  match l with
  | NaturalLabeling m | ReflectedLabeling m => indices_to_bits l [Z.of_nat (2 ^ m)] <> None
  | _ => forall idx, ~ Forall (fun i => 0 <= i < Z.of_nat (2 ^ num_bits l))%Z idx -> indices_to_bits l idx = None
  end.
Proof.
  intros l C Hm. destruct (Labeling_Proof.constructed_table l C) as [_ Ec]. destruct (Nat.eqb_spec (num_bits l) 0) as [|Hm']; [lia|].
  assert (D0 : 0 mod num_bits l = 0) by (apply Nat.mod_0_l; auto). assert (D1 : 0 / num_bits l = 0) by (apply Nat.div_0_l; auto).
  assert (B : base_bits_to_indices l [] = None).
  { unfold base_bits_to_indices. destruct (Nat.eqb_spec (num_bits l) 0); auto. cbn [length]. rewrite D0, D1. reflexivity. }
  assert (B' : forall bits, length bits mod num_bits l <> 0 -> base_bits_to_indices l bits = None).
  { intros bits H. unfold base_bits_to_indices. destruct (Nat.eqb_spec (num_bits l) 0); auto. apply Nat.eqb_neq in H. now rewrite H. }
  assert (I : forall idx, ~ Forall (fun i => 0 <= i < Z.of_nat (2 ^ num_bits l))%Z idx -> base_indices_to_bits l idx = None).
  { intros idx H. unfold base_indices_to_bits. destruct (forallb _ idx) eqn:E; auto. exfalso. apply H. apply Forall_forall. intros i Hi. rewrite forallb_forall in E. specialize (E i Hi).
    apply andb_true_iff in E as [E1 E2]. apply Z.leb_le in E1. apply Z.ltb_lt in E2. rewrite Ec in E2. lia. }
  destruct l; try (split; [exact B|split; [exact B'|exact I]]); cbn [bits_to_indices indices_to_bits num_bits] in *; unfold natural_bits_to_indices, reflected_bits_to_indices;
    (split; [cbn [length]; rewrite D0, D1; reflexivity|split; [|discriminate]]); intros bits H; apply Nat.eqb_neq in H; now rewrite H.
Qed.
(* Labeling accepts the 1 x 0 table, and then cannot read any bits *)
Theorem C52_zero_bits : exists l, mk_Labeling [[]] = Some l /\ indices_to_bits l [0%Z; 0%Z] = Some [] /\ forall bits, bits_to_indices l bits = None.
Proof. exists (Labeling [[]]). repeat split. Qed.
Example C52_satisfiable : exists l, constructed l /\ num_bits l = 5 /\ indices_to_bits l [5%Z; 30%Z] = Some [false; false; true; false; true; true; false; true; true; false] /\
  bits_to_indices l [false; false; true; false; true; true; false; true; true; false] = Some [5; 30].
Proof.
  exists (ProductLabeling [ReflectedLabeling 2; NaturalLabeling 1; ReflectedRectangularLabeling 1 1]). split; [|vm_compute; auto].
  apply (con_product [ReflectedLabeling 2; NaturalLabeling 1; ReflectedRectangularLabeling 1 1] 1); [|reflexivity].
  repeat constructor; [apply (con_reflected 2)|apply (con_natural 1)|apply (con_rect1 2)]; reflexivity.
Qed.

(* cyclically adjacent indices have labels that differ in exactly one bit *)
Theorem C53_gray : forall m l, mk_Reflected m = Some l -> forall i, i < 2 ^ m ->
  differences (nth i (matrix l) []) (nth ((i + 1) mod 2 ^ m) (matrix l) []) = 1.
Proof. intros m l H i Hi. apply Labeling_Proof.mk_Reflected_inv in H as [Hm ->]. cbn [matrix]. now apply Labeling_Proof.reflected_adjacent. Qed.
(* the rectangular labeling: index i * 2^mq + q is row i, column q; a step in either direction changes exactly one bit *)
Theorem C53_rectangular : forall mi mq l, mk_Rect mi mq = Some l -> forall i q, i < 2 ^ mi -> q < 2 ^ mq ->
  let label a b := nth (a * 2 ^ mq + b) (matrix l) [] in
  differences (label i q) (label ((i + 1) mod 2 ^ mi) q) = 1 /\ differences (label i q) (label i ((q + 1) mod 2 ^ mq)) = 1.
Proof.
  intros mi mq l H i q Hi Hq label. apply Labeling_Proof.mk_Rect_inv in H as (Pi & Pq & ->).
  pose proof (Labeling_Proof.inverse_pair_table _ _ _ (Labeling_Proof.reflected_pair mi)) as Ti. pose proof (Labeling_Proof.inverse_pair_table _ _ _ (Labeling_Proof.reflected_pair mq)) as Tq.
  change (label_table mi (reflected_matrix mi)) in Ti. change (label_table mq (reflected_matrix mq)) in Tq.
  assert (E : forall a b, a < 2 ^ mi -> b < 2 ^ mq -> label a b = nth a (reflected_matrix mi) [] ++ nth b (reflected_matrix mq) []).
  { intros a b Ha Hb. unfold label. cbn [matrix].
    assert (E1 : fold_right Nat.add 0 [mq] = mq) by (cbn; lia).
    rewrite (Labeling_Proof.product_rows_nth [mq] [reflected_matrix mq] _ (Forall2_cons _ _ Tq (Forall2_nil _)) mi _ a b Ti) by (rewrite ?E1; auto). f_equal.
    rewrite (Labeling_Proof.product_rows_nth [] [] b ltac:(constructor) mq _ b 0 Tq) by (cbn; lia). cbn. apply app_nil_r. }
  assert (Ni : 2 ^ mi <> 0) by (apply Nat.pow_nonzero; lia). assert (Nq : 2 ^ mq <> 0) by (apply Nat.pow_nonzero; lia).
  pose proof (Nat.mod_upper_bound (i + 1) _ Ni). pose proof (Nat.mod_upper_bound (q + 1) _ Nq).
  destruct Ti as (Li & Fi & _). destruct Tq as (Lq & Fq & _). rewrite Forall_forall in Fi, Fq.
  rewrite !E by auto. rewrite !Labeling_Proof.differences_app by (rewrite !Fi; auto; apply nth_In; lia). rewrite !Labeling_Proof.differences_refl, !Labeling_Proof.reflected_adjacent by auto. lia.
Qed.
Example C53_satisfiable : exists l l', mk_Reflected 3 = Some l /\ map (fun i => nth i (matrix l) []) [3; 4] = [[false; true; false]; [true; true; false]] /\
  mk_Rect 1 2 = Some l' /\ length (matrix l') = 8.
Proof. eexists; eexists. split; [reflexivity|]. split; [reflexivity|]. split; reflexivity. Qed.
