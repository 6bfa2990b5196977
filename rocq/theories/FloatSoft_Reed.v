(** Reed decoding of binary64 values. *)
Set Warnings "-ambiguous-paths".
From Coq Require Import Reals Lra Permutation.
From Flocq Require Import Core.
From Verif Require Import Common Vec_Model Vec_Proof Linear_Spec LinAlg_Model LinAlg_Proof BlockCode_Model ReedMuller_Model ReedMuller_Proof SC_Model Float_Model FloatViterbi_Spec FloatSoft_Model FloatSoft_Proof.
From Verif Require Hamming_Proof.
Local Open Scope nat_scope.

Definition rrel (r : list R) (p : nat) : R := Rabs (nth p r 0%R).
Definition rmass (e : vec) (r : list R) (l : list nat) : R := total (map (rrel r) (filter (at_ e) l)).
Definition rrow (r : list R) (row : list nat) : R := float_min_abs (map (fun p => nth p r 0%R) row).
Definition dterms (cs : list bool) (rel : list R) : list R := map (fun '(c, x) => if c : bool then (- x)%R else x) (combine cs rel).
Lemma total_cons x l : total (x :: l) = (x + total l)%R.
Proof. reflexivity. Qed.
Lemma rmass_app e r a b : rmass e r (a ++ b) = (rmass e r a + rmass e r b)%R.
Proof. unfold rmass. rewrite filter_app, map_app. apply total_app. Qed.
Lemma rmass_nonneg e r l : (0 <= rmass e r l)%R.
Proof.
  unfold rmass. induction (filter (at_ e) l) as [|p t IH]; cbn [map]; [unfold total; cbn; lra|]. rewrite total_cons. pose proof (Rabs_pos (nth p r 0%R)). unfold rrel at 1. lra.
Qed.
Lemma rmass_perm e r a b : Permutation a b -> rmass e r a = rmass e r b.
Proof.
  intros P. unfold rmass. apply total_perm, Permutation_map. induction P; cbn [filter].
  - constructor.
  - destruct (at_ e x); [constructor; auto|auto].
  - destruct (at_ e x), (at_ e y); try constructor; try apply Permutation_refl.
  - eapply Permutation_trans; eauto.
Qed.
Lemma rmass_NoDup e r L n : NoDup L -> (forall p, In p L -> p < n) -> (rmass e r L <= rmass e r (seq 0 n))%R.
Proof.
  intros ND B. assert (P : Permutation (seq 0 n) (L ++ filter (fun p => negb (mem L p)) (seq 0 n))).
  { apply NoDup_Permutation; [apply seq_NoDup| |].
    - apply NoDup_app_intro; auto; [apply NoDup_filter, seq_NoDup|]. intros x Hx. rewrite filter_In, negb_true_iff, mem_false. tauto.
    - intros x. rewrite in_app_iff, filter_In, negb_true_iff, mem_false, in_seq. split.
      + intros. destruct (in_dec Nat.eq_dec x L); auto.
      + intros [H|[H _]]; [apply B in H; lia|auto]. }
  rewrite (rmass_perm _ _ _ _ P), rmass_app. pose proof (rmass_nonneg e r (filter (fun p => negb (mem L p)) (seq 0 n))). lra.
Qed.
Lemma fmin_cons x y l : float_min_abs (x :: y :: l) = Rmin (Rabs x) (float_min_abs (y :: l)).
Proof. reflexivity. Qed.
Lemma fmin_le l x : In x l -> (float_min_abs l <= Rabs x)%R.
Proof.
  induction l as [|y l IH]; [intros []|]. destruct l as [|z l].
  - intros [->|[]]. apply Rle_refl.
  - rewrite fmin_cons. intros [->|H]; [apply Rmin_l|]. eapply Rle_trans; [apply Rmin_r|]. auto.
Qed.
Lemma fmin_ge l m : l <> [] -> (forall x, In x l -> (m <= Rabs x)%R) -> (m <= float_min_abs l)%R.
Proof.
  induction l as [|y l IH]; [congruence|]. intros _ H. destruct l as [|z l].
  - apply H. left; auto.
  - rewrite fmin_cons. apply Rmin_glb; [apply H; left; auto|]. apply IH; [congruence|]. intros; apply H; right; auto.
Qed.
Lemma fmin_in l : l <> [] -> exists x, In x l /\ float_min_abs l = Rabs x.
Proof.
  induction l as [|y l IH]; [congruence|]. intros _. destruct l as [|z l]; [exists y; split; [left|]; auto|].
  rewrite fmin_cons. destruct IH as (x & I & E); [congruence|]. unfold Rmin. destruct (Rle_dec _ _); [exists y; split; [left|]; auto|exists x; split; [right|]; auto].
Qed.
Lemma fmin_nonneg l : (0 <= float_min_abs l)%R.
Proof. destruct l as [|x l]; [apply Rle_refl|]. apply fmin_ge; [congruence|]. intros; apply Rabs_pos. Qed.
Lemma total_in l x : In x l -> (forall y, In y l -> (0 <= y)%R) -> (x <= total l)%R.
Proof.
  intros I P. apply in_split in I as (l1 & l2 & ->). rewrite total_app, total_cons.
  assert (N : forall l', (forall y, In y l' -> In y (l1 ++ x :: l2)) -> (0 <= total l')%R).
  { induction l' as [|y l' IH]; intros H; [unfold total; cbn; lra|]. rewrite total_cons. assert (0 <= y)%R by (apply P, H; left; auto).
    assert (0 <= total l')%R by (apply IH; intros; apply H; right; auto). lra. }
  assert (0 <= total l1)%R by (apply N; intros; apply in_app_iff; auto). assert (0 <= total l2)%R by (apply N; intros; apply in_app_iff; right; right; auto). lra.
Qed.

Section Soft.
Variables (r : list R) (e : vec) (m : R) (n : nat).
Hypothesis Hm : (0 <= m)%R.
Hypothesis Hrel : forall p, p < n -> at_ e p = false -> (m <= rrel r p)%R.
Lemma rrow_bound row : row <> [] -> (forall p, In p row -> p < n) ->
  ((if hit e row then 0 else m) - rmass e r row <= (if csum e row then - rrow r row else rrow r row))%R.
Proof.
  intros NE B. destruct (csum e row) eqn:C.
  - assert (H : hit e row = true) by (destruct (hit e row) eqn:Q; auto; apply csum_not_hit in Q; congruence). rewrite H.
    apply existsb_exists in H as (p & Hp & Ep).
    assert (A : (rrow r row <= rrel r p)%R) by (apply fmin_le, in_map_iff; exists p; auto).
    assert (A2 : (rrel r p <= rmass e r row)%R).
    { apply total_in; [apply in_map, filter_In; auto|]. intros y Hy. apply in_map_iff in Hy as (z & <- & _). apply Rabs_pos. }
    lra.
  - pose proof (rmass_nonneg e r row) as P. destruct (hit e row) eqn:H.
    + pose proof (fmin_nonneg (map (fun p => nth p r 0%R) row)). unfold rrow. lra.
    + assert (G : (m <= rrow r row)%R).
      { apply fmin_ge; [destruct row; [congruence|discriminate]|]. intros x Hx. apply in_map_iff in Hx as (p & <- & Hp).
        apply (Hrel p); auto. destruct (at_ e p) eqn:Q; auto. enough (hit e row = true) by congruence. apply existsb_exists; eauto. }
      lra.
Qed.
Lemma rrows_bound rows : (forall row, In row rows -> row <> [] /\ forall p, In p row -> p < n) ->
  (INR (weight (map (fun row => negb (hit e row)) rows)) * m - rmass e r (concat rows) <= total (dterms (map (csum e) rows) (map (rrow r) rows)))%R.
Proof.
  induction rows as [|row rows IH]; intros H; cbn [map concat].
  - unfold rmass, total, weight. cbn. lra.
  - unfold dterms. cbn [combine map]. rewrite total_cons, rmass_app, Hamming_Proof.weight_cons. destruct (H row (or_introl eq_refl)) as [NE B]. pose proof (rrow_bound row NE B) as R.
    assert (IH' := IH (fun x Hx => H x (or_intror Hx))). unfold dterms in IH'. rewrite plus_INR.
    set (W := weight (map (fun row0 => negb (hit e row0)) rows)) in *. set (dv := total _) in *. destruct (hit e row); cbn [negb INR]; destruct (csum e row); lra.
Qed.
End Soft.

Lemma dterms_neg cs rel : dterms (map negb cs) rel = map Ropp (dterms cs rel).
Proof. unfold dterms. revert rel; induction cs as [|c cs IH]; intros [|x rel]; cbn [map combine]; auto. rewrite IH. f_equal. destruct c; cbn [negb]; lra. Qed.

(** the loop, for any way of adding that gets the sign of the decision variable right *)
Section Loop.
Variables (rho mu : nat) (npdot : list R -> R).
Hypothesis Hr : rho < mu.
Variables (r : list R) (e : vec).
Hypothesis Le : length e = 2 ^ mu.
Hypothesis Sign : forall I b, idx mu I -> length I <= rho ->
  neg (npdot (dterms (map (fun row => xorb b (csum e row)) (reed_partition mu I)) (map (rrow r) (reed_partition mu I)))) = b.
Lemma rstep I ms b u : idx mu I -> length I <= rho -> (forall J, In J ms -> idx mu J /\ length J <= length I /\ I <> J) ->
  neg (npdot (dterms (checksums (vxor (vecmat (2 ^ mu) (b :: u) (map (mono mu) (I :: ms))) e) (reed_partition mu I)) (map (rrow r) (reed_partition mu I)))) = b.
Proof.
  intros HI LI H. set (c := vecmat (2 ^ mu) (b :: u) (map (mono mu) (I :: ms))) in *.
  assert (Lc : length c = 2 ^ mu) by (apply vecmat_length, monos_wf).
  assert (E : checksums (vxor c e) (reed_partition mu I) = map (fun row => xorb b (csum e row)) (reed_partition mu I)).
  { rewrite checksums_eq. apply map_ext_in. intros row Hrow. rewrite csum_vxor by congruence. f_equal. apply csum_codeword; auto. }
  rewrite E. apply Sign; auto.
Qed.
Lemma rcorrect ms : ordered ms -> (forall J, In J ms -> length J <= rho /\ idx mu J) -> forall u acc, length u = length ms ->
  fst (fold_left (float_reed_step npdot r) (combine (map (reed_partition mu) ms) (map (mono mu) ms))
    (acc, vxor (vecmat (2 ^ mu) u (map (mono mu) ms)) e)) = acc ++ u.
Proof.
  induction ms as [|I ms IH]; intros O HM [|b u] acc L; cbn [length] in L; try lia.
  - cbn. rewrite app_nil_r; auto.
  - destruct O as [F O]. rewrite Forall_forall in F. destruct (HM I (or_introl eq_refl)) as [LI HI].
    assert (H : forall J, In J ms -> idx mu J /\ length J <= length I /\ I <> J).
    { intros J HJ. split; [apply (HM J); right; auto|apply F; auto]. }
    pose proof (rstep I ms b u HI LI H) as S. unfold rrow, dterms in S. cbn [map combine fold_left float_reed_step] in *. rewrite S.
    pose proof (step_cancel mu I ms b u e Le) as T. cbn [map] in T. rewrite T. rewrite IH; auto.
    + rewrite <- app_assoc. auto.
    + intros; apply HM; right; auto.
Qed.
Lemma float_reed u : length u = length (monos rho mu) -> length r = 2 ^ mu ->
  e = vxor (vecmat (2 ^ mu) u (reed_muller_generator_matrix rho mu)) (map neg r) -> float_reed_soft npdot rho mu r = u.
Proof.
  rewrite generator_spec. intros Lu Lr D. set (c := vecmat _ _ _) in *. assert (Lc : length c = 2 ^ mu) by (apply vecmat_length, monos_wf).
  unfold float_reed_soft. rewrite generator_spec, partitions_spec.
  assert (E : map neg r = vxor c e) by (rewrite D, vxor_cancel; auto; rewrite map_length; congruence). rewrite E. unfold c.
  apply rcorrect; auto; [apply monos_ordered|]. intros J HJ. apply in_monos; auto.
Qed.
End Loop.

Lemma neg_true x : (x < 0)%R -> neg x = true.
Proof. unfold neg. destruct (Rlt_dec x 0); auto. Qed.
Lemma neg_false x : (0 <= x)%R -> neg x = false.
Proof. unfold neg. destruct (Rlt_dec x 0); auto. lra. Qed.
Lemma xor_terms b f (rows : list (list nat)) rel : dterms (map (fun row => xorb b (f row)) rows) rel = if b then map Ropp (dterms (map f rows) rel) else dterms (map f rows) rel.
Proof.
  destruct b.
  - rewrite <- dterms_neg, map_map. f_equal.
  - f_equal. apply map_ext. intros x. destruct (f x); auto.
Qed.
Lemma partition_rows mu I : idx mu I -> forall row, In row (reed_partition mu I) -> row <> [] /\ forall p, In p row -> p < 2 ^ mu.
Proof.
  intros HI row Hrow. split; [|intros p Hp; eapply partition_bound; eauto]. rewrite reed_partition_eq in Hrow.
  apply in_map_iff in Hrow as (w' & <- & _). intros Z. apply map_eq_nil in Z. apply (f_equal (@length _)) in Z.
  rewrite bin_vectors_length in Z. cbn in Z. revert Z. apply Nat.pow_nonzero. lia.
Qed.
Lemma dterms_Forall (P : R -> Prop) cs rel : (forall x, P x -> P (- x)%R) -> Forall P rel -> Forall P (dterms cs rel).
Proof.
  intros O F. unfold dterms. apply Forall_forall. intros y I. apply in_map_iff in I as ([c x] & <- & I). apply in_combine_r in I. rewrite Forall_forall in F. destruct c; auto.
Qed.
Lemma rrow_Forall (P : R -> Prop) r rows n : (forall x, P x -> P (Rabs x)) -> length r = n -> Forall P r -> (forall row, In row rows -> row <> [] /\ forall p, In p row -> p < n) ->
  Forall P (map (rrow r) rows).
Proof.
  intros A L F HR. apply Forall_forall. intros y I. apply in_map_iff in I as (row & <- & I). destruct (HR row I) as [NE B].
  destruct (fmin_in (map (fun p => nth p r 0%R) row)) as (x & Ix & E); [destruct row; [congruence|discriminate]|]. unfold rrow. rewrite E.
  apply in_map_iff in Ix as (p & <- & Ip). apply A. rewrite Forall_forall in F. apply F, nth_In. rewrite L. auto.
Qed.
Lemma abs_format x : is_binary64 x -> is_binary64 (Rabs x).
Proof. apply generic_format_abs. Qed.

(** every decision variable has the right sign if the exact ones are larger than the rounding error *)
Lemma sign_margin rho mu npdot r e m a : rho < mu -> any_order npdot -> length e = 2 ^ mu -> length r = 2 ^ mu -> (0 <= m)%R -> (0 <= a)%R ->
  Forall is_binary64 r -> Forall (fun x => (Rabs x <= a)%R) r -> mu <= 52 ->
  (forall p, p < 2 ^ mu -> at_ e p = false -> (m <= rrel r p)%R) ->
  (rmass e r (seq 0 (2 ^ mu)) + / 2 ^ 52 * (INR (2 ^ mu) * INR (2 ^ mu)) * a < INR (2 ^ (mu - rho) - weight e) * m)%R ->
  forall I b, idx mu I -> length I <= rho -> neg (npdot (dterms (map (fun row => xorb b (csum e row)) (reed_partition mu I)) (map (rrow r) (reed_partition mu I)))) = b.
Proof.
  intros Hr S Le Lr Hm Ha F B Hmu Hrel Herr I b HI LI. set (rows := reed_partition mu I). pose proof (partition_rows mu I HI) as HR. fold rows in HR.
  pose proof (rrows_bound r e m (2 ^ mu) Hrel rows HR) as RB.
  assert (M : (rmass e r (concat rows) <= rmass e r (seq 0 (2 ^ mu)))%R).
  { apply rmass_NoDup; [apply partition_NoDup; auto|]. intros p Hp. apply in_concat in Hp as (row & Hrow & Hp). apply (HR row); auto. }
  assert (W : 2 ^ (mu - rho) - weight e <= weight (map (fun row => negb (hit e row)) rows)).
  { pose proof (weight_map_negb (hit e) rows) as N. pose proof (hit_count e rows (partition_NoDup mu I HI)) as HC.
    unfold rows in N at 3. rewrite reed_partition_length in N. assert (2 ^ (mu - rho) <= 2 ^ (mu - length I)) by (apply Nat.pow_le_mono_r; lia). lia. }
  apply le_INR in W. assert (W' : (INR (2 ^ (mu - rho) - weight e) * m <= INR (weight (map (fun row => negb (hit e row)) rows)) * m)%R) by (apply Rmult_le_compat_r; auto).
  assert (Ln : length rows <= 2 ^ mu). { unfold rows. rewrite reed_partition_length. apply Nat.pow_le_mono_r; lia. }
  set (ts := dterms (map (csum e) rows) (map (rrow r) rows)) in *.
  assert (Lt : length ts = length rows) by (unfold ts, dterms; rewrite map_length, combine_length, !map_length; lia).
  assert (Ft : Forall is_binary64 ts) by (apply dterms_Forall; [apply opp_format|apply (rrow_Forall _ r rows (2 ^ mu)); auto using abs_format]).
  assert (Bt : Forall (fun x => (Rabs x <= a)%R) ts).
  { apply dterms_Forall; [intros x; rewrite Rabs_Ropp; auto|]. apply (rrow_Forall (fun x => (Rabs x <= a)%R) r rows (2 ^ mu)); auto. intros x. rewrite Rabs_Rabsolu. auto. }
  pose proof (pos_INR (length rows)) as P0. apply le_INR in Ln.
  assert (N52 : (INR (2 ^ mu) <= 2 ^ 52)%R). { rewrite pow_INR. change (INR 2) with 2%R. apply Rle_pow; [lra|exact Hmu]. }
  assert (Er : (/ 2 ^ 52 * (INR (length ts) * INR (length ts)) * a <= / 2 ^ 52 * (INR (2 ^ mu) * INR (2 ^ mu)) * a)%R).
  { apply Rmult_le_compat_r; auto. apply Rmult_le_compat_l; [apply Rlt_le, Rinv_0_lt_compat, pow_lt; lra|]. rewrite Lt. apply Rmult_le_compat; auto. }
  rewrite xor_terms. fold ts. destruct b.
  - apply neg_true. pose proof (rounded_error a (map Ropp ts) _ Ha (S _)) as E. rewrite total_opp, map_length in E.
    assert (E1 := E ltac:(apply Forall_map; eapply Forall_impl; [|exact Ft]; apply opp_format) ltac:(apply Forall_map; eapply Forall_impl; [|exact Bt]; cbv beta; intros x; rewrite Rabs_Ropp; auto) ltac:(rewrite Lt; lra)).
    apply Rabs_le_inv in E1. lra.
  - apply neg_false. pose proof (rounded_error a ts _ Ha (S _) Ft Bt ltac:(rewrite Lt; lra)) as E. apply Rabs_le_inv in E. lra.
Qed.
(** without errors the decision variables are sums of numbers of the same sign *)
Lemma sign_noiseless rho mu npdot r : any_order npdot -> length r = 2 ^ mu -> Forall is_binary64 r -> Forall (fun x => x <> 0%R) r -> rho < mu ->
  forall I b, idx mu I -> length I <= rho -> let e := repeat false (2 ^ mu) in
  neg (npdot (dterms (map (fun row => xorb b (csum e row)) (reed_partition mu I)) (map (rrow r) (reed_partition mu I)))) = b.
Proof.
  intros S Lr F NZ Hr I b HI LI e. set (rows := reed_partition mu I). pose proof (partition_rows mu I HI) as HR. fold rows in HR.
  assert (A0 : forall p, at_ e p = false). { intros p. unfold at_, e. destruct (Nat.lt_ge_cases p (2 ^ mu)); [rewrite nth_repeat; auto|apply nth_overflow; rewrite repeat_length; auto]. }
  assert (C0 : map (csum e) rows = map (fun _ => false) rows).
  { apply map_ext. intros row. apply csum_not_hit. unfold hit. apply not_true_iff_false. intros Q. apply existsb_exists in Q as (p & _ & Q). congruence. }
  assert (T0 : dterms (map (csum e) rows) (map (rrow r) rows) = map (rrow r) rows).
  { rewrite C0. unfold dterms. clear. induction rows as [|row rows IH]; cbn [map combine]; auto. congruence. }
  rewrite xor_terms, T0. set (ts := map (rrow r) rows).
  assert (Ft : Forall is_binary64 ts) by (apply (rrow_Forall _ r rows (2 ^ mu)); auto using abs_format).
  assert (Pt : Forall (fun x => (0 < x)%R) ts).
  { apply Forall_forall. intros y Iy. apply in_map_iff in Iy as (row & <- & Iy). destruct (HR row Iy) as [NE B].
    destruct (fmin_in (map (fun p => nth p r 0%R) row)) as (x & Ix & E); [destruct row; [congruence|discriminate]|]. unfold rrow. rewrite E.
    apply in_map_iff in Ix as (p & <- & Ip). apply Rabs_pos_lt. rewrite Forall_forall in NZ. apply NZ, nth_In. rewrite Lr. auto. }
  assert (NEt : exists x, In x ts).
  { assert (Lt : length ts <> 0). { unfold ts, rows. rewrite map_length, reed_partition_length. apply Nat.pow_nonzero. lia. }
    revert Lt. generalize ts. intros [|x l] Lt; [cbn in Lt; congruence|]. exists x. left. auto. }
  destruct NEt as (x & Ix). assert (X0 : (0 < x)%R) by (rewrite Forall_forall in Pt; auto).
  assert (Wk : Forall (fun y => (0 <= y)%R) ts) by (eapply Forall_impl; [|exact Pt]; cbv beta; intros; lra).
  destruct b.
  - apply neg_true. pose proof (S (map Ropp ts)) as E. apply rounded_opp in E. rewrite map_map in E. rewrite (map_ext _ (fun y => y)), map_id in E by (intros; lra).
    destruct (rounded_pos _ _ E Ft Wk) as [_ G]. specialize (G x Ix). lra.
  - apply neg_false. destruct (rounded_pos _ _ (S ts) Ft Wk) as [G _]. exact G.
Qed.
