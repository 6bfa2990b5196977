(* Polar codes: the butterfly computes the product with the generator matrix. *)
From Verif Require Import Common Bits_Model Vec_Model Vec_Proof LinAlg_Model Linear_Spec
  LinAlg_Proof XRref_Proof BlockCode_Model Code_Spec BlockCode_Proof Systematic_Proof Polar_Model.
Local Open Scope nat_scope.

(* ---- Kronecker powers ---- *)
Lemma flat_map_flat_map {A B C} (f : A -> list B) (g : B -> list C) l : flat_map g (flat_map f l) = flat_map (fun x => flat_map g (f x)) l.
Proof. induction l as [|x l IH]; cbn; auto. rewrite flat_map_app, IH; auto. Qed.
Lemma flat_map_map {A B C} (f : A -> B) (g : B -> list C) l : flat_map g (map f l) = flat_map (fun x => g (f x)) l.
Proof. induction l as [|x l IH]; cbn; auto. rewrite IH; auto. Qed.
Lemma map_flat_map {A B C} (f : A -> list B) (g : B -> C) l : map g (flat_map f l) = flat_map (fun x => map g (f x)) l.
Proof. induction l as [|x l IH]; cbn; auto. rewrite map_app, IH; auto. Qed.

Lemma krow_assoc a b c : krow (krow a b) c = krow a (krow b c).
Proof.
  unfold krow. rewrite flat_map_flat_map. apply flat_map_ext. intros x. rewrite flat_map_map, map_flat_map. apply flat_map_ext. intros y.
  rewrite map_map. apply map_ext. intros z. rewrite andb_assoc; auto.
Qed.

Lemma kron_assoc A B C : kron (kron A B) C = kron A (kron B C).
Proof.
  unfold kron. rewrite flat_map_flat_map. apply flat_map_ext. intros ra. rewrite flat_map_map, map_flat_map. apply flat_map_ext. intros rb.
  rewrite map_map. apply map_ext. intros rc. apply krow_assoc.
Qed.

Lemma krow_one r : krow [true] r = r.
Proof. unfold krow. cbn. rewrite app_nil_r. rewrite (map_ext _ (fun x => x)) by auto. apply map_id. Qed.
Lemma krow_one_r r : krow r [true] = r.
Proof. unfold krow. induction r as [|x r IH]; cbn in *; auto. rewrite IH, andb_true_r; auto. Qed.
Lemma kron_one M : kron [[true]] M = M.
Proof. unfold kron. cbn. rewrite app_nil_r. rewrite (map_ext _ (fun x => x)) by (intros; apply krow_one). apply map_id. Qed.
Lemma kron_one_r M : kron M [[true]] = M.
Proof. unfold kron. induction M as [|r M IH]; cbn in *; auto. rewrite IH, krow_one_r; auto. Qed.

Lemma hadamard_S mu : hadamard (S mu) = kron (hadamard mu) polar_kernel.
Proof. unfold hadamard. rewrite seq_S, fold_left_app. reflexivity. Qed.

Lemma hadamard_S' mu : hadamard (S mu) = kron polar_kernel (hadamard mu).
Proof.
  induction mu as [|mu IH].
  - rewrite hadamard_S. change (hadamard 0) with [[true]]. rewrite kron_one, kron_one_r. auto.
  - rewrite (hadamard_S (S mu)). rewrite IH at 1. rewrite kron_assoc, <- hadamard_S. auto.
Qed.

Lemma hadamard_rec mu : hadamard (S mu) =
  map (fun r => r ++ zeros (length r)) (hadamard mu) ++ map (fun r => r ++ r) (hadamard mu).
Proof.
  rewrite hadamard_S'. unfold kron, polar_kernel. cbn [flat_map]. rewrite app_nil_r. f_equal; apply map_ext; intros r; unfold krow; cbn [flat_map].
  - rewrite app_nil_r. f_equal; [rewrite (map_ext _ (fun x => x)) by auto; apply map_id|]. induction r; cbn in *; auto. f_equal; auto.
  - rewrite app_nil_r. rewrite (map_ext _ (fun x => x)) by auto. rewrite map_id; auto.
Qed.

Lemma hadamard_shape mu : wf (2 ^ mu) (hadamard mu) /\ length (hadamard mu) = 2 ^ mu.
Proof.
  induction mu as [|mu [W L]]; [repeat constructor|]. rewrite hadamard_rec. split.
  - unfold wf in *. rewrite Forall_forall in *. intros r. rewrite in_app_iff, !in_map_iff. intros [(x & <- & Hx)|(x & <- & Hx)]; apply W in Hx;
      rewrite app_length, ?zeros_length, Hx; cbn; lia.
  - rewrite app_length, !map_length, L. cbn; lia.
Qed.

(* entry (i, j) is 1 iff the digits of j are among those of i *)
Lemma tb_split mu a i k : i < 2 ^ mu -> Nat.testbit (a * 2 ^ mu + i) k = if k <? mu then Nat.testbit i k else Nat.testbit a (k - mu).
Proof.
  intros Hi. pose proof (Nat.pow_nonzero 2 mu ltac:(lia)) as P. destruct (Nat.ltb_spec k mu) as [H|H].
  - rewrite <- (Nat.mod_pow2_bits_low _ mu k) by auto. rewrite Nat.add_comm, Nat.mod_add, Nat.mod_small; auto.
  - replace k with ((k - mu) + mu) at 1 by lia. rewrite <- Nat.div_pow2_bits. rewrite Nat.add_comm, Nat.div_add, Nat.div_small; auto.
Qed.

Lemma land_lt mu i j : i < 2 ^ mu -> Nat.land i j < 2 ^ mu.
Proof.
  intros Hi. assert (E : Nat.land i j = Nat.land i j mod 2 ^ mu).
  { apply Nat.bits_inj. intros k. destruct (Nat.lt_ge_cases k mu) as [H|H].
    - rewrite Nat.mod_pow2_bits_low; auto.
    - rewrite Nat.mod_pow2_bits_high, Nat.land_spec by auto. rewrite <- (Nat.mod_small i (2 ^ mu) Hi), Nat.mod_pow2_bits_high by auto. auto. }
  rewrite E. apply Nat.mod_upper_bound, Nat.pow_nonzero. lia.
Qed.

Lemma land_split mu a b i j : i < 2 ^ mu -> j < 2 ^ mu -> Nat.land (a * 2 ^ mu + i) (b * 2 ^ mu + j) = Nat.land a b * 2 ^ mu + Nat.land i j.
Proof.
  intros Hi Hj. apply Nat.bits_inj. intros k. rewrite Nat.land_spec, !tb_split by (auto; apply land_lt; auto).
  destruct (k <? mu); rewrite Nat.land_spec; auto.
Qed.

Lemma hadamard_entry mu : forall i j, i < 2 ^ mu -> j < 2 ^ mu -> nth j (nth i (hadamard mu) []) false = (Nat.land i j =? j).
Proof.
  induction mu as [|mu IH]; intros i j Hi Hj.
  - cbn in Hi, Hj. replace i with 0 by lia. replace j with 0 by lia. reflexivity.
  - rewrite hadamard_rec. destruct (hadamard_shape mu) as [W L].
    assert (Row : forall i', i' < 2 ^ mu -> length (nth i' (hadamard mu) []) = 2 ^ mu) by (intros; apply wf_nth; auto; lia).
    assert (D : forall x, x < 2 ^ S mu -> exists c x', c < 2 /\ x' < 2 ^ mu /\ x = c * 2 ^ mu + x').
    { intros x Hx. cbn in Hx. destruct (Nat.lt_ge_cases x (2 ^ mu)); [exists 0, x|exists 1, (x - 2 ^ mu)]; lia. }
    destruct (D i Hi) as (a & i' & Ha & Hi' & Ei). destruct (D j Hj) as (b & j' & Hb & Hj' & Ej). rewrite Ei, Ej. rewrite land_split by auto.
    specialize (IH i' j' Hi' Hj'). pose proof (land_lt mu i' j' Hi') as LL.
    destruct a as [|[|a]]; [| |lia]; destruct b as [|[|b]]; try lia;
      change (Nat.land 0 0) with 0; change (Nat.land 0 1) with 0; change (Nat.land 1 0) with 0; change (Nat.land 1 1) with 1; rewrite ?Nat.mul_0_l, ?Nat.mul_1_l, ?Nat.add_0_l.
    + rewrite app_nth1 by (rewrite map_length; lia). rewrite (nth_indep _ [] ([] ++ zeros (length (@nil bool)))) by (rewrite map_length; lia).
      rewrite (map_nth (fun r => r ++ zeros (length r))). rewrite app_nth1 by (rewrite Row; auto). auto.
    + rewrite app_nth1 by (rewrite map_length; lia). rewrite (nth_indep _ [] ([] ++ zeros (length (@nil bool)))) by (rewrite map_length; lia).
      rewrite (map_nth (fun r => r ++ zeros (length r))). rewrite app_nth2 by (rewrite Row; lia). rewrite nth_zeros. symmetry. apply Nat.eqb_neq. lia.
    + rewrite app_nth2 by (rewrite map_length; lia). rewrite map_length, L. replace (2 ^ mu + i' - 2 ^ mu) with i' by lia.
      rewrite (nth_indep _ [] ([] ++ [])) by (rewrite map_length; lia). rewrite (map_nth (fun r => r ++ r)). rewrite app_nth1 by (rewrite Row; auto).
      auto.
    + rewrite app_nth2 by (rewrite map_length; lia). rewrite map_length, L. replace (2 ^ mu + i' - 2 ^ mu) with i' by lia.
      rewrite (nth_indep _ [] ([] ++ [])) by (rewrite map_length; lia). rewrite (map_nth (fun r => r ++ r)). rewrite app_nth2 by (rewrite Row; lia).
      rewrite Row by auto. replace (2 ^ mu + j' - 2 ^ mu) with j' by lia. rewrite IH.
      destruct (Nat.eqb_spec (Nat.land i' j') j'); symmetry; [apply Nat.eqb_eq|apply Nat.eqb_neq]; lia.
Qed.

(* ---- the recursive transform ---- *)
Fixpoint ptrans (mu : nat) (v : vec) : vec :=
  match mu with
  | 0 => v
  | S mu' => let a := ptrans mu' (firstn (2 ^ mu') v) in let b := ptrans mu' (skipn (2 ^ mu') v) in vxor a b ++ b
  end.

Lemma half_lengths mu (v : vec) : length v = 2 ^ S mu -> length (firstn (2 ^ mu) v) = 2 ^ mu /\ length (skipn (2 ^ mu) v) = 2 ^ mu.
Proof. intros L. cbn in L. rewrite firstn_length, skipn_length. lia. Qed.

Lemma ptrans_length mu : forall v, length v = 2 ^ mu -> length (ptrans mu v) = 2 ^ mu.
Proof.
  induction mu as [|mu IH]; intros v L; auto. cbn [ptrans]. apply half_lengths in L as [L1 L2].
  rewrite app_length, vxor_length, !IH by (rewrite ?IH; auto). cbn; lia.
Qed.

Lemma ptrans_S mu a b : length a = 2 ^ mu -> length b = 2 ^ mu -> ptrans (S mu) (a ++ b) = vxor (ptrans mu a) (ptrans mu b) ++ ptrans mu b.
Proof.
  intros La Lb. cbn [ptrans]. rewrite firstn_app, skipn_app, La, Nat.sub_diag. cbn [firstn skipn].
  rewrite app_nil_r, <- La, firstn_all, skipn_all. auto.
Qed.

Lemma split_half mu (v : vec) : length v = 2 ^ S mu -> exists a b, v = a ++ b /\ length a = 2 ^ mu /\ length b = 2 ^ mu.
Proof.
  intros L. exists (firstn (2 ^ mu) v), (skipn (2 ^ mu) v). rewrite firstn_skipn. apply half_lengths in L. tauto.
Qed.

Lemma vxor_app2 a b c d : length a = length b -> vxor (a ++ c) (b ++ d) = vxor a b ++ vxor c d.
Proof. revert b; induction a as [|x a IH]; intros [|y b] L; cbn in *; try lia; auto. rewrite IH by lia. auto. Qed.

Lemma vecmat_map_app n m u (f g : vec -> vec) M : (forall r, In r M -> length (f r) = n) -> (forall r, In r M -> length (g r) = m) ->
  vecmat (n + m) u (map (fun r => f r ++ g r) M) = vecmat n u (map f M) ++ vecmat m u (map g M).
Proof.
  revert M; induction u as [|x u IH]; intros [|r M] Hf Hg; cbn [vecmat map]; try apply repeat_app.
  rewrite IH; [|intros; apply Hf; right; auto|intros; apply Hg; right; auto]. destruct x; auto. apply vxor_app2.
  rewrite vecmat_length; [apply Hf; left; auto|]. unfold wf. rewrite Forall_forall. intros y Hy. apply in_map_iff in Hy as (z & <- & Hz). apply Hf. right; auto.
Qed.

Lemma vecmat_zero_rows n u M : vecmat n u (map (fun _ : vec => zeros n) M) = zeros n.
Proof.
  revert M; induction u as [|x u IH]; intros [|r M]; cbn [vecmat map]; auto. rewrite IH. destruct x; auto. apply vxor_zeros_r, zeros_length.
Qed.

Lemma ptrans_hadamard mu : forall v, length v = 2 ^ mu -> ptrans mu v = vecmat (2 ^ mu) v (hadamard mu).
Proof.
  induction mu as [|mu IH]; intros v L.
  - destruct v as [|b [|c v]]; try discriminate. destruct b; reflexivity.
  - destruct (split_half mu v L) as (a & b & -> & La & Lb). rewrite ptrans_S, !IH by auto. rewrite hadamard_rec.
    destruct (hadamard_shape mu) as [W LH]. pose proof (proj1 (Forall_forall _ _) W) as W'.
    assert (E1 : map (fun r => r ++ zeros (length r)) (hadamard mu) = map (fun r => r ++ zeros (2 ^ mu)) (hadamard mu)).
    { apply map_ext_in. intros r Hr. rewrite (W' r Hr). auto. }
    rewrite E1. replace (2 ^ S mu) with (2 ^ mu + 2 ^ mu) by (cbn; lia).
    rewrite vecmat_app.
    + rewrite (vecmat_map_app _ _ a (fun r => r) (fun _ => zeros (2 ^ mu))) by (auto; intros; apply zeros_length).
      rewrite (vecmat_map_app _ _ b (fun r => r) (fun r => r)) by auto. rewrite !map_id, vecmat_zero_rows.
      rewrite vxor_app2, vxor_zeros_l by (rewrite !vecmat_length; auto). auto.
    + unfold wf. rewrite Forall_forall. intros r Hr. apply in_map_iff in Hr as (x & <- & Hx). rewrite app_length, zeros_length, (W' x Hx); auto.
    + unfold wf. rewrite Forall_forall. intros r Hr. apply in_map_iff in Hr as (x & <- & Hx). rewrite app_length, (W' x Hx); auto.
    + rewrite map_length. congruence.
Qed.

Lemma ptrans_involution mu : forall v, length v = 2 ^ mu -> ptrans mu (ptrans mu v) = v.
Proof.
  induction mu as [|mu IH]; intros v L; auto. destruct (split_half mu v L) as (a & b & -> & La & Lb).
  pose proof (ptrans_length mu a La) as Ta. pose proof (ptrans_length mu b Lb) as Tb.
  rewrite (ptrans_S mu a b) by auto. rewrite ptrans_S; [|rewrite vxor_length; congruence|auto]. rewrite IH by auto. f_equal.
  assert (Lin : ptrans mu (vxor (ptrans mu a) (ptrans mu b)) = vxor a b).
  { rewrite ptrans_hadamard by (rewrite vxor_length; congruence). rewrite vecmat_vxor by (try apply hadamard_shape; congruence).
    rewrite <- !ptrans_hadamard, !IH by auto. auto. }
  rewrite Lin. rewrite vxor_cancel_r by congruence. auto.
Qed.

(* ---- the in-place butterfly ---- *)
Lemma slice_xor_length m v i : i + 2 * m <= length v -> length (slice_xor m v i) = length v.
Proof.
  intros H. unfold slice_xor. rewrite !app_length, vxor_length, !firstn_length, !skipn_length; rewrite ?firstn_length, ?skipn_length; lia.
Qed.

Lemma slice_xor_left m a b i : i + 2 * m <= length a -> slice_xor m (a ++ b) i = slice_xor m a i ++ b.
Proof.
  intros H. unfold slice_xor. rewrite !firstn_app, !skipn_app, !firstn_app.
  rewrite !skipn_length. replace (i - length a) with 0 by lia. replace (i + m - length a) with 0 by lia.
  replace (m - (length a - i)) with 0 by lia. replace (m - (length a - (i + m))) with 0 by lia. cbn [firstn skipn]. rewrite !app_nil_r, <- !app_assoc. auto.
Qed.

Lemma slice_xor_right m a b i : slice_xor m (a ++ b) (length a + i) = a ++ slice_xor m b i.
Proof.
  unfold slice_xor. rewrite firstn_app_2, <- app_assoc. f_equal. 
  assert (S : forall k, skipn (length a + k) (a ++ b) = skipn k b).
  { intros k. rewrite skipn_app, skipn_all2 by lia. cbn [app]. f_equal. lia. }
  rewrite S. rewrite <- Nat.add_assoc, S. auto.
Qed.

Lemma fold_slice_left m l a b : (forall i, In i l -> i + 2 * m <= length a) ->
  fold_left (slice_xor m) l (a ++ b) = fold_left (slice_xor m) l a ++ b /\ length (fold_left (slice_xor m) l a) = length a.
Proof.
  revert a; induction l as [|i l IH]; intros a H; cbn [fold_left]; auto.
  assert (Hi : i + 2 * m <= length a) by (apply H; left; auto). rewrite slice_xor_left by auto.
  pose proof (slice_xor_length m a i Hi) as L. destruct (IH (slice_xor m a i)) as [E L'].
  - intros j Hj. rewrite L. apply H. right; auto.
  - rewrite E. split; auto. congruence.
Qed.

Lemma fold_slice_right m l a b : fold_left (slice_xor m) (map (fun i => length a + i) l) (a ++ b) = a ++ fold_left (slice_xor m) l b.
Proof.
  revert b; induction l as [|i l IH]; intros b; cbn [fold_left map]; auto. rewrite slice_xor_right. apply IH.
Qed.

Lemma seq_plus a n : forall s, seq (a + s) n = map (fun t => a + t) (seq s n).
Proof. induction n as [|n IH]; intros s; cbn; auto. f_equal. rewrite <- Nat.add_succ_r. apply IH. Qed.

Lemma butterfly_blocks mu d : d <= mu -> 2 ^ S mu / (2 * 2 ^ d) = 2 ^ (mu - d).
Proof.
  intros H. rewrite <- Nat.pow_succ_r'. replace (S mu) with ((mu - d) + S d) at 1 by lia. rewrite Nat.pow_add_r.
  apply Nat.div_mul, Nat.pow_nonzero. lia.
Qed.

Lemma butterfly_length n v d : length v = n -> (exists k, n = k * (2 * 2 ^ d)) -> length (butterfly n v d) = n.
Proof.
  intros L [k E]. unfold butterfly.
  assert (P : 2 * 2 ^ d <> 0) by (pose proof (Nat.pow_nonzero 2 d); lia).
  replace (n / (2 * 2 ^ d)) with k by (rewrite E, Nat.div_mul; auto).
  destruct (fold_slice_left (2 ^ d) (map (fun t => t * (2 * 2 ^ d)) (seq 0 k)) v []) as [_ Q]; [|congruence].
  intros i Hi. apply in_map_iff in Hi as (t & <- & Ht). apply in_seq in Ht. nia.
Qed.

Lemma pow_multiple mu d : d < mu -> exists k, 2 ^ mu = k * (2 * 2 ^ d).
Proof.
  intros H. exists (2 ^ (mu - S d)). rewrite <- Nat.pow_succ_r', <- Nat.pow_add_r. f_equal. lia.
Qed.

(* a stage below the top one acts on the two halves separately *)
Lemma butterfly_halves mu d a b : d < mu -> length a = 2 ^ mu -> length b = 2 ^ mu ->
  butterfly (2 ^ S mu) (a ++ b) d = butterfly (2 ^ mu) a d ++ butterfly (2 ^ mu) b d.
Proof.
  intros H La Lb. unfold butterfly. rewrite butterfly_blocks by lia. destruct mu as [|mu]; [lia|]. rewrite butterfly_blocks by lia.
  replace (S mu - d) with (S (mu - d)) by lia. set (m := 2 ^ d). set (k := 2 ^ (mu - d)).
  assert (E : 2 ^ S mu = k * (2 * m)).
  { unfold k, m. rewrite <- Nat.pow_succ_r', <- Nat.pow_add_r. f_equal. lia. }
  replace (2 ^ S (mu - d)) with (k + k) by (unfold k; cbn; lia). rewrite seq_app, map_app, fold_left_app.
  destruct (fold_slice_left m (map (fun t => t * (2 * m)) (seq 0 k)) a b) as [Q L].
  { intros i Hi. apply in_map_iff in Hi as (t & <- & Ht). apply in_seq in Ht. rewrite La, E. nia. }
  rewrite Q. cbn [Nat.add].
  assert (Sh : map (fun t => t * (2 * m)) (seq k k) = map (fun i => length (fold_left (slice_xor m) (map (fun t => t * (2 * m)) (seq 0 k)) a) + i) (map (fun t => t * (2 * m)) (seq 0 k))).
  { rewrite map_map. replace (seq k k) with (map (fun t => k + t) (seq 0 k)).
    - rewrite map_map. apply map_ext. intros t. rewrite L, La, E. nia.
    - rewrite <- seq_plus, Nat.add_0_r. auto. }
  rewrite Sh. apply fold_slice_right.
Qed.

(* the top stage combines the halves *)
Lemma butterfly_top mu a b : length a = 2 ^ mu -> length b = 2 ^ mu -> butterfly (2 ^ S mu) (a ++ b) mu = vxor a b ++ b.
Proof.
  intros La Lb. unfold butterfly. rewrite butterfly_blocks by lia. rewrite Nat.sub_diag. cbn [Nat.pow seq map fold_left Nat.mul].
  unfold slice_xor. cbn [firstn skipn app Nat.add]. rewrite <- La. rewrite firstn_app, Nat.sub_diag, skipn_app, Nat.sub_diag, firstn_all, skipn_all.
  cbn [firstn skipn app]. rewrite app_nil_r. rewrite La, <- Lb, firstn_all. auto.
Qed.

Lemma fold_halves mu l : (forall d, In d l -> d < mu) -> forall a b, length a = 2 ^ mu -> length b = 2 ^ mu ->
  fold_left (butterfly (2 ^ S mu)) l (a ++ b) = fold_left (butterfly (2 ^ mu)) l a ++ fold_left (butterfly (2 ^ mu)) l b.
Proof.
  induction l as [|d l IH]; intros H a b La Lb; cbn [fold_left]; auto.
  assert (Hd : d < mu) by (apply H; left; auto). rewrite butterfly_halves by auto. apply IH.
  - intros; apply H; right; auto.
  - apply butterfly_length; auto. apply pow_multiple; auto.
  - apply butterfly_length; auto. apply pow_multiple; auto.
Qed.

Lemma polar_transform_spec mu : forall v, length v = 2 ^ mu -> polar_transform mu v = ptrans mu v.
Proof.
  unfold polar_transform. induction mu as [|mu IH]; intros v L; auto.
  destruct (split_half mu v L) as (a & b & -> & La & Lb). rewrite ptrans_S by auto.
  rewrite seq_S, fold_left_app. cbn [Nat.add]. rewrite fold_halves; auto.
  - rewrite !IH by auto. apply butterfly_top; apply ptrans_length; auto.
  - intros d Hd. apply in_seq in Hd. lia.
Qed.

(* ---- the code ---- *)
Lemma not_pivots_props n l : NoDup (not_pivots n l) /\ (forall i, In i (not_pivots n l) <-> i < n /\ ~ In i l).
Proof.
  unfold not_pivots. split; [apply NoDup_filter, seq_NoDup|]. intros i. rewrite filter_In, in_seq, negb_true_iff. split.
  - intros [A B]. split; [lia|]. intros H. enough (existsb (Nat.eqb i) l = true) by congruence. apply existsb_exists. exists i. split; auto. apply Nat.eqb_refl.
  - intros [A B]. split; [lia|]. destruct (existsb _ _) eqn:E; auto. apply existsb_exists in E as (j & Hj & Ej). apply Nat.eqb_eq in Ej. subst. contradiction.
Qed.

Section Code.
Variables (mu : nat) (frozen : list nat).
Let n := 2 ^ mu.
Let act := polar_active mu frozen.
Let G := map (fun i => nth i (hadamard mu) []) act.

Lemma act_NoDup : NoDup act.
Proof. apply not_pivots_props. Qed.
Lemma act_lt i : In i act -> i < n.
Proof. intros H. apply (not_pivots_props n frozen) in H. tauto. Qed.

Definition place (u : vec) : vec := put act u (zeros n).

Lemma place_length u : length (place u) = n.
Proof. unfold place. rewrite put_length, zeros_length; auto. Qed.

Lemma place_gather u : length u = length act -> gather act (place u) = u.
Proof.
  intros L. apply gather_put_same; auto; [apply act_NoDup|]. intros i Hi. rewrite zeros_length. apply act_lt; auto.
Qed.

Lemma place_frozen u i : ~ In i act -> nth i (place u) false = false.
Proof.
  intros H. unfold place. rewrite nth_put_out; auto; [apply nth_zeros|]. intros j Hj. rewrite zeros_length. apply act_lt; auto.
Qed.

Lemma G_wf : wf n G.
Proof.
  unfold wf, G. rewrite Forall_forall. intros r Hr. apply in_map_iff in Hr as (i & <- & Hi).
  destruct (hadamard_shape mu) as [W L]. apply wf_nth; auto. rewrite L. apply act_lt; auto.
Qed.

(* selecting rows = multiplying a sparse vector *)
Lemma vecmat_upd m v M i b : wf m M -> length v = length M -> i < length M -> nth i v false = false ->
  vecmat m (upd i b v) M = if b then vxor (nth i M []) (vecmat m v M) else vecmat m v M.
Proof.
  revert v i; induction M as [|r M IH]; intros [|x v] i W L Hi N; cbn [length] in *; try lia.
  apply wf_cons in W as [Lr W]. destruct i as [|i]; cbn [upd nth vecmat] in *.
  - subst x. destruct b; auto.
  - rewrite IH by (auto; lia). destruct x, b; auto. rewrite <- !vxor_assoc. f_equal. apply vxor_comm.
Qed.

Lemma upd_same i (v : vec) : nth i v false = false -> upd i false v = v.
Proof. revert i; induction v as [|x v IH]; intros [|i] H; cbn in *; auto; [congruence|f_equal; auto]. Qed.

Lemma vecmat_put m M : wf m M -> forall idx u v, NoDup idx -> (forall i, In i idx -> i < length M) -> length u = length idx -> length v = length M ->
  (forall i, In i idx -> nth i v false = false) ->
  vecmat m (put idx u v) M = vxor (vecmat m u (map (fun i => nth i M []) idx)) (vecmat m v M).
Proof.
  intros W. induction idx as [|i idx IH]; intros [|b u] v ND B Lu Lv Z; cbn [length] in Lu; try lia.
  - unfold put. cbn. rewrite vxor_zeros_l; auto. apply vecmat_length; auto.
  - rewrite put_cons. inversion ND as [|? ? Ni ND']; subst. rewrite IH.
    + assert (Hi : i < length M) by (apply B; left; auto).
      rewrite vecmat_upd; auto; [|apply Z; left; auto]. cbn [map vecmat]. destruct b; auto.
      rewrite <- !vxor_assoc. f_equal. apply vxor_comm.
    + auto.
    + intros; apply B; right; auto.
    + lia.
    + rewrite upd_length; auto.
    + intros j Hj. destruct (Nat.eq_dec i j) as [->|Nij]; [contradiction|].
      destruct (Nat.lt_ge_cases i (length v)) as [Hlt|Hge].
      * rewrite nth_upd by auto. destruct (Nat.eqb_spec j i); [congruence|]. apply Z. right; auto.
      * replace (upd i b v) with v; [apply Z; right; auto|]. clear - Hge. revert i Hge. induction v as [|x v IHv]; intros [|i] H; cbn in *; auto; try lia. f_equal. apply IHv; lia.
Qed.

Lemma encode_matrix u : length u = length act -> polar_encode mu act u = vecmat n u G.
Proof.
  intros L. unfold polar_encode. fold n. fold (place u). rewrite polar_transform_spec by apply place_length.
  rewrite ptrans_hadamard by apply place_length. destruct (hadamard_shape mu) as [W LH]. unfold place. rewrite vecmat_put; auto.
  - rewrite vecmat_zeros by auto. apply vxor_zeros_r. apply vecmat_length, G_wf.
  - apply act_NoDup.
  - intros i Hi. rewrite LH. apply act_lt; auto.
  - rewrite zeros_length. auto.
  - intros; apply nth_zeros.
Qed.

Lemma G_independent : independent n G.
Proof.
  intros c L Z. unfold G in L at 1. rewrite map_length in L. rewrite <- encode_matrix in Z by auto. unfold polar_encode in Z. fold n in Z. fold (place c) in Z.
  rewrite polar_transform_spec in Z by apply place_length. apply (f_equal (ptrans mu)) in Z. rewrite ptrans_involution in Z by apply place_length.
  rewrite ptrans_hadamard in Z by apply zeros_length. rewrite vecmat_zeros in Z by apply hadamard_shape.
  rewrite <- (place_gather c L), Z, gather_zeros. unfold G. rewrite map_length; auto.
Qed.
End Code.

