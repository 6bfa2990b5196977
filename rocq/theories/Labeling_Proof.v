(* Proofs about labelings. *)
From Coq Require FinFun.
From Verif Require Import Common Bits_Model Bits_Proof Labeling_Model Labeling_Spec.
Local Open Scope nat_scope.

Lemma label_eqb_spec a b : label_eqb a b = true <-> a = b.
Proof. unfold label_eqb. destruct (list_eq_dec Bool.bool_dec a b); split; congruence. Qed.
Lemma distinct_spec rows : distinct rows = true <-> NoDup rows.
Proof.
  induction rows as [|r rs IH]; cbn; [split; constructor|].
  rewrite andb_true_iff, negb_true_iff, IH. split.
  - intros [H1 H2]. constructor; auto. intros H. rewrite <- not_true_iff_false in H1. apply H1. apply existsb_exists. exists r. split; auto. now apply label_eqb_spec.
  - intros H; inversion H; subst. split; auto. apply not_true_iff_false. intros E. apply existsb_exists in E as (x & Hx & E). apply label_eqb_spec in E. now subst.
Qed.
Lemma all_some_length {A} (l : list (option A)) r : all_some l = Some r -> length r = length l.
Proof. revert r. induction l as [|[a|] l IH]; intros r H; cbn in H; try congruence; [now inversion H|]. destruct (all_some l) eqn:E; inversion H; subst. cbn. f_equal. now apply IH. Qed.
Lemma all_some_iff {A} (l : list (option A)) r : all_some l = Some r <-> l = map Some r.
Proof.
  revert r. induction l as [|[a|] l IH]; intros r; cbn.
  - split; [intros H; inversion H; auto|]. destruct r; cbn; congruence.
  - split; [intros H; destruct (all_some l) eqn:E; inversion H; subst; cbn; f_equal; now apply IH|].
    intros H. destruct r as [|b r]; cbn in H; inversion H; subst. destruct (IH r) as [_ X]. rewrite X; auto.
  - split; [congruence|]. destruct r; cbn; congruence.
Qed.
Lemma all_some_map {A B} (f : A -> option B) (g : A -> B) l : (forall x, In x l -> f x = Some (g x)) -> all_some (map f l) = Some (map g l).
Proof. intros H. apply all_some_iff. rewrite map_map. apply map_ext_in. auto. Qed.

Lemma labeling_matrix_table mat rows : Labeling_matrix mat = Some rows -> label_table (length (nth 0 rows [])) rows.
Proof.
  unfold Labeling_matrix. destruct mat as [|r0 mat]; [discriminate|].
  destruct (forallb _ _) eqn:F; cbn [negb]; [|discriminate]. destruct (length (r0 :: mat) =? 2 ^ length r0) eqn:L; cbn [negb]; [|discriminate].
  destruct (all_some _) as [rs|] eqn:A; [|discriminate]. destruct (distinct rs) eqn:D; [|discriminate]. intros H; inversion H; subst rs. clear H.
  apply Nat.eqb_eq in L. apply distinct_spec in D. pose proof (all_some_length _ _ A) as LA. rewrite map_length in LA. apply all_some_iff in A.
  assert (FL : Forall (fun r => length r = length r0) rows).
  { apply Forall_forall. intros r Hr. rewrite forallb_forall in F. assert (Hs : In (Some r) (map (fun r => all_some (map entry r)) (r0 :: mat))) by (rewrite A; now apply in_map).
    apply in_map_iff in Hs as (z & Ez & Hz). apply all_some_length in Ez. rewrite map_length in Ez. specialize (F z Hz). apply Nat.eqb_eq in F. congruence. }
  assert (E : length (nth 0 rows []) = length r0).
  { destruct rows as [|r rows]; [cbn in LA; lia|]. inversion FL; subst. auto. }
  rewrite E. split; [congruence|]. split; auto.
Qed.
Lemma labeling_matrix_accepts m rows : label_table m rows -> Labeling_matrix (map (map (fun b : bool => if b then 1%Z else 0%Z)) rows) = Some rows.
Proof.
  intros (L & F & D). destruct rows as [|r0 rows]; [cbn in L; pose proof (Nat.pow_nonzero 2 m); lia|].
  unfold Labeling_matrix. cbn [map]. rewrite map_length. rewrite <- (map_cons (map (fun b : bool => if b then 1%Z else 0%Z))).
  assert (L0 : length r0 = m) by (now inversion F).
  replace (forallb _ _) with true.
  2:{ symmetry. apply forallb_forall. intros z Hz. apply in_map_iff in Hz as (r & <- & Hr). rewrite map_length. apply Nat.eqb_eq. rewrite Forall_forall in F. rewrite (F r Hr). congruence. }
  cbn [negb]. rewrite map_length, L, L0, Nat.eqb_refl. cbn [negb].
  assert (A : all_some (map (fun r => all_some (map entry r)) (map (map (fun b : bool => if b then 1%Z else 0%Z)) (r0 :: rows))) = Some (r0 :: rows)).
  { apply all_some_iff. rewrite map_map. apply map_ext. intros r. apply all_some_iff. rewrite map_map. apply map_ext. intros []; reflexivity. }
  cbn [map] in A |- *. rewrite A. clear A.
  apply distinct_spec in D. now rewrite D.
Qed.

(* products *)
Lemma product_rows_table ms : forall mats, Forall2 label_table ms mats -> label_table (fold_right Nat.add 0 ms) (product_rows mats).
Proof.
  induction ms as [|m ms IH]; intros mats H; inversion H; subst; cbn [product_rows fold_right].
  - split; [reflexivity|]. split; [repeat constructor|]. repeat constructor. intros [].
  - rename y into mat. destruct H2 as (L & F & D). destruct (IH _ H4) as (L' & F' & D'). clear IH H H4. set (P := product_rows l') in *. clearbody P.
    split; [|split].
    + rewrite Nat.pow_add_r, <- L, <- L'. clear. induction mat as [|r mat IH]; cbn; auto. rewrite app_length, map_length, IH. reflexivity.
    + apply Forall_forall. intros x Hx. apply in_flat_map in Hx as (r & Hr & Hx). apply in_map_iff in Hx as (s & <- & Hs). rewrite app_length. rewrite Forall_forall in F, F'. rewrite (F r Hr), (F' s Hs). reflexivity.
    + clear L L'. induction mat as [|r mat IH]; cbn; [constructor|]. inversion F; subst. inversion D; subst.
      assert (forall A (a b : list A), NoDup a -> NoDup b -> (forall x, In x a -> In x b -> False) -> NoDup (a ++ b)) as NDA.
      { clear. induction a as [|x a IH]; cbn; intros b Na Nb Hd; auto. inversion Na; subst. constructor.
        - intros Hi. apply in_app_iff in Hi as [Hi|Hi]; [auto|]. apply (Hd x); [left|]; auto.
        - apply IH; auto. intros y Hy Hy'. apply (Hd y); [right|]; auto. }
      apply NDA; auto.
      * apply FinFun.Injective_map_NoDup; auto. intros a b E. now apply app_inv_head in E.
      * intros x Hx Hx'. apply in_map_iff in Hx as (s & <- & Hs). apply in_flat_map in Hx' as (r' & Hr' & Hx'). apply in_map_iff in Hx' as (s' & E & Hs').
        apply app_inj_len in E as [E _]; [subst; auto|]. rewrite Forall_forall in H2. apply H2; auto.
Qed.
Lemma product_rows_nth ms : forall mats idx, Forall2 label_table ms mats -> forall m mat i k, label_table m mat -> i < 2 ^ m -> k < 2 ^ (fold_right Nat.add 0 ms) -> idx = i * 2 ^ (fold_right Nat.add 0 ms) + k ->
  nth idx (product_rows (mat :: mats)) [] = nth i mat [] ++ nth k (product_rows mats) [].
Proof.
  intros mats idx H m mat i k (L & F & D) Hi Hk ->. destruct (product_rows_table ms mats H) as (L' & _ & _). cbn [product_rows]. set (P := product_rows mats) in *. clearbody P.
  rewrite <- L in Hi. rewrite <- L' in *. clear - Hi Hk. revert i Hi. induction mat as [|r mat IH]; intros i Hi; cbn in Hi; [lia|]. cbn [flat_map].
  destruct i as [|i].
  - cbn [Nat.mul Nat.add nth]. rewrite app_nth1 by (rewrite map_length; lia). rewrite (nth_indep _ [] (r ++ [])) by (rewrite map_length; lia). apply (map_nth (fun s => r ++ s)).
  - rewrite app_nth2 by (rewrite map_length; nia). rewrite map_length. replace (S i * length P + k - length P) with (i * length P + k) by nia. cbn [nth]. apply IH. lia.
Qed.

(* bits *)
Lemma nth_z_to_bits i m j : j < m -> nth j (z_to_bits i m) false = Z.testbit i (Z.of_nat (m - 1 - j)).
Proof. intros. unfold z_to_bits. rewrite nth_map_seq; auto. Qed.
Lemma bit_at_testbit n i : bit_at n i = N.testbit n (N.of_nat i).
Proof. unfold bit_at. rewrite <- N.bit0_odd, N.shiftr_spec'. f_equal. Qed.
Lemma z_to_bits_N n m : z_to_bits (Z.of_N n) m = int_to_bits n m MSB_first.
Proof. unfold z_to_bits, int_to_bits. apply map_ext. intros j. rewrite bit_at_testbit. rewrite <- nat_N_Z. apply Z.testbit_of_N. Qed.
Lemma z_to_bits_gray n m : z_to_bits (Z.lxor (Z.of_N n) (Z.shiftr (Z.of_N n) 1)) m = int_to_bits (gray n) m MSB_first.
Proof.
  rewrite <- z_to_bits_N. unfold z_to_bits. apply map_ext. intros j. unfold gray. rewrite Z.lxor_spec, Z.shiftr_spec by lia.
  rewrite <- nat_N_Z, Z.testbit_of_N, Z.testbit_of_N, N.lxor_spec, N.shiftr_spec'. f_equal.
  rewrite <- (Z.testbit_of_N n (_ + 1)). f_equal. lia.
Qed.

Lemma pow2_N m : N.of_nat (2 ^ m) = (2 ^ N.of_nat m)%N.
Proof. induction m; [reflexivity|]. rewrite Nat.pow_succ_r', Nat2N.inj_mul, IHm, (Nat2N.inj_succ m), N.pow_succ_r'. reflexivity. Qed.

Lemma fold_lxor_testbit n js : forall acc j, N.testbit (fold_left (fun acc s => N.lxor acc (N.shiftr n (N.of_nat s))) js acc) j =
  xorb (N.testbit acc j) (fold_right xorb false (map (fun s => N.testbit n (j + N.of_nat s)) js)).
Proof.
  induction js as [|s js IH]; intros acc j; cbn [fold_left fold_right map]; [now rewrite xorb_false_r|].
  rewrite IH, N.lxor_spec, N.shiftr_spec', xorb_assoc. reflexivity.
Qed.
Lemma testbit_above n m j : (n < 2 ^ N.of_nat m)%N -> (N.of_nat m <= j)%N -> N.testbit n j = false.
Proof. intros H Hj. destruct (N.eq_dec n 0) as [->|]; [apply N.bits_0|]. apply N.bits_above_log2. apply N.log2_lt_pow2 in H; lia. Qed.
Lemma bound_of_testbit n m : (forall j, (N.of_nat m <= j)%N -> N.testbit n j = false) -> (n < 2 ^ N.of_nat m)%N.
Proof.
  intros H. destruct (N.eq_dec n 0) as [->|Hn]; [pose proof (N.pow_nonzero 2 (N.of_nat m)); lia|].
  apply N.log2_lt_pow2; [lia|]. destruct (N.lt_ge_cases (N.log2 n) (N.of_nat m)); auto.
  pose proof (N.bit_log2 n Hn) as B. rewrite H in B by auto. discriminate.
Qed.
Lemma telescope (t : nat -> bool) m : fold_right xorb false (map (fun s => xorb (t s) (t (S s))) (seq 0 m)) = xorb (t 0) (t m).
Proof.
  enough (forall a, fold_right xorb false (map (fun s => xorb (t s) (t (S s))) (seq a m)) = xorb (t a) (t (a + m))) as H by apply H.
  induction m as [|m IH]; intros a; cbn [seq map fold_right]; [now rewrite Nat.add_0_r, xorb_nilpotent|].
  rewrite IH. replace (S a + m) with (a + S m) by lia. destruct (t a), (t (S a)), (t (a + S m)); reflexivity.
Qed.
Lemma fold_xorb_two (f g : nat -> bool) l : xorb (fold_right xorb false (map f l)) (fold_right xorb false (map g l)) = fold_right xorb false (map (fun s => xorb (f s) (g s)) l).
Proof. induction l as [|x l IH]; cbn; auto. rewrite <- IH. destruct (f x), (g x), (fold_right xorb false (map f l)), (fold_right xorb false (map g l)); reflexivity. Qed.

Lemma gray_testbit n j : N.testbit (gray n) j = xorb (N.testbit n j) (N.testbit n (j + 1)).
Proof. unfold gray. rewrite N.lxor_spec, N.shiftr_spec'. reflexivity. Qed.
Lemma ungray_testbit m n j : N.testbit (ungray m n) j = fold_right xorb false (map (fun s => N.testbit n (j + N.of_nat s)) (seq 0 m)).
Proof. unfold ungray. rewrite fold_lxor_testbit, N.bits_0, xorb_false_l. reflexivity. Qed.
Lemma gray_bound n m : (n < 2 ^ N.of_nat m)%N -> (gray n < 2 ^ N.of_nat m)%N.
Proof. intros H. apply bound_of_testbit. intros j Hj. rewrite gray_testbit, !(testbit_above n m) by (auto; lia). reflexivity. Qed.
Lemma ungray_bound n m : (n < 2 ^ N.of_nat m)%N -> (ungray m n < 2 ^ N.of_nat m)%N.
Proof.
  intros H. apply bound_of_testbit. intros j Hj. rewrite ungray_testbit. rewrite (map_ext _ (fun _ => false)).
  - induction (seq 0 m) as [|x l IHl]; cbn [map fold_right]; [reflexivity|]. now rewrite IHl.
  - intros s. apply (testbit_above n m); auto. lia.
Qed.
Lemma ungray_gray m n : (n < 2 ^ N.of_nat m)%N -> ungray m (gray n) = n.
Proof.
  intros H. apply N.bits_inj. intros j. rewrite ungray_testbit.
  rewrite (map_ext _ (fun s => xorb (N.testbit n (j + N.of_nat s)) (N.testbit n (j + N.of_nat (S s))))).
  - rewrite (telescope (fun s => N.testbit n (j + N.of_nat s))). rewrite (testbit_above n m (j + N.of_nat m)) by (auto; lia). rewrite xorb_false_r. f_equal. lia.
  - intros s. rewrite gray_testbit. do 2 f_equal. lia.
Qed.
Lemma gray_ungray m n : (n < 2 ^ N.of_nat m)%N -> gray (ungray m n) = n.
Proof.
  intros H. apply N.bits_inj. intros j. rewrite gray_testbit, !ungray_testbit, fold_xorb_two.
  rewrite (map_ext _ (fun s => xorb (N.testbit n (j + N.of_nat s)) (N.testbit n (j + N.of_nat (S s))))).
  - rewrite (telescope (fun s => N.testbit n (j + N.of_nat s))). rewrite (testbit_above n m (j + N.of_nat m)) by (auto; lia). rewrite xorb_false_r. f_equal. lia.
  - intros s. f_equal. f_equal. lia.
Qed.

(* a pair of mutually inverse maps *)
Definition inverse_pair (m : nat) (f : nat -> list bool) (g : list bool -> nat) : Prop :=
  (forall i, i < 2 ^ m -> length (f i) = m /\ g (f i) = i) /\ (forall b, length b = m -> g b < 2 ^ m /\ f (g b) = b).
Lemma inverse_pair_table m f g : inverse_pair m f g -> label_table m (map f (seq 0 (2 ^ m))).
Proof.
  intros [H1 H2]. split; [now rewrite map_length, seq_length|]. split.
  - apply Forall_forall. intros r Hr. apply in_map_iff in Hr as (i & <- & Hi). apply in_seq in Hi. apply H1. lia.
  - apply (NoDup_nth _ []). rewrite map_length, seq_length. intros i j Hi Hj E. rewrite !nth_map_seq in E by auto.
    apply (f_equal g) in E. rewrite (proj2 (H1 i Hi)), (proj2 (H1 j Hj)) in E. auto.
Qed.
Lemma natural_pair m : inverse_pair m (fun i => int_to_bits (N.of_nat i) m MSB_first) (fun b => N.to_nat (bits_to_int b MSB_first)).
Proof.
  split.
  - intros i Hi. split; [apply int_to_bits_length|]. rewrite bits_int_round_trip; [lia|]. rewrite <- pow2_N. lia.
  - intros b <-. pose proof (bits_to_int_bound b MSB_first) as B. rewrite <- pow2_N in B. split; [lia|]. rewrite N2Nat.id. apply int_bits_round_trip.
Qed.
Lemma reflected_pair m : inverse_pair m (fun i => int_to_bits (gray (N.of_nat i)) m MSB_first) (fun b => N.to_nat (ungray m (bits_to_int b MSB_first))).
Proof.
  split.
  - intros i Hi. split; [apply int_to_bits_length|]. assert (B : (N.of_nat i < 2 ^ N.of_nat m)%N) by (rewrite <- pow2_N; lia).
    rewrite bits_int_round_trip by (now apply gray_bound). rewrite ungray_gray; auto. lia.
  - intros b L. pose proof (bits_to_int_bound b MSB_first) as B. rewrite L in B. pose proof (ungray_bound _ _ B) as B'. split; [rewrite <- pow2_N in B'; lia|].
    rewrite N2Nat.id, gray_ungray by auto. rewrite <- L at 1. apply int_bits_round_trip.
Qed.

(* lookup in the inverse mapping *)
Lemma dict_get_app d d' k : dict_get (d ++ d') k = match dict_get d' k with Some i => Some i | None => dict_get d k end.
Proof.
  unfold dict_get. rewrite fold_left_app. generalize (fold_left (fun acc kv => if label_eqb (fst kv) k then Some (snd kv) else acc) d None). clear d.
  induction d' as [|[k' i'] d' IH] using rev_ind; intros o; cbn; auto. rewrite !fold_left_app. cbn. destruct (label_eqb k' k); auto.
Qed.
Lemma dict_get_none d k : (forall kv, In kv d -> fst kv <> k) -> dict_get d k = None.
Proof.
  unfold dict_get. induction d as [|kv d IH] using rev_ind; intros H; cbn; auto. rewrite fold_left_app. cbn. rewrite IH by (intros; apply H; apply in_or_app; auto).
  destruct (label_eqb (fst kv) k) eqn:E; auto. apply label_eqb_spec in E. exfalso. apply (H kv); auto. apply in_or_app. right; left; auto.
Qed.
Lemma dict_get_nth rows i : NoDup rows -> i < length rows -> dict_get (inverse_mapping rows) (nth i rows []) = Some i.
Proof.
  intros D Hi. unfold inverse_mapping. enough (forall a, dict_get (combine rows (seq a (length rows))) (nth i rows []) = Some (a + i)) as H by apply H.
  revert i Hi. induction D as [|r rows Hr D IH]; intros i Hi a; cbn in Hi; [lia|]. cbn [length seq combine]. change ((r, a) :: ?x) with ([(r, a)] ++ x). rewrite dict_get_app.
  destruct i as [|i]; cbn [nth].
  - rewrite dict_get_none; [unfold dict_get; cbn; replace (label_eqb r r) with true; [now rewrite Nat.add_0_r|]; symmetry; now apply label_eqb_spec|].
    intros [k j] H. apply in_combine_l in H. cbn. congruence.
  - rewrite IH by lia. f_equal. lia.
Qed.
Fixpoint all_words (m : nat) : list (list bool) := match m with 0 => [[]] | S m => map (cons false) (all_words m) ++ map (cons true) (all_words m) end.
Lemma all_words_In m : forall b, length b = m -> In b (all_words m).
Proof. induction m as [|m IH]; intros [|x b] H; cbn in H; try lia; cbn [all_words]; [left; auto|]. apply in_or_app. destruct x; [right|left]; apply in_map; apply IH; lia. Qed.
Lemma all_words_length m : length (all_words m) = 2 ^ m.
Proof. induction m; cbn [all_words]; auto. rewrite app_length, !map_length, Nat.pow_succ_r'. lia. Qed.
Lemma table_complete m rows : label_table m rows -> forall b, length b = m -> In b rows.
Proof.
  intros (L & F & D) b Hb. apply (NoDup_length_incl D (l' := all_words m)).
  - rewrite all_words_length. lia.
  - intros x Hx. apply all_words_In. rewrite Forall_forall in F. auto.
  - now apply all_words_In.
Qed.
Definition table_index (rows : list (list bool)) (b : list bool) : nat := match dict_get (inverse_mapping rows) b with Some i => i | None => 0 end.
Lemma table_pair m rows : label_table m rows -> inverse_pair m (fun i => nth i rows []) (table_index rows) /\
  forall b, length b = m -> dict_get (inverse_mapping rows) b = Some (table_index rows b).
Proof.
  intros T. pose proof T as (L & F & D). assert (A : forall b, length b = m -> exists i, i < 2 ^ m /\ nth i rows [] = b /\ dict_get (inverse_mapping rows) b = Some i).
  { intros b Hb. apply (table_complete m rows T) in Hb. apply (In_nth _ _ []) in Hb as (i & Hi & E). exists i. split; [lia|]. split; auto. subst. now apply dict_get_nth. }
  split; [split|].
  - intros i Hi. split; [rewrite Forall_forall in F; apply F; apply nth_In; lia|]. unfold table_index. rewrite dict_get_nth by (auto; lia). reflexivity.
  - intros b Hb. destruct (A b Hb) as (i & Hi & E & G). unfold table_index. rewrite G. auto.
  - intros b Hb. destruct (A b Hb) as (i & Hi & E & G). unfold table_index. rewrite G. auto.
Qed.

(* sequences *)
Lemma chunks_concat {A} (m : nat) : forall (bs : list (list A)), Forall (fun b => length b = m) bs -> chunks (length bs) m (concat bs) = bs.
Proof. induction 1 as [|b bs Hb _ IH]; cbn; auto. assert (E1 : firstn m (b ++ concat bs) = b) by (rewrite <- Hb; apply firstn_app_exact). assert (E2 : skipn m (b ++ concat bs) = concat bs) by (rewrite <- Hb; apply skipn_app_exact). now rewrite E1, E2, IH. Qed.
Lemma concat_chunks {A} m : forall k (l : list A), length l = k * m -> concat (chunks k m l) = l /\ Forall (fun b => length b = m) (chunks k m l) /\ length (chunks k m l) = k.
Proof.
  induction k as [|k IH]; intros l L; cbn in L; cbn [chunks concat length].
  - destruct l; cbn in L; [repeat constructor|lia].
  - destruct (IH (skipn m l)) as (E & F & Ln); [rewrite skipn_length; lia|]. rewrite E, Ln, firstn_skipn. repeat split; auto. constructor; auto. rewrite firstn_length. lia.
Qed.
Lemma concat_length_m {A} m (bs : list (list A)) : Forall (fun b => length b = m) bs -> length (concat bs) = length bs * m.
Proof. induction 1 as [|b bs Hb _ IH]; cbn; auto. rewrite app_length. lia. Qed.

Lemma seq_round_trip m f g : inverse_pair m f g -> 0 < m -> forall idx, idx <> [] -> Forall (fun i => i < 2 ^ m) idx ->
  let bits := concat (map f idx) in
  length bits = m * length idx /\ length bits mod m = 0 /\ exists rows, along_axis (length bits / m) m bits = Some rows /\ map g rows = idx /\ Forall (fun b => length b = m) rows.
Proof.
  intros [H1 H2] Hm idx NE F bits. assert (FL : Forall (fun b => length b = m) (map f idx)).
  { apply Forall_forall. intros b Hb. apply in_map_iff in Hb as (i & <- & Hi). apply H1. rewrite Forall_forall in F. auto. }
  assert (L : length bits = m * length idx) by (unfold bits; rewrite (concat_length_m m), map_length by auto; lia).
  split; auto. rewrite L. split; [rewrite Nat.mul_comm; now apply Nat.mod_mul; lia|].
  exists (map f idx). split; [|split; auto].
  - rewrite (Nat.mul_comm m), Nat.div_mul by lia. unfold along_axis. destruct (length idx =? 0) eqn:E; [apply Nat.eqb_eq in E; destruct idx; cbn in E; congruence|].
    f_equal. unfold bits. rewrite <- (map_length f idx). now apply chunks_concat.
  - rewrite map_map. rewrite <- (map_id idx) at 2. apply map_ext_in. intros i Hi. apply H1. rewrite Forall_forall in F. auto.
Qed.
Lemma seq_round_trip' m f g : inverse_pair m f g -> 0 < m -> forall bits k, 0 < k -> length bits = k * m ->
  length bits mod m = 0 /\ exists rows, along_axis (length bits / m) m bits = Some rows /\ length rows = k /\ Forall (fun b => length b = m) rows /\
  Forall (fun i => i < 2 ^ m) (map g rows) /\ concat (map f (map g rows)) = bits.
Proof.
  intros [H1 H2] Hm bits k Hk L. rewrite L. split; [apply Nat.mod_mul; lia|]. rewrite Nat.div_mul by lia.
  destruct (concat_chunks m k bits L) as (E & F & Ln). exists (chunks k m bits). unfold along_axis. destruct (k =? 0) eqn:Ek; [apply Nat.eqb_eq in Ek; lia|].
  split; auto. split; auto. split; auto. rewrite Forall_forall in F. split.
  - apply Forall_forall. intros i Hi. apply in_map_iff in Hi as (b & <- & Hb). apply H2. auto.
  - rewrite map_map. rewrite (map_ext_in _ (fun b => b)), map_id; auto. intros b Hb. apply H2; auto.
Qed.

(* objects *)
Section Ind.
  Variable P : labeling -> Prop.
  Hypothesis H1 : forall mat l, mk_Labeling mat = Some l -> P l.
  Hypothesis H2 : forall m l, mk_Natural m = Some l -> P l.
  Hypothesis H3 : forall m l, mk_Reflected m = Some l -> P l.
  Hypothesis H4 : forall ls r l, Forall constructed ls -> Forall P ls -> mk_Product ls r = Some l -> P l.
  Hypothesis H5 : forall mi mq l, mk_Rect mi mq = Some l -> P l.
  Fixpoint constructed_rec (l : labeling) (c : constructed l) : P l :=
    match c in constructed l return P l with
    | con_labeling mat l e => H1 mat l e
    | con_natural m l e => H2 m l e
    | con_reflected m l e => H3 m l e
    | con_product ls r l f e => H4 ls r l f
        ((fix go ls (f : Forall constructed ls) : Forall P ls :=
           match f with Forall_nil _ => Forall_nil _ | Forall_cons x c f => Forall_cons x (constructed_rec x c) (go _ f) end) ls f) e
    | con_rect mi mq l e => H5 mi mq l e
    | con_rect1 n l e =>
        (if (0 <? n) && (n mod 2 =? 0) as b return ((if b then mk_Rect (n / 2) (n / 2) else None) = Some l -> P l)
         then fun e => H5 _ _ l e else fun e => ltac:(discriminate e)) e
    end.
End Ind.

Lemma Forall_concat_repeat {A} (P : A -> Prop) l r : Forall P l -> Forall P (concat (repeat l r)).
Proof. intros F. induction r; cbn; auto. apply Forall_app. auto. Qed.
Lemma mk_Product_inv ls r l : mk_Product ls r = Some l -> exists ls', l = ProductLabeling ls' /\ ls' <> [] /\ (forall P : labeling -> Prop, Forall P ls -> Forall P ls') /\ ls' = concat (repeat ls r).
Proof.
  unfold mk_Product. destruct (length ls <? 1) eqn:E1; [discriminate|]. destruct (r <? 1) eqn:E2; [discriminate|]. intros H; inversion H; subst.
  apply Nat.ltb_ge in E1, E2. eexists. split; eauto. split; [|split; auto].
  - destruct r; [lia|]. cbn. destruct ls; cbn in *; [lia|discriminate].
  - intros P. apply Forall_concat_repeat.
Qed.
Lemma mk_Rect_inv mi mq l : mk_Rect mi mq = Some l -> 0 < mi /\ 0 < mq /\ l = ReflectedRectangularLabeling mi mq.
Proof. unfold mk_Rect. destruct ((1 <=? mi) && (1 <=? mq)) eqn:E; [|discriminate]. intros H; inversion H. apply andb_true_iff in E as [A B]. apply Nat.leb_le in A, B. auto. Qed.
Lemma mk_Natural_inv m l : mk_Natural m = Some l -> 0 < m /\ l = NaturalLabeling m.
Proof. unfold mk_Natural. destruct (m <? 1) eqn:E; [discriminate|]. intros H; inversion H. apply Nat.ltb_ge in E. auto. Qed.
Lemma mk_Reflected_inv m l : mk_Reflected m = Some l -> 0 < m /\ l = ReflectedLabeling m.
Proof. unfold mk_Reflected. destruct (m <? 1) eqn:E; [discriminate|]. intros H; inversion H. apply Nat.ltb_ge in E. auto. Qed.

Lemma constructed_table l : constructed l -> label_table (num_bits l) (matrix l) /\ cardinality l = 2 ^ num_bits l.
Proof.
  intros C. induction C using constructed_rec.
  - unfold mk_Labeling in H. destruct (Labeling_matrix mat) eqn:E; inversion H; subst. cbn [matrix num_bits cardinality]. apply labeling_matrix_table in E. split; auto. apply E.
  - apply mk_Natural_inv in H as [_ ->]. split; auto. apply (inverse_pair_table _ _ _ (natural_pair m)).
  - apply mk_Reflected_inv in H as [_ ->]. split; auto. apply (inverse_pair_table _ _ _ (reflected_pair m)).
  - apply mk_Product_inv in H1 as (ls' & -> & NE & FP & _). apply FP in H0. clear - H0. cbn [matrix num_bits cardinality]. split.
    + apply product_rows_table. induction H0 as [|x ls [T _] _ IH]; cbn; constructor; auto.
    + induction H0 as [|x ls [_ E] _ IH]; cbn; auto. rewrite E, IH, Nat.pow_add_r. reflexivity.
  - apply mk_Rect_inv in H as (_ & _ & ->). split; auto. cbn [matrix num_bits]. replace (mi + mq) with (fold_right Nat.add 0 [mi; mq]) by (cbn; lia).
    apply product_rows_table. repeat constructor; apply (inverse_pair_table _ _ _ (reflected_pair _)).
Qed.

(* the label map used by indices_to_bits and its inverse used by bits_to_indices *)
Definition label_of (l : labeling) (i : nat) : list bool := nth i (matrix l) [].
Definition index_of (l : labeling) (b : list bool) : nat :=
  match l with
  | NaturalLabeling m => N.to_nat (bits_to_int b MSB_first)
  | ReflectedLabeling m => N.to_nat (ungray m (bits_to_int b MSB_first))
  | _ => table_index (matrix l) b
  end.
Lemma pair_ext m f f' g : (forall i, i < 2 ^ m -> f i = f' i) -> inverse_pair m f g -> inverse_pair m f' g.
Proof. intros E [H1 H2]. split; [intros i Hi; rewrite <- E by auto; auto|]. intros b Hb. destruct (H2 b Hb). rewrite <- E by auto. auto. Qed.
Lemma object_pair l : constructed l -> inverse_pair (num_bits l) (label_of l) (index_of l).
Proof.
  intros C. destruct (constructed_table l C) as [T _]. destruct (table_pair _ _ T) as [TP _]. unfold label_of. destruct l; try exact TP; cbn [num_bits matrix index_of].
  - eapply pair_ext; [|apply natural_pair]. intros i Hi. unfold natural_matrix. now rewrite nth_map_seq.
  - eapply pair_ext; [|apply reflected_pair]. intros i Hi. unfold reflected_matrix. now rewrite nth_map_seq.
Qed.
Lemma object_i2b l idx : constructed l -> Forall (fun i => i < 2 ^ num_bits l) idx -> indices_to_bits l (map Z.of_nat idx) = Some (concat (map (label_of l) idx)).
Proof.
  intros C F. destruct (constructed_table l C) as [T Ec]. rewrite Forall_forall in F.
  assert (B : base_indices_to_bits l (map Z.of_nat idx) = Some (concat (map (label_of l) idx))).
  { unfold base_indices_to_bits. replace (forallb _ _) with true.
    - cbn [negb]. rewrite map_map. do 2 f_equal. apply map_ext. intros i. now rewrite Nat2Z.id.
    - symmetry. apply forallb_forall. intros z Hz. apply in_map_iff in Hz as (i & <- & Hi). specialize (F i Hi). rewrite <- Ec in F. apply andb_true_iff. split; [apply Z.leb_le|apply Z.ltb_lt]; lia. }
  destruct l; try exact B; cbn [indices_to_bits]; unfold natural_indices_to_bits, reflected_indices_to_bits; do 2 f_equal; rewrite map_map; apply map_ext_in; intros i Hi;
    specialize (F i Hi); cbn [num_bits] in F; unfold label_of; cbn [matrix]; unfold natural_matrix, reflected_matrix; rewrite nth_map_seq by auto; rewrite <- nat_N_Z.
  - apply z_to_bits_N.
  - apply z_to_bits_gray.
Qed.
Lemma object_b2i l bits rows : constructed l -> 0 < num_bits l -> length bits mod num_bits l = 0 -> along_axis (length bits / num_bits l) (num_bits l) bits = Some rows ->
  Forall (fun b => length b = num_bits l) rows -> bits_to_indices l bits = Some (map (index_of l) rows).
Proof.
  intros C Hm Hd Ha F. destruct (constructed_table l C) as [T _]. destruct (table_pair _ _ T) as [_ TP]. rewrite Forall_forall in F.
  assert (B : base_bits_to_indices l bits = Some (map (table_index (matrix l)) rows)).
  { unfold base_bits_to_indices. destruct (num_bits l =? 0) eqn:E; [apply Nat.eqb_eq in E; lia|]. rewrite Hd. cbn [Nat.eqb negb]. rewrite Ha. apply all_some_map. auto. }
  destruct l; try exact B; cbn [bits_to_indices index_of num_bits] in *; unfold natural_bits_to_indices, reflected_bits_to_indices; rewrite Hd; cbn [Nat.eqb negb]; rewrite Ha; reflexivity.
Qed.

(* Gray property *)
Lemma differences_app a b c d : length a = length c -> differences (a ++ b) (c ++ d) = differences a c + differences b d.
Proof. revert c. induction a as [|x a IH]; intros [|y c] L; cbn in L; try lia; auto. cbn. rewrite IH by lia. lia. Qed.
Lemma differences_refl a : differences a a = 0.
Proof. induction a as [|x a IH]; cbn; auto. now rewrite Bool.eqb_reflx. Qed.
Lemma differences_rev a : forall b, length a = length b -> differences (rev a) (rev b) = differences a b.
Proof. induction a as [|x a IH]; intros [|y b] L; cbn in L; try lia; auto. cbn [rev]. rewrite differences_app by (rewrite !rev_length; lia). rewrite IH by lia. cbn. lia. Qed.
Lemma gray_bits_S m n : int_to_bits (gray n) (S m) LSB_first = xorb (N.odd n) (N.odd (N.div2 n)) :: int_to_bits (gray (N.div2 n)) m LSB_first.
Proof.
  unfold int_to_bits. cbn [seq map]. f_equal.
  - rewrite bit_at_testbit, gray_testbit. cbn [N.of_nat]. rewrite N.bit0_odd. f_equal. rewrite N.div2_spec, <- N.bit0_odd, N.shiftr_spec'. reflexivity.
  - rewrite <- seq_shift, map_map. apply map_ext. intros j. rewrite !bit_at_testbit, !gray_testbit, N.div2_spec, !N.shiftr_spec'. f_equal; f_equal; lia.
Qed.
Lemma gray_adjacent m : forall i, (i < 2 ^ N.of_nat (S m))%N ->
  differences (int_to_bits (gray i) (S m) LSB_first) (int_to_bits (gray ((i + 1) mod 2 ^ N.of_nat (S m))) (S m) LSB_first) = 1.
Proof.
  induction m as [|m IH]; intros i Hi.
  - change (2 ^ N.of_nat 1)%N with 2%N in *. assert (i = 0 \/ i = 1)%N as [-> | ->] by lia; reflexivity.
  - rewrite (gray_bits_S (S m)), (gray_bits_S (S m)). set (M := (2 ^ N.of_nat (S m))%N) in *.
    assert (EM : (2 ^ N.of_nat (S (S m)) = 2 * M)%N) by (unfold M; rewrite (Nat2N.inj_succ (S m)), N.pow_succ_r'; reflexivity). rewrite EM in *.
    assert (EvM : exists q, M = (2 * q)%N) by (exists (2 ^ N.of_nat m)%N; unfold M; rewrite Nat2N.inj_succ, N.pow_succ_r'; reflexivity).
    assert (PM : (M <> 0)%N) by (unfold M; apply N.pow_nonzero; lia). clearbody M.
    destruct (N.Even_or_Odd i) as [[j ->]|[j ->]].
    + assert (E : ((2 * j + 1) mod (2 * M) = 2 * j + 1)%N) by (apply N.mod_small; lia). rewrite E.
      rewrite !N.div2_div. assert (Ed1 : ((2 * j + 1) / 2 = j)%N) by (symmetry; apply (N.div_unique _ 2 j 1); lia). rewrite Ed1. assert (Ed2 : (2 * j / 2 = j)%N) by (rewrite N.mul_comm, N.div_mul; lia). rewrite Ed2.
      rewrite N.odd_mul. assert (Eo1 : N.odd (2 * j + 1) = true) by (rewrite N.odd_add, N.odd_mul; reflexivity). rewrite Eo1. cbn [N.odd andb].
      cbn [differences]. rewrite differences_refl. destruct (N.odd j); reflexivity.
    + assert (Hj : (j < M)%N) by lia.
      assert (E : ((2 * j + 1 + 1) mod (2 * M) = 2 * ((j + 1) mod M))%N) by (replace (2 * j + 1 + 1)%N with (2 * (j + 1))%N by lia; rewrite N.mul_mod_distr_l; lia). rewrite E.
      rewrite !N.div2_div. assert (Ed1 : ((2 * j + 1) / 2 = j)%N) by (symmetry; apply (N.div_unique _ 2 j 1); lia). rewrite Ed1. assert (Ed2 : (2 * ((j + 1) mod M) / 2 = (j + 1) mod M)%N) by (rewrite N.mul_comm, N.div_mul; lia). rewrite Ed2.
      rewrite (N.odd_mul 2). assert (Eo1 : N.odd (2 * j + 1) = true) by (rewrite N.odd_add, N.odd_mul; reflexivity). rewrite Eo1. cbn [N.odd andb].
      cbn [differences]. rewrite IH by auto.
      assert (Eo : N.odd ((j + 1) mod M) = negb (N.odd j)).
      { destruct EvM as (q & ->). destruct (N.eq_dec (j + 1) (2 * q)) as [Eq|Ne].
        - rewrite Eq, N.mod_same by lia. cbn. assert (N.odd (j + 1) = false) by (rewrite Eq, N.odd_mul; reflexivity). rewrite N.odd_add in H. cbn in H. destruct (N.odd j); auto; discriminate.
        - rewrite N.mod_small by lia. rewrite N.odd_add. cbn. destruct (N.odd j); reflexivity. }
      rewrite Eo. destruct (N.odd j); reflexivity.
Qed.
Lemma reflected_adjacent m i : 0 < m -> i < 2 ^ m -> differences (nth i (reflected_matrix m) []) (nth ((i + 1) mod 2 ^ m) (reflected_matrix m) []) = 1.
Proof.
  intros Hm Hi. assert (P : 2 ^ m <> 0) by (apply Nat.pow_nonzero; lia). unfold reflected_matrix. rewrite !nth_map_seq by (auto; apply Nat.mod_upper_bound; auto).
  rewrite !int_to_bits_msb. rewrite differences_rev by (now rewrite !int_to_bits_length). destruct m as [|m]; [lia|].
  assert (B : (N.of_nat i < 2 ^ N.of_nat (S m))%N) by (rewrite <- pow2_N; lia). pose proof (gray_adjacent m (N.of_nat i) B) as G.
  assert (E : ((N.of_nat i + 1) mod 2 ^ N.of_nat (S m) = N.of_nat ((i + 1) mod 2 ^ S m))%N); [|rewrite E in G; exact G].
  rewrite <- pow2_N. rewrite <- (N2Nat.id ((N.of_nat i + 1) mod N.of_nat (2 ^ S m))). f_equal. rewrite N2Nat.inj_mod, N2Nat.inj_add, !Nat2N.id. reflexivity.
Qed.
