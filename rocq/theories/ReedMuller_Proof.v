(* Reed-Muller codes and Reed decoding. *)
From Coq Require Import QArith Qabs Qminmax Permutation Lqa Psatz.
From Verif Require Import Common Bits_Model Vec_Model Vec_Proof LinAlg_Model Linear_Spec
  LinAlg_Proof XRref_Proof BlockCode_Model Code_Spec BlockCode_Proof CosetLeaders_Proof ClassicCodes_Model Hamming_Proof ReedMuller_Model.
Local Open Scope nat_scope.

Definition mem (I : list nat) (x : nat) : bool := existsb (Nat.eqb x) I.

Lemma mem_spec I x : mem I x = true <-> In x I.
Proof.
  unfold mem. rewrite existsb_exists. split.
  - intros (y & Hy & E). apply Nat.eqb_eq in E. subst; auto.
  - intros H. exists x. split; auto. apply Nat.eqb_refl.
Qed.
Lemma mem_false I x : mem I x = false <-> ~ In x I.
Proof. rewrite <- mem_spec. destruct (mem I x); split; congruence. Qed.

Lemma filter_nil_in {A} (f : A -> bool) l : (forall x, In x l -> f x = false) -> filter f l = [].
Proof. induction l as [|x l IH]; cbn; intros H; auto. rewrite H by auto. auto. Qed.

Lemma filter_split_length {A} (f : A -> bool) l : length (filter f l) + length (filter (fun x => negb (f x)) l) = length l.
Proof. induction l as [|x l IH]; cbn; auto. destruct (f x); cbn; lia. Qed.

(* a combination is determined by its set *)
Lemma in_combinations l : forall w I, NoDup l -> In I (combinations l w) -> length I = w /\ I = filter (mem I) l.
Proof.
  induction l as [|x l IH]; intros [|w] I ND; cbn [combinations].
  - intros [<-|[]]. auto.
  - intros [].
  - intros [<-|[]]. split; auto. symmetry. apply filter_nil_in. auto.
  - rewrite in_app_iff, in_map_iff. inversion ND as [|? ? Nx ND']; subst. intros [(I' & <- & H)|H].
    + apply IH in H as [L E]; auto. cbn [length filter]. split; [lia|].
      assert (M : mem (x :: I') x = true) by (apply mem_spec; left; auto). rewrite M. f_equal. rewrite E at 1. apply filter_ext_in. intros y Hy. unfold mem. cbn [existsb].
      destruct (y =? x) eqn:Q; auto. apply Nat.eqb_eq in Q. subst. contradiction.
    + apply IH in H as [L E]; auto. split; auto. cbn [filter].
      assert (M : mem I x = false).
      { apply mem_false. rewrite E. rewrite filter_In. tauto. }
      rewrite M. auto.
Qed.

Lemma combinations_NoDup (l : list nat) : forall w, NoDup l -> NoDup (combinations l w).
Proof.
  induction l as [|x l IH]; intros [|w] ND; cbn [combinations]; try (repeat constructor; cbn; tauto).
  inversion ND as [|? ? Nx ND']; subst. apply NoDup_app_intro; auto.
  - apply NoDup_map_inj_in; auto. intros; congruence.
  - intros I HI HI'. apply in_map_iff in HI as (I' & <- & _). apply in_combinations in HI' as [_ E]; auto.
    apply Nx. assert (H : In x (x :: I')) by (left; auto). rewrite E, filter_In in H. tauto.
Qed.

Lemma combinations_length {A} (l : list A) : forall w, length (combinations l w) = comb (length l) w.
Proof. induction l as [|x l IH]; intros [|w]; cbn [combinations comb length]; auto. rewrite app_length, map_length, !IH; auto. Qed.

(* ---- index sets ---- *)
Record idx (mu : nat) (I : list nat) : Prop := {
  idx_nodup : NoDup I;
  idx_lt : forall i, In i I -> i < mu;
  idx_canon : I = filter (mem I) (seq 0 mu) }.

Lemma idx_combination mu w I : In I (combinations (seq 0 mu) w) -> length I = w /\ idx mu I.
Proof.
  intros H. apply in_combinations in H as [L E]; [|apply seq_NoDup]. split; auto. constructor; auto.
  - rewrite E. apply NoDup_filter, seq_NoDup.
  - intros i Hi. rewrite E, filter_In in Hi. destruct Hi as [Hi _]. apply in_seq in Hi. lia.
Qed.

Lemma idx_eq mu I J : idx mu I -> idx mu J -> incl I J -> length J <= length I -> I = J.
Proof.
  intros HI HJ Inc L. assert (Inc' : incl J I) by (apply NoDup_length_incl; auto; apply HI).
  rewrite (idx_canon _ _ HI), (idx_canon _ _ HJ). apply filter_ext. intros x.
  destruct (mem I x) eqn:E, (mem J x) eqn:E'; auto.
  - apply mem_spec in E. apply mem_false in E'. exfalso; auto.
  - apply mem_spec in E'. apply mem_false in E. exfalso; auto.
Qed.

(* ---- monomials ---- *)
Definition mono_at (I : list nat) (p : nat) : bool := forallb (Nat.testbit p) I.
Definition mono (mu : nat) (I : list nat) : vec := map (mono_at I) (seq 0 (2 ^ mu)).
Definition monos (rho mu : nat) : list (list nat) := flat_map (combinations (seq 0 mu)) (rev (seq 0 (rho + 1))).

Lemma mono_length mu I : length (mono mu I) = 2 ^ mu.
Proof. unfold mono. rewrite map_length, seq_length; auto. Qed.
Lemma nth_mono mu I p : p < 2 ^ mu -> nth p (mono mu I) false = mono_at I p.
Proof. intros H. unfold mono. rewrite nth_map_seq; auto. Qed.

Lemma concat_repeat_length {A} (b : list A) k : length (concat (repeat b k)) = k * length b.
Proof. induction k as [|k IH]; cbn; auto. rewrite app_length, IH; auto. Qed.

Lemma nth_concat_repeat {A} (b : list A) d k : forall p, p < k * length b -> nth p (concat (repeat b k)) d = nth (p mod length b) b d.
Proof.
  induction k as [|k IH]; intros p H; cbn [repeat concat]; [cbn in H; lia|].
  destruct (Nat.lt_ge_cases p (length b)) as [Q|Q].
  - rewrite app_nth1, Nat.mod_small; auto.
  - rewrite app_nth2 by auto. rewrite IH by lia. f_equal.
    assert (length b <> 0) by (intros Z; lia).
    rewrite <- (Nat.mod_add (p - length b) 1 (length b)) by auto. f_equal. lia.
Qed.

Lemma nth_ones n i : i < n -> nth i (ones n) false = true.
Proof. unfold ones. revert i; induction n as [|n IH]; intros [|i] H; cbn; auto; try lia. apply IH; lia. Qed.
Lemma ones_length n : length (ones n) = n.
Proof. apply repeat_length. Qed.

Lemma rm_v_spec mu j : j < mu -> rm_v mu j = map (fun p => Nat.testbit p j) (seq 0 (2 ^ mu)).
Proof.
  intros H. unfold rm_v. replace (mu - (mu - 1 - j) - 1) with j by lia.
  set (b := zeros (2 ^ j) ++ ones (2 ^ j)).
  assert (P : 2 ^ j <> 0) by (apply Nat.pow_nonzero; lia).
  assert (Lb : length b = 2 ^ j * 2) by (unfold b; rewrite app_length, zeros_length, ones_length; lia).
  assert (E : 2 ^ (mu - 1 - j) * length b = 2 ^ mu).
  { rewrite Lb. replace mu with ((mu - 1 - j) + (j + 1)) at 2 by lia. rewrite !Nat.pow_add_r. cbn; lia. }
  apply vec_ext; rewrite concat_repeat_length, E.
  - rewrite map_length, seq_length; auto.
  - intros p Hp. rewrite nth_concat_repeat by lia. rewrite nth_map_seq by auto.
    rewrite Nat.testbit_eqb, Lb, Nat.mod_mul_r by lia. unfold b.
    pose proof (Nat.mod_upper_bound p (2 ^ j) P) as B. pose proof (Nat.mod_upper_bound (p / 2 ^ j) 2 ltac:(lia)) as B2.
    destruct ((p / 2 ^ j) mod 2) as [|[|k]] eqn:Q; try lia.
    + rewrite app_nth1 by (rewrite zeros_length; lia). rewrite nth_zeros. reflexivity.
    + rewrite app_nth2 by (rewrite zeros_length; lia). rewrite zeros_length, nth_ones by lia. reflexivity.
Qed.

Lemma vand_map {A} (f g : A -> bool) l : vand (map f l) (map g l) = map (fun x => f x && g x) l.
Proof. induction l as [|x l IH]; cbn; auto. rewrite IH; auto. Qed.

Lemma rm_row_spec mu I : I <> [] -> (forall i, In i I -> i < mu) -> rm_row mu I = mono mu I.
Proof.
  unfold rm_row. destruct I as [|i I]; [congruence|]. intros _ H. cbn [map].
  rewrite rm_v_spec by (apply H; left; auto). unfold mono, mono_at.
  assert (G : forall (f : nat -> bool) L, (forall j, In j L -> j < mu) ->
    fold_left vand (map (rm_v mu) L) (map f (seq 0 (2 ^ mu))) = map (fun p => f p && forallb (Nat.testbit p) L) (seq 0 (2 ^ mu))).
  { intros f L. revert f. induction L as [|j L IH]; intros f HL; cbn [map fold_left forallb].
    - apply map_ext. intros p. rewrite andb_true_r; auto.
    - rewrite rm_v_spec by (apply HL; left; auto). rewrite vand_map, IH by (intros; apply HL; right; auto).
      apply map_ext. intros p. rewrite andb_assoc; auto. }
  rewrite G by (intros; apply H; right; auto). reflexivity.
Qed.

Lemma ones_mono mu : ones (2 ^ mu) = mono mu [].
Proof.
  apply vec_ext; rewrite ones_length, ?mono_length; auto. intros i Hi. rewrite nth_ones, nth_mono by auto. reflexivity.
Qed.

Lemma flat_map_app' {A B} (f : A -> list B) l l' : flat_map f (l ++ l') = flat_map f l ++ flat_map f l'.
Proof. induction l as [|x l IH]; cbn; auto. rewrite IH, app_assoc; auto. Qed.

Lemma generator_spec rho mu : reed_muller_generator_matrix rho mu = map (mono mu) (monos rho mu).
Proof.
  unfold reed_muller_generator_matrix, monos. rewrite Nat.add_1_r. cbn [seq rev]. rewrite flat_map_app', map_app. f_equal.
  - rewrite flat_map_concat_map, flat_map_concat_map, concat_map, map_map. f_equal. apply map_ext_in. intros ell Hl.
    apply in_rev, in_seq in Hl. apply map_ext_in. intros I HI. apply idx_combination in HI as [L HI]. apply rm_row_spec; [|apply HI].
    intros ->. cbn in L. lia.
  - cbn [flat_map]. destruct (seq 0 mu); cbn; rewrite ones_mono; auto.
Qed.

Lemma partitions_spec rho mu : reed_partitions rho mu = map (reed_partition mu) (monos rho mu).
Proof.
  unfold reed_partitions, monos. rewrite flat_map_concat_map, flat_map_concat_map, concat_map, map_map. f_equal.
Qed.

(* ---- order of the monomials: non-increasing degree, no repetition ---- *)
Fixpoint ordered (ms : list (list nat)) : Prop :=
  match ms with [] => True | X :: ms' => Forall (fun J => length J <= length X /\ X <> J) ms' /\ ordered ms' end.

Lemma ordered_app a b : ordered a -> ordered b -> (forall I J, In I a -> In J b -> length J < length I) -> ordered (a ++ b).
Proof.
  induction a as [|I a IH]; cbn [ordered app]; auto. intros [F O] Ob H. split.
  - apply Forall_app. split; auto. rewrite Forall_forall. intros J HJ. specialize (H I J (or_introl eq_refl) HJ). split; [lia|]. intros ->; lia.
  - apply IH; auto. intros; apply H; auto. right; auto.
Qed.

Lemma ordered_block w l : NoDup l -> (forall I, In I l -> length I = w) -> ordered l.
Proof.
  induction l as [|I l IH]; intros ND H; cbn [ordered]; auto. inversion ND; subst. split.
  - rewrite Forall_forall. intros J HJ. rewrite (H I), (H J) by (cbn; auto). split; auto. intros ->; contradiction.
  - apply IH; auto. intros; apply H; right; auto.
Qed.

Lemma monos_S rho mu : monos (S rho) mu = combinations (seq 0 mu) (S rho) ++ monos rho mu.
Proof.
  unfold monos. replace (S rho + 1) with (S (rho + 1)) by lia. rewrite (seq_S (rho + 1)), rev_app_distr. cbn [rev app flat_map].
  do 2 f_equal. lia.
Qed.

Lemma monos_0 mu : monos 0 mu = [[]].
Proof. unfold monos. cbn. destruct (seq 0 mu); auto. Qed.

Lemma in_monos rho mu I : In I (monos rho mu) -> length I <= rho /\ idx mu I.
Proof.
  unfold monos. rewrite in_flat_map. intros (w & Hw & H). apply in_rev, in_seq in Hw. apply idx_combination in H as [L H]. split; auto. lia.
Qed.

Lemma monos_ordered rho mu : ordered (monos rho mu).
Proof.
  induction rho as [|rho IH]; [rewrite monos_0; cbn; auto|]. rewrite monos_S. apply ordered_app; auto.
  - apply (ordered_block (S rho)); [apply combinations_NoDup, seq_NoDup|]. intros I HI. apply idx_combination in HI. tauto.
  - intros I J HI HJ. apply idx_combination in HI as [L _]. apply in_monos in HJ as [L' _]. lia.
Qed.

Lemma monos_length rho mu : length (monos rho mu) = list_sum (map (comb mu) (seq 0 (rho + 1))).
Proof.
  induction rho as [|rho IH]; [rewrite monos_0; cbn; destruct mu; auto|].
  rewrite monos_S, app_length, IH, combinations_length, seq_length. replace (S rho + 1) with (S (rho + 1)) by lia.
  rewrite (seq_S (rho + 1)), map_app, list_sum_app. cbn [map]. replace (0 + (rho + 1)) with (S rho) by lia.
  change (list_sum [comb mu (S rho)]) with (comb mu (S rho) + 0). lia.
Qed.

(* ---- positions ---- *)
Lemma testbit_add_pow i q j : Nat.testbit q i = false -> Nat.testbit (2 ^ i + q) j = if j =? i then true else Nat.testbit q j.
Proof.
  intros H. assert (L : Nat.land (2 ^ i) q = 0).
  { apply Nat.bits_inj. intros k. rewrite Nat.land_spec, Nat.bits_0, Nat.pow2_bits_eqb.
    destruct (i =? k) eqn:E; auto. apply Nat.eqb_eq in E. subst. auto. }
  rewrite Nat.add_nocarry_lxor, Nat.lxor_spec, Nat.pow2_bits_eqb, (Nat.eqb_sym i j) by auto.
  destruct (j =? i) eqn:E; [apply Nat.eqb_eq in E; subst; rewrite H; auto|apply xorb_false_l].
Qed.

Definition clear (I : list nat) (q : nat) : Prop := forall i, In i I -> Nat.testbit q i = false.

Lemma dot_pow_cons b w i I q : dot_pow (b :: w) (i :: I) + q = dot_pow w I + ((if b then 2 ^ i else 0) + q).
Proof. cbn. lia. Qed.

Lemma clear_step b i I q : NoDup (i :: I) -> clear (i :: I) q -> clear I ((if b : bool then 2 ^ i else 0) + q).
Proof.
  intros ND C j Hj. inversion ND; subst. destruct b; [|apply C; right; auto].
  rewrite testbit_add_pow by (apply C; left; auto). destruct (j =? i) eqn:E; [apply Nat.eqb_eq in E; subst; contradiction|].
  apply C. right; auto.
Qed.

Lemma dp_off I : forall w q j, NoDup I -> clear I q -> ~ In j I -> Nat.testbit (dot_pow w I + q) j = Nat.testbit q j.
Proof.
  induction I as [|i I IH]; intros w q j ND C Nj.
  - destruct w as [|b w]; reflexivity.
  - destruct w as [|b w]; [reflexivity|]. rewrite dot_pow_cons. rewrite IH.
    + destruct b; auto. rewrite testbit_add_pow by (apply C; left; auto).
      destruct (j =? i) eqn:E; auto. apply Nat.eqb_eq in E. subst. exfalso. apply Nj. left; auto.
    + inversion ND; auto.
    + apply clear_step; auto.
    + intros H. apply Nj. right; auto.
Qed.

Lemma dp_on I : forall w q, NoDup I -> clear I q -> length w = length I -> map (Nat.testbit (dot_pow w I + q)) I = w.
Proof.
  induction I as [|i I IH]; intros [|b w] q ND C L; cbn [length] in L; try lia; auto.
  rewrite dot_pow_cons. cbn [map]. inversion ND; subst. f_equal.
  - rewrite dp_off; auto; [|apply clear_step; auto]. destruct b; [|apply C; left; auto].
    rewrite testbit_add_pow by (apply C; left; auto). rewrite Nat.eqb_refl; auto.
  - apply IH; auto. apply clear_step; auto.
Qed.

Lemma clear_0 I : clear I 0.
Proof. intros i _. apply Nat.bits_0. Qed.

Section Partition.
Variables (mu : nat) (I : list nat).
Hypothesis HI : idx mu I.
Let E := not_pivots mu I.

Lemma in_E j : In j E <-> j < mu /\ ~ In j I.
Proof.
  unfold E, not_pivots. rewrite filter_In, in_seq. fold (mem I j). rewrite negb_true_iff, mem_false. split; intros [? ?]; split; (lia || auto).
Qed.
Lemma E_NoDup : NoDup E.
Proof. apply NoDup_filter, seq_NoDup. Qed.
Lemma E_length : length E = mu - length I.
Proof.
  pose proof (filter_split_length (mem I) (seq 0 mu)) as H. rewrite seq_length in H. rewrite <- (idx_canon _ _ HI) in H.
  change (length (filter (fun x => negb (mem I x)) (seq 0 mu)) = mu - length I). lia.
Qed.
Lemma I_le : length I <= mu.
Proof.
  rewrite (idx_canon _ _ HI). pose proof (filter_split_length (mem I) (seq 0 mu)). rewrite seq_length in *. lia.
Qed.

Lemma clear_Eq w : clear I (dot_pow w E).
Proof.
  intros i Hi. rewrite <- (Nat.add_0_r (dot_pow w E)), dp_off; [apply Nat.bits_0|apply E_NoDup|apply clear_0|].
  rewrite in_E. tauto.
Qed.

Definition pos (w w' : vec) : nat := dot_pow w I + dot_pow w' E.

Lemma pos_I w w' : length w = length I -> map (Nat.testbit (pos w w')) I = w.
Proof. intros L. apply dp_on; auto; [apply HI|apply clear_Eq]. Qed.
Lemma pos_E w w' : length w' = length E -> map (Nat.testbit (pos w w')) E = w'.
Proof.
  intros L. rewrite <- (dp_on E w' 0) at 2; [|apply E_NoDup|apply clear_0|auto]. apply map_ext_in. intros j Hj.
  unfold pos. rewrite Nat.add_0_r. apply dp_off; [apply HI|apply clear_Eq|]. apply in_E in Hj. tauto.
Qed.
Lemma pos_high w w' j : mu <= j -> Nat.testbit (pos w w') j = false.
Proof.
  intros H. unfold pos. rewrite dp_off; [|apply HI|apply clear_Eq|].
  - rewrite <- (Nat.add_0_r (dot_pow w' E)), dp_off; [apply Nat.bits_0|apply E_NoDup|apply clear_0|]. rewrite in_E. lia.
  - intros Hj. apply (idx_lt _ _ HI) in Hj. lia.
Qed.
End Partition.

Lemma testbit_lt_pow2 p mu : (forall j, mu <= j -> Nat.testbit p j = false) -> p < 2 ^ mu.
Proof.
  intros H. assert (E : p = p mod 2 ^ mu).
  { apply Nat.bits_inj. intros j. destruct (Nat.lt_ge_cases j mu).
    - rewrite Nat.mod_pow2_bits_low; auto.
    - rewrite Nat.mod_pow2_bits_high, H; auto. }
  rewrite E. apply Nat.mod_upper_bound, Nat.pow_nonzero. lia.
Qed.

Lemma bin_vectors_perm n : Permutation (bin_vectors n) (words n).
Proof.
  apply NoDup_Permutation; [|apply words_NoDup|].
  - apply NoDup_map_inj_in; [|apply seq_NoDup]. intros i j Hi Hj. apply in_seq in Hi. apply in_seq in Hj. apply message_inj; lia.
  - intros w. rewrite in_words. unfold bin_vectors. rewrite in_map_iff. split.
    + intros (a & <- & _). apply message_length.
    + intros L. destruct (message_surj n w L) as (j & Hj & Ej). exists j. split; auto. apply in_seq. lia.
Qed.

Lemma in_bin_vectors n w : In w (bin_vectors n) <-> length w = n.
Proof.
  rewrite <- in_words. split; apply Permutation_in; [|symmetry]; apply bin_vectors_perm.
Qed.
Lemma bin_vectors_length n : length (bin_vectors n) = 2 ^ n.
Proof. unfold bin_vectors. rewrite map_length, seq_length; auto. Qed.
Lemma bin_vectors_NoDup n : NoDup (bin_vectors n).
Proof. eapply Permutation_NoDup; [symmetry; apply bin_vectors_perm|apply words_NoDup]. Qed.

Lemma reed_partition_eq mu I : reed_partition mu I =
  map (fun w' => map (fun w => pos mu I w w') (bin_vectors (length I))) (bin_vectors (mu - length I)).
Proof.
  unfold reed_partition. rewrite map_map. apply map_ext. intros w'. rewrite map_map. apply map_ext. intros w. reflexivity.
Qed.

Lemma reed_partition_length mu I : length (reed_partition mu I) = 2 ^ (mu - length I).
Proof. rewrite reed_partition_eq, map_length, bin_vectors_length; auto. Qed.

Lemma NoDup_concat_map {A B} (f : A -> list B) l : NoDup l -> (forall x, In x l -> NoDup (f x)) ->
  (forall x y b, In x l -> In y l -> In b (f x) -> In b (f y) -> x = y) -> NoDup (concat (map f l)).
Proof. intros. rewrite <- flat_map_concat_map. apply NoDup_flat_map_disj; auto. Qed.

Lemma partition_NoDup mu I : idx mu I -> NoDup (concat (reed_partition mu I)).
Proof.
  intros HI. rewrite reed_partition_eq. apply NoDup_concat_map; [apply bin_vectors_NoDup| |].
  - intros w' Hw'. apply NoDup_map_inj_in; [|apply bin_vectors_NoDup]. intros x y Hx Hy Q. apply in_bin_vectors in Hx. apply in_bin_vectors in Hy.
    rewrite <- (pos_I mu I HI x w' Hx), <- (pos_I mu I HI y w' Hy), Q. auto.
  - intros x y b Hx Hy Hb Hb'. apply in_bin_vectors in Hx. apply in_bin_vectors in Hy. apply in_map_iff in Hb as (w & Ew & _). apply in_map_iff in Hb' as (v & Ev & _).
    rewrite <- (pos_E mu I HI w x), <- (pos_E mu I HI v y) by (rewrite E_length; auto). congruence.
Qed.

Lemma partition_bound mu I row p : idx mu I -> In row (reed_partition mu I) -> In p row -> p < 2 ^ mu.
Proof.
  intros HI. rewrite reed_partition_eq, in_map_iff. intros (w' & <- & _) H. apply in_map_iff in H as (w & <- & _).
  apply testbit_lt_pow2. intros j Hj. apply pos_high; auto.
Qed.

(* every position is p = pos (bits on I) (bits off I) *)
Lemma pos_surj mu I p : idx mu I -> p < 2 ^ mu ->
  p = pos mu I (map (Nat.testbit p) I) (map (Nat.testbit p) (not_pivots mu I)).
Proof.
  intros HI Hp. set (w := map (Nat.testbit p) I). set (w' := map (Nat.testbit p) (not_pivots mu I)).
  assert (A : map (Nat.testbit (pos mu I w w')) I = w) by (apply pos_I; auto; apply map_length).
  assert (B : map (Nat.testbit (pos mu I w w')) (not_pivots mu I) = w') by (apply pos_E; auto; apply map_length).
  apply Nat.bits_inj. intros j. destruct (Nat.lt_ge_cases j mu) as [Hj|Hj].
  - destruct (in_dec Nat.eq_dec j I) as [Ij|Ij].
    + symmetry. apply (ext_in_map A j Ij).
    + symmetry. apply (ext_in_map B j). apply in_E; auto.
  - rewrite pos_high by auto. rewrite <- (Nat.mod_small p (2 ^ mu) Hp). apply Nat.mod_pow2_bits_high. auto.
Qed.

(* ---- coset sums ---- *)
Fixpoint coset_sum (I : list nat) (f : nat -> bool) (q : nat) : bool :=
  match I with [] => f q | i :: I' => xorb (coset_sum I' f q) (coset_sum I' f (2 ^ i + q)) end.

Lemma parity_app u v : parity (u ++ v) = xorb (parity u) (parity v).
Proof. unfold parity. rewrite weight_app, Nat.odd_add; auto. Qed.

Lemma coset_sum_words f I : forall q, parity (map (fun w => f (dot_pow w I + q)) (words (length I))) = coset_sum I f q.
Proof.
  induction I as [|i I IH]; intros q; cbn [length words map coset_sum].
  - unfold parity. cbn [dot_pow Nat.add]. destruct (f q); reflexivity.
  - rewrite map_app, parity_app, !map_map. rewrite <- !IH. f_equal; f_equal; apply map_ext; intros w; rewrite dot_pow_cons; auto.
Qed.

Lemma weight_perm u v : Permutation u v -> weight u = weight v.
Proof. intros P. unfold weight. induction P as [|[] u v P IH|[] [] u|u v w P1 IH1 P2 IH2]; cbn [filter length] in *; lia. Qed.

Lemma coset_sum_mono I : forall J q, NoDup I -> clear I q ->
  coset_sum I (mono_at J) q = forallb (mem J) I && mono_at (filter (fun x => negb (mem I x)) J) q.
Proof.
  induction I as [|i I IH]; intros J q ND C; cbn [coset_sum forallb].
  - cbn. f_equal. induction J as [|x J IHJ]; cbn; auto. f_equal; auto.
  - inversion ND as [|? ? Ni ND']; subst.
    assert (Ci : Nat.testbit q i = false) by (apply C; left; auto).
    rewrite (IH J q ND') by (intros x Hx; apply C; right; auto).
    rewrite (IH J (2 ^ i + q) ND') by (apply (clear_step true); auto).
    destruct (forallb (mem J) I); [|rewrite !andb_false_r; auto]. rewrite andb_true_r. cbn [andb].
    destruct (mem J i) eqn:M; cbn [andb].
    + apply mem_spec in M.
      assert (E1 : mono_at (filter (fun x => negb (mem I x)) J) q = false).
      { unfold mono_at. destruct (forallb _ _) eqn:Q; auto. rewrite forallb_forall in Q. rewrite <- Ci. symmetry. apply Q.
        apply filter_In. split; auto. apply negb_true_iff. apply mem_false; auto. }
      rewrite E1, xorb_false_l. clear - Ci.
      unfold mono_at. induction J as [|x J IHJ]; cbn [filter forallb]; auto.
      assert (Q : mem (i :: I) x = (x =? i) || mem I x) by reflexivity. rewrite Q.
      destruct (mem I x) eqn:Mx; cbn [negb]; [rewrite orb_true_r; auto|]. cbn [forallb].
      rewrite testbit_add_pow by auto. destruct (x =? i); cbn [orb negb forallb andb]; auto. f_equal; auto.
    + apply mem_false in M.
      match goal with |- xorb ?a ?b = false => enough (Q : a = b) by (rewrite Q; apply xorb_nilpotent) end. clear - Ci M. unfold mono_at. induction J as [|x J IHJ]; cbn [filter forallb]; auto.
      assert (M' : ~ In i J) by (intros H; apply M; right; auto). destruct (mem I x); cbn [negb]; auto. cbn [forallb].
      rewrite testbit_add_pow by auto. destruct (x =? i) eqn:E; [apply Nat.eqb_eq in E; subst; exfalso; apply M; left; auto|].
      f_equal; auto.
Qed.

(* checksum of a monomial on a row of the partition of I *)
Lemma coset_sum_row mu I J q : idx mu I -> idx mu J -> length J <= length I -> clear I q ->
  coset_sum I (mono_at J) q = if list_eq_dec Nat.eq_dec I J then true else false.
Proof.
  intros HI HJ L C. rewrite coset_sum_mono; auto; [|apply HI]. destruct (list_eq_dec Nat.eq_dec I J) as [<-|N].
  - replace (filter (fun x => negb (mem I x)) I) with (@nil nat).
    + cbn. rewrite andb_true_r. apply forallb_forall. intros x Hx. apply mem_spec; auto.
    + symmetry. apply filter_nil_in. intros x Hx. apply negb_false_iff, mem_spec; auto.
  - destruct (forallb (mem J) I) eqn:F; auto. exfalso. apply N. apply (idx_eq mu); auto. intros x Hx.
    rewrite forallb_forall in F. apply mem_spec. auto.
Qed.

Definition at_ (v : vec) (p : nat) : bool := nth p v false.
Definition csum (v : vec) (row : list nat) : bool := parity (map (at_ v) row).

Lemma csum_vxor u v row : length u = length v -> csum (vxor u v) row = xorb (csum u row) (csum v row).
Proof.
  intros L. unfold csum. induction row as [|p row IH]; [reflexivity|]. unfold parity in *. cbn [map]. rewrite !weight_cons.
  rewrite !Nat.odd_add, IH. unfold at_ at 1. rewrite nth_vxor by auto. fold (at_ u p) (at_ v p).
  destruct (at_ u p), (at_ v p), (Nat.odd (weight (map (at_ u) row))), (Nat.odd (weight (map (at_ v) row))); reflexivity.
Qed.

Lemma csum_zeros n row : csum (zeros n) row = false.
Proof.
  unfold csum. replace (map (at_ (zeros n)) row) with (zeros (length row)); [unfold parity; rewrite weight_zeros; auto|].
  induction row as [|p row IH]; cbn; auto. unfold at_ at 1. rewrite nth_zeros. f_equal; auto.
Qed.

Lemma csum_mono mu I J row : idx mu I -> idx mu J -> length J <= length I -> In row (reed_partition mu I) ->
  csum (mono mu J) row = if list_eq_dec Nat.eq_dec I J then true else false.
Proof.
  intros HI HJ L Hr. assert (B := fun p => partition_bound mu I row p HI Hr).
  unfold csum. rewrite (map_ext_in _ (mono_at J)) by (intros p Hp; apply nth_mono; auto).
  rewrite reed_partition_eq, in_map_iff in Hr. destruct Hr as (w' & <- & Hw'). rewrite map_map.
  pose proof (clear_Eq mu I w') as C.
  rewrite <- (coset_sum_row mu I J _ HI HJ L C), <- coset_sum_words. unfold parity. f_equal. apply weight_perm.
  unfold pos. apply (Permutation_map (fun w => mono_at J (dot_pow w I + dot_pow w' (not_pivots mu I)))). apply bin_vectors_perm.
Qed.

Lemma monos_wf mu ms : wf (2 ^ mu) (map (mono mu) ms).
Proof. unfold wf. rewrite Forall_forall. intros r Hr. apply in_map_iff in Hr as (J & <- & _). apply mono_length. Qed.

(* codeword checksum: the coefficient of I *)
Lemma csum_lower mu I row : idx mu I -> In row (reed_partition mu I) -> forall ms u,
  (forall J, In J ms -> idx mu J /\ length J <= length I /\ I <> J) ->
  csum (vecmat (2 ^ mu) u (map (mono mu) ms)) row = false.
Proof.
  intros HI Hr. induction ms as [|J ms IH]; intros [|b u] H; cbn [map vecmat]; try apply csum_zeros.
  assert (IH' : csum (vecmat (2 ^ mu) u (map (mono mu) ms)) row = false) by (apply IH; intros; apply H; right; auto).
  destruct b; auto. rewrite csum_vxor by (rewrite vecmat_length, mono_length; auto; apply monos_wf).
  destruct (H J (or_introl eq_refl)) as (HJ & L & N). rewrite IH', (csum_mono mu I J) by auto.
  destruct (list_eq_dec Nat.eq_dec I J); [contradiction|auto].
Qed.

Lemma csum_codeword mu I row ms b u : idx mu I -> In row (reed_partition mu I) ->
  (forall J, In J ms -> idx mu J /\ length J <= length I /\ I <> J) ->
  csum (vecmat (2 ^ mu) (b :: u) (map (mono mu) (I :: ms))) row = b.
Proof.
  intros HI Hr H. cbn [map vecmat]. pose proof (csum_lower mu I row HI Hr ms u H) as Z. destruct b; auto.
  rewrite csum_vxor by (rewrite vecmat_length, mono_length; auto; apply monos_wf).
  rewrite Z, (csum_mono mu I I) by auto. destruct (list_eq_dec Nat.eq_dec I I); [auto|contradiction].
Qed.

(* ---- rows hit by an error ---- *)
Definition hit (e : vec) (row : list nat) : bool := existsb (at_ e) row.

Lemma map_at_seq e : map (at_ e) (seq 0 (length e)) = e.
Proof. apply vec_ext; rewrite map_length, seq_length; auto. intros i Hi. rewrite nth_map_seq; auto. Qed.

Lemma weight_map_filter (f : nat -> bool) l : weight (map f l) = length (filter f l).
Proof. induction l as [|x l IH]; auto. cbn [map filter]. rewrite weight_cons, IH. destruct (f x); auto. Qed.

Lemma weight_at_le e L : NoDup L -> weight (map (at_ e) L) <= weight e.
Proof.
  intros ND. rewrite <- (map_at_seq e) at 2. rewrite !weight_map_filter. apply NoDup_incl_length; [apply NoDup_filter; auto|].
  intros p. rewrite !filter_In, in_seq. intros [_ H]. split; auto. destruct (Nat.lt_ge_cases p (length e)); [lia|].
  unfold at_ in H. rewrite nth_overflow in H by auto. discriminate.
Qed.

Lemma hit_count e rows : NoDup (concat rows) -> weight (map (hit e) rows) <= weight e.
Proof.
  intros ND. eapply Nat.le_trans; [|apply weight_at_le; exact ND]. clear ND.
  induction rows as [|row rows IH]; cbn [map concat]; auto. rewrite map_app, weight_app, weight_cons.
  enough ((if hit e row then 1 else 0) <= weight (map (at_ e) row)) by lia. rewrite weight_map_filter.
  unfold hit. destruct (existsb _ _) eqn:Q; [|lia]. apply existsb_exists in Q as (p & Hp & Ep).
  assert (H : In p (filter (at_ e) row)) by (apply filter_In; auto). destruct (filter (at_ e) row); [destruct H|cbn; lia].
Qed.

Lemma csum_not_hit e row : hit e row = false -> csum e row = false.
Proof.
  intros H. unfold csum, parity. rewrite weight_map_filter. rewrite filter_nil_in; auto. intros p Hp.
  destruct (at_ e p) eqn:Q; auto. enough (hit e row = true) by congruence. apply existsb_exists; eauto.
Qed.

Lemma weight_map_le {A} (f g : A -> bool) l : (forall x, f x = true -> g x = true) -> weight (map f l) <= weight (map g l).
Proof.
  intros H. induction l as [|x l IH]; cbn [map]; auto. rewrite !weight_cons. specialize (H x).
  destruct (f x); [rewrite H by auto; lia|destruct (g x); lia].
Qed.
Lemma weight_map_negb {A} (f : A -> bool) l : weight (map (fun x => negb (f x)) l) + weight (map f l) = length l.
Proof. induction l as [|x l IH]; cbn [map length]; auto. rewrite !weight_cons. destruct (f x); cbn [negb]; lia. Qed.

Lemma weight_all {A} (f : A -> bool) l : (forall x, In x l -> f x = true) -> weight (map f l) = length l.
Proof. induction l as [|x l IH]; intros H; cbn [map length]; auto. rewrite weight_cons, H, IH by (cbn; auto; intros; apply H; right; auto). auto. Qed.

(* ---- minimum distance ---- *)
Lemma nonzero_weight mu ms : ordered ms -> (forall J, In J ms -> idx mu J) -> forall rho, (forall J, In J ms -> length J <= rho) ->
  forall u, length u = length ms -> u <> zeros (length ms) -> 2 ^ (mu - rho) <= weight (vecmat (2 ^ mu) u (map (mono mu) ms)).
Proof.
  intros O HJ rho D. induction ms as [|I ms IH]; intros [|b u] L N; cbn [length] in *; try lia; [exfalso; apply N; auto|].
  destruct O as [F O]. rewrite Forall_forall in F. destruct b.
  - set (c := vecmat _ _ _). assert (HI : idx mu I) by (apply HJ; left; auto).
    assert (Hc : forall row, In row (reed_partition mu I) -> csum c row = true).
    { intros row Hr. apply csum_codeword; auto. intros J Jm. split; [apply HJ; right; auto|apply F; auto]. }
    apply Nat.le_trans with (length (reed_partition mu I)).
    + rewrite reed_partition_length. apply Nat.pow_le_mono_r; [lia|]. assert (length I <= rho) by (apply D; left; auto). lia.
    + eapply Nat.le_trans; [|apply (hit_count c (reed_partition mu I)), partition_NoDup; auto].
      rewrite weight_all; auto. intros row Hr. destruct (hit c row) eqn:Q; auto. apply csum_not_hit in Q. rewrite Hc in Q by auto. discriminate.
  - cbn [map vecmat]. apply IH; auto.
    + intros; apply HJ; right; auto.
    + intros; apply D; right; auto.
    + intros Z. apply N. rewrite Z. reflexivity.
Qed.

Lemma rm_independent rho mu : independent (2 ^ mu) (reed_muller_generator_matrix rho mu).
Proof.
  rewrite generator_spec. intros c L Z. rewrite map_length in *.
  destruct (list_eq_dec bool_dec c (zeros (length (monos rho mu)))) as [|N]; auto. exfalso.
  pose proof (nonzero_weight mu (monos rho mu) (monos_ordered rho mu) (fun J HJ => proj2 (in_monos rho mu J HJ)) rho
    (fun J HJ => proj1 (in_monos rho mu J HJ)) c L N) as W.
  rewrite Z, weight_zeros in W. pose proof (Nat.pow_nonzero 2 (mu - rho)). lia.
Qed.

(* weight of a monomial *)
Lemma mono_weight_le mu I : idx mu I -> weight (mono mu I) <= 2 ^ (mu - length I).
Proof.
  intros HI. unfold mono. rewrite weight_map_filter, <- (bin_vectors_length (mu - length I)).
  rewrite <- (map_length (fun w' => pos mu I (ones (length I)) w')). apply NoDup_incl_length; [apply NoDup_filter, seq_NoDup|].
  intros p. rewrite filter_In, in_seq, in_map_iff. intros [Hp M]. exists (map (Nat.testbit p) (not_pivots mu I)). split.
  - rewrite (pos_surj mu I p HI) at 2 by lia. f_equal. unfold mono_at in M. rewrite forallb_forall in M.
    clear - M. induction I as [|i I IH]; cbn [map length]; auto. unfold ones in *. cbn [repeat]. rewrite M by (left; auto). f_equal. apply IH.
    intros; apply M; right; auto.
  - apply in_bin_vectors. rewrite map_length. apply E_length; auto.
Qed.

Lemma combination_exists mu w : w <= mu -> exists I, In I (combinations (seq 0 mu) w).
Proof.
  intros H. destruct (combinations (seq 0 mu) w) as [|I l] eqn:E; [|exists I; left; auto]. exfalso.
  pose proof (combinations_length (seq 0 mu) w) as L. rewrite E, seq_length in L. cbn [length] in L. clear E. revert w H L.
  induction mu as [|mu IH]; intros [|w] H L; cbn [comb] in L; try lia. apply (IH w); lia.
Qed.

Lemma top_mono rho mu : rho <= mu -> exists I, In I (monos rho mu) /\ length I = rho /\ idx mu I.
Proof.
  intros H. destruct (combination_exists mu rho H) as (I & HI). exists I. split.
  - apply in_flat_map. exists rho. split; auto. apply -> in_rev. apply in_seq. lia.
  - apply idx_combination; auto.
Qed.

(* ---- hard decoding ---- *)
Lemma checksums_eq bx rows : checksums bx rows = map (csum bx) rows.
Proof. unfold checksums. apply map_ext. intros row. rewrite vsum_weight. reflexivity. Qed.

Section Decode.
Variables (rho mu : nat).
Hypothesis Hr : rho < mu.

Lemma rows_half (J : list nat) : length J <= rho -> exists h, 2 ^ (mu - length J) = 2 * h /\ 2 ^ (mu - rho - 1) <= h.
Proof.
  intros L. exists (2 ^ (mu - length J - 1)). split.
  - rewrite <- Nat.pow_succ_r'. f_equal. lia.
  - apply Nat.pow_le_mono_r; lia.
Qed.

Lemma hard_step I ms b u e : idx mu I -> length I <= rho -> (forall J, In J ms -> idx mu J /\ length J <= length I /\ I <> J) ->
  length e = 2 ^ mu -> weight e < 2 ^ (mu - rho - 1) ->
  let cs := checksums (vxor (vecmat (2 ^ mu) (b :: u) (map (mono mu) (I :: ms))) e) (reed_partition mu I) in
  (length cs / 2 <? vsum cs) = b.
Proof.
  intros HI LI H Le We cs. set (c := vecmat (2 ^ mu) (b :: u) (map (mono mu) (I :: ms))) in *.
  assert (Lc : length c = 2 ^ mu) by (apply vecmat_length, monos_wf).
  assert (E : cs = map (fun row => xorb b (csum e row)) (reed_partition mu I)).
  { unfold cs. rewrite checksums_eq. apply map_ext_in. intros row Hrow. rewrite csum_vxor by congruence. f_equal.
    apply csum_codeword; auto. }
  destruct (rows_half I LI) as (h & Eh & Hh).
  pose proof (reed_partition_length mu I) as LP. rewrite Eh in LP.
  assert (Lcs : length cs / 2 = h) by (rewrite E, map_length, LP, Nat.mul_comm; apply Nat.div_mul; lia).
  assert (Bad : weight (map (csum e) (reed_partition mu I)) <= weight e).
  { eapply Nat.le_trans; [|apply (hit_count e (reed_partition mu I)), partition_NoDup; auto]. apply weight_map_le. intros row Q.
    destruct (hit e row) eqn:HQ; auto. apply csum_not_hit in HQ. congruence. }
  rewrite Lcs, vsum_weight, E. destruct b.
  - pose proof (weight_map_negb (csum e) (reed_partition mu I)) as N. apply Nat.ltb_lt.
    rewrite (map_ext _ (fun row => negb (csum e row))) by (intros row; destruct (csum e row); auto). lia.
  - rewrite (map_ext _ (csum e)) by (intros row; destruct (csum e row); auto). apply Nat.ltb_ge. lia.
Qed.

Lemma step_cancel I ms (b : bool) u e : length e = 2 ^ mu ->
  (if b then vxor (vxor (vecmat (2 ^ mu) (b :: u) (map (mono mu) (I :: ms))) e) (mono mu I)
   else vxor (vecmat (2 ^ mu) (b :: u) (map (mono mu) (I :: ms))) e) = vxor (vecmat (2 ^ mu) u (map (mono mu) ms)) e.
Proof.
  intros Le. cbn [map vecmat]. destruct b; auto. set (v := vecmat _ _ _).
  assert (Lv : length v = 2 ^ mu) by (apply vecmat_length, monos_wf).
  rewrite vxor_comm, (vxor_assoc (mono mu I) v e). apply vxor_cancel. rewrite mono_length, vxor_length; congruence.
Qed.

Lemma hard_correct e : length e = 2 ^ mu -> weight e < 2 ^ (mu - rho - 1) -> forall ms, ordered ms ->
  (forall J, In J ms -> length J <= rho /\ idx mu J) -> forall u acc, length u = length ms ->
  fst (fold_left reed_step_hard (combine (map (reed_partition mu) ms) (map (mono mu) ms))
    (acc, vxor (vecmat (2 ^ mu) u (map (mono mu) ms)) e)) = acc ++ u.
Proof.
  intros Le We. induction ms as [|I ms IH]; intros O HM [|b u] acc L; cbn [length] in L; try lia.
  - cbn. rewrite app_nil_r; auto.
  - destruct O as [F O]. rewrite Forall_forall in F. destruct (HM I (or_introl eq_refl)) as [LI HI].
    assert (H : forall J, In J ms -> idx mu J /\ length J <= length I /\ I <> J).
    { intros J HJ. split; [apply (HM J); right; auto|apply F; auto]. }
    pose proof (hard_step I ms b u e HI LI H Le We) as S. cbv zeta in S. cbn [map combine fold_left reed_step_hard] in *. rewrite S.
    pose proof (step_cancel I ms b u e Le) as T. cbn [map] in T. rewrite T. rewrite IH; auto.
    + rewrite <- app_assoc. auto.
    + intros; apply HM; right; auto.
Qed.

Lemma reed_hard u r : length u = length (monos rho mu) -> length r = 2 ^ mu ->
  hdist (vecmat (2 ^ mu) u (reed_muller_generator_matrix rho mu)) r < 2 ^ (mu - rho - 1) ->
  reed_decode_hard rho mu r = u.
Proof.
  rewrite generator_spec. intros Lu Lr D. set (c := vecmat _ _ _) in *. assert (Lc : length c = 2 ^ mu) by (apply vecmat_length, monos_wf).
  unfold reed_decode_hard. rewrite generator_spec, partitions_spec.
  assert (E : r = vxor c (vxor c r)) by (rewrite vxor_cancel; congruence). rewrite E. unfold c at 1.
  apply (hard_correct (vxor c r)); auto; [rewrite vxor_length; congruence|apply monos_ordered|]. intros J HJ. apply in_monos; auto.
Qed.
End Decode.


(* ---- soft decoding ---- *)
Definition Qsum (l : list Q) : Q := fold_right Qplus 0%Q l.

Lemma Qsum_cons x l : Qsum (x :: l) = (x + Qsum l)%Q.
Proof. reflexivity. Qed.
Lemma Qsum_nil : Qsum [] = 0%Q.
Proof. reflexivity. Qed.
Lemma decision_var_cons c cs x rel : decision_var (c :: cs) (x :: rel) = ((if c then - x else x) + decision_var cs rel)%Q.
Proof. reflexivity. Qed.

Definition rel_at (r : list Q) (p : nat) : Q := Qabs (nth p r 0%Q).
(* total reliability of the erroneous positions listed in l *)
Definition err_mass (e : vec) (r : list Q) (l : list nat) : Q := Qsum (map (rel_at r) (filter (at_ e) l)).

Lemma Qsum_app a b : (Qsum (a ++ b) == Qsum a + Qsum b)%Q.
Proof. induction a as [|x a IH]; cbn [app]; rewrite ?Qsum_nil, ?Qsum_cons; [lra|]. rewrite IH. lra. Qed.

Lemma err_mass_app e r a b : (err_mass e r (a ++ b) == err_mass e r a + err_mass e r b)%Q.
Proof. unfold err_mass. rewrite filter_app, map_app. apply Qsum_app. Qed.

Lemma err_mass_nonneg e r l : (0 <= err_mass e r l)%Q.
Proof.
  unfold err_mass. induction (filter (at_ e) l) as [|p t IH]; cbn [map]; rewrite ?Qsum_nil, ?Qsum_cons; [lra|].
  pose proof (Qabs_nonneg (nth p r 0%Q)). unfold rel_at at 1. lra.
Qed.

Lemma err_mass_perm e r a b : Permutation a b -> (err_mass e r a == err_mass e r b)%Q.
Proof.
  intros P. induction P as [|x a b P IH|x y a|a b c P1 IH1 P2 IH2].
  - reflexivity.
  - unfold err_mass in *. cbn [filter]. destruct (at_ e x); cbn [map]; rewrite ?Qsum_cons; auto. rewrite IH. reflexivity.
  - unfold err_mass. cbn [filter]. destruct (at_ e x), (at_ e y); cbn [map]; rewrite ?Qsum_cons; try reflexivity. lra.
  - rewrite IH1. auto.
Qed.

Lemma err_mass_NoDup e r L n : NoDup L -> (forall p, In p L -> p < n) -> (err_mass e r L <= err_mass e r (seq 0 n))%Q.
Proof.
  intros ND B. assert (P : Permutation (seq 0 n) (L ++ filter (fun p => negb (mem L p)) (seq 0 n))).
  { apply NoDup_Permutation; [apply seq_NoDup| |].
    - apply NoDup_app_intro; auto; [apply NoDup_filter, seq_NoDup|]. intros x Hx. rewrite filter_In, negb_true_iff, mem_false. tauto.
    - intros x. rewrite in_app_iff, filter_In, negb_true_iff, mem_false, in_seq. split.
      + intros. destruct (in_dec Nat.eq_dec x L); auto.
      + intros [H|[H _]]; [apply B in H; lia|auto]. }
  rewrite (err_mass_perm _ _ _ _ P), err_mass_app. pose proof (err_mass_nonneg e r (filter (fun p => negb (mem L p)) (seq 0 n))). lra.
Qed.

Definition row_rel (r : list Q) (row : list nat) : Q := min_abs (map (fun p => nth p r 0%Q) row).

Lemma min_abs_cons x y l : min_abs (x :: y :: l) = Qmin (Qabs x) (min_abs (y :: l)).
Proof. reflexivity. Qed.

Lemma min_abs_le l x : In x l -> (min_abs l <= Qabs x)%Q.
Proof.
  induction l as [|y l IH]; [intros []|]. destruct l as [|z l].
  - intros [->|[]]. apply Qle_refl.
  - rewrite min_abs_cons. intros [->|H]; [apply Q.le_min_l|]. eapply Qle_trans; [apply Q.le_min_r|]. auto.
Qed.

Lemma min_abs_ge l m : l <> [] -> (forall x, In x l -> (m <= Qabs x)%Q) -> (m <= min_abs l)%Q.
Proof.
  induction l as [|y l IH]; [congruence|]. intros _ H. destruct l as [|z l].
  - apply H. left; auto.
  - rewrite min_abs_cons. apply Q.min_glb; [apply H; left; auto|]. apply IH; [congruence|]. intros; apply H; right; auto.
Qed.

Lemma min_abs_nonneg l : (0 <= min_abs l)%Q.
Proof.
  destruct l as [|x l]; [apply Qle_refl|]. apply min_abs_ge; [congruence|]. intros; apply Qabs_nonneg.
Qed.

Lemma Qsum_in l x : In x l -> (forall y, In y l -> (0 <= y)%Q) -> (x <= Qsum l)%Q.
Proof.
  induction l as [|y l IH]; [intros []|]. intros [->|H] P; rewrite Qsum_cons.
  - assert (G : (0 <= Qsum l)%Q).
    { assert (P' : forall z, In z l -> (0 <= z)%Q) by (intros; apply P; right; auto). clear - P'. induction l as [|z l IH]; rewrite ?Qsum_nil, ?Qsum_cons; [lra|]. specialize (P' z (or_introl eq_refl)) as A. assert (B : (0 <= Qsum l)%Q) by (apply IH; intros; apply P'; right; auto). lra. }
    lra.
  - specialize (P y (or_introl eq_refl)) as A. assert (B : (x <= Qsum l)%Q) by (apply IH; auto; intros; apply P; right; auto). lra.
Qed.

Section Soft.
Variables (r : list Q) (e : vec) (m : Q) (n : nat).
Hypothesis Hm : (0 <= m)%Q.
Hypothesis Hrel : forall p, p < n -> at_ e p = false -> (m <= rel_at r p)%Q.

Lemma row_bound row : row <> [] -> (forall p, In p row -> p < n) ->
  ((if hit e row then 0 else m) - err_mass e r row <= (if csum e row then - row_rel r row else row_rel r row))%Q.
Proof.
  intros NE B. destruct (csum e row) eqn:C.
  - assert (H : hit e row = true) by (destruct (hit e row) eqn:Q; auto; apply csum_not_hit in Q; congruence). rewrite H.
    apply existsb_exists in H as (p & Hp & Ep).
    assert (A : (row_rel r row <= rel_at r p)%Q) by (apply min_abs_le, in_map_iff; exists p; auto).
    assert (A2 : (rel_at r p <= err_mass e r row)%Q).
    { apply Qsum_in; [apply in_map, filter_In; auto|]. intros y Hy. apply in_map_iff in Hy as (z & <- & _). apply Qabs_nonneg. }
    lra.
  - pose proof (err_mass_nonneg e r row) as P. destruct (hit e row) eqn:H.
    + pose proof (min_abs_nonneg (map (fun p => nth p r 0%Q) row)). unfold row_rel. lra.
    + assert (G : (m <= row_rel r row)%Q).
      { apply min_abs_ge; [destruct row; [congruence|discriminate]|]. intros x Hx. apply in_map_iff in Hx as (p & <- & Hp).
        apply (Hrel p); auto. destruct (at_ e p) eqn:Q; auto. enough (hit e row = true) by congruence. apply existsb_exists; eauto. }
      lra.
Qed.

Lemma rows_bound rows : (forall row, In row rows -> row <> [] /\ forall p, In p row -> p < n) ->
  (inject_Z (Z.of_nat (weight (map (fun row => negb (hit e row)) rows))) * m - err_mass e r (concat rows) <=
   decision_var (map (csum e) rows) (map (row_rel r) rows))%Q.
Proof.
  induction rows as [|row rows IH]; intros H; cbn [map concat].
  - unfold err_mass. cbn [filter map]. rewrite Qsum_nil. change (inject_Z (Z.of_nat (weight []))) with 0%Q. change (decision_var [] []) with 0%Q. lra.
  - rewrite decision_var_cons, err_mass_app, weight_cons. destruct (H row (or_introl eq_refl)) as [NE B]. pose proof (row_bound row NE B) as R.
    assert (IH' := IH (fun x Hx => H x (or_intror Hx))). rewrite Nat2Z.inj_add, inject_Z_plus.
    set (W := weight (map (fun row0 => negb (hit e row0)) rows)) in *. set (dv := decision_var _ _) in *.
    destruct (hit e row); cbn [negb]; change (inject_Z (Z.of_nat 1)) with 1%Q; change (inject_Z (Z.of_nat 0)) with 0%Q; 
    destruct (csum e row); lra.
Qed.
End Soft.

Lemma decision_var_neg cs rel : (decision_var (map negb cs) rel == - decision_var cs rel)%Q.
Proof. revert rel; induction cs as [|c cs IH]; intros [|x rel]; cbn [map]; try reflexivity. rewrite !decision_var_cons, IH. destruct c; cbn [negb]; lra. Qed.

Section DecodeSoft.
Variables (rho mu : nat).
Hypothesis Hr : rho < mu.
Variables (r : list Q) (e : vec) (m : Q).
Hypothesis Le : length e = 2 ^ mu.
Hypothesis Hm : (0 <= m)%Q.
Hypothesis Hrel : forall p, p < 2 ^ mu -> at_ e p = false -> (m <= rel_at r p)%Q.
Hypothesis Herr : (err_mass e r (seq 0 (2 ^ mu)) < inject_Z (Z.of_nat (2 ^ (mu - rho) - weight e)) * m)%Q.

Lemma soft_positive I : idx mu I -> length I <= rho ->
  (0 < decision_var (map (csum e) (reed_partition mu I)) (map (row_rel r) (reed_partition mu I)))%Q.
Proof.
  intros HI LI. set (rows := reed_partition mu I).
  assert (HR : forall row, In row rows -> row <> [] /\ forall p, In p row -> p < 2 ^ mu).
  { intros row Hrow. split; [|intros p Hp; eapply partition_bound; eauto]. unfold rows in Hrow. rewrite reed_partition_eq in Hrow.
    apply in_map_iff in Hrow as (w' & <- & _). intros Z. apply map_eq_nil in Z. apply (f_equal (@length _)) in Z.
    rewrite bin_vectors_length in Z. cbn in Z. revert Z. apply Nat.pow_nonzero. lia. }
  pose proof (rows_bound r e m (2 ^ mu) Hrel rows HR) as B.
  assert (M : (err_mass e r (concat rows) <= err_mass e r (seq 0 (2 ^ mu)))%Q).
  { apply err_mass_NoDup; [apply partition_NoDup; auto|]. intros p Hp. apply in_concat in Hp as (row & Hrow & Hp). apply (HR row); auto. }
  assert (W : 2 ^ (mu - rho) - weight e <= weight (map (fun row => negb (hit e row)) rows)).
  { pose proof (weight_map_negb (hit e) rows) as N. pose proof (hit_count e rows (partition_NoDup mu I HI)) as HC.
    unfold rows in N at 3. rewrite reed_partition_length in N. assert (2 ^ (mu - rho) <= 2 ^ (mu - length I)) by (apply Nat.pow_le_mono_r; lia). lia. }
  assert (W' : (inject_Z (Z.of_nat (2 ^ (mu - rho) - weight e)) * m <= inject_Z (Z.of_nat (weight (map (fun row => negb (hit e row)) rows))) * m)%Q).
  { apply Qmult_le_compat_r; auto. rewrite <- Zle_Qle. lia. }
  lra.
Qed.

Lemma soft_step I ms b u : idx mu I -> length I <= rho -> (forall J, In J ms -> idx mu J /\ length J <= length I /\ I <> J) ->
  Qneg (decision_var (checksums (vxor (vecmat (2 ^ mu) (b :: u) (map (mono mu) (I :: ms))) e) (reed_partition mu I))
    (map (row_rel r) (reed_partition mu I))) = b.
Proof.
  intros HI LI H. set (c := vecmat (2 ^ mu) (b :: u) (map (mono mu) (I :: ms))) in *.
  assert (Lc : length c = 2 ^ mu) by (apply vecmat_length, monos_wf).
  assert (E : checksums (vxor c e) (reed_partition mu I) = map (fun row => xorb b (csum e row)) (reed_partition mu I)).
  { rewrite checksums_eq. apply map_ext_in. intros row Hrow. rewrite csum_vxor by congruence. f_equal. apply csum_codeword; auto. }
  rewrite E. pose proof (soft_positive I HI LI) as P. unfold Qneg. destruct b.
  - rewrite <- (map_map (csum e) (fun x => xorb true x)). rewrite (map_ext (fun x => xorb true x) negb) by (intros []; auto).
    apply negb_true_iff. destruct (Qle_bool 0 _) eqn:Q; auto. apply Qle_bool_iff in Q. rewrite decision_var_neg in Q. lra.
  - rewrite (map_ext _ (csum e)) by (intros row; destruct (csum e row); auto). apply negb_false_iff, Qle_bool_iff. lra.
Qed.

Lemma soft_correct ms : ordered ms -> (forall J, In J ms -> length J <= rho /\ idx mu J) -> forall u acc, length u = length ms ->
  fst (fold_left (reed_step_soft r) (combine (map (reed_partition mu) ms) (map (mono mu) ms))
    (acc, vxor (vecmat (2 ^ mu) u (map (mono mu) ms)) e)) = acc ++ u.
Proof.
  induction ms as [|I ms IH]; intros O HM [|b u] acc L; cbn [length] in L; try lia.
  - cbn. rewrite app_nil_r; auto.
  - destruct O as [F O]. rewrite Forall_forall in F. destruct (HM I (or_introl eq_refl)) as [LI HI].
    assert (H : forall J, In J ms -> idx mu J /\ length J <= length I /\ I <> J).
    { intros J HJ. split; [apply (HM J); right; auto|apply F; auto]. }
    pose proof (soft_step I ms b u HI LI H) as S. unfold row_rel in S. cbn [map combine fold_left reed_step_soft] in *. rewrite S.
    pose proof (step_cancel mu I ms b u e Le) as T. cbn [map] in T. rewrite T. rewrite IH; auto.
    + rewrite <- app_assoc. auto.
    + intros; apply HM; right; auto.
Qed.

Lemma reed_soft u : length u = length (monos rho mu) -> length r = 2 ^ mu ->
  e = vxor (vecmat (2 ^ mu) u (reed_muller_generator_matrix rho mu)) (map Qneg r) ->
  reed_decode_soft rho mu r = u.
Proof.
  rewrite generator_spec. intros Lu Lr D. set (c := vecmat _ _ _) in *. assert (Lc : length c = 2 ^ mu) by (apply vecmat_length, monos_wf).
  unfold reed_decode_soft. rewrite generator_spec, partitions_spec.
  assert (E : map Qneg r = vxor c e) by (rewrite D, vxor_cancel; auto; rewrite map_length; congruence). rewrite E. unfold c.
  apply soft_correct; auto; [apply monos_ordered|]. intros J HJ. apply in_monos; auto.
Qed.
End DecodeSoft.
