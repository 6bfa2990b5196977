(* Proofs about correlations. *)
From Coq Require Import Reals Lra Permutation.
From Coquelicot Require Import Complex.
From Verif Require Import Common Corr_Model Corr_Spec.
Local Open Scope nat_scope.

Lemma Csum_ext n f g : (forall i, i < n -> f i = g i) -> Csum n f = Csum n g.
Proof. induction n; intros H; cbn; auto. rewrite IHn by (intros; apply H; lia). rewrite H by lia. reflexivity. Qed.
Lemma Csum_conj n f : Cconj (Csum n f) = Csum n (fun i => Cconj (f i)).
Proof. induction n; cbn; [unfold Cconj, RtoC; cbn; f_equal; lra|]. rewrite <- IHn. unfold Cconj, Cplus. cbn. f_equal. lra. Qed.
Lemma Csum_fold n f : Csum n f = fold_right Cplus (RtoC 0) (map f (seq 0 n)).
Proof.
  induction n; [reflexivity|]. rewrite seq_S, map_app. cbn [Csum map Nat.add]. rewrite IHn. generalize (map f (seq 0 n)). clear. intros l.
  induction l as [|x l IH]; cbn; [rewrite Cplus_0_l, Cplus_0_r; reflexivity|]. rewrite <- IH, Cplus_assoc. reflexivity.
Qed.
Lemma Zsum_fold n f : Zsum n f = fold_right Z.add 0%Z (map f (seq 0 n)).
Proof.
  induction n; [reflexivity|]. rewrite seq_S, map_app. cbn [Zsum map Nat.add]. rewrite IHn. generalize (map f (seq 0 n)). clear. intros l.
  induction l as [|x l IH]; cbn [app fold_right]; lia.
Qed.
Lemma fold_Cplus_perm l l' : Permutation l l' -> fold_right Cplus (RtoC 0) l = fold_right Cplus (RtoC 0) l'.
Proof. induction 1; cbn; congruence || (rewrite ?Cplus_assoc, (Cplus_comm y); auto). Qed.
Lemma fold_Zadd_perm l l' : Permutation l l' -> fold_right Z.add 0%Z l = fold_right Z.add 0%Z l'.
Proof. induction 1; cbn [fold_right]; lia. Qed.
(* reindexing by an injection of 0 .. n-1 *)
Lemma reindex_perm n (g : nat -> nat) : (forall i, i < n -> g i < n) -> (forall i j, i < n -> j < n -> g i = g j -> i = j) -> Permutation (map g (seq 0 n)) (seq 0 n).
Proof.
  intros B I. apply NoDup_Permutation_bis.
  - apply (NoDup_nth _ 0). rewrite map_length, seq_length. intros i j Hi Hj E. rewrite !nth_map_seq in E by auto. auto.
  - now rewrite map_length.
  - intros x Hx. apply in_map_iff in Hx as (i & <- & Hi). apply in_seq in Hi. apply in_seq. specialize (B i). lia.
Qed.
Lemma Csum_reindex n g f : (forall i, i < n -> g i < n) -> (forall i j, i < n -> j < n -> g i = g j -> i = j) -> Csum n (fun i => f (g i)) = Csum n f.
Proof. intros B I. rewrite !Csum_fold. rewrite <- (map_map g f). apply fold_Cplus_perm. apply Permutation_map. now apply reindex_perm. Qed.
Lemma Zsum_reindex n g f : (forall i, i < n -> g i < n) -> (forall i j, i < n -> j < n -> g i = g j -> i = j) -> Zsum n (fun i => f (g i)) = Zsum n f.
Proof. intros B I. rewrite !Zsum_fold. rewrite <- (map_map g f). apply fold_Zadd_perm. apply Permutation_map. now apply reindex_perm. Qed.
Definition shift (n : nat) (k : Z) (i : nat) : nat := Z.to_nat ((Z.of_nat i + k) mod Z.of_nat n).
Lemma shift_bound n k i : i < n -> shift n k i < n.
Proof. intros H. unfold shift. pose proof (Z.mod_pos_bound (Z.of_nat i + k) (Z.of_nat n)). lia. Qed.
Lemma shift_Z n k i : i < n -> Z.of_nat (shift n k i) = ((Z.of_nat i + k) mod Z.of_nat n)%Z.
Proof. intros H. unfold shift. pose proof (Z.mod_pos_bound (Z.of_nat i + k) (Z.of_nat n)). lia. Qed.
Lemma shift_inj n k i j : i < n -> j < n -> shift n k i = shift n k j -> i = j.
Proof.
  intros Hi Hj E. apply (f_equal Z.of_nat) in E. rewrite !shift_Z in E by auto. apply (f_equal (fun z => (z - k) mod Z.of_nat n)%Z) in E.
  rewrite !Zminus_mod_idemp_l in E. replace (Z.of_nat i + k - k)%Z with (Z.of_nat i) in E by lia. replace (Z.of_nat j + k - k)%Z with (Z.of_nat j) in E by lia.
  rewrite !Z.mod_small in E by lia. lia.
Qed.

(* dot products as sums *)
Lemma npdot_C (a b : list C) n : length a = n -> length b = n -> npdot complex_dtype a b = Csum n (fun i => Cmult (nth i a (RtoC 0)) (nth i b (RtoC 0))).
Proof.
  intros La Lb. rewrite Csum_fold. unfold npdot. f_equal. revert b n La Lb. induction a as [|x a IH]; intros [|y b] n La Lb; cbn [length] in *; try lia; subst n; [reflexivity|].
  cbn [combine map seq fst snd nth]. f_equal. rewrite <- seq_shift, map_map. apply (IH b (length a)); lia.
Qed.
Lemma npdot_Z (a b : list Z) n : length a = n -> length b = n -> npdot int_dtype a b = Zsum n (fun i => (nth i a 0 * nth i b 0)%Z).
Proof.
  intros La Lb. rewrite Zsum_fold. unfold npdot. f_equal. revert b n La Lb. induction a as [|x a IH]; intros [|y b] n La Lb; cbn [length] in *; try lia; subst n; [reflexivity|].
  cbn [combine map seq fst snd nth]. f_equal. rewrite <- seq_shift, map_map. apply (IH b (length a)); lia.
Qed.
Lemma Cconj_0 : Cconj (RtoC 0) = RtoC 0.
Proof. unfold Cconj, RtoC; cbn; f_equal; lra. Qed.
Lemma nth_conj s i : nth i (map Cconj s) (RtoC 0) = Cconj (nth i s (RtoC 0)).
Proof. rewrite <- Cconj_0 at 1. apply map_nth. Qed.
Lemma nth_skipn' {A} (d : A) (l : list A) k i : nth i (skipn k l) d = nth (k + i) l d.
Proof. revert l. induction k; intros [|x l]; cbn; auto; destruct i; auto. Qed.
Lemma nth_firstn' {A} (d : A) (l : list A) k i : i < k -> nth i (firstn k l) d = nth i l d.
Proof. revert l i. induction k; intros [|x l] [|i] H; cbn; try lia; auto. apply IHk. lia. Qed.

Lemma auto_pos (s : list C) k : autocorrelation_at complex_dtype s (Z.of_nat k) = Csum (length s - k) (fun i => Cmult (nth (i + k) s (RtoC 0)) (Cconj (nth i s (RtoC 0)))).
Proof.
  unfold autocorrelation_at. destruct (Z.ltb_spec (Z.of_nat k) 0); [lia|]. destruct (Z.ltb_spec 0 (Z.of_nat k)) as [H1|H1].
  - unfold slice_from, slice_to, py_index. destruct (Z.ltb_spec (Z.of_nat k) 0); [lia|]. destruct (Z.ltb_spec (- Z.of_nat k) 0); [|lia].
    rewrite Nat2Z.id. cbn [d_conj complex_dtype carrier]. rewrite (map_length Cconj). replace (Z.to_nat (Z.of_nat (length s) + - Z.of_nat k)) with (length s - k) by lia.
    rewrite (npdot_C _ _ (length s - k)); [|apply skipn_length|rewrite firstn_length, map_length; lia].
    apply Csum_ext. intros i Hi. rewrite nth_skipn', nth_firstn', nth_conj by lia. rewrite Nat.add_comm. reflexivity.
  - assert (k = 0) by lia. subst k. rewrite Nat.sub_0_r. rewrite (npdot_C _ _ (length s)); [|reflexivity|apply map_length].
    apply Csum_ext. intros i Hi. cbn [d_conj complex_dtype]. rewrite nth_conj, Nat.add_0_r. reflexivity.
Qed.
Lemma auto_neg (s : list C) k : 0 < k -> autocorrelation_at complex_dtype s (- Z.of_nat k) = Csum (length s - k) (fun i => Cmult (nth i s (RtoC 0)) (Cconj (nth (i + k) s (RtoC 0)))).
Proof.
  intros Hk. unfold autocorrelation_at. destruct (Z.ltb_spec (- Z.of_nat k) 0); [|lia]. unfold slice_from, slice_to, py_index.
  destruct (Z.ltb_spec (- Z.of_nat k) 0); [|lia]. destruct (Z.ltb_spec (- - Z.of_nat k) 0); [lia|].
  rewrite Z.opp_involutive, Nat2Z.id. change (@length (carrier complex_dtype) s) with (@length C s). replace (Z.to_nat (Z.of_nat (length s) + - Z.of_nat k)) with (length s - k) by lia.
  rewrite (npdot_C _ _ (length s - k)); [|rewrite firstn_length; cbn; lia|rewrite skipn_length, map_length; reflexivity].
  apply Csum_ext. intros i Hi. cbn [d_conj complex_dtype]. rewrite nth_skipn', nth_firstn', nth_conj by lia. rewrite Nat.add_comm. reflexivity.
Qed.
Lemma Cconj_mult a b : Cconj (Cmult a b) = Cmult (Cconj a) (Cconj b).
Proof. unfold Cconj, Cmult; cbn; f_equal; lra. Qed.
Lemma Cconj_conj a : Cconj (Cconj a) = a.
Proof. unfold Cconj; destruct a; cbn; f_equal; lra. Qed.
Lemma auto_conj (s : list C) l : autocorrelation_at complex_dtype s (- l) = Cconj (autocorrelation_at complex_dtype s l).
Proof.
  destruct (Z.lt_trichotomy l 0) as [H|[->|H]].
  - replace l with (- Z.of_nat (Z.to_nat (- l)))%Z by lia. set (k := Z.to_nat (- l)). assert (0 < k) by lia. rewrite Z.opp_involutive, auto_pos, auto_neg by auto.
    rewrite Csum_conj. apply Csum_ext. intros i _. rewrite Cconj_mult, Cconj_conj, Cmult_comm. reflexivity.
  - change (- 0)%Z with (Z.of_nat 0). change 0%Z with (Z.of_nat 0). rewrite !auto_pos, Csum_conj. apply Csum_ext. intros i _. rewrite Cconj_mult, Cconj_conj, Cmult_comm, Nat.add_0_r. reflexivity.
  - replace l with (Z.of_nat (Z.to_nat l)) by lia. set (k := Z.to_nat l). assert (0 < k) by lia. rewrite auto_pos, auto_neg by auto.
    rewrite Csum_conj. apply Csum_ext. intros i _. rewrite Cconj_mult, Cconj_conj, Cmult_comm. reflexivity.
Qed.

Lemma Csum_app n m f : Csum (n + m) f = Cplus (Csum n f) (Csum m (fun i => f (n + i))).
Proof. induction m; [rewrite Nat.add_0_r; cbn; rewrite Cplus_0_r; reflexivity|]. rewrite Nat.add_succ_r. cbn [Csum]. rewrite IHm, Cplus_assoc. reflexivity. Qed.
Lemma Csum_0 n f : (forall i, i < n -> f i = RtoC 0) -> Csum n f = RtoC 0.
Proof. induction n; intros H; cbn; auto. rewrite IHn, H by (intros; try apply H; lia). apply Cplus_0_l. Qed.
(* as sums over a window containing the support *)
Lemma auto_formula (s : list C) l N : (Z.of_nat (length s) <= Z.of_nat N)%Z -> autocorrelation_at complex_dtype s l = Csum N (fun i => Cmult (zero_ext s (Z.of_nat i)) (Cconj (zero_ext s (Z.of_nat i - l)))).
Proof.
  intros HN. assert (Z0 : forall k, ~ (0 <= k < Z.of_nat (length s))%Z -> zero_ext s k = RtoC 0).
  { intros k Hk. unfold zero_ext. destruct (Z.leb_spec 0 k), (Z.ltb_spec k (Z.of_nat (length s))); cbn [andb]; try reflexivity; lia. }
  assert (Z1 : forall i, i < length s -> zero_ext s (Z.of_nat i) = nth i s (RtoC 0)).
  { intros i Hi. unfold zero_ext. destruct (Z.leb_spec 0 (Z.of_nat i)); [|lia]. destruct (Z.ltb_spec (Z.of_nat i) (Z.of_nat (length s))); [|lia]. cbn [andb]. now rewrite Nat2Z.id. }
  destruct (Z.lt_ge_cases l 0) as [H|H].
  - replace l with (- Z.of_nat (Z.to_nat (- l)))%Z by lia. set (k := Z.to_nat (- l)). rewrite auto_neg by lia.
    replace N with ((length s - k) + (N - (length s - k))) by lia. rewrite Csum_app. rewrite (Csum_0 (N - (length s - k))).
    + rewrite Cplus_0_r. apply Csum_ext. intros i Hi. rewrite Z1 by lia. replace (Z.of_nat i - - Z.of_nat k)%Z with (Z.of_nat (i + k)) by lia. now rewrite Z1 by lia.
    + intros i Hi. rewrite (Z0 (_ - _)%Z) by lia. rewrite Cconj_0. apply Cmult_0_r.
  - replace l with (Z.of_nat (Z.to_nat l)) by lia. set (k := Z.to_nat l). rewrite auto_pos. destruct (Nat.le_gt_cases (length s) k) as [Hk|Hk].
    + replace (length s - k) with 0 by lia. cbn [Csum]. symmetry. apply Csum_0. intros i Hi. destruct (Nat.le_gt_cases (length s) i); [rewrite (Z0 (Z.of_nat i)) by lia; apply Cmult_0_l|].
      rewrite (Z0 (_ - _)%Z) by lia. rewrite Cconj_0. apply Cmult_0_r.
    + replace N with (k + ((length s - k) + (N - length s))) by lia. rewrite (Csum_app k), (Csum_app (length s - k)). rewrite (Csum_0 k), (Csum_0 (N - length s)).
      * rewrite Cplus_0_l, Cplus_0_r. apply Csum_ext. intros i Hi. rewrite Z1 by lia. replace (Z.of_nat (k + i) - Z.of_nat k)%Z with (Z.of_nat i) by lia. rewrite Z1 by lia. now rewrite Nat.add_comm.
      * intros i Hi. rewrite (Z0 (Z.of_nat _)) by lia. apply Cmult_0_l.
      * intros i Hi. rewrite (Z0 (_ - _)%Z) by lia. rewrite Cconj_0. apply Cmult_0_r.
Qed.
Lemma roll_length (T : dtype) (s : list T) l : length (roll T s l) = length s.
Proof. unfold roll. now rewrite map_length, seq_length. Qed.
Lemma cyclic_formula (s : list C) l : cyclic_at complex_dtype s l = Csum (length s) (fun i => Cmult (nth i s (RtoC 0)) (Cconj (periodic_ext s (Z.of_nat i - l)))).
Proof.
  unfold cyclic_at. rewrite (npdot_C _ _ (length s)); [|reflexivity|rewrite map_length; apply roll_length]. apply Csum_ext. intros i Hi. cbn [d_conj complex_dtype]. rewrite nth_conj.
  unfold roll. cbn [d_zero complex_dtype carrier]. rewrite (nth_map_seq (fun i => nth (Z.to_nat ((Z.of_nat i - l) mod Z.of_nat (length s))) s (RtoC 0))) by auto. reflexivity.
Qed.
Lemma periodic_nth s i : i < length s -> periodic_ext s (Z.of_nat i) = nth i s (RtoC 0).
Proof. intros H. unfold periodic_ext. rewrite Z.mod_small by lia. now rewrite Nat2Z.id. Qed.
Lemma periodic_mod s k : periodic_ext s (k mod Z.of_nat (length s)) = periodic_ext s k.
Proof. unfold periodic_ext. f_equal. f_equal. destruct (length s) eqn:E; [now rewrite !Zmod_0_r|]. apply Z.mod_mod. lia. Qed.
Lemma cyclic_conj (s : list C) l : cyclic_at complex_dtype s (- l) = Cconj (cyclic_at complex_dtype s l).
Proof.
  rewrite !cyclic_formula, Csum_conj. symmetry.
  rewrite <- (Csum_reindex (length s) (shift (length s) l) (fun i => Cconj (Cmult (nth i s (RtoC 0)) (Cconj (periodic_ext s (Z.of_nat i - l)))))) by (eauto using shift_bound, shift_inj).
  apply Csum_ext. intros i Hi. rewrite Cconj_mult, Cconj_conj, Cmult_comm. rewrite <- periodic_nth by (now apply shift_bound). rewrite shift_Z by auto. f_equal.
  - rewrite <- periodic_mod, Zminus_mod_idemp_l. rewrite periodic_mod. replace (Z.of_nat i + l - l)%Z with (Z.of_nat i) by lia. now apply periodic_nth.
  - rewrite periodic_mod. do 2 f_equal. lia.
Qed.
Lemma cyclic_period (s : list C) l : cyclic_at complex_dtype s (l + Z.of_nat (length s)) = cyclic_at complex_dtype s l.
Proof.
  rewrite !cyclic_formula. apply Csum_ext. intros i Hi. do 2 f_equal. unfold periodic_ext. do 2 f_equal.
  replace (Z.of_nat i - (l + Z.of_nat (length s)))%Z with (Z.of_nat i - l + (-1) * Z.of_nat (length s))%Z by lia. apply Z.mod_add. lia.
Qed.
(* wrap-around *)
Lemma cyclic_auto (s : list C) l : (0 <= l < Z.of_nat (length s))%Z -> cyclic_at complex_dtype s l = Cplus (autocorrelation_at complex_dtype s l) (autocorrelation_at complex_dtype s (l - Z.of_nat (length s))).
Proof.
  intros H. rewrite cyclic_formula. replace l with (Z.of_nat (Z.to_nat l)) by lia. set (k := Z.to_nat l). assert (Hk : k < length s) by lia.
  replace (Z.of_nat k - Z.of_nat (length s))%Z with (- Z.of_nat (length s - k))%Z by lia. rewrite auto_pos, auto_neg by lia.
  replace (length s) with (k + (length s - k)) at 1 by lia. rewrite Csum_app, Cplus_comm. f_equal.
  - apply Csum_ext. intros i Hi. replace (Z.of_nat (k + i) - Z.of_nat k)%Z with (Z.of_nat i) by lia. rewrite periodic_nth by lia. now rewrite Nat.add_comm.
  - replace (length s - (length s - k)) with k by lia. apply Csum_ext. intros i Hi. do 2 f_equal. unfold periodic_ext.
    replace ((Z.of_nat i - Z.of_nat k) mod Z.of_nat (length s))%Z with (Z.of_nat (i + (length s - k))); [now rewrite Nat2Z.id|].
    symmetry. replace (Z.of_nat i - Z.of_nat k)%Z with (Z.of_nat (i + (length s - k)) + (-1) * Z.of_nat (length s))%Z by lia. rewrite Z.mod_add by lia. apply Z.mod_small. lia.
Qed.

(* bounds *)
Fixpoint Rsumf (n : nat) (f : nat -> R) : R := match n with 0 => 0%R | S n => (Rsumf n f + f n)%R end.
Lemma Rsumf_ext n f g : (forall i, i < n -> f i = g i) -> Rsumf n f = Rsumf n g.
Proof. induction n; intros H; cbn; auto. rewrite IHn by (intros; apply H; lia). rewrite H by lia. reflexivity. Qed.
Lemma Csum_bound n f g : (forall i, i < n -> (Cmod (f i) <= g i)%R) -> (Cmod (Csum n f) <= Rsumf n g)%R.
Proof.
  induction n; intros H; cbn; [rewrite Cmod_0; lra|]. eapply Rle_trans; [apply Cmod_triangle|]. apply Rplus_le_compat; [apply IHn; intros; apply H; lia|apply H; lia].
Qed.
Lemma Rsumf_app n m f : Rsumf (n + m)%nat f = (Rsumf n f + Rsumf m (fun i => f (n + i)%nat))%R.
Proof. induction m; [rewrite Nat.add_0_r; cbn; lra|]. rewrite Nat.add_succ_r. cbn [Rsumf]. rewrite IHm. lra. Qed.
Lemma Rsumf_plus n f g : (Rsumf n (fun i => f i + g i) = Rsumf n f + Rsumf n g)%R.
Proof. induction n; cbn; [lra|]. rewrite IHn. lra. Qed.
Lemma Rsumf_scal n c f : (Rsumf n (fun i => c * f i) = c * Rsumf n f)%R.
Proof. induction n; cbn; [lra|]. rewrite IHn. lra. Qed.
Lemma Rsumf_nonneg n f : (forall i, i < n -> (0 <= f i)%R) -> (0 <= Rsumf n f)%R.
Proof. induction n; intros H; cbn; [lra|]. assert (0 <= Rsumf n f)%R by (apply IHn; intros; apply H; lia). assert (0 <= f n)%R by (apply H; lia). lra. Qed.
Lemma Rsumf_fold n f : Rsumf n f = fold_right Rplus 0%R (map f (seq 0 n)).
Proof.
  induction n; [reflexivity|]. rewrite seq_S, map_app. cbn [Rsumf map Nat.add]. rewrite IHn. generalize (map f (seq 0 n)). clear. intros l.
  induction l as [|x l IH]; cbn [app fold_right]; lra.
Qed.
Lemma fold_Rplus_perm l l' : Permutation l l' -> fold_right Rplus 0%R l = fold_right Rplus 0%R l'.
Proof. induction 1; cbn [fold_right]; lra. Qed.
Lemma Rsumf_reindex n g f : (forall i, i < n -> g i < n) -> (forall i j, i < n -> j < n -> g i = g j -> i = j) -> Rsumf n (fun i => f (g i)) = Rsumf n f.
Proof. intros B I. rewrite !Rsumf_fold. rewrite <- (map_map g f). apply fold_Rplus_perm. apply Permutation_map. now apply reindex_perm. Qed.
Lemma power_sum_Rsumf s : power_sum s = Rsumf (length s) (fun i => Cmod (nth i s (RtoC 0)) ^ 2)%R.
Proof.
  unfold power_sum. rewrite Rsumf_fold. f_equal. induction s as [|x s IH]; [reflexivity|]. cbn [length seq map nth]. f_equal. rewrite <- seq_shift, map_map. exact IH.
Qed.
Lemma Cmod_conj z : Cmod (Cconj z) = Cmod z.
Proof. unfold Cmod, Cconj. cbn [fst snd]. f_equal. ring. Qed.
Lemma Cmod_prod_bound a b : (Cmod (Cmult a (Cconj b)) <= / 2 * Cmod a ^ 2 + / 2 * Cmod b ^ 2)%R.
Proof. rewrite Cmod_mult, Cmod_conj. pose proof (pow2_ge_0 (Cmod a - Cmod b)). cbn in *. lra. Qed.
Lemma prod_conj z : Cmult z (Cconj z) = RtoC (Cmod z ^ 2).
Proof.
  unfold Cmod. assert (0 <= fst z ^ 2 + snd z ^ 2)%R by (pose proof (pow2_ge_0 (fst z)); pose proof (pow2_ge_0 (snd z)); lra).
  rewrite pow2_sqrt by auto. unfold Cmult, Cconj, RtoC. destruct z; cbn [fst snd]. f_equal; ring.
Qed.
Lemma energy_power (s : list C) : energy complex_dtype s = RtoC (power_sum s).
Proof.
  unfold energy. rewrite (npdot_C _ _ (length s)); [|reflexivity|apply map_length]. rewrite power_sum_Rsumf. cbn [d_conj complex_dtype]. induction (length s); [reflexivity|].
  cbn [Csum Rsumf]. rewrite IHn, nth_conj, prod_conj, <- RtoC_plus. reflexivity.
Qed.
Lemma partial_le s k n : k + n <= length s -> (Rsumf n (fun i => Cmod (nth (k + i) s (RtoC 0)) ^ 2) <= power_sum s)%R.
Proof.
  intros H. rewrite power_sum_Rsumf. replace (length s) with (k + (n + (length s - k - n))) by lia. rewrite (Rsumf_app k), (Rsumf_app n).
  assert (P : forall m f, (forall i : nat, 0 <= f i)%R -> (0 <= Rsumf m f)%R) by (intros; apply Rsumf_nonneg; auto).
  pose proof (P k (fun i => Cmod (nth i s (RtoC 0)) ^ 2)%R (fun i => pow2_ge_0 _)). pose proof (P (length s - k - n) (fun i => Cmod (nth (k + (n + i)) s (RtoC 0)) ^ 2)%R (fun i => pow2_ge_0 _)). lra.
Qed.
Lemma auto_bound (s : list C) l : (Cmod (autocorrelation_at complex_dtype s l) <= power_sum s)%R.
Proof.
  assert (P : forall k, (Cmod (autocorrelation_at complex_dtype s (Z.of_nat k)) <= power_sum s)%R).
  { intros k. rewrite auto_pos. eapply Rle_trans; [apply Csum_bound; intros; apply Cmod_prod_bound|]. rewrite Rsumf_plus, !Rsumf_scal.
    pose proof (partial_le s 0 (length s - k) ltac:(lia)) as P0. cbn [Nat.add] in P0.
    assert (P1 : (Rsumf (length s - k) (fun i => Cmod (nth (i + k) s (RtoC 0)) ^ 2) <= power_sum s)%R).
    { destruct (Nat.le_gt_cases k (length s)) as [H|H].
      - rewrite (Rsumf_ext _ _ (fun i => Cmod (nth (k + i) s (RtoC 0)) ^ 2)%R) by (intros; now rewrite Nat.add_comm). apply partial_le. lia.
      - replace (length s - k) with 0 by lia. cbn. pose proof (partial_le s 0 0 ltac:(lia)). cbn in *. lra. }
    lra. }
  destruct (Z.lt_ge_cases l 0).
  - replace l with (- Z.of_nat (Z.to_nat (- l)))%Z by lia. rewrite auto_conj, Cmod_conj. apply P.
  - replace l with (Z.of_nat (Z.to_nat l)) by lia. apply P.
Qed.
Lemma cyclic_bound (s : list C) l : (Cmod (cyclic_at complex_dtype s l) <= power_sum s)%R.
Proof.
  rewrite cyclic_formula. eapply Rle_trans; [apply Csum_bound; intros; apply Cmod_prod_bound|]. rewrite Rsumf_plus, !Rsumf_scal.
  assert (E : Rsumf (length s) (fun i => Cmod (periodic_ext s (Z.of_nat i - l)) ^ 2)%R = power_sum s).
  { rewrite power_sum_Rsumf. rewrite <- (Rsumf_reindex (length s) (shift (length s) (- l)) (fun i => (Cmod (nth i s (RtoC 0)) ^ 2)%R)) by (eauto using shift_bound, shift_inj). apply Rsumf_ext. intros i Hi. reflexivity. }
  rewrite E. rewrite <- power_sum_Rsumf. lra.
Qed.

(* Zadoff-Chu *)
Lemma cexp_add x y : cexp (x + y) = Cmult (cexp x) (cexp y).
Proof. unfold cexp, Cmult. cbn [fst snd]. rewrite cos_plus, sin_plus. f_equal; ring. Qed.
Lemma cexp_conj x : Cconj (cexp x) = cexp (- x).
Proof. unfold cexp, Cconj. cbn [fst snd]. rewrite cos_neg, sin_neg. reflexivity. Qed.
Lemma cexp_mod x : Cmod (cexp x) = 1%R.
Proof. unfold Cmod, cexp. cbn [fst snd]. pose proof (sin2_cos2 x) as H. unfold Rsqr in H. replace (cos x ^ 2 + sin x ^ 2)%R with 1%R by (rewrite <- H; ring). apply sqrt_1. Qed.
Lemma cexp_0 : cexp 0 = RtoC 1.
Proof. unfold cexp. rewrite cos_0, sin_0. reflexivity. Qed.
Lemma cexp_2kPI (k : Z) : cexp (2 * PI * IZR k) = RtoC 1.
Proof.
  assert (P : forall n : nat, cexp (2 * PI * INR n) = RtoC 1).
  { induction n; [rewrite Rmult_0_r; apply cexp_0|]. rewrite S_INR, Rmult_plus_distr_l, cexp_add, IHn, Rmult_1_r. unfold cexp. rewrite cos_2PI, sin_2PI. apply Cmult_1_l. }
  destruct (Z.lt_ge_cases k 0) as [H|H].
  - replace (2 * PI * IZR k)%R with (- (2 * PI * INR (Z.to_nat (- k))))%R.
    + rewrite <- cexp_conj, P. unfold Cconj, RtoC. cbn. f_equal. lra.
    + rewrite INR_IZR_INZ, Z2Nat.id, opp_IZR by lia. ring.
  - rewrite <- (Z2Nat.id k) by lia. rewrite <- INR_IZR_INZ. apply P.
Qed.
Lemma cexp_eq_1 x : cexp x = RtoC 1 -> exists k : Z, x = (2 * PI * IZR k)%R.
Proof.
  intros H. unfold cexp, RtoC in H. inversion H as [[Hc Hs]]. replace x with (2 * (x / 2))%R in Hc by field. rewrite cos_2a_sin in Hc.
  assert (S0 : sin (x / 2) = 0%R) by (apply Rsqr_0_uniq; unfold Rsqr; lra). apply sin_eq_0_0 in S0 as (k & Ek). exists k. lra.
Qed.
Definition zc (L q k : Z) : C := cexp (- (PI * IZR q * IZR k * (IZR k + 1) / IZR L)).
Lemma zc_period L q k j : (0 < L)%Z -> (L mod 2 = 1)%Z -> zc L q (k + j * L) = zc L q k.
Proof.
  intros HL Ho. unfold zc. assert (NL : IZR L <> 0%R) by (apply not_0_IZR; lia).
  assert (Ev : exists h, (j * (2 * k + 1 + j * L) = 2 * h)%Z).
  { exists (j * (2 * k + 1 + j * L) / 2)%Z. apply Z_div_exact_full_2; [lia|]. rewrite Zmod_even, Z.even_mul, !Z.even_add, !Z.even_mul.
    assert (Z.even L = false) by (rewrite Zmod_even in Ho; destruct (Z.even L); auto; discriminate). rewrite H. cbn. destruct (Z.even j); reflexivity. }
  destruct Ev as (h & Eh).
  replace (- (PI * IZR q * IZR (k + j * L) * (IZR (k + j * L) + 1) / IZR L))%R with (- (PI * IZR q * IZR k * (IZR k + 1) / IZR L) + 2 * PI * IZR (- (q * h)))%R.
  - rewrite cexp_add, cexp_2kPI. apply Cmult_1_r.
  - rewrite plus_IZR, mult_IZR, opp_IZR, mult_IZR. apply (f_equal IZR) in Eh. rewrite !mult_IZR, !plus_IZR, !mult_IZR in Eh. field_simplify_eq; auto. 
    replace (IZR h) with (IZR j * (2 * IZR k + 1 + IZR j * IZR L) / 2)%R by lra. field.
Qed.
Lemma zc_seq_length L q : length (zadoff_chu_sequence L q) = Z.to_nat L.
Proof. unfold zadoff_chu_sequence. now rewrite map_length, seq_length. Qed.
Lemma zc_nth L q i : i < Z.to_nat L -> nth i (zadoff_chu_sequence L q) (RtoC 0) = zc L q (Z.of_nat i).
Proof. intros H. unfold zadoff_chu_sequence. rewrite (nth_map_seq (fun n => cexp (- (PI * IZR q * IZR (Z.of_nat n) * (IZR (Z.of_nat n) + 1) / IZR L))%R)) by auto. reflexivity. Qed.
Lemma zc_periodic_ext L q k : (0 < L)%Z -> (L mod 2 = 1)%Z -> periodic_ext (zadoff_chu_sequence L q) k = zc L q k.
Proof.
  intros HL Ho. unfold periodic_ext. rewrite zc_seq_length, Z2Nat.id by lia. pose proof (Z.mod_pos_bound k L HL). rewrite zc_nth by lia. rewrite Z2Nat.id by lia.
  rewrite (Z.div_mod k L) at 2 by lia. rewrite Z.add_comm, Z.mul_comm, zc_period by auto. reflexivity.
Qed.
Lemma Csum_scal n c f : Csum n (fun i => Cmult c (f i)) = Cmult c (Csum n f).
Proof. induction n; cbn; [now rewrite Cmult_0_r|]. rewrite IHn. ring. Qed.
Fixpoint Cpown (w : C) (n : nat) : C := match n with 0 => RtoC 1 | S n => Cmult (Cpown w n) w end.
Lemma geometric w n : Cmult (Cminus (RtoC 1) w) (Csum n (Cpown w)) = Cminus (RtoC 1) (Cpown w n).
Proof. induction n; cbn [Csum Cpown]; [ring|]. rewrite Cmult_plus_distr_l, IHn. ring. Qed.
Lemma cexp_pow x n : Cpown (cexp x) n = cexp (x * INR n).
Proof. induction n; cbn [Cpown]; [rewrite Rmult_0_r, cexp_0; reflexivity|]. rewrite IHn, <- cexp_add, S_INR. f_equal. ring. Qed.
(* roots of unity *)
Lemma roots_sum L a : (0 < L)%Z -> (a mod L <> 0)%Z -> Csum (Z.to_nat L) (fun i => cexp (2 * PI * IZR a * INR i / IZR L)) = RtoC 0.
Proof.
  intros HL Ha. assert (NL : IZR L <> 0%R) by (apply not_0_IZR; lia). set (w := cexp (2 * PI * IZR a / IZR L)).
  assert (E : Csum (Z.to_nat L) (fun i => cexp (2 * PI * IZR a * INR i / IZR L)) = Csum (Z.to_nat L) (Cpown w)).
  { apply Csum_ext. intros i _. unfold w. rewrite cexp_pow. f_equal. field. auto. }
  rewrite E. pose proof (geometric w (Z.to_nat L)) as G. assert (W1 : Cpown w (Z.to_nat L) = RtoC 1).
  { unfold w. rewrite cexp_pow, INR_IZR_INZ, Z2Nat.id by lia. rewrite <- (cexp_2kPI a). f_equal. field. auto. }
  rewrite W1 in G. assert (G0 : Cmult (Cminus (RtoC 1) w) (Csum (Z.to_nat L) (Cpown w)) = RtoC 0) by (rewrite G; ring).
  destruct (Ceq_dec (Csum (Z.to_nat L) (Cpown w)) (RtoC 0)) as [|N]; auto. exfalso. apply Ha.
  assert (w = RtoC 1).
  { destruct (Ceq_dec w (RtoC 1)) as [|Nw]; auto. exfalso. apply (Cmult_neq_0 (Cminus (RtoC 1) w) (Csum (Z.to_nat L) (Cpown w))); auto. apply Cminus_eq_contra. auto. }
  apply cexp_eq_1 in H as (k & Ek). assert (IZR a = IZR (k * L)).
  { rewrite mult_IZR. pose proof PI_RGT_0. apply (Rmult_eq_reg_l (2 * PI)); [|lra]. apply (Rmult_eq_reg_r (/ IZR L)); [|now apply Rinv_neq_0_compat].
    unfold Rdiv in Ek. rewrite Ek. field. auto. }
  apply eq_IZR in H. subst a. apply Z.mod_mul. lia.
Qed.
Lemma zc_cyclic L q l : (0 < L)%Z -> (L mod 2 = 1)%Z -> (q * l mod L <> 0)%Z -> cyclic_at complex_dtype (zadoff_chu_sequence L q) l = RtoC 0.
Proof.
  intros HL Ho Hn. assert (NL : IZR L <> 0%R) by (apply not_0_IZR; lia). rewrite cyclic_formula, zc_seq_length.
  rewrite (Csum_ext _ _ (fun i => Cmult (cexp (- (PI * IZR q * (IZR l - IZR l * IZR l) / IZR L))) (cexp (2 * PI * IZR (- (q * l)) * INR i / IZR L)))).
  - rewrite Csum_scal, roots_sum; auto; [apply Cmult_0_r|]. rewrite Z.mod_opp_l_nz by (auto; lia). pose proof (Z.mod_pos_bound (q * l) L HL). lia.
  - intros i Hi. rewrite zc_nth by auto. rewrite zc_periodic_ext by auto. unfold zc. rewrite cexp_conj, <- !cexp_add. f_equal.
    rewrite minus_IZR, opp_IZR, mult_IZR, <- INR_IZR_INZ. field. auto.
Qed.

(* cross-correlation of Zadoff-Chu sequences *)
Lemma Csum_plus n f g : Csum n (fun i => Cplus (f i) (g i)) = Cplus (Csum n f) (Csum n g).
Proof. induction n; cbn; [ring|]. rewrite IHn. ring. Qed.
Lemma Csum_swap n m (f : nat -> nat -> C) : Csum n (fun i => Csum m (f i)) = Csum m (fun j => Csum n (fun i => f i j)).
Proof. induction n; cbn; [symmetry; now apply Csum_0|]. rewrite IHn, <- Csum_plus. reflexivity. Qed.
Definition unshift (n i d : nat) : nat := Z.to_nat ((Z.of_nat i - Z.of_nat d) mod Z.of_nat n).
Lemma unshift_bound n i d : d < n -> unshift n i d < n.
Proof. intros H. unfold unshift. pose proof (Z.mod_pos_bound (Z.of_nat i - Z.of_nat d) (Z.of_nat n)). lia. Qed.
Lemma unshift_inj n i d e : d < n -> e < n -> unshift n i d = unshift n i e -> d = e.
Proof.
  intros Hd He E. unfold unshift in E. pose proof (Z.mod_pos_bound (Z.of_nat i - Z.of_nat d) (Z.of_nat n)). pose proof (Z.mod_pos_bound (Z.of_nat i - Z.of_nat e) (Z.of_nat n)).
  assert (E' : ((Z.of_nat i - Z.of_nat d) mod Z.of_nat n = (Z.of_nat i - Z.of_nat e) mod Z.of_nat n)%Z) by lia.
  apply (f_equal (fun z => (Z.of_nat i - z) mod Z.of_nat n)%Z) in E'. rewrite !Zminus_mod_idemp_r in E'.
  replace (Z.of_nat i - (Z.of_nat i - Z.of_nat d))%Z with (Z.of_nat d) in E' by lia. replace (Z.of_nat i - (Z.of_nat i - Z.of_nat e))%Z with (Z.of_nat e) in E' by lia.
  rewrite !Z.mod_small in E' by lia. lia.
Qed.
Lemma square_sum n (f : nat -> C) : Cmult (Csum n f) (Cconj (Csum n f)) = Csum n (fun d => Csum n (fun i => Cmult (f i) (Cconj (f (unshift n i d))))).
Proof.
  rewrite Csum_swap, Csum_conj, Cmult_comm, <- Csum_scal. apply Csum_ext. intros i Hi.
  rewrite Cmult_comm, <- Csum_scal. symmetry.
  exact (Csum_reindex n (unshift n i) (fun j => Cmult (f i) (Cconj (f j))) (unshift_bound n i) (unshift_inj n i)).
Qed.
Lemma Csum_const n c : Csum n (fun _ => c) = Cmult (RtoC (INR n)) c.
Proof. induction n; cbn [Csum]; [cbn; ring|]. rewrite IHn, S_INR, RtoC_plus. ring. Qed.
Lemma zc_cross L q q' l : (0 < L)%Z -> (L mod 2 = 1)%Z -> Z.gcd (q' - q) L = 1%Z ->
  Cmod (cyclic_crosscorrelation (zadoff_chu_sequence L q) (zadoff_chu_sequence L q') l) = sqrt (IZR L).
Proof.
  intros HL Ho G. assert (NL : IZR L <> 0%R) by (apply not_0_IZR; lia).
  set (S := cyclic_crosscorrelation _ _ _). pose (f := fun i : nat => Cmult (zc L q (Z.of_nat i)) (Cconj (zc L q' (Z.of_nat i - l)))).
  assert (ES : S = Csum (Z.to_nat L) f).
  { unfold S, cyclic_crosscorrelation. rewrite zc_seq_length. apply Csum_ext. intros i Hi. rewrite !zc_periodic_ext by auto. reflexivity. }
  pose (g := fun k : Z => Cmult (zc L q k) (Cconj (zc L q' (k - l)))).
  assert (Gp : forall k, g (k mod L)%Z = g k).
  { intros k. unfold g. rewrite (Z.div_mod k L) at 3 4 by lia. replace (L * (k / L) + k mod L)%Z with (k mod L + (k / L) * L)%Z by ring.
    replace (k mod L + k / L * L - l)%Z with (k mod L - l + k / L * L)%Z by ring. now rewrite !zc_period by auto. }
  assert (E2 : Cmult S (Cconj S) = RtoC (IZR L)).
  { rewrite ES, square_sum.
    rewrite (Csum_ext _ _ (fun d => if d =? 0 then RtoC (IZR L) else RtoC 0)).
    - destruct (Z.to_nat L) as [|n] eqn:En; [lia|]. change (Datatypes.S n) with (1 + n). rewrite Csum_app. rewrite (Csum_0 n) by reflexivity. cbn. ring.
    - intros d Hd. rewrite (Csum_ext _ _ (fun i => Cmult (g (Z.of_nat i)) (Cconj (g (Z.of_nat i - Z.of_nat d)%Z)))).
      2:{ intros i Hi. unfold f at 2, unshift. rewrite (Z2Nat.id L) by lia. rewrite Z2Nat.id by (apply Z.mod_pos_bound; lia).
          rewrite <- (Gp (Z.of_nat i - Z.of_nat d)%Z). reflexivity. }
      set (k := Z.of_nat d). pose (c := (- (PI * IZR q * (IZR k - IZR k * IZR k) / IZR L) + PI * IZR q' * (IZR k * (1 - IZR l - IZR l) - IZR k * IZR k) / IZR L)%R).
      rewrite (Csum_ext _ _ (fun i => Cmult (cexp c) (cexp (2 * PI * IZR ((q' - q) * k) * INR i / IZR L)))).
      + rewrite Csum_scal. destruct (Nat.eqb_spec d 0) as [->|Nd].
        * unfold c, k. cbn [Z.of_nat]. replace (_ + _)%R with 0%R by (field; auto). rewrite cexp_0.
          rewrite (Csum_ext _ _ (fun _ => RtoC 1)). { rewrite Csum_const, INR_IZR_INZ, Z2Nat.id by lia. ring. }
          intros i _. rewrite Z.mul_0_r. replace (_ / _)%R with 0%R by (field; auto). apply cexp_0.
        * rewrite roots_sum; auto; [ring|]. intros D. apply Z.mod_divide in D; [|lia]. apply Z.gauss in D; [|now rewrite Z.gcd_comm]. apply Z.divide_pos_le in D; lia.
      + intros i Hi. unfold g, zc. rewrite !Cconj_mult, !cexp_conj, <- !cexp_add. f_equal. unfold c.
        rewrite !minus_IZR, !mult_IZR, !minus_IZR, <- INR_IZR_INZ. field. auto. }
  rewrite prod_conj in E2. apply RtoC_inj in E2. rewrite <- E2. symmetry. rewrite <- Rsqr_pow2. apply sqrt_Rsqr. apply Cmod_ge_0.
Qed.

(* integer sequences *)
Lemma Z_to_C_nth s i : nth i (Z_to_C s) (RtoC 0) = RtoC (IZR (nth i s 0%Z)).
Proof. unfold Z_to_C. exact (map_nth (fun z => RtoC (IZR z)) s 0%Z i). Qed.
Lemma npdot_Z_C (a b : list Z) : npdot complex_dtype (Z_to_C a) (Z_to_C b) = RtoC (IZR (npdot int_dtype a b)).
Proof.
  unfold npdot, Z_to_C. revert b. induction a as [|x a IH]; intros [|y b]; cbn [map combine fold_right]; try reflexivity.
  rewrite IH. cbn [d_add d_mul complex_dtype int_dtype fst snd]. now rewrite plus_IZR, mult_IZR, RtoC_plus, RtoC_mult.
Qed.
Lemma conj_Z_to_C s : map Cconj (Z_to_C s) = Z_to_C s.
Proof. unfold Z_to_C. rewrite map_map. apply map_ext. intros z. unfold Cconj, RtoC. cbn. f_equal. lra. Qed.
Lemma slice_to_C (s : list Z) k : slice_to complex_dtype (Z_to_C s) k = Z_to_C (slice_to int_dtype s k).
Proof. unfold slice_to, Z_to_C. cbn [carrier complex_dtype int_dtype]. rewrite map_length. apply firstn_map. Qed.
Lemma slice_from_C (s : list Z) k : slice_from complex_dtype (Z_to_C s) k = Z_to_C (slice_from int_dtype s k).
Proof. unfold slice_from, Z_to_C. cbn [carrier complex_dtype int_dtype]. rewrite map_length. apply skipn_map. Qed.
Lemma auto_Z_C (s : list Z) l : autocorrelation_at complex_dtype (Z_to_C s) l = RtoC (IZR (autocorrelation_at int_dtype s l)).
Proof.
  unfold autocorrelation_at. cbn [d_conj complex_dtype int_dtype carrier]. rewrite conj_Z_to_C, (map_id s).
  destruct (l <? 0)%Z; [|destruct (0 <? l)%Z]; rewrite ?slice_to_C, ?slice_from_C; apply npdot_Z_C.
Qed.
Lemma roll_Z_C (s : list Z) l : roll complex_dtype (Z_to_C s) l = Z_to_C (roll int_dtype s l).
Proof.
  assert (E : length (Z_to_C s) = length s) by apply map_length. unfold roll. cbn [carrier complex_dtype int_dtype d_zero]. rewrite E.
  unfold Z_to_C at 2. rewrite map_map. apply map_ext. intros i. apply Z_to_C_nth.
Qed.
Lemma cyclic_Z_C (s : list Z) l : cyclic_at complex_dtype (Z_to_C s) l = RtoC (IZR (cyclic_at int_dtype s l)).
Proof.
  unfold cyclic_at. rewrite roll_Z_C. generalize (roll int_dtype s l). cbn [carrier int_dtype]. intros r. cbn [d_conj complex_dtype int_dtype carrier]. rewrite conj_Z_to_C, (map_id r). apply npdot_Z_C.
Qed.
Lemma energy_Z_C (s : list Z) : energy complex_dtype (Z_to_C s) = RtoC (IZR (energy int_dtype s)).
Proof. unfold energy. cbn [d_conj complex_dtype int_dtype carrier]. rewrite conj_Z_to_C, (map_id s). apply npdot_Z_C. Qed.
Lemma auto_outside (s : list C) l : (Z.of_nat (length s) <= Z.abs l)%Z -> autocorrelation_at complex_dtype s l = RtoC 0.
Proof.
  intros H. destruct (Z.lt_ge_cases l 0).
  - replace l with (- Z.of_nat (Z.to_nat (- l)))%Z by lia. destruct (Nat.eq_dec (Z.to_nat (- l)) 0); [lia|]. rewrite auto_neg by lia.
    replace (length s - Z.to_nat (- l)) with 0 by lia. reflexivity.
  - replace l with (Z.of_nat (Z.to_nat l)) by lia. rewrite auto_pos. replace (length s - Z.to_nat l) with 0 by lia. reflexivity.
Qed.
Lemma zc_cyclic_full L q l : (0 < L)%Z -> (L mod 2 = 1)%Z -> (q * l mod L = 0)%Z -> Cmod (cyclic_at complex_dtype (zadoff_chu_sequence L q) l) = IZR L.
Proof.
  intros HL Ho Hn. assert (NL : IZR L <> 0%R) by (apply not_0_IZR; lia). apply Z.mod_divide in Hn; [|lia]. destruct Hn as (k & Ek).
  rewrite cyclic_formula, zc_seq_length.
  rewrite (Csum_ext _ _ (fun i => cexp (- (PI * IZR q * (IZR l - IZR l * IZR l) / IZR L)))).
  - rewrite Csum_const, Cmod_mult, cexp_mod, Rmult_1_r, Cmod_R, INR_IZR_INZ, Z2Nat.id, Rabs_pos_eq by (try lia; apply IZR_le; lia). reflexivity.
  - intros i Hi. rewrite zc_nth by auto. rewrite zc_periodic_ext by auto. unfold zc. rewrite cexp_conj, <- cexp_add.
    rewrite <- (Cmult_1_r (cexp (- (PI * IZR q * (IZR l - _) / IZR L)))). rewrite <- (cexp_2kPI (- (k * Z.of_nat i))), <- cexp_add. f_equal.
    apply (f_equal IZR) in Ek. rewrite !mult_IZR in Ek. rewrite minus_IZR, opp_IZR, mult_IZR, <- INR_IZR_INZ.
    replace (IZR k) with (IZR q * IZR l / IZR L)%R by (rewrite Ek; field; auto). field. auto.
Qed.
