(** Proofs about discrete convolution. *)
From Coq Require Import Reals.
From Coquelicot Require Import Complex.
From Verif Require Import Common Corr_Model SignalNd_Model SignalNd_Spec.
Local Open Scope nat_scope.

Section P.
Context (T : dtype) (L : semiring T).
Declare Scope dtype_scope.
Notation "a '+' b" := (d_add T a b) : dtype_scope.
Notation "a '*' b" := (d_mul T a b) : dtype_scope.
Delimit Scope dtype_scope with dt.
Notation zero := (d_zero T).
Notation total := (total T). Notation sample := (sample T). Notation conv_at := (conv_at T).

Lemma add_0_r (a : T) : (a + zero)%dt = a.
Proof. rewrite (sr_add_comm T L). apply (sr_add_0 T L). Qed.
Lemma mul_0_r (a : T) : (a * zero)%dt = zero.
Proof. rewrite (sr_mul_comm T L). apply (sr_mul_0 T L). Qed.
Lemma total_0 (f : nat -> T) : total 0 f = zero.
Proof. reflexivity. Qed.
Lemma total_S (n : nat) (f : nat -> T) : total (S n) f = (total n f + f n)%dt.
Proof.
  unfold SignalNd_Spec.total. rewrite seq_S, map_app, fold_right_app. cbn [map fold_right Nat.add]. rewrite add_0_r.
  generalize (map f (seq 0 n)) (f n). intros l x. induction l as [|y l IH]; cbn; [symmetry; apply (sr_add_0 T L)|]. rewrite IH. apply (sr_add_assoc T L).
Qed.
Lemma total_ext (n : nat) (f g : nat -> T) : (forall i, i < n -> f i = g i) -> total n f = total n g.
Proof. intros H. unfold SignalNd_Spec.total. f_equal. apply map_ext_in. intros i Hi. apply in_seq in Hi. apply H. lia. Qed.
Lemma total_zero (n : nat) (f : nat -> T) : (forall i, i < n -> f i = zero) -> total n f = zero.
Proof. induction n as [|n IH]; intros H; [reflexivity|]. rewrite total_S, IH by (intros; apply H; lia). rewrite H by lia. apply add_0_r. Qed.
Lemma total_split (n m : nat) (f : nat -> T) : total (n + m) f = (total n f + total m (fun i => f (n + i)%nat))%dt.
Proof.
  induction m as [|m IH]; [rewrite Nat.add_0_r, total_0, add_0_r; reflexivity|].
  rewrite Nat.add_succ_r, !total_S, IH. symmetry. apply (sr_add_assoc T L).
Qed.
Lemma total_head (n : nat) (f : nat -> T) : total (S n) f = (f 0 + total n (fun i => f (S i)))%dt.
Proof. change (S n) with (1 + n)%nat. rewrite total_split, total_S, total_0, (sr_add_0 T L). reflexivity. Qed.
Lemma total_add (n : nat) (f g : nat -> T) : total n (fun i => (f i + g i)%dt) = (total n f + total n g)%dt.
Proof.
  induction n as [|n IH]; [rewrite !total_0, add_0_r; reflexivity|]. rewrite !total_S, IH.
  rewrite <- !(sr_add_assoc T L). f_equal. rewrite !(sr_add_assoc T L). f_equal. apply (sr_add_comm T L).
Qed.
Lemma total_mul_l (n : nat) (c : T) (f : nat -> T) : (c * total n f)%dt = total n (fun i => (c * f i)%dt).
Proof. induction n as [|n IH]; [rewrite !total_0; apply mul_0_r|]. rewrite !total_S, <- IH. apply (sr_distr T L). Qed.
Lemma total_mul_r (n : nat) (c : T) (f : nat -> T) : (total n f * c)%dt = total n (fun i => (f i * c)%dt).
Proof. rewrite (sr_mul_comm T L), total_mul_l. apply total_ext. intros. apply (sr_mul_comm T L). Qed.
Lemma total_rev (n : nat) (f : nat -> T) : total n (fun i => f (n - 1 - i)%nat) = total n f.
Proof.
  induction n as [|n IH]; [reflexivity|]. rewrite total_head, total_S, <- IH. rewrite (sr_add_comm T L).
  f_equal; [apply total_ext; intros i Hi|]; f_equal; lia.
Qed.
(** the triangle i <= n, l <= i summed in either order *)
Lemma total_triangle (n : nat) (F : nat -> nat -> T) :
  total n (fun i => total (S i) (fun l => F l i)) = total n (fun l => total (n - l) (fun m => F l (l + m)%nat)).
Proof.
  induction n as [|n IH]; [reflexivity|]. rewrite total_S, IH. rewrite (total_S n (fun l => F l n)), (sr_add_assoc T L), <- total_add.
  rewrite (total_S n (fun l => total (S n - l) _)). f_equal.
  - apply total_ext. intros l Hl. rewrite (Nat.sub_succ_l l n) by lia. rewrite total_S. do 2 f_equal. lia.
  - replace (S n - n) with 1 by lia. rewrite total_S, total_0, (sr_add_0 T L). f_equal. lia.
Qed.

Lemma sample_out (x : list T) (i : nat) : length x <= i -> sample x i = zero.
Proof. intros H. unfold SignalNd_Spec.sample. apply nth_overflow. exact H. Qed.
Lemma conv_comm (x y : list T) (j : nat) : conv_at x y j = conv_at y x j.
Proof.
  unfold SignalNd_Spec.conv_at. rewrite <- total_rev. apply total_ext. intros i Hi. rewrite (sr_mul_comm T L).
  f_equal; f_equal; lia.
Qed.
Lemma conv_out (x y : list T) (j : nat) : length x + length y - 1 <= j -> conv_at x y j = zero.
Proof.
  intros H. unfold SignalNd_Spec.conv_at. apply total_zero. intros i Hi. destruct (Nat.le_gt_cases (length x) i).
  - rewrite (sample_out x) by lia. apply (sr_mul_0 T L).
  - rewrite (sample_out y) by lia. apply mul_0_r.
Qed.
Lemma conv_window (a v : list T) (j s0 c : nat) : s0 + c <= S j -> (forall s, s < s0 -> length v <= j - s) ->
  (forall s, s0 + c <= s -> s <= j -> length a <= s) ->
  conv_at a v j = total c (fun t => (sample a (s0 + t)%nat * sample v (j - (s0 + t))%nat)%dt).
Proof.
  intros H0 H1 H2. unfold SignalNd_Spec.conv_at. replace (S j) with (s0 + (c + (S j - s0 - c)))%nat by lia. rewrite !total_split.
  rewrite (total_zero s0), (sr_add_0 T L).
  2:{ intros i Hi. rewrite (sample_out v) by (apply H1; exact Hi). apply mul_0_r. }
  rewrite (total_zero (S j - s0 - c)), add_0_r; [reflexivity|].
  intros i Hi. rewrite (sample_out a) by (apply H2; lia). apply (sr_mul_0 T L).
Qed.
Lemma npdot_total (a b : list T) (c : nat) : Nat.min (length a) (length b) = c ->
  npdot T a b = total c (fun t => (sample a t * sample b t)%dt).
Proof.
  revert b c. induction a as [|x a IH]; intros b c Hc; [cbn in Hc; subst c; reflexivity|].
  destruct b as [|y b]; [cbn in Hc; subst c; reflexivity|]. destruct c as [|c]; [cbn in Hc; lia|].
  rewrite total_head. cbn [npdot combine map fold_right fst snd]. f_equal. apply IH. cbn in Hc. lia.
Qed.
Lemma sample_firstn (x : list T) (n i : nat) : i < n -> sample (firstn n x) i = sample x i.
Proof. unfold SignalNd_Spec.sample. revert n x. induction i as [|i IH]; intros [|n] [|a x] H; cbn; try lia; auto. apply IH. lia. Qed.
Lemma sample_skipn (x : list T) (n i : nat) : sample (skipn n x) i = sample x (n + i).
Proof. unfold SignalNd_Spec.sample. revert x. induction n as [|n IH]; intros [|a x]; cbn; auto. destruct i; reflexivity. Qed.
Lemma sample_rev (x : list T) (i : nat) : i < length x -> sample (rev x) i = sample x (length x - 1 - i).
Proof. intros H. unfold SignalNd_Spec.sample. rewrite rev_nth by exact H. f_equal. lia. Qed.

Lemma correlate_spec (a v : list T) (mode : conv_mode) : 0 < length v <= length a ->
  correlate T a (rev v) mode = conv_samples T a v mode.
Proof.
  intros H. unfold correlate, conv_samples. rewrite rev_length.
  set (n1 := length a) in *. set (n2 := length v) in *.
  set (nl := match mode with Valid => 0 | Same => n2 / 2 | Full => n2 - 1 end).
  set (nr := match mode with Valid => 0 | Same => n2 - n2 / 2 - 1 | Full => n2 - 1 end).
  assert (Hn : nl <= n2 - 1 /\ nr <= n2 - 1 /\ conv_start n1 n2 mode = n2 - 1 - nl /\ conv_count n1 n2 mode = nl + ((n1 - n2 + 1) + nr)).
  { unfold nl, nr, conv_start, conv_count. rewrite Nat.min_r, Nat.max_l by lia.
    assert (D : n2 / 2 + (n2 - 1) / 2 = n2 - 1).
    { destruct (Nat.Even_or_Odd n2) as [[k E]|[k E]]; rewrite E.
      - replace (2 * k - 1) with (1 + (k - 1) * 2) by lia. rewrite Nat.div_add by lia. rewrite (Nat.mul_comm 2 k), Nat.div_mul by lia. cbn. lia.
      - replace (2 * k + 1) with (1 + k * 2) by lia. rewrite Nat.div_add by lia. replace (1 + k * 2 - 1) with (k * 2) by lia. rewrite Nat.div_mul by lia. cbn. lia. }
    destruct mode; lia. }
  destruct Hn as (Hl & Hr & Es & Ec). rewrite Es, Ec. clearbody nl nr.
  remember (n1 - n2 + 1) as md eqn:Hmd.
  rewrite !seq_app, !map_app.
  assert (SH : forall s c (f : nat -> T), map f (seq s c) = map (fun i => f (s + i)) (seq 0 c)).
  { intros s c f. revert s. induction c as [|c IH]; intros s; [reflexivity|]. cbn [seq map]. rewrite Nat.add_0_r. f_equal.
    rewrite IH, <- (seq_shift c 0), map_map. apply map_ext. intros i. f_equal. lia. }
  rewrite (SH (n2 - 1 - nl)), (SH (n2 - 1 - nl + nl)), (SH (n2 - 1 - nl + nl + md)).
  f_equal; [|f_equal]; apply map_ext_in; intros i Hi; apply in_seq in Hi.
  - rewrite (npdot_total _ _ (n2 - nl + i)) by (rewrite firstn_length, skipn_length, rev_length; fold n1 n2; lia).
    rewrite (conv_window a v _ 0 (n2 - nl + i)); fold n1 n2; try lia.
    apply total_ext. intros t Ht. rewrite sample_firstn by exact Ht. rewrite sample_skipn, sample_rev by (fold n2; lia). fold n2. do 2 f_equal; lia.
  - rewrite (npdot_total _ _ n2) by (rewrite firstn_length, skipn_length, rev_length; fold n1 n2; lia).
    rewrite (conv_window a v _ i n2); fold n1 n2; try lia.
    apply total_ext. intros t Ht. rewrite sample_firstn by exact Ht. rewrite sample_skipn, sample_rev by (fold n2; lia). fold n2. do 2 f_equal; lia.
  - rewrite (npdot_total _ _ (n2 - 1 - i)) by (rewrite firstn_length, skipn_length, rev_length; fold n1 n2; lia).
    rewrite (conv_window a v _ (md + i) (n2 - 1 - i)); fold n1 n2; try lia.
    apply total_ext. intros t Ht. rewrite sample_firstn by exact Ht. rewrite sample_skipn, sample_rev by (fold n2; lia). fold n2. do 2 f_equal; lia.
Qed.
Lemma conv_samples_comm (x y : list T) (mode : conv_mode) : conv_samples T x y mode = conv_samples T y x mode.
Proof.
  unfold conv_samples. rewrite (map_ext _ _ (conv_comm x y)). f_equal. f_equal.
  - unfold conv_start. rewrite Nat.min_comm. reflexivity.
  - unfold conv_count. rewrite Nat.min_comm, Nat.max_comm, (Nat.add_comm (length x)). reflexivity.
Qed.
Lemma np_convolve_spec (x y : list T) (mode : conv_mode) :
  np_convolve T x y mode = if (length x =? 0) || (length y =? 0) then None else Some (conv_samples T x y mode).
Proof.
  unfold np_convolve. destruct (Nat.ltb_spec (length x) (length y)) as [H|H].
  - destruct (Nat.eqb_spec (length y) 0); [lia|]. destruct (Nat.eqb_spec (length x) 0); [reflexivity|]. cbn [orb].
    rewrite correlate_spec by lia. rewrite conv_samples_comm. reflexivity.
  - destruct (Nat.eqb_spec (length x) 0); [reflexivity|]. destruct (Nat.eqb_spec (length y) 0); [reflexivity|]. cbn [orb].
    rewrite correlate_spec by lia. reflexivity.
Qed.
Lemma conv_samples_length (x y : list T) (mode : conv_mode) : length (conv_samples T x y mode) = conv_count (length x) (length y) mode.
Proof. unfold conv_samples. rewrite map_length, seq_length. reflexivity. Qed.
Lemma full_sample (x y : list T) (j : nat) : sample (conv_samples T x y Full) j = conv_at x y j.
Proof.
  destruct (Nat.lt_ge_cases j (length x + length y - 1)) as [H|H].
  - unfold SignalNd_Spec.sample, conv_samples. cbn [conv_start conv_count]. rewrite nth_map_seq by exact H. reflexivity.
  - rewrite sample_out by (rewrite conv_samples_length; exact H). symmetry. apply conv_out. exact H.
Qed.
Lemma conv_assoc (x y z : list T) (j : nat) : conv_at (conv_samples T x y Full) z j = conv_at x (conv_samples T y z Full) j.
Proof.
  unfold SignalNd_Spec.conv_at at 1 2.
  rewrite (total_ext (S j) _ (fun i => total (S i) (fun l => (sample x l * sample y (i - l)%nat * sample z (j - i)%nat)%dt))).
  2:{ intros i Hi. rewrite full_sample. unfold SignalNd_Spec.conv_at. apply total_mul_r. }
  rewrite (total_triangle (S j) (fun l i => (sample x l * sample y (i - l)%nat * sample z (j - i)%nat)%dt)).
  apply total_ext. intros l Hl. rewrite full_sample. unfold SignalNd_Spec.conv_at. rewrite total_mul_l.
  replace (S j - l) with (S (j - l)) by lia. apply total_ext. intros m Hm. rewrite (sr_mul_assoc T L).
  replace (l + m - l) with m by lia. replace (j - (l + m)) with (j - l - m) by lia. reflexivity.
Qed.
Lemma conv_samples_assoc (x y z : list T) : 0 < length x -> 0 < length y -> 0 < length z ->
  conv_samples T (conv_samples T x y Full) z Full = conv_samples T x (conv_samples T y z Full) Full.
Proof.
  intros Hx Hy Hz. unfold conv_samples at 1 3. rewrite !conv_samples_length. cbn [conv_start conv_count].
  replace (length x + length y - 1 + length z - 1) with (length x + (length y + length z - 1) - 1) by lia.
  apply map_ext. intros j. apply conv_assoc.
Qed.
End P.

Lemma int_semiring : semiring int_dtype.
Proof. split; cbn; intros; ring. Qed.
Lemma real_semiring : semiring real_dtype.
Proof. split; cbn; intros; ring. Qed.
Lemma complex_semiring : semiring complex_dtype.
Proof. split; cbn; intros; ring. Qed.
