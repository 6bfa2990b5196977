(* Proofs about quantizers. *)
From Coq Require Import Reals Lra Sorted.
From Verif Require Import Common Quant_Model Quant_Spec.
Local Open Scope R_scope.

Lemma Rleb_spec x y : reflect (x <= y) (Rleb x y).
Proof. unfold Rleb. destruct (Rle_dec x y); constructor; auto. Qed.
Lemma Rltb_spec x y : reflect (x < y) (Rltb x y).
Proof. unfold Rltb. destruct (Rlt_dec x y); constructor; auto. Qed.

(* counting in a sorted list *)
Definition nondecreasing (t : list R) := forall i j, (i <= j < length t)%nat -> nth i t 0 <= nth j t 0.
Lemma nondecreasing_tl a t : nondecreasing (a :: t) -> nondecreasing t.
Proof. intros H i j Hij. apply (H (S i) (S j)). cbn. lia. Qed.
Lemma step_nondecreasing t : (forall i, (S i < length t)%nat -> nth i t 0 <= nth (S i) t 0) -> nondecreasing t.
Proof.
  intros H i j. remember (j - i)%nat as d eqn:Ed. revert j Ed. induction d as [|d IH]; intros j Ed Hij; [replace j with i by lia; lra|].
  destruct j as [|j]; [lia|]. apply Rle_trans with (nth j t 0); [apply IH; lia|apply H; lia].
Qed.
Lemma filter_le_cell t x : nondecreasing t -> in_cell t (length (filter (fun s => Rleb s x) t)) x.
Proof.
  induction t as [|a t IH]; intros H; cbn [filter].
  - repeat split; cbn; intros; lia.
  - specialize (IH (nondecreasing_tl a t H)). destruct (Rleb_spec a x) as [L|L]; cbn [length].
    + destruct IH as (I1 & I2 & I3). repeat split; cbn [length]; [lia| |].
      * intros [|i] Hi; cbn [nth]; [auto|apply I2; lia].
      * intros [|i] Hi; cbn [nth]; [lia|apply I3; lia].
    + assert (E : filter (fun s => Rleb s x) t = []).
      { assert (Ha : forall s, In s t -> x < s).
        { intros s Hs. apply (In_nth _ _ 0) in Hs as (i & Hi & <-). specialize (H 0%nat (S i)). cbn in H. assert (a <= nth i t 0) by (apply H; lia). lra. }
        clear - Ha. induction t as [|b t IHt]; cbn; auto. destruct (Rleb_spec b x) as [L|L]; [assert (x < b) by (apply Ha; now left); lra|]. apply IHt. intros. apply Ha. now right. }
      rewrite E. cbn [length]. repeat split; [lia|intros; lia|]. intros i Hi. specialize (H 0%nat i). cbn [nth] in H. assert (a <= nth i (a :: t) 0) by (apply H; lia). lra.
Qed.
Lemma cell_unique t x k k' : in_cell t k x -> in_cell t k' x -> k = k'.
Proof.
  intros (A1 & A2 & A3) (B1 & B2 & B3). destruct (Nat.lt_trichotomy k k') as [H|[H|H]]; auto; exfalso.
  - specialize (B2 k H). specialize (A3 k ltac:(lia)). lra.
  - specialize (A2 k' H). specialize (B3 k' ltac:(lia)). lra.
Qed.
Lemma filter_le_mono t x x' : x <= x' -> (length (filter (fun s => Rleb s x) t) <= length (filter (fun s => Rleb s x') t))%nat.
Proof.
  intros H. induction t as [|a t IH]; cbn; auto. destruct (Rleb_spec a x), (Rleb_spec a x'); cbn; try lia. lra.
Qed.
(* np.unique *)
Lemma insert_unique_hd x l z : HdRel Rlt z l -> z < x -> HdRel Rlt z (insert_unique x l).
Proof. intros H1 H2. destruct l as [|y l]; cbn; [now constructor|]. inversion H1; subst. destruct (Rltb_spec x y); [now constructor|]. destruct (Rltb_spec y x); now constructor. Qed.
Lemma insert_unique_sorted x l : Sorted Rlt l -> Sorted Rlt (insert_unique x l).
Proof.
  induction 1 as [|y l S IH HR]; cbn; [repeat constructor|]. destruct (Rltb_spec x y); [repeat constructor; auto|]. destruct (Rltb_spec y x); [|now constructor].
  constructor; auto. now apply insert_unique_hd.
Qed.
Lemma unique_sorted l : Sorted Rlt (np_unique l).
Proof. induction l; cbn; [constructor|]. now apply insert_unique_sorted. Qed.
Lemma unique_id l : np_unique l = l <-> Sorted Rlt l.
Proof.
  split; [intros <-; apply unique_sorted|]. induction 1 as [|x l S IH HR]; [reflexivity|]. unfold np_unique in *. cbn [fold_right]. rewrite IH. destruct HR as [|y l Hy]; [reflexivity|]. cbn.
  destruct (Rltb_spec x y); [reflexivity|]. lra.
Qed.
Lemma interleave_sorted y t : length y = S (length t) -> Sorted Rlt (interleave y t) <-> (forall i, (i < length t)%nat -> nth i y 0 < nth i t 0 < nth (S i) y 0).
Proof.
  revert y. induction t as [|b t IH]; intros y L.
  - destruct y as [|a [|a' y]]; cbn in L; try lia. cbn. split; [intros; lia|repeat constructor].
  - destruct y as [|a y]; [discriminate|]. cbn [length] in L. destruct y as [|a' y]; [discriminate|]. cbn [interleave]. split.
    + intros S i Hi. inversion S as [|? ? S1 H1]; subst. inversion S1 as [|? ? S2 H2]; subst. inversion H1; subst. destruct i as [|i].
      * cbn [nth]. split; auto. destruct t; cbn in H2; inversion H2; auto.
      * apply (proj1 (IH (a' :: y) ltac:(cbn in *; lia)) S2). cbn in Hi. lia.
    + intros H. pose proof (H 0%nat ltac:(cbn; lia)) as H0. cbn [nth] in H0. constructor; [|constructor; lra]. constructor.
      * apply (proj2 (IH (a' :: y) ltac:(cbn in *; lia))). intros i Hi. apply (H (S i)). cbn. lia.
      * destruct t; cbn; constructor; lra.
Qed.
Lemma scalar_accepts y t : (exists q, ScalarQuantizer y t = Some q) <-> strictly_interleaved y t.
Proof.
  unfold ScalarQuantizer, strictly_interleaved. destruct (Nat.eqb_spec (length t + 1) (length y)) as [E|E]; cbn [negb].
  - destruct (list_eq_dec _ _ _) as [U|U].
    + apply unique_id in U. rewrite interleave_sorted in U by lia. split; [intros _; split; [lia|auto]|eauto].
    + split; [intros (q & X); discriminate|]. intros (L & H). exfalso. apply U, unique_id. now rewrite interleave_sorted.
  - split; [intros (q & X); discriminate|]. intros (L & _). lia.
Qed.
Lemma scalar_fields y t q : ScalarQuantizer y t = Some q -> levels q = y /\ thresholds q = t.
Proof. unfold ScalarQuantizer. destruct (negb _); [discriminate|]. destruct (list_eq_dec _ _ _); [|discriminate]. now injection 1 as <-. Qed.
Lemma interleaved_nondecreasing y t : strictly_interleaved y t -> nondecreasing t.
Proof. intros (L & H). apply step_nondecreasing. intros i Hi. pose proof (H i ltac:(lia)). pose proof (H (S i) ltac:(lia)). lra. Qed.
Lemma interleaved_mono_y y t i j : strictly_interleaved y t -> (i < j < length y)%nat -> nth i y 0 < nth j y 0.
Proof.
  intros (L & H) Hij. induction j as [|j IH]; [lia|]. pose proof (H j ltac:(lia)). destruct (Nat.eq_dec i j); [subst; lra|]. assert (nth i y 0 < nth j y 0) by (apply IH; lia). lra.
Qed.
Lemma level_cell y t i : strictly_interleaved y t -> (i < length y)%nat -> in_cell t i (nth i y 0).
Proof.
  intros SI Hi. pose proof SI as (L & H). pose proof (interleaved_nondecreasing y t SI) as N. split; [lia|]. split.
  - intros j Hj. pose proof (H j ltac:(lia)). destruct (Nat.eq_dec (S j) i) as [<-|Nj]; [lra|]. pose proof (interleaved_mono_y y t (S j) i SI ltac:(lia)). lra.
  - intros j Hj. pose proof (H j ltac:(lia)). destruct (Nat.eq_dec i j) as [<-|Nj]; [lra|]. pose proof (interleaved_mono_y y t i j SI ltac:(lia)). lra.
Qed.

(* uniform *)
Lemma uniform_levels_length L s o : length (uniform_levels L s o) = L.
Proof. unfold uniform_levels. now rewrite map_length, seq_length. Qed.
Lemma uniform_levels_nth L s o i : (i < L)%nat -> nth i (uniform_levels L s o) 0 = (INR i - (INR L - 1) / 2 + o) * s.
Proof. intros H. unfold uniform_levels. now rewrite (nth_map_seq (fun i => (INR i - (INR L - 1) / 2 + o) * s)). Qed.
Lemma nth_removelast (l : list R) i d : (S i < length l)%nat -> nth i (removelast l) d = nth i l d.
Proof.
  revert i. induction l as [|a l IH]; intros i H; [cbn in H; lia|]. destruct l as [|b l]; [cbn in H; lia|]. change (removelast (a :: b :: l)) with (a :: removelast (b :: l)).
  destruct i; [reflexivity|]. cbn [nth]. apply IH. cbn in *. lia.
Qed.
Lemma removelast_length (l : list R) : length (removelast l) = (length l - 1)%nat.
Proof. induction l as [|a [|b l] IH]; [reflexivity|reflexivity|]. change (removelast (a :: b :: l)) with (a :: removelast (b :: l)). cbn [length] in *. lia. Qed.
Lemma uniform_thresholds_length L s o : length (uniform_thresholds L s o) = (L - 1)%nat.
Proof. unfold uniform_thresholds. now rewrite removelast_length, map_length, uniform_levels_length. Qed.
Lemma uniform_thresholds_nth L s o i : (S i < L)%nat -> nth i (uniform_thresholds L s o) 0 = (INR i - (INR L - 1) / 2 + o) * s + s / 2.
Proof.
  intros H. unfold uniform_thresholds. rewrite nth_removelast by (rewrite map_length, uniform_levels_length; lia).
  rewrite (nth_indep _ 0 (0 + s / 2)) by (rewrite map_length, uniform_levels_length; lia). rewrite (map_nth (fun y => y + s / 2)), uniform_levels_nth by lia. reflexivity.
Qed.
Lemma uniform_interleaved L s o : (1 <= L)%nat -> 0 < s -> strictly_interleaved (uniform_levels L s o) (uniform_thresholds L s o).
Proof.
  intros HL Hs. split; [rewrite uniform_levels_length, uniform_thresholds_length; lia|]. intros i Hi. rewrite uniform_thresholds_length in Hi.
  rewrite uniform_thresholds_nth, !uniform_levels_nth by lia. rewrite S_INR. nra.
Qed.
Lemma uniform_cases L s o q : UniformQuantizer L s o = Some q -> (1 < L)%nat /\ 0 < s /\ levels q = uniform_levels L s o /\ thresholds q = uniform_thresholds L s o.
Proof. unfold UniformQuantizer. destruct (Nat.leb_spec L 1); [discriminate|]. destruct (Rltb_spec 0 s); [|discriminate]. injection 1 as <-. auto. Qed.
Lemma uniform_nearest L s o x k j : 0 < s -> in_cell (uniform_thresholds L s o) k x -> (k < L)%nat -> (j < L)%nat ->
  Rabs (x - nth k (uniform_levels L s o) 0) <= Rabs (x - nth j (uniform_levels L s o) 0).
Proof.
  intros Hs (C1 & C2 & C3) Hk Hj. rewrite uniform_thresholds_length in *. rewrite !uniform_levels_nth by auto.
  assert (D : forall a b : nat, (a < b)%nat -> INR a + 1 <= INR b) by (intros a b H; rewrite <- S_INR; apply le_INR; lia).
  destruct (Nat.lt_trichotomy j k) as [H|[->|H]]; [|lra|].
  - destruct k as [|k]; [lia|]. specialize (C2 k ltac:(lia)). rewrite uniform_thresholds_nth in C2 by lia. rewrite S_INR. assert (INR j <= INR k) by (apply le_INR; lia).
    set (c := - (INR L - 1) / 2 + o) in *. replace (INR k - (INR L - 1) / 2 + o) with (INR k + c) in * by (unfold c; field). replace (INR k + 1 - (INR L - 1) / 2 + o) with (INR k + 1 + c) by (unfold c; field).
    replace (INR j - (INR L - 1) / 2 + o) with (INR j + c) by (unfold c; field). rewrite (Rabs_pos_eq (x - (INR j + c) * s)) by nra. apply Rabs_le. nra.
  - specialize (C3 k ltac:(lia)). rewrite uniform_thresholds_nth in C3 by lia. pose proof (D k j H).
    set (c := - (INR L - 1) / 2 + o) in *. replace (INR k - (INR L - 1) / 2 + o) with (INR k + c) in * by (unfold c; field).
    replace (INR j - (INR L - 1) / 2 + o) with (INR j + c) by (unfold c; field). rewrite (Rabs_left1 (x - (INR j + c) * s)) by nra. apply Rabs_le. nra.
Qed.
Lemma uniform_error L s o x k : 0 < s -> in_cell (uniform_thresholds L s o) k x -> (k < L)%nat ->
  (nth 0 (uniform_levels L s o) 0 - s / 2 <= x <= nth (L - 1) (uniform_levels L s o) 0 + s / 2) -> Rabs (x - nth k (uniform_levels L s o) 0) <= s / 2.
Proof.
  intros Hs (C1 & C2 & C3) Hk. rewrite uniform_thresholds_length in *. rewrite !uniform_levels_nth by lia. intros B. apply Rabs_le. split.
  - destruct k as [|k]; [lra|]. specialize (C2 k ltac:(lia)). rewrite uniform_thresholds_nth in C2 by lia. rewrite S_INR. lra.
  - destruct (Nat.eq_dec k (L - 1)) as [->|N]; [lra|]. specialize (C3 k ltac:(lia)). rewrite uniform_thresholds_nth in C3 by lia. lra.
Qed.

(* Lloyd-Max *)
Lemma linspace_length a b n : length (linspace a b n) = n.
Proof. unfold linspace. now rewrite map_length, seq_length. Qed.
Fixpoint chain (lo : R) (y : list R) (hi : R) : Prop := match y with [] => lo <= hi | a :: y' => lo <= a /\ chain a y' hi end.
Lemma chain_hd lo y hi : chain lo y hi -> lo <= hi.
Proof. revert lo. induction y as [|a y IH]; cbn; intros lo; [auto|]. intros [H1 H2]. apply IH in H2. lra. Qed.
Lemma chain_lo lo lo' y hi : lo' <= lo -> chain lo y hi -> chain lo' y hi.
Proof. destruct y; cbn; intros; [lra|]. split; [lra|tauto]. Qed.
Lemma trap_bound (pdf : R -> R) lo x hi : (forall u, 0 <= pdf u) -> chain lo x hi ->
  0 <= trapezoid (map pdf x) x /\ lo * trapezoid (map pdf x) x <= trapezoid (map (fun u => u * pdf u) x) x <= hi * trapezoid (map pdf x) x.
Proof.
  intros P. revert lo. induction x as [|x0 x IH]; intros lo C; [cbn; lra|]. destruct C as [C1 C2]. destruct x as [|x1 x]; [cbn; lra|]. specialize (IH x0 C2). pose proof C2 as [C3 C4]. apply chain_hd in C4.
  change (trapezoid (map pdf (x0 :: x1 :: x)) (x0 :: x1 :: x)) with ((x1 - x0) * (pdf x0 + pdf x1) / 2 + trapezoid (map pdf (x1 :: x)) (x1 :: x)).
  change (trapezoid (map (fun u => u * pdf u) (x0 :: x1 :: x)) (x0 :: x1 :: x)) with ((x1 - x0) * (x0 * pdf x0 + x1 * pdf x1) / 2 + trapezoid (map (fun u => u * pdf u) (x1 :: x)) (x1 :: x)).
  pose proof (P x0) as P0. pose proof (P x1) as P1. set (D := trapezoid (map pdf (x1 :: x)) (x1 :: x)) in *. set (M := trapezoid (map (fun u => u * pdf u) (x1 :: x)) (x1 :: x)) in *.
  destruct IH as (I1 & I2 & I3). assert (Q : 0 <= (x1 - x0) * (pdf x0 + pdf x1) / 2) by nra.
  assert (lo * D <= x0 * D) by nra.
  assert (lo * ((x1 - x0) * (pdf x0 + pdf x1) / 2) <= (x1 - x0) * (x0 * pdf x0 + x1 * pdf x1) / 2).
  { assert (lo * (pdf x0 + pdf x1) <= x0 * pdf x0 + x1 * pdf x1) by nra. nra. }
  assert ((x1 - x0) * (x0 * pdf x0 + x1 * pdf x1) / 2 <= hi * ((x1 - x0) * (pdf x0 + pdf x1) / 2)).
  { assert (x0 * pdf x0 + x1 * pdf x1 <= hi * (pdf x0 + pdf x1)) by nra. nra. }
  repeat split; lra.
Qed.
Lemma chain_seq (f : nat -> R) lo hi s n : (forall i, (s <= i)%nat -> (S i < s + n)%nat -> f i <= f (S i)) -> ((0 < n)%nat -> lo <= f s) -> ((0 < n)%nat -> f (s + n - 1)%nat <= hi) -> lo <= hi -> chain lo (map f (seq s n)) hi.
Proof.
  revert s lo. induction n as [|n IH]; intros s lo H1 H2 H3 H4; cbn; [auto|]. split; [apply H2; lia|]. apply IH.
  - intros i Hi Hn. apply H1; lia.
  - intros. apply H1; lia.
  - intros. replace (S s + n - 1)%nat with (s + S n - 1)%nat by lia. apply H3. lia.
  - destruct n; [replace s with (s + 1 - 1)%nat by lia; apply H3; lia|]. assert (K : forall j, (s + j < s + S (S n))%nat -> f s <= f (s + j)%nat).
    { induction j as [|j IHj]; intros Hj; [rewrite Nat.add_0_r; lra|]. apply Rle_trans with (f (s + j)%nat); [apply IHj; lia|]. rewrite Nat.add_succ_r. apply H1; lia. }
    apply Rle_trans with (f (s + S n)%nat); [apply K; lia|]. replace (s + S n)%nat with (s + S (S n) - 1)%nat by lia. apply H3. lia.
Qed.
Lemma linspace_chain a b n : (2 <= n)%nat -> a <= b -> chain a (linspace a b n) b.
Proof.
  intros Hn H. assert (Hd : 0 < INR n - 1) by (apply le_INR in Hn; cbn in Hn; lra). assert (Hs : 0 <= (b - a) / (INR n - 1)) by (apply Rmult_le_pos; [lra|left; now apply Rinv_0_lt_compat]).
  apply chain_seq; auto.
  - intros i _ _. rewrite S_INR. lra.
  - intros _. cbn. lra.
  - intros _. cbn [Nat.add]. rewrite minus_INR by lia. cbn [INR]. apply Req_le. field. lra.
Qed.
Lemma centroid_in pdf points a b old : (2 <= points)%nat -> (forall u, 0 <= pdf u) -> a <= old <= b -> a <= centroid pdf points a b old <= b.
Proof.
  intros Hp P H. unfold centroid. pose proof (trap_bound pdf a _ b P (linspace_chain a b points Hp ltac:(lra))) as (T1 & T2 & T3). destruct (Req_EM_T _ 0) as [E|E]; [auto|].
  set (D := trapezoid (map pdf _) _) in *. assert (0 < D) by lra. split.
  - apply (Rmult_le_reg_r D); auto. unfold Rdiv. rewrite Rmult_assoc, Rinv_l by auto. lra.
  - apply (Rmult_le_reg_r D); auto. unfold Rdiv. rewrite Rmult_assoc, Rinv_l by auto. lra.
Qed.
Fixpoint interchain (lo : R) (y t : list R) (hi : R) : Prop :=
  match y, t with a :: [], [] => lo <= a <= hi | a :: y', b :: t' => lo <= a <= b /\ interchain b y' t' hi | _, _ => False end.
Lemma interchain_cons lo a y b t hi : interchain lo (a :: y) (b :: t) hi <-> lo <= a <= b /\ interchain b y t hi.
Proof. destruct y; cbn; tauto. Qed.
Lemma centroids_cons pdf points a b lam old y : centroids pdf points (a :: b :: lam) (old :: y) = centroid pdf points a b old :: centroids pdf points (b :: lam) y.
Proof. reflexivity. Qed.
Lemma centroids_chain pdf points lo y hi : (2 <= points)%nat -> (forall u, 0 <= pdf u) -> y <> [] -> chain lo y hi ->
  interchain lo (centroids pdf points (lo :: midpoints y ++ [hi]) y) (midpoints y) hi.
Proof.
  intros Hp P. revert lo. induction y as [|a y IH]; intros lo N C; [easy|]. destruct y as [|a' y].
  - cbn in *. apply centroid_in; auto.
  - destruct C as [C1 C2]. pose proof C2 as [C3 C4]. set (m := 1 / 2 * (a + a')). assert (Em : m = 1 / 2 * (a + a')) by reflexivity. change (midpoints (a :: a' :: y)) with (m :: midpoints (a' :: y)).
    rewrite <- app_comm_cons, centroids_cons. apply interchain_cons. split; [apply centroid_in; auto; lra|]. apply IH; [easy|]. split; [lra|exact C4].
Qed.
Lemma interchain_chain lo y t hi : interchain lo y t hi -> chain lo y hi.
Proof.
  revert lo t. induction y as [|a y IH]; intros lo t; [easy|]. destruct y as [|a' y].
  - destruct t; cbn; [lra|]. tauto.
  - destruct t as [|b t]; [easy|]. intros H. apply interchain_cons in H as [H1 H2]. split; [lra|]. apply chain_lo with b; [lra|]. eapply IH; eauto.
Qed.
Lemma interchain_within lo y t hi : interchain lo y t hi -> interleaved_within lo hi y t.
Proof.
  revert lo t. induction y as [|a y IH]; intros lo t; [easy|]. destruct y as [|a' y].
  - destruct t as [|b t]; cbn [interchain]; [|tauto]. intros H. repeat split; cbn in *; try lra; intros; lia.
  - destruct t as [|b t]; [easy|]. intros [H1 H2]. change (interchain b (a' :: y) t hi) in H2. apply IH in H2 as (L & A & B & C). split; [cbn in *; lia|]. split; [cbn; lra|]. split; [exact B|].
    intros [|i] Hi; cbn [nth]; [cbn in A; lra|]. apply (C i). cbn in Hi. lia.
Qed.
Lemma interchain_nonempty lo y t hi : interchain lo y t hi -> y <> [].
Proof. destruct y; [easy|discriminate]. Qed.
Lemma lloyd_loop_inv close pdf points xmin xmax it y lam : (2 <= points)%nat -> (forall u, 0 <= pdf u) -> y <> [] -> chain xmin y xmax ->
  let '(y', lam') := lloyd_loop close pdf points xmin xmax (S it) y lam in interchain xmin y' lam' xmax /\ length y' = length y.
Proof.
  intros Hp P. assert (CL : forall y lam, length lam = S (length y) -> length (centroids pdf points lam y) = length y).
  { clear. induction y as [|a y IH]; intros lam H; [destruct lam; reflexivity|]. destruct lam as [|l0 [|l1 lam]]; cbn in H; try lia. rewrite centroids_cons. cbn [length]. f_equal. apply IH. cbn. lia. }
  assert (ML : forall y, length (midpoints y) = (length y - 1)%nat) by (induction y0 as [|a [|b y0] IH]; [reflexivity|reflexivity|cbn [midpoints length] in *; lia]).
  revert y lam. induction it as [|it IH]; intros y lam N C; cbn [lloyd_loop]; pose proof (centroids_chain pdf points xmin y xmax Hp P N C) as I.
  - assert (EL : length (centroids pdf points (xmin :: midpoints y ++ [xmax]) y) = length y) by (apply CL; cbn [length]; rewrite app_length, ML; cbn; destruct y; [easy|cbn; lia]).
    destruct (close _ _); auto.
  - assert (EL : length (centroids pdf points (xmin :: midpoints y ++ [xmax]) y) = length y) by (apply CL; cbn [length]; rewrite app_length, ML; cbn; destruct y; [easy|cbn; lia]).
    destruct (close _ _); [auto|]. specialize (IH (centroids pdf points (xmin :: midpoints y ++ [xmax]) y) (midpoints y) (interchain_nonempty _ _ _ _ I) (interchain_chain _ _ _ _ I)).
    cbn [lloyd_loop] in IH. rewrite EL in IH. exact IH.
Qed.
Lemma initial_chain xmin xmax L : (1 <= L)%nat -> xmin <= xmax ->
  let delta := (xmax - xmin) / INR L in chain xmin (linspace (xmin + delta / 2) (xmax - delta / 2) L) xmax.
Proof.
  intros HL H delta. assert (PL : 0 < INR L) by (apply lt_0_INR; lia). assert (Hd : 0 <= delta) by (apply Rmult_le_pos; [lra|left; now apply Rinv_0_lt_compat]).
  assert (ED : delta * INR L = xmax - xmin) by (unfold delta; field; lra). destruct (Nat.eq_dec L 1) as [->|N].
  - cbn in *. split; lra.
  - assert (Hn : 0 < INR L - 1) by (assert (2 <= L)%nat by lia; apply le_INR in H0; cbn in H0; lra).
    assert (Es : (xmax - delta / 2 - (xmin + delta / 2)) / (INR L - 1) = delta) by (replace (xmax - delta / 2 - (xmin + delta / 2)) with (delta * (INR L - 1)) by lra; field; lra).
    unfold linspace. rewrite Es. apply chain_seq; auto.
    + intros i _ _. rewrite S_INR. lra.
    + intros _. cbn. lra.
    + intros _. cbn [Nat.add]. rewrite minus_INR by lia. cbn [INR]. lra.
Qed.
