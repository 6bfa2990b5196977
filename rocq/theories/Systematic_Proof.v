(* SystematicBlockCode is a valid code. *)
From Coq Require Import Permutation.
From Verif Require Import Common Bits_Model Vec_Model Vec_Proof LinAlg_Model Linear_Spec
  LinAlg_Proof XRref_Proof Null_Proof BlockCode_Model Code_Spec BlockCode_Proof.
Local Open Scope nat_scope.

(* xor over a list of indices *)
Fixpoint xsum (f : nat -> bool) (l : list nat) : bool :=
  match l with [] => false | i :: l' => xorb (f i) (xsum f l') end.

Lemma xsum_app f l l' : xsum f (l ++ l') = xorb (xsum f l) (xsum f l').
Proof. induction l as [|x l IH]; cbn; [destruct (xsum f l'); auto|]. rewrite IH, xorb_assoc; auto. Qed.

Lemma xsum_perm f l l' : Permutation l l' -> xsum f l = xsum f l'.
Proof.
  induction 1; cbn; auto; try congruence.
  rewrite <- !xorb_assoc. f_equal. apply xorb_comm.
Qed.

Lemma xsum_ext f g l : (forall i, In i l -> f i = g i) -> xsum f l = xsum g l.
Proof. induction l as [|x l IH]; cbn; intros H; auto. rewrite H, IH; auto. Qed.

Lemma dot_xsum a b n : length a = n -> length b = n -> dot a b = xsum (fun i => nth i a false && nth i b false) (seq 0 n).
Proof.
  revert a b; induction n as [|n IH]; intros [|x a] [|y b] La Lb; cbn in *; try lia; auto.
  rewrite (IH a b) by lia. f_equal. rewrite <- seq_shift.
  generalize (seq 0 n) as l. induction l as [|z l IHl]; cbn; auto. rewrite IHl; auto.
Qed.

Lemma dot_gather a b l : dot (gather l a) (gather l b) = xsum (fun i => nth i a false && nth i b false) l.
Proof. induction l as [|x l IH]; cbn; auto. fold (gather l a) (gather l b). rewrite IH; auto. Qed.

Lemma gather_length I v : length (gather I v) = length I.
Proof. apply map_length. Qed.

Lemma nth_gather I v i : i < length I -> nth i (gather I v) false = nth (nth i I 0) v false.
Proof.
  intros H. unfold gather. rewrite (nth_indep _ _ (nth 0 v false)) by (rewrite map_length; auto).
  rewrite (map_nth (fun i => nth i v false)). auto.
Qed.

Lemma gather_vxor I u v : length u = length v -> gather I (vxor u v) = vxor (gather I u) (gather I v).
Proof. intros L. unfold gather. induction I as [|i I IH]; cbn; auto. rewrite nth_vxor, IH by auto. auto. Qed.

Lemma gather_zeros I n : gather I (zeros n) = zeros (length I).
Proof. unfold gather. induction I as [|i I IH]; cbn; auto. rewrite nth_zeros, IH; auto. Qed.

Lemma gather_vecmat I n u M : wf n M -> gather I (vecmat n u M) = vecmat (length I) u (map (gather I) M).
Proof.
  revert M; induction u as [|x u IH]; intros [|r M] W; cbn; try apply gather_zeros.
  apply wf_cons in W as [Hr W]. destruct x; auto. rewrite gather_vxor, IH by (rewrite ?vecmat_length; auto). auto.
Qed.

(* put *)
Lemma put_length {A} I (vals v : list A) : length (put I vals v) = length v.
Proof.
  unfold put. generalize (combine I vals) as l. intros l; revert v; induction l as [|[i x] l IH]; intros v; cbn; auto.
  rewrite IH, upd_length; auto.
Qed.

Lemma put_cons {A} i I (x : A) vals v : put (i :: I) (x :: vals) v = put I vals (upd i x v).
Proof. reflexivity. Qed.

Lemma nth_put_out {A} (d : A) I : forall vals v j, (forall i, In i I -> i < length v) -> ~ In j I -> nth j (put I vals v) d = nth j v d.
Proof.
  induction I as [|i I IH]; intros [|x vals] v j B N; auto. rewrite put_cons.
  rewrite IH; [|intros; rewrite upd_length; apply B; right; auto|intros H; apply N; right; auto].
  rewrite nth_upd by (apply B; left; auto). destruct (j =? i) eqn:E; auto.
  apply Nat.eqb_eq in E. subst. exfalso. apply N. left; auto.
Qed.

Lemma nth_put_in {A} (d d' : A) I : forall vals v t, NoDup I -> length vals = length I -> (forall i, In i I -> i < length v) ->
  t < length I -> nth (nth t I 0) (put I vals v) d = nth t vals d'.
Proof.
  induction I as [|i I IH]; intros [|x vals] v t ND L B H; cbn [length] in *; try lia. rewrite put_cons.
  inversion ND; subst. destruct t as [|t]; cbn [nth].
  - rewrite nth_put_out; auto; [|intros; rewrite upd_length; apply B; right; auto].
    rewrite nth_upd, Nat.eqb_refl; auto. apply B; left; auto.
  - apply IH; auto; try lia. intros; rewrite upd_length; apply B; right; auto.
Qed.

Lemma gather_put_same I vals v : NoDup I -> length vals = length I -> (forall i, In i I -> i < length v) ->
  gather I (put I vals v) = vals.
Proof.
  intros ND L B. apply vec_ext; rewrite gather_length; auto. intros t Ht. rewrite nth_gather by auto.
  apply nth_put_in; auto.
Qed.

Lemma gather_put_other I K vals v : (forall i, In i I -> i < length v) -> (forall i, In i K -> ~ In i I) ->
  gather K (put I vals v) = gather K v.
Proof. intros B D. unfold gather. apply map_ext_in. intros j Hj. apply nth_put_out; auto. Qed.

Section Sys.
Variables (m : nat) (P : mat) (I : list nat).
Hypothesis WP : wf m P.
Let k := length P.
Let n := k + m.
Hypothesis LI : length I = k.
Hypothesis ND : NoDup I.
Hypothesis BI : forall i, In i I -> i < n.
Let par := not_pivots n I.

Lemma sys_par_length : length par = m.
Proof. unfold par. rewrite not_pivots_length; auto. unfold n. lia. Qed.

Lemma sys_par_nd : NoDup par.
Proof. apply not_pivots_NoDup. Qed.

Lemma sys_par_bound i : In i par -> i < n.
Proof. intros H. apply in_not_pivots in H. tauto. Qed.

Lemma sys_disj i : In i par -> ~ In i I.
Proof. intros H. apply in_not_pivots in H. tauto. Qed.

Lemma sys_perm : Permutation (seq 0 n) (I ++ par).
Proof.
  apply NoDup_Permutation; [apply seq_NoDup| |].
  - apply NoDup_app_intro; auto; [apply sys_par_nd|]. intros x H H'. apply sys_disj in H'. auto.
  - intros x. rewrite in_seq, in_app_iff. unfold par. rewrite in_not_pivots. split.
    + intros H. destruct (in_dec Nat.eq_dec x I); auto. right. split; auto; lia.
    + intros [H|[H _]]; [specialize (BI x H)|]; lia.
Qed.

(* a word is determined by its information and parity parts *)
Lemma sys_ext u v : length u = n -> length v = n -> gather I u = gather I v -> gather par u = gather par v -> u = v.
Proof.
  intros Lu Lv E1 E2. apply vec_ext; [congruence|]. intros i Hi. rewrite Lu in Hi.
  assert (H : In i (I ++ par)). { apply (Permutation_in _ sys_perm). apply in_seq. lia. }
  apply in_app_iff in H as [H|H].
  - apply In_nth with (d := 0) in H as (t & Ht & <-). rewrite <- !nth_gather, E1; auto.
  - apply In_nth with (d := 0) in H as (t & Ht & <-). rewrite <- !nth_gather, E2; auto.
Qed.

Definition join (u p : vec) : vec := put par p (put I u (zeros n)).

Lemma join_length u p : length (join u p) = n.
Proof. unfold join. rewrite !put_length, zeros_length; auto. Qed.

Lemma join_inf u p : length u = k -> length p = m -> gather I (join u p) = u.
Proof.
  intros Lu Lp. unfold join. rewrite gather_put_other.
  - apply gather_put_same; auto; [congruence|]. intros; rewrite zeros_length; auto.
  - intros; rewrite put_length, zeros_length. apply sys_par_bound; auto.
  - intros i Hi Hp. apply (sys_disj i); auto.
Qed.

Lemma join_par u p : length p = m -> gather par (join u p) = p.
Proof.
  intros Lp. unfold join. apply gather_put_same; [apply sys_par_nd|rewrite sys_par_length; auto|].
  intros; rewrite put_length, zeros_length. apply sys_par_bound; auto.
Qed.

Let C := systematic_code m P I.

Lemma sys_G_length : length (bc_G C) = k.
Proof. cbn. rewrite map_length, combine_length, eye_length. fold k. lia. Qed.

Lemma sys_nth_G i : i < k -> nth i (bc_G C) [] = join (unit_vec k i) (nth i P []).
Proof.
  intros Hi. cbn. fold k n par. rewrite (nth_indep _ _ (join [] [])) by (rewrite map_length, combine_length, eye_length; fold k; lia).
  change (join [] []) with ((fun '(e, p) => put par p (put I e (zeros n))) (@pair vec vec [] [])).
  rewrite map_nth, combine_nth by (rewrite eye_length; auto). rewrite nth_eye by auto. auto.
Qed.

Lemma sys_G_wf : wf n (bc_G C).
Proof.
  unfold wf. rewrite Forall_forall. intros r Hr. apply In_nth_row in Hr as (i & Hi & <-). rewrite sys_G_length in Hi.
  rewrite sys_nth_G by auto. apply join_length.
Qed.

Lemma sys_H_length : length (bc_H C) = m.
Proof. cbn. rewrite map_length, combine_length, eye_length, transpose_length. lia. Qed.

Lemma sys_nth_H i : i < m -> nth i (bc_H C) [] = join (column i P) (unit_vec m i).
Proof.
  intros Hi. cbn. fold k n par.
  rewrite (nth_indep _ _ (join [] [])) by (rewrite map_length, combine_length, eye_length, transpose_length; lia).
  change (join [] []) with ((fun '(c, e) => put par e (put I c (zeros n))) (@pair vec vec [] [])).
  rewrite map_nth, combine_nth by (rewrite eye_length, transpose_length; auto).
  rewrite nth_eye, nth_transpose by auto. auto.
Qed.

Lemma sys_H_wf : wf n (bc_H C).
Proof.
  unfold wf. rewrite Forall_forall. intros r Hr. apply In_nth_row in Hr as (i & Hi & <-). rewrite sys_H_length in Hi.
  rewrite sys_nth_H by auto. apply join_length.
Qed.

Lemma sys_encode_eq u : bc_encode C u = join u (vecmat m u P).
Proof. reflexivity. Qed.

Lemma sys_encode_G u : length u = k -> bc_encode C u = vecmat n u (bc_G C).
Proof.
  intros Lu. rewrite sys_encode_eq. pose proof sys_G_wf as WG. pose proof sys_G_length as LG.
  assert (Lp : length (vecmat m u P) = m) by (apply vecmat_length; auto).
  apply sys_ext; [apply join_length|apply vecmat_length; auto| |].
  - rewrite join_inf by auto. rewrite gather_vecmat, LI by auto.
    assert (E : map (gather I) (bc_G C) = eye k).
    { apply mat_ext; rewrite map_length, ?eye_length; auto. intros i Hi. rewrite LG in Hi.
      rewrite (nth_indep _ _ (gather I [])) by (rewrite map_length; lia).
      rewrite map_nth, sys_nth_G, nth_eye by auto. apply join_inf; [apply unit_vec_length|]. apply wf_nth; auto. }
    rewrite E, vecmat_eye; auto.
  - rewrite join_par by auto. rewrite gather_vecmat, sys_par_length by auto. f_equal. symmetry.
    apply mat_ext; rewrite map_length; auto. intros i Hi. rewrite LG in Hi.
    rewrite (nth_indep _ _ (gather par [])) by (rewrite map_length; lia).
    rewrite map_nth, sys_nth_G by auto. rewrite join_par; auto. apply wf_nth; auto.
Qed.

Lemma sys_check_H r : length r = n -> bc_check C r = matvec (bc_H C) r.
Proof.
  intros Lr. cbn [bc_check C systematic_code]. change (vxor (vecmat m (gather I r) P) (gather par r) = matvec (bc_H C) r).
  pose proof sys_H_wf as WH. pose proof sys_H_length as LH.
  assert (Lg : length (vecmat m (gather I r) P) = m) by (apply vecmat_length; auto).
  assert (Lpr : length (gather par r) = m) by (rewrite gather_length; apply sys_par_length).
  apply vec_ext; rewrite vxor_length, ?matvec_length by congruence; [congruence|]. intros i Hi. rewrite Lg in Hi.
  rewrite nth_vxor, nth_vecmat, nth_matvec by (auto; congruence).
  rewrite sys_nth_H by auto.
  rewrite (dot_xsum (join _ _) r n) by (auto; apply join_length).
  rewrite (xsum_perm _ _ _ sys_perm), xsum_app.
  rewrite <- !dot_gather. rewrite join_inf, join_par by (rewrite ?column_length, ?unit_vec_length; auto).
  rewrite dot_unit_l by auto. rewrite (dot_comm (gather I r)). auto.
Qed.

Lemma sys_codeword r : length r = n -> (bc_check C r = zeros m <-> is_codeword C r).
Proof.
  intros Lr.
  assert (Lpr : length (gather par r) = m) by (rewrite gather_length; apply sys_par_length).
  assert (Lg : length (vecmat m (gather I r) P) = m) by (apply vecmat_length; auto).
  split.
  - intros Z. change (vxor (vecmat m (gather I r) P) (gather par r) = zeros m) in Z.
    exists (gather I r). split; [rewrite gather_length; auto|]. rewrite sys_encode_eq.
    apply sys_ext; [apply join_length|auto| |].
    + apply join_inf; auto. rewrite gather_length; auto.
    + rewrite join_par by auto. apply vxor_eq_zeros; [congruence|]. rewrite Lg; auto.
  - intros (u & Lu & <-). change (length u = k) in Lu. rewrite sys_encode_eq.
    assert (Lp : length (vecmat m u P) = m) by (apply vecmat_length; auto).
    change (vxor (vecmat m (gather I (join u (vecmat m u P))) P) (gather par (join u (vecmat m u P))) = zeros m).
    rewrite join_inf, join_par by auto. rewrite vxor_self, Lp; auto.
Qed.

Theorem systematic_valid : valid_code C.
Proof.
  pose proof sys_G_wf as WG. pose proof sys_G_length as LG. pose proof sys_H_wf as WH. pose proof sys_H_length as LH.
  assert (Q : forall u, length u = k -> gather I (bc_encode C u) = u).
  { intros u Lu. rewrite sys_encode_eq. apply join_inf; auto. apply vecmat_length; auto. }
  constructor; [reflexivity| |].
  - constructor.
    + split; auto.
    + exact sys_encode_G.
    + intros u Lu. apply join_length.
    + intros u v Lu Lv. change (bc_k C) with k in *. rewrite !sys_encode_G by (rewrite ?vxor_length; congruence).
      apply vecmat_vxor; auto. congruence.
    + intros u v Lu Lv E. rewrite <- (Q u Lu), <- (Q v Lv), E. auto.
    + exact Q.
  - constructor.
    + split; auto.
    + exact sys_check_H.
    + exact sys_codeword.
    + intros s Ls. change (bc_m C) with m in Ls. exists (join (zeros k) s). split; [apply join_length|].
      change (vxor (vecmat m (gather I (join (zeros k) s)) P) (gather par (join (zeros k) s)) = s).
      rewrite join_inf, join_par by (auto; apply zeros_length). rewrite vecmat_zeros by auto. apply vxor_zeros_l; auto.
    + intros g h Hg Hh. apply In_nth_row in Hg as (i & Hi & <-). rewrite LG in Hi.
      assert (CW : is_codeword C (nth i (bc_G C) [])).
      { exists (unit_vec k i). split; [apply unit_vec_length|]. rewrite sys_encode_G by apply unit_vec_length.
        apply vecmat_unit; auto. }
      assert (Lg : length (nth i (bc_G C) []) = n) by (apply wf_nth; auto; lia).
      apply sys_codeword in CW; auto. rewrite sys_check_H in CW by auto.
      rewrite <- LH in CW. apply orthogonal_matvec in CW. rewrite dot_comm. apply CW; auto.
Qed.

(* the message is found in the information positions, and the right inverse is a right inverse *)
Lemma sys_info u : length u = k -> gather I (bc_encode C u) = u.
Proof. intros Lu. rewrite sys_encode_eq. apply join_inf; auto. apply vecmat_length; auto. Qed.

Lemma sys_Ginv_wf : wf k (bc_Ginv C) /\ length (bc_Ginv C) = n.
Proof.
  assert (LX : length (bc_Ginv C) = n) by (cbn; rewrite put_length, repeat_length; auto).
  split; auto. unfold wf. rewrite Forall_forall. intros r Hr. apply In_nth_row in Hr as (j & Hj & <-). rewrite LX in Hj.
  cbn. fold k n. destruct (in_dec Nat.eq_dec j I) as [H|H].
  - apply In_nth with (d := 0) in H as (t & Ht & <-). rewrite (nth_put_in _ []); auto.
    + rewrite nth_eye by lia. apply unit_vec_length.
    + rewrite eye_length; auto.
    + intros; rewrite repeat_length; auto.
  - rewrite nth_put_out; auto; [|intros; rewrite repeat_length; auto].
    rewrite (nth_indep _ _ (zeros k)) by (rewrite repeat_length; auto). rewrite nth_repeat. apply zeros_length.
Qed.

Lemma sys_Ginv v : length v = n -> vecmat k v (bc_Ginv C) = gather I v.
Proof.
  intros Lv. destruct sys_Ginv_wf as [WX LX].
  apply vec_ext; [rewrite vecmat_length, gather_length; auto|]. rewrite vecmat_length by auto. intros t Ht.
  rewrite nth_vecmat, nth_gather by (auto; lia).
  assert (E : column t (bc_Ginv C) = unit_vec n (nth t I 0)).
  { apply vec_ext; rewrite column_length, ?unit_vec_length; auto. rewrite LX. intros j Hj. rewrite nth_column, nth_unit_vec by auto.
    cbn. fold k n. destruct (in_dec Nat.eq_dec j I) as [H|H].
    - apply In_nth with (d := 0) in H as (t' & Ht' & <-). rewrite (nth_put_in _ []); auto;
        [|rewrite eye_length; auto|intros; rewrite repeat_length; auto].
      rewrite nth_eye, nth_unit_vec by lia. destruct (t =? t') eqn:Q.
      + apply Nat.eqb_eq in Q. subst. symmetry; apply Nat.eqb_refl.
      + apply Nat.eqb_neq in Q. symmetry. apply Nat.eqb_neq. intros Z. apply Q.
        apply (proj1 (NoDup_nth I 0) ND); auto; lia.
    - rewrite nth_put_out; auto; [|intros; rewrite repeat_length; auto].
      rewrite (nth_indep _ _ (zeros k)) by (rewrite repeat_length; auto). rewrite nth_repeat, nth_zeros.
      symmetry. apply Nat.eqb_neq. intros ->. apply H. apply nth_In. lia. }
  rewrite E. apply dot_unit_r; auto.
Qed.

End Sys.

(* the constructor's named information sets are good *)
Lemma information_set_left k m : information_set k m Left = Some (seq 0 k).
Proof. reflexivity. Qed.
