(* Elementary facts about binary vectors and matrices. *)
From Verif Require Import Common Vec_Model.

Lemma zeros_length n : length (zeros n) = n.
Proof. apply repeat_length. Qed.

Lemma nth_zeros n i : nth i (zeros n) false = false.
Proof. unfold zeros. revert i; induction n as [|n IH]; intros [|i]; cbn; auto. Qed.

Lemma vec_ext (u v : vec) : length u = length v ->
  (forall i, i < length u -> nth i u false = nth i v false) -> u = v.
Proof. apply list_ext. Qed.

Lemma vxor_length u v : length u = length v -> length (vxor u v) = length u.
Proof. revert v; induction u as [|x u IH]; intros [|y v]; cbn; intros; auto; try lia. Qed.

Lemma nth_vxor u v i : length u = length v ->
  nth i (vxor u v) false = xorb (nth i u false) (nth i v false).
Proof.
  revert v i; induction u as [|x u IH]; intros [|y v] [|i]; cbn; intros; auto; try lia.
Qed.

Lemma vxor_comm u v : vxor u v = vxor v u.
Proof. revert v; induction u as [|x u IH]; intros [|y v]; cbn; auto. rewrite IH, xorb_comm; auto. Qed.

Lemma vxor_assoc u v w : vxor (vxor u v) w = vxor u (vxor v w).
Proof.
  revert v w; induction u as [|x u IH]; intros [|y v] [|z w]; cbn; auto.
  rewrite IH, xorb_assoc; auto.
Qed.

Lemma vxor_zeros_r u n : length u = n -> vxor u (zeros n) = u.
Proof. revert u; induction n as [|n IH]; intros [|x u]; cbn; intros; auto; try lia. fold (zeros n). rewrite IH, xorb_false_r by lia; auto. Qed.

Lemma vxor_zeros_l u n : length u = n -> vxor (zeros n) u = u.
Proof. intros; rewrite vxor_comm; apply vxor_zeros_r; auto. Qed.

Lemma vxor_self u : vxor u u = zeros (length u).
Proof. induction u as [|x u IH]; cbn; auto. rewrite IH, xorb_nilpotent; auto. Qed.

Lemma vxor_cancel u v : length u = length v -> vxor u (vxor u v) = v.
Proof. intros H. rewrite <- vxor_assoc, vxor_self, vxor_zeros_l; auto. Qed.

Lemma vxor_cancel_r u v : length u = length v -> vxor (vxor v u) u = v.
Proof. intros H. rewrite vxor_assoc, vxor_self, vxor_zeros_r; auto. Qed.

Lemma vxor_eq_zeros u v : length u = length v -> vxor u v = zeros (length u) -> u = v.
Proof.
  intros H E. apply (f_equal (vxor u)) in E. rewrite vxor_cancel, vxor_zeros_r in E; auto.
Qed.

Lemma dot_comm u v : dot u v = dot v u.
Proof. revert v; induction u as [|x u IH]; intros [|y v]; cbn; auto. rewrite IH, andb_comm; auto. Qed.

Lemma dot_vxor_l u v w : length u = length v -> dot (vxor u v) w = xorb (dot u w) (dot v w).
Proof.
  revert v w; induction u as [|x u IH]; intros [|y v] [|z w]; cbn; intros; auto; try lia.
  rewrite IH by lia. destruct x, y, z, (dot u w), (dot v w); reflexivity.
Qed.

Lemma dot_vxor_r u v w : length v = length w -> dot u (vxor v w) = xorb (dot u v) (dot u w).
Proof. intros; rewrite !(dot_comm u); apply dot_vxor_l; auto. Qed.

Lemma dot_zeros_l n v : dot (zeros n) v = false.
Proof. revert v; induction n as [|n IH]; intros [|y v]; cbn; auto. fold (zeros n). rewrite IH; auto. Qed.

Lemma dot_zeros_r n v : dot v (zeros n) = false.
Proof. rewrite dot_comm; apply dot_zeros_l. Qed.

Lemma dot_app u u' v v' : length u = length v -> dot (u ++ u') (v ++ v') = xorb (dot u v) (dot u' v').
Proof.
  revert v; induction u as [|x u IH]; intros [|y v]; cbn; intros; try lia.
  rewrite IH by lia. rewrite xorb_assoc; auto.
Qed.

Lemma unit_vec_length n i : length (unit_vec n i) = n.
Proof. unfold unit_vec; rewrite map_length, seq_length; auto. Qed.

Lemma nth_unit_vec n i j : j < n -> nth j (unit_vec n i) false = Nat.eqb j i.
Proof. intros. unfold unit_vec. rewrite nth_map_seq; auto. Qed.

Lemma unit_vec_S n i : unit_vec (S n) (S i) = false :: unit_vec n i.
Proof. unfold unit_vec. cbn. rewrite <- seq_shift, map_map. f_equal. Qed.

Lemma unit_vec_0 n : unit_vec (S n) 0 = true :: zeros n.
Proof.
  unfold unit_vec. cbn. f_equal. apply vec_ext; rewrite map_length, seq_length; rewrite ?zeros_length; auto.
  intros i Hi. rewrite nth_zeros, <- seq_shift, map_map. rewrite nth_map_seq; auto.
Qed.

Lemma unit_vec_ge n i : n <= i -> unit_vec n i = zeros n.
Proof.
  intros. apply vec_ext; rewrite unit_vec_length, ?zeros_length; auto. intros j Hj.
  rewrite nth_unit_vec, nth_zeros by auto. apply Nat.eqb_neq; lia.
Qed.

Lemma dot_unit_l n i v : length v = n -> dot (unit_vec n i) v = nth i v false.
Proof.
  revert n i; induction v as [|x v IH]; cbn; intros n i H; subst.
  - destruct i; reflexivity.
  - destruct i as [|i].
    + rewrite unit_vec_0. cbn. rewrite dot_zeros_l, xorb_false_r; auto.
    + rewrite unit_vec_S. cbn. rewrite IH; auto. destruct (nth i v false); auto.
Qed.

Lemma dot_unit_r n i v : length v = n -> dot v (unit_vec n i) = nth i v false.
Proof. intros; rewrite dot_comm; apply dot_unit_l; auto. Qed.

(* vecmat *)
Lemma vecmat_length n u M : wf n M -> length (vecmat n u M) = n.
Proof.
  revert M; induction u as [|x u IH]; intros [|r M] H; cbn; try apply zeros_length.
  inversion H; subst. destruct x; auto. rewrite vxor_length; auto. rewrite IH; auto.
Qed.

Lemma vecmat_zeros n k M : wf n M -> vecmat n (zeros k) M = zeros n.
Proof.
  revert M; induction k as [|k IH]; intros [|r M] H; cbn; auto. fold (zeros k). inversion H; subst; auto.
Qed.

Lemma vecmat_vxor n u v M : wf n M -> length u = length v ->
  vecmat n (vxor u v) M = vxor (vecmat n u M) (vecmat n v M).
Proof.
  revert v M; induction u as [|x u IH]; intros [|y v] [|r M] H L; cbn in *; try lia;
    try (rewrite vxor_zeros_r; auto using zeros_length; fail).
  inversion H; subst. rewrite IH by (auto; lia).
  assert (length (vecmat (length r) u M) = length r) by (apply vecmat_length; auto).
  assert (length (vecmat (length r) v M) = length r) by (apply vecmat_length; auto).
  destruct x, y; cbn; auto.
  - rewrite (vxor_comm r (vecmat _ v M)), vxor_assoc, <- (vxor_assoc _ _ r), (vxor_comm r), vxor_cancel_r; auto.
    rewrite vxor_length; congruence.
  - rewrite vxor_assoc; auto.
  - rewrite <- !vxor_assoc. rewrite (vxor_comm r); auto.
Qed.

Lemma wf_nth n M i : wf n M -> i < length M -> length (nth i M []) = n.
Proof. intros H Hi. unfold wf in H. rewrite Forall_forall in H. apply H, nth_In; auto. Qed.

Lemma wf_cons n r M : wf n (r :: M) <-> length r = n /\ wf n M.
Proof. unfold wf. rewrite Forall_cons_iff. tauto. Qed.

Lemma vecmat_unit n i M k : wf n M -> length M = k -> i < k -> vecmat n (unit_vec k i) M = nth i M [].
Proof.
  revert i k; induction M as [|r M IH]; cbn; intros i k H L Hi; [lia|].
  apply wf_cons in H as [Hr H]. destruct k as [|k]; [lia|].
  destruct i as [|i].
  - rewrite unit_vec_0. cbn [vecmat nth]. rewrite vecmat_zeros, vxor_zeros_r; auto.
  - rewrite unit_vec_S. apply IH; auto; lia.
Qed.

Lemma column_cons j r M : column j (r :: M) = nth j r false :: column j M.
Proof. reflexivity. Qed.

Lemma column_length j M : length (column j M) = length M.
Proof. apply map_length. Qed.

Lemma nth_column j M i : nth i (column j M) false = nth j (nth i M []) false.
Proof.
  unfold column. rewrite <- (map_nth (fun r => nth j r false)). destruct j; cbn; auto.
Qed.

Lemma nth_vecmat n u M j : wf n M -> nth j (vecmat n u M) false = dot u (column j M).
Proof.
  revert M; induction u as [|x u IH]; intros [|r M] H; cbn; try apply nth_zeros.
  apply wf_cons in H as [Hr H]. destruct x; cbn; [|rewrite IH by auto; destruct (dot _ _); auto].
  rewrite nth_vxor, IH by (rewrite ?vecmat_length; auto). reflexivity.
Qed.

Lemma nth_matvec M v i : nth i (matvec M v) false = dot (nth i M []) v.
Proof. unfold matvec. change false with (dot [] v) at 1. rewrite (map_nth (fun r => dot r v)). auto. Qed.

Lemma matvec_length M v : length (matvec M v) = length M.
Proof. apply map_length. Qed.

Lemma dot_vecmat n u M v : wf n M -> length v = n -> dot (vecmat n u M) v = dot u (matvec M v).
Proof.
  revert M; induction u as [|x u IH]; intros [|r M] H L; cbn; try apply dot_zeros_l.
  apply wf_cons in H as [Hr H]. destruct x; cbn.
  - rewrite dot_vxor_l, IH by (rewrite ?vecmat_length; auto). auto.
  - rewrite IH by auto. destruct (dot _ _); auto.
Qed.

Lemma matvec_vxor M u v : length u = length v -> matvec M (vxor u v) = vxor (matvec M u) (matvec M v).
Proof.
  intros L. induction M as [|r M IH]; cbn; auto. rewrite dot_vxor_r by auto. f_equal. exact IH.
Qed.

Lemma matvec_zeros M n : matvec M (zeros n) = zeros (length M).
Proof. induction M as [|r M IH]; cbn; auto. rewrite dot_zeros_r. f_equal. exact IH. Qed.

Lemma wf_matmul n A B : wf n B -> wf n (matmul n A B).
Proof.
  intros H. unfold wf, matmul. rewrite Forall_forall. intros r Hr. apply in_map_iff in Hr as (a & <- & Ha).
  apply vecmat_length; auto.
Qed.

Lemma matmul_length n A B : length (matmul n A B) = length A.
Proof. apply map_length. Qed.

Lemma nth_matmul n A B i : i < length A -> nth i (matmul n A B) [] = vecmat n (nth i A []) B.
Proof.
  intros H. unfold matmul. rewrite nth_indep with (d' := vecmat n [] B) by (rewrite map_length; auto).
  rewrite (map_nth (fun r => vecmat n r B)); auto.
Qed.

Lemma vecmat_matmul n p u A B : wf n A -> wf p B -> length B = n ->
  vecmat p u (matmul p A B) = vecmat p (vecmat n u A) B.
Proof.
  intros HA HB L. revert A HA; induction u as [|x u IH]; intros [|r A] HA; cbn;
    try (rewrite vecmat_zeros; auto; fail).
  apply wf_cons in HA as [Hr HA]. fold (matmul p A B). rewrite IH by auto.
  destruct x; auto. rewrite vecmat_vxor; auto. rewrite vecmat_length; auto.
Qed.

Lemma wf_eye n : wf n (eye n).
Proof. unfold wf, eye. rewrite Forall_forall. intros r Hr. apply in_map_iff in Hr as (i & <- & _). apply unit_vec_length. Qed.

Lemma eye_length n : length (eye n) = n.
Proof. unfold eye; rewrite map_length, seq_length; auto. Qed.

Lemma nth_eye n i : i < n -> nth i (eye n) [] = unit_vec n i.
Proof. intros. unfold eye. rewrite nth_map_seq; auto. Qed.

Lemma column_eye n j : j < n -> column j (eye n) = unit_vec n j.
Proof.
  intros H. apply vec_ext; rewrite column_length, eye_length; rewrite ?unit_vec_length; auto. intros i Hi.
  rewrite nth_column, nth_eye, !nth_unit_vec by auto. apply Nat.eqb_sym.
Qed.

Lemma vecmat_eye n u : length u = n -> vecmat n u (eye n) = u.
Proof.
  intros L. pose proof (wf_eye n) as W. apply vec_ext; rewrite vecmat_length; auto.
  intros i Hi. rewrite nth_vecmat, column_eye, dot_unit_r; auto.
Qed.

Lemma mat_ext (A B : mat) : length A = length B -> (forall i, i < length A -> nth i A [] = nth i B []) -> A = B.
Proof. intros; eapply (nth_ext _ _ [] []); eauto. Qed.

Lemma matmul_eye_r n A : wf n A -> matmul n A (eye n) = A.
Proof.
  intros H. induction A as [|r A IH]; cbn; auto. apply wf_cons in H as [Hr H].
  rewrite vecmat_eye by auto. f_equal. apply IH; auto.
Qed.

Lemma matmul_eye_l n A k : wf n A -> length A = k -> matmul n (eye k) A = A.
Proof.
  intros H L. apply mat_ext; rewrite matmul_length, eye_length; auto. intros i Hi.
  rewrite nth_matmul, nth_eye, vecmat_unit by (rewrite ?eye_length; auto). auto.
Qed.

Lemma matmul_assoc n m p A B C : wf n A -> wf m B -> wf p C -> length B = n -> length C = m ->
  matmul p (matmul m A B) C = matmul p A (matmul p B C).
Proof.
  intros HA HB HC LB LC. unfold matmul at 1 2 3. rewrite map_map. apply map_ext_in. intros r Hr.
  symmetry. apply vecmat_matmul; auto.
Qed.

Lemma transpose_length n M : length (transpose n M) = n.
Proof. unfold transpose; rewrite map_length, seq_length; auto. Qed.

Lemma wf_transpose n M : wf (length M) (transpose n M).
Proof.
  unfold wf, transpose. rewrite Forall_forall. intros r Hr. apply in_map_iff in Hr as (j & <- & _).
  apply column_length.
Qed.

Lemma nth_transpose n M j : j < n -> nth j (transpose n M) [] = column j M.
Proof. intros. unfold transpose. rewrite nth_map_seq; auto. Qed.

Lemma column_transpose n M i : wf n M -> i < length M -> column i (transpose n M) = nth i M [].
Proof.
  intros W Hi. pose proof (wf_nth _ _ _ W Hi) as L.
  apply vec_ext; rewrite column_length, transpose_length; auto. intros j Hj.
  rewrite nth_column, nth_transpose, nth_column; auto.
Qed.

(* v @ M.T is matvec M v *)
Lemma vecmat_transpose n M v : wf n M -> vecmat (length M) v (transpose n M) = matvec M v.
Proof.
  intros W. pose proof (wf_transpose n M) as W'.
  apply vec_ext; rewrite vecmat_length; auto; [rewrite matvec_length; auto|]. intros i Hi.
  rewrite nth_vecmat, column_transpose, nth_matvec, dot_comm; auto.
Qed.

Lemma transpose_involutive n M : wf n M -> transpose (length M) (transpose n M) = M.
Proof.
  intros W. apply mat_ext; rewrite transpose_length; auto. intros i Hi.
  rewrite nth_transpose, column_transpose; auto.
Qed.

Lemma matvec_eye n v : length v = n -> matvec (eye n) v = v.
Proof.
  intros L. apply vec_ext; rewrite matvec_length, eye_length; auto. intros i Hi.
  rewrite nth_matvec, nth_eye, dot_unit_l; auto.
Qed.

Lemma vecmat_app n u u' M M' : wf n M -> wf n M' -> length u = length M ->
  vecmat n (u ++ u') (M ++ M') = vxor (vecmat n u M) (vecmat n u' M').
Proof.
  revert M; induction u as [|x u IH]; intros [|r M] H H' L; cbn in *; try lia.
  - rewrite vxor_zeros_l; auto. apply vecmat_length; auto.
  - apply wf_cons in H as [Hr H]. rewrite IH by (auto; lia). destruct x; auto.
    rewrite vxor_assoc; auto.
Qed.

(* all binary words *)
Fixpoint words (n : nat) : list (list bool) :=
  match n with 0 => [[]] | S n' => map (cons false) (words n') ++ map (cons true) (words n') end.

Lemma in_words n v : In v (words n) <-> length v = n.
Proof.
  revert v; induction n as [|n IH]; intros v; cbn.
  - destruct v; cbn; split; auto; intros; try lia. destruct H; [discriminate|tauto].
  - rewrite in_app_iff, !in_map_iff. split.
    + intros [(w & <- & Hw)|(w & <- & Hw)]; apply IH in Hw; cbn; lia.
    + destruct v as [|[] v]; cbn; intros L; try lia; [right|left]; exists v; split; auto; apply IH; lia.
Qed.

Lemma words_length n : length (words n) = 2 ^ n.
Proof. induction n; cbn; auto. rewrite app_length, !map_length, IHn. lia. Qed.

Lemma NoDup_app_intro {A} (l l' : list A) : NoDup l -> NoDup l' -> (forall x, In x l -> ~ In x l') -> NoDup (l ++ l').
Proof.
  induction l as [|x l IH]; cbn; auto. intros H H' D. inversion H; subst. constructor.
  - rewrite in_app_iff. intros [Hx|Hx]; auto. apply (D x); auto.
  - apply IH; auto.
Qed.

Lemma NoDup_map_inj_in {A B} (f : A -> B) l :
  (forall x y, In x l -> In y l -> f x = f y -> x = y) -> NoDup l -> NoDup (map f l).
Proof.
  induction l as [|x l IH]; cbn; intros Hf H; constructor; inversion H; subst.
  - intros Hx. apply in_map_iff in Hx as (y & E & Hy). apply Hf in E; auto. subst; auto.
  - apply IH; auto.
Qed.

Lemma words_NoDup n : NoDup (words n).
Proof.
  induction n as [|n IH]; cbn; [repeat constructor; auto|].
  apply NoDup_app_intro; try (apply NoDup_map_inj_in; auto; intros x y _ _ E; inversion E; auto).
  intros x Hx Hx'. apply in_map_iff in Hx as (a & <- & _), Hx' as (b & E & _). discriminate.
Qed.

(* an injective map on words is onto *)
Lemma words_inj_surj n (f : vec -> vec) :
  (forall u, length u = n -> length (f u) = n) ->
  (forall u v, length u = n -> length v = n -> f u = f v -> u = v) ->
  forall w, length w = n -> exists u, length u = n /\ f u = w.
Proof.
  intros Hl Hinj w Hw.
  assert (ND : NoDup (map f (words n))).
  { apply NoDup_map_inj_in; [|apply words_NoDup]. intros x y Hx Hy. apply in_words in Hx, Hy; auto. }
  assert (I : incl (words n) (map f (words n))).
  { apply (NoDup_length_incl ND); [rewrite map_length; auto|].
    intros x Hx. apply in_map_iff in Hx as (y & <- & Hy). apply in_words in Hy. apply in_words; auto. }
  specialize (I w). rewrite in_words in I. specialize (I Hw). apply in_map_iff in I as (u & E & Hu).
  exists u; split; auto. apply in_words; auto.
Qed.

Definition vec_eq_dec := list_eq_dec bool_dec.

(* a square matrix with a left inverse has the same right inverse *)
Lemma left_inverse_right n A B : wf n A -> wf n B -> length A = n -> length B = n ->
  matmul n A B = eye n -> matmul n B A = eye n.
Proof.
  intros WA WB LA LB E.
  assert (H : forall u, length u = n -> vecmat n (vecmat n u A) B = u).
  { intros u Hu. rewrite <- vecmat_matmul, E, vecmat_eye; auto. }
  assert (S : forall w, length w = n -> exists u, length u = n /\ vecmat n u A = w).
  { apply words_inj_surj; [intros; apply vecmat_length; auto|].
    intros u v Hu Hv Q. rewrite <- (H u Hu), <- (H v Hv), Q; auto. }
  apply mat_ext; rewrite matmul_length, ?eye_length; auto. intros i Hi.
  rewrite nth_matmul, nth_eye by lia.
  destruct (S (unit_vec n i) (unit_vec_length n i)) as (u & Hu & Eu).
  rewrite <- (vecmat_unit n i B n) by (auto; lia). rewrite <- Eu, H; auto.
Qed.
