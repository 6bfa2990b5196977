(* xrref, rank, pseudo_inverse and null_matrix. *)
From Verif Require Import Common Vec_Model Vec_Proof LinAlg_Model Linear_Spec LinAlg_Proof.

(* ---- the left block of the reduced augmented matrix is the reduced matrix ---- *)
Lemma pivot_firstn n x : pivot (firstn n x) = Nat.min n (pivot x).
Proof. revert n; induction x as [|[] x IH]; intros [|n]; cbn; auto. Qed.

Lemma firstn_vxor n u v : firstn n (vxor u v) = vxor (firstn n u) (firstn n v).
Proof. revert u v; induction n as [|n IH]; intros [|x u] [|y v]; cbn; auto. rewrite IH; auto. Qed.

Lemma skipn_vxor n u v : length u = length v -> skipn n (vxor u v) = vxor (skipn n u) (skipn n v).
Proof. revert u v; induction n as [|n IH]; intros [|x u] [|y v]; cbn; intros; auto; try lia. Qed.

Lemma nth_firstn_lt {A} n (l : list A) i d : i < n -> nth i (firstn n l) d = nth i l d.
Proof. revert n i; induction l as [|x l IH]; intros [|n] [|i]; cbn; intros; try lia; auto. apply IH; lia. Qed.

Lemma map_ext_nth {A B} (f : A -> B) (l : list A) d d' : f d = d' -> forall i, nth i (map f l) d' = f (nth i l d).
Proof. intros <- i. apply map_nth. Qed.

Lemma firstn_nil_nth n (M : mat) i : nth i (map (firstn n) M) [] = firstn n (nth i M []).
Proof. apply map_ext_nth. apply firstn_nil. Qed.

Lemma left_step n m M r : n <= m -> wf m M -> r < length M ->
  map (firstn n) (rref_step m M r) = rref_step n (map (firstn n) M) r.
Proof.
  intros Hnm W Hr. set (L := map (firstn n) M). assert (LL : length L = length M) by apply map_length.
  assert (NL : forall i, nth i L [] = firstn n (nth i M [])) by (intros; apply firstn_nil_nth).
  assert (PL : forall i, pivot (nth i L []) = Nat.min n (pivot (nth i M []))).
  { intros; rewrite NL. apply pivot_firstn. }
  assert (LenM : forall i, i < length M -> length (nth i M []) = m) by (intros; apply wf_nth; auto).
  pose proof (chosen_lt M r Hr) as HC.
  destruct (le_lt_dec n (pivot (nth (chosen M r) M []))) as [Hbig|Hsmall].
  - (* every remaining row is zero on the left *)
    assert (Z : forall i, r <= i < length M -> nth i L [] = zeros n).
    { intros i Hi. assert (Q : pivot (nth i L []) = n).
      { rewrite PL. pose proof (chosen_min M r i Hi). lia. }
      assert (Ll : length (nth i L []) = n) by (rewrite NL, firstn_length, LenM; lia).
      assert (Zr : zero_row (nth i L [])) by (apply pivot_zero; lia).
      apply zero_row_zeros in Zr. rewrite Ll in Zr; auto. }
    assert (E1 : map (firstn n) (rref_step m M r) = L).
    { apply mat_ext; rewrite map_length, rref_step_length; auto. intros i Hi.
      rewrite firstn_nil_nth, rref_step_eq.
      assert (S1 : firstn n (nth i (swapped M r) []) = nth i L []).
      { rewrite nth_swapped by auto. destruct (i =? chosen M r) eqn:Q; [|destruct (i =? r) eqn:Q2].
        - apply Nat.eqb_eq in Q. subst i. rewrite <- NL, !Z by lia; auto.
        - apply Nat.eqb_eq in Q2. subst i. rewrite <- NL, !Z by lia; auto.
        - auto. }
      destruct (m <=? _); auto.
      rewrite nth_eliminated by (rewrite swapped_length; auto). destruct (_ && _); auto.
      rewrite firstn_vxor, S1.
      assert (Zr : firstn n (nth r (swapped M r) []) = zeros n).
      { rewrite nth_swapped, Nat.eqb_refl by auto. destruct (r =? chosen M r); rewrite <- NL; apply Z; lia. }
      rewrite Zr, vxor_zeros_r; auto. rewrite NL, firstn_length, LenM; lia. }
    rewrite E1. symmetry. rewrite rref_step_eq.
    assert (E2 : swapped L r = L).
    { apply mat_ext; rewrite swapped_length; auto. intros i Hi.
      pose proof (chosen_lt L r ltac:(lia)) as HC'.
      rewrite nth_swapped by lia. destruct (i =? chosen L r) eqn:Q; [|destruct (i =? r) eqn:Q2; auto].
      - apply Nat.eqb_eq in Q. subst i. rewrite !Z by lia; auto.
      - apply Nat.eqb_eq in Q2. subst i. rewrite !Z by lia; auto. }
    rewrite E2. rewrite Z by lia.
    replace (pivot (zeros n)) with n; [rewrite Nat.leb_refl; auto|].
    symmetry. rewrite <- (zeros_length n) at 2. apply pivot_zero. intros j; apply nth_zeros.
  - (* same pivot row *)
    assert (EC : chosen L r = chosen M r).
    { unfold chosen. f_equal. set (l := map pivot (skipn r M)). set (l' := map pivot (skipn r L)).
      assert (N : forall j, nth j l 0 = pivot (nth (r + j) M [])).
      { intros j. unfold l. change 0 with (pivot []) at 1. rewrite map_nth, nth_skipn'; auto. }
      assert (N' : forall j, nth j l' 0 = Nat.min n (pivot (nth (r + j) M []))).
      { intros j. unfold l'. change 0 with (pivot []) at 1. rewrite map_nth, nth_skipn'; auto. }
      assert (Ll : length l = length M - r) by (unfold l; rewrite map_length, skipn_length; auto).
      assert (Ll' : length l' = length M - r) by (unfold l'; rewrite map_length, skipn_length; auto; lia).
      unfold chosen in Hsmall. fold l in Hsmall. rewrite Nat.add_comm, <- N in Hsmall.
      assert (Ha : argmin l < length l) by (apply argmin_lt; intros Q; rewrite Q in Ll; cbn in Ll; lia).
      apply argmin_unique; [lia| |]; intros i Hi; rewrite !N', <- !N.
      - pose proof (argmin_min l i ltac:(lia)). lia.
      - pose proof (argmin_first l i Hi). lia. }
    assert (ES : map (firstn n) (swapped M r) = swapped L r).
    { unfold swapped. fold (chosen M r) (chosen L r). rewrite EC, !map_upd, !NL. auto. }
    assert (PR : pivot (nth r (swapped M r) []) = pivot (nth (chosen M r) M [])).
    { rewrite nth_swapped, Nat.eqb_refl by auto. destruct (r =? chosen M r) eqn:Q; auto. apply Nat.eqb_eq in Q. congruence. }
    assert (PR' : pivot (nth r (swapped L r) []) = pivot (nth r (swapped M r) [])).
    { rewrite <- ES, firstn_nil_nth, pivot_firstn. lia. }
    rewrite !rref_step_eq. rewrite (proj2 (Nat.leb_gt _ _)) by lia. rewrite (proj2 (Nat.leb_gt n _)) by lia.
    apply mat_ext; rewrite map_length, !eliminated_length, !swapped_length; auto. intros i Hi.
    rewrite firstn_nil_nth, !nth_eliminated by (rewrite swapped_length; lia).
    rewrite PR', <- ES, !firstn_nil_nth. rewrite nth_firstn_lt by lia.
    destruct (_ && _); auto. apply firstn_vxor.
Qed.

Lemma left_rref n m M : n <= m -> wf m M -> map (firstn n) (rref m M) = rref n (map (firstn n) M).
Proof.
  intros Hnm W. unfold rref. rewrite map_length.
  assert (G : forall k, k <= length M ->
    let X := fold_left (rref_step m) (seq 0 k) M in
    length X = length M /\ wf m X /\ map (firstn n) X = fold_left (rref_step n) (seq 0 k) (map (firstn n) M)).
  { induction k as [|k IH]; intros Hk; [cbn; auto|].
    rewrite seq_S, !fold_left_app. cbn [fold_left]. destruct IH as (HL & HW & HE); [lia|].
    rewrite Nat.add_0_l, rref_step_length. split; auto. split; [apply rref_step_wf; auto; lia|].
    rewrite left_step by (auto; lia). rewrite HE; auto. }
  apply (G (length M)); auto.
Qed.

(* ---- the augmented matrix ---- *)
Definition augment (M : mat) : mat := map (fun '(r, e) => r ++ e) (combine M (eye (length M))).

Lemma augment_length M : length (augment M) = length M.
Proof. unfold augment. rewrite map_length, combine_length, eye_length; lia. Qed.

Lemma nth_augment M i : i < length M -> nth i (augment M) [] = nth i M [] ++ unit_vec (length M) i.
Proof.
  intros H. unfold augment. rewrite (map_ext_nth _ _ ([], [])) by auto.
  rewrite combine_nth by (rewrite eye_length; auto). rewrite nth_eye; auto.
Qed.

Lemma augment_wf n M : wf n M -> wf (n + length M) (augment M).
Proof.
  intros W. unfold wf. rewrite Forall_forall. intros r Hr. apply In_nth_row in Hr as (i & Hi & <-).
  rewrite augment_length in Hi. rewrite nth_augment, app_length, unit_vec_length by auto.
  rewrite (wf_nth n); auto.
Qed.

Lemma augment_left n M : wf n M -> map (firstn n) (augment M) = M.
Proof.
  intros W. apply mat_ext; rewrite map_length, augment_length; auto. intros i Hi.
  rewrite firstn_nil_nth, nth_augment by auto. pose proof (wf_nth n M i W Hi) as L.
  rewrite <- L. apply firstn_app_exact.
Qed.

Section XR.
Variables (n : nat) (M : mat).
Hypothesis W : wf n M.

Let k := length M.
Let A := rref (n + k) (augment M).
Let P := map (skipn n) A.
Let R := map (firstn n) A.

Lemma xr_A_length : length A = k.
Proof. unfold A. rewrite rref_length, augment_length; auto. Qed.

Lemma xr_A_wf : wf (n + k) A.
Proof. apply rref_wf, augment_wf; auto. Qed.

Lemma xr_R : R = rref n M.
Proof. unfold R, A. rewrite left_rref, augment_left; auto; [lia|]. apply augment_wf; auto. Qed.

Lemma skipn_nil_nth (X : mat) i : nth i (map (skipn n) X) [] = skipn n (nth i X []).
Proof. apply map_ext_nth. apply skipn_nil. Qed.

Lemma xr_P_length : length P = k.
Proof. unfold P. rewrite map_length. apply xr_A_length. Qed.

Lemma xr_P_wf : wf k P.
Proof.
  unfold wf. rewrite Forall_forall. intros r Hr. apply in_map_iff in Hr as (a & <- & Ha).
  pose proof xr_A_wf as WA. unfold wf in WA. rewrite Forall_forall in WA. rewrite skipn_length, (WA _ Ha). lia.
Qed.

Lemma xr_PM : matmul n P M = R.
Proof.
  assert (F : Forall (fun a => length a = n + k /\ vecmat n (skipn n a) M = firstn n a) A).
  { apply rref_closed with (m := n + k).
    - intros x y E [Lx Hx] [Ly Hy]. rewrite vxor_length; auto. split; auto.
      rewrite skipn_vxor, firstn_vxor by auto.
      rewrite vecmat_vxor; auto; [congruence|]. rewrite !skipn_length; lia.
    - apply augment_wf; auto.
    - rewrite Forall_forall. intros a Ha. apply In_nth_row in Ha as (i & Hi & <-). rewrite augment_length in Hi.
      rewrite nth_augment by auto. pose proof (wf_nth n M i W Hi) as L.
      split; [rewrite app_length, unit_vec_length, L; auto|].
      rewrite <- L at 2. rewrite skipn_app_exact. rewrite <- L at 2. rewrite firstn_app_exact.
      apply vecmat_unit; auto. }
  unfold matmul, P, R. rewrite map_map. apply map_ext_in. intros a Ha.
  rewrite Forall_forall in F. apply F; auto.
Qed.

Lemma vecmat_skipn c (X : mat) m : wf (n + m) X -> skipn n (vecmat (n + m) c X) = vecmat m c (map (skipn n) X).
Proof.
  revert c; induction X as [|r X IH]; intros [|x c] HX; cbn;
    try (unfold zeros; rewrite repeat_app, skipn_app, repeat_length, Nat.sub_diag, skipn_all2 by (rewrite repeat_length; lia); reflexivity).
  apply wf_cons in HX as [Hr HX]. destruct x; auto. rewrite skipn_vxor, IH; auto. rewrite vecmat_length; auto.
Qed.

Lemma xr_P_inv : invertible k P.
Proof.
  pose proof xr_P_length as LP. pose proof xr_P_wf as WP. pose proof xr_A_wf as WA. pose proof xr_A_length as LA.
  split; auto. split; auto.
  destruct (rref_space (n + k) (n + k) (augment M) (augment_wf n M W)) as [_ H2]. fold A in H2.
  assert (C : forall i, i < k -> exists c, length c = k /\ vecmat k c P = unit_vec k i).
  { intros i Hi. specialize (H2 (nth i (augment M) [])).
    assert (Hin : In (nth i (augment M) []) (augment M)) by (apply nth_In; rewrite augment_length; auto).
    specialize (H2 Hin). apply row_space_iff in H2 as (c & Lc & E); auto. exists c. split; [lia|].
    unfold P. rewrite <- vecmat_skipn by auto. rewrite E, nth_augment by auto.
    rewrite <- (wf_nth n M i) at 1 by auto. apply skipn_app_exact. }
  assert (Q : exists Q, length Q = k /\ wf k Q /\ forall i, i < k -> vecmat k (nth i Q []) P = unit_vec k i).
  { assert (G : forall j, j <= k -> exists Q, length Q = j /\ wf k Q /\ forall i, i < j -> vecmat k (nth i Q []) P = unit_vec k i).
    { induction j as [|j IH]; intros Hj; [exists []; repeat split; auto; [constructor|intros; lia]|].
      destruct IH as (Q & LQ & WQ & HQ); [lia|]. destruct (C j ltac:(lia)) as (c & Lc & Ec).
      exists (Q ++ [c]). rewrite app_length. cbn [length]. split; [lia|]. split.
      - apply Forall_app. split; auto.
      - intros i Hi. destruct (Nat.eq_dec i j) as [->|Ne].
        + rewrite <- LQ at 1. rewrite nth_middle; auto.
        + rewrite app_nth1 by lia. apply HQ; lia. }
    apply (G k); auto. }
  destruct Q as (Q & LQ & WQ & HQ). exists Q. split; auto. split; auto.
  assert (E : matmul k Q P = eye k).
  { apply mat_ext; rewrite matmul_length, ?eye_length; auto. intros i Hi.
    rewrite nth_matmul, nth_eye by lia. apply HQ; lia. }
  split; auto. apply left_inverse_right; auto.
Qed.

(* ---- number of non-zero rows and pivots ---- *)
Lemma xr_R_wf : wf n R.
Proof. rewrite xr_R. apply rref_wf; auto. Qed.
Lemma xr_R_length : length R = k.
Proof. rewrite xr_R. apply rref_length. Qed.
Lemma xr_R_inv : inv n k R.
Proof. rewrite xr_R. apply rref_inv; auto. Qed.

End XR.

Lemma count_zero_rows n k R : wf n R -> length R = k -> inv n k R ->
  exists t, t <= k /\ (forall i, i < t -> pivot (nth i R []) < n) /\ (forall i, t <= i < k -> nth i R [] = zeros n).
Proof.
  intros W L [Ha Hc].
  assert (G : forall j, j <= k -> (forall i, i < j -> pivot (nth i R []) < n) \/
    exists t, t < j /\ (forall i, i < t -> pivot (nth i R []) < n) /\ n <= pivot (nth t R [])).
  { induction j as [|j IH]; intros Hj; [left; intros; lia|].
    destruct IH as [IH|(t & Ht & H1 & H2)]; [lia| |right; exists t; split; [lia|auto]].
    destruct (le_lt_dec n (pivot (nth j R []))) as [E|E].
    - right. exists j; auto.
    - left. intros i Hi. destruct (Nat.eq_dec i j) as [->|]; auto. apply IH; lia. }
  destruct (G k) as [H|(t & Ht & H1 & H2)]; auto.
  - exists k. split; auto. split; auto. intros; lia.
  - exists t. split; [lia|]. split; auto. intros i Hi.
    assert (Q : n <= pivot (nth i R [])).
    { destruct (Nat.eq_dec i t) as [->|]; auto. destruct (Ha t i) as [Z|[_ Z]]; try lia. }
    pose proof (pivot_le (nth i R [])) as Z. assert (Ll : length (nth i R []) = n) by (apply wf_nth; auto; lia).
    rewrite Ll in Z. rewrite <- Ll. apply zero_row_zeros. apply pivot_zero. lia.
Qed.

Definition leads (t : nat) (R : mat) : list nat := map (fun i => pivot (nth i R [])) (seq 0 t).

Lemma leads_length t R : length (leads t R) = t.
Proof. unfold leads; rewrite map_length, seq_length; auto. Qed.

Lemma nth_leads t R i d : i < t -> nth i (leads t R) d = pivot (nth i R []).
Proof. intros H. exact (nth_map_seq (fun i => pivot (nth i R [])) t i d H). Qed.

Lemma leads_firstn t t' R : t' <= t -> firstn t' (leads t R) = leads t' R.
Proof. intros. unfold leads. rewrite firstn_map, firstn_seq. f_equal. f_equal. lia. Qed.

Lemma leads_S t R : leads (S t) R = leads t R ++ [pivot (nth t R [])].
Proof. unfold leads. rewrite seq_S, map_app. reflexivity. Qed.

Lemma rref_column n k R i : wf n R -> length R = k -> inv n k R -> i < k -> pivot (nth i R []) < n ->
  column (pivot (nth i R [])) R = unit_vec k i.
Proof.
  intros W L [_ Hc] Hi Hp. apply vec_ext; rewrite column_length, ?unit_vec_length; auto. intros j Hj.
  rewrite nth_column, nth_unit_vec by lia. destruct (j =? i) eqn:E.
  - apply Nat.eqb_eq in E. subst j. apply pivot_at. rewrite (wf_nth n); auto.
  - apply Nat.eqb_neq in E. apply Hc; auto; lia.
Qed.

Lemma find_pivots n k R t : wf n R -> length R = k -> inv n k R -> t <= k ->
  (forall i, i < t -> pivot (nth i R []) < n) -> (forall i, t <= i < k -> nth i R [] = zeros n) ->
  fold_left (pivot_step R) (seq 0 n) [] = leads t R.
Proof.
  intros W L HI Ht H1 H2.
  assert (Inc : forall i j, i < j -> j < t -> pivot (nth i R []) < pivot (nth j R [])).
  { intros i j Hij Hj. destruct HI as [Ha _]. destruct (Ha i j) as [E|[E _]]; try lia. specialize (H1 i); lia. }
  assert (G : forall j, j <= n -> exists s, s <= t /\ fold_left (pivot_step R) (seq 0 j) [] = leads s R /\
     (forall i, i < s -> pivot (nth i R []) < j) /\ (s < t -> j <= pivot (nth s R []))).
  { induction j as [|j IH]; intros Hj.
    - exists 0. cbn. repeat split; auto; intros; lia.
    - destruct IH as (s & Hs & E & B1 & B2); [lia|].
      rewrite seq_S, fold_left_app, E. cbn [fold_left]. rewrite Nat.add_0_l.
      unfold pivot_step. rewrite leads_length, L.
      destruct (k <=? s) eqn:Ks.
      + apply Nat.leb_le in Ks. exists s. repeat split; auto; intros; try lia. specialize (B1 i); lia.
      + apply Nat.leb_gt in Ks. destruct (list_eq_dec _ _ _) as [EC|NC].
        * assert (Hjs : nth j (nth s R []) false = true).
          { rewrite <- nth_column, EC, nth_unit_vec, Nat.eqb_refl; auto. }
          assert (Hst : s < t).
          { destruct (le_lt_dec t s) as [Q|Q]; auto. rewrite (H2 s) in Hjs by lia. rewrite nth_zeros in Hjs. discriminate. }
          assert (Pj : pivot (nth s R []) = j).
          { specialize (B2 Hst). destruct (Nat.eq_dec (pivot (nth s R [])) j); auto.
            rewrite pivot_before in Hjs by lia. discriminate. }
          exists (S s). rewrite leads_S, Pj. repeat split; auto.
          -- intros i Hi. destruct (Nat.eq_dec i s) as [->|]; [lia|]. specialize (B1 i); lia.
          -- intros Q. specialize (Inc s (S s)). lia.
        * exists s. repeat split; auto.
          -- intros i Hi. specialize (B1 i); lia.
          -- intros Q. specialize (B2 Q). destruct (Nat.eq_dec (pivot (nth s R [])) j) as [Pj|]; [|lia].
             exfalso. apply NC. rewrite <- Pj. apply (rref_column n); auto; lia. }
  destruct (G n) as (s & Hs & E & B1 & B2); auto. rewrite E. f_equal.
  destruct (Nat.eq_dec s t); auto. specialize (H1 s). lia.
Qed.

Lemma xrref_spec n M : wf n M ->
  exists t, t <= length M /\
  let R := rref n M in
  (forall i, i < t -> pivot (nth i R []) < n) /\ (forall i, t <= i < length M -> nth i R [] = zeros n) /\
  exists P, xrref n M = (P, R, leads t R) /\ invertible (length M) P /\ matmul n P M = R.
Proof.
  intros W. pose proof (rref_wf n n M W) as WR. pose proof (rref_inv n M W) as IR.
  destruct (count_zero_rows n (length M) (rref n M)) as (t & Ht & H1 & H2); auto using rref_length.
  exists t. split; auto. cbn zeta. split; auto. split; auto.
  eexists. unfold xrref. fold (augment M). rewrite (xr_R n M W).
  rewrite (find_pivots n (length M) (rref n M) t) by (auto using rref_length).
  split; [reflexivity|]. split; [apply xr_P_inv; auto|]. rewrite <- (xr_R n M W). apply xr_PM; auto.
Qed.

(* ---- rank ---- *)
Lemma firstn_rows_injective n k R t : wf n R -> length R = k -> inv n k R -> t <= k ->
  (forall i, i < t -> pivot (nth i R []) < n) ->
  forall c i, length c = t -> i < t -> nth (pivot (nth i R [])) (vecmat n c (firstn t R)) false = nth i c false.
Proof.
  intros W L HI Ht H1 c i Lc Hi.
  assert (WF : wf n (firstn t R)).
  { unfold wf in *. rewrite Forall_forall in *. intros x Hx. apply W. rewrite <- (firstn_skipn t R). apply in_or_app; auto. }
  rewrite nth_vecmat by auto.
  assert (E : column (pivot (nth i R [])) (firstn t R) = unit_vec t i).
  { apply vec_ext; rewrite column_length, firstn_length, ?unit_vec_length; try lia. intros j Hj.
    rewrite nth_column, nth_firstn_lt, nth_unit_vec by lia.
    pose proof (rref_column n k R i W L HI ltac:(lia) (H1 i Hi)) as Q.
    rewrite <- nth_column, Q, nth_unit_vec by lia. auto. }
  rewrite E, dot_unit_r; auto.
Qed.

Lemma vecmat_drop_zeros n R t c : wf n R -> t <= length R -> (forall i, t <= i < length R -> nth i R [] = zeros n) ->
  length c = length R -> vecmat n c R = vecmat n (firstn t c) (firstn t R).
Proof.
  intros W Ht Z Lc.
  assert (G : forall X (d : vec), (forall x, In x X -> x = zeros n) -> vecmat n d X = zeros n).
  { induction X as [|x X IH]; intros [|b d] HX; cbn; auto.
    rewrite (HX x) by (left; auto). rewrite IH by (intros; apply HX; right; auto).
    destruct b; auto. rewrite vxor_zeros_r; auto. apply zeros_length. }
  rewrite <- (firstn_skipn t c) at 1. rewrite <- (firstn_skipn t R) at 1.
  assert (WF : wf n (firstn t R) /\ wf n (skipn t R)).
  { apply Forall_app. rewrite firstn_skipn. exact W. }
  destruct WF as [WF WS]. rewrite vecmat_app; auto; [|rewrite !firstn_length; lia].
  rewrite (G (skipn t R)).
  - apply vxor_zeros_r. apply vecmat_length; auto.
  - intros x Hx. apply In_nth_row in Hx as (i & Hi & <-). rewrite skipn_length in Hi.
    rewrite nth_skipn'. apply Z. lia.
Qed.

Lemma independent_card n B : wf n B -> independent n B -> has_card (row_space n B) (2 ^ length B).
Proof.
  intros W I. exists (map (fun c => vecmat n c B) (words (length B))). split; [|split].
  - apply NoDup_map_inj_in; [|apply words_NoDup]. intros x y Hx Hy E. apply in_words in Hx, Hy.
    apply vxor_eq_zeros; [congruence|]. rewrite Hx. apply I; [rewrite vxor_length; congruence|].
    rewrite vecmat_vxor by (auto; congruence). rewrite E, vxor_self, vecmat_length; auto.
  - rewrite map_length, words_length; auto.
  - intros x. rewrite in_map_iff, row_space_iff by auto. split.
    + intros (c & E & Hc). apply in_words in Hc. exists c; auto.
    + intros (c & Lc & E). exists c. split; auto. apply in_words; auto.
Qed.

Lemma has_card_unique {A} (S : A -> Prop) a b : has_card S a -> has_card S b -> a = b.
Proof.
  intros (l & N & <- & H) (l' & N' & <- & H').
  apply Nat.le_antisymm; apply NoDup_incl_length; auto; intros x Hx; [apply H', H|apply H, H']; auto.
Qed.

Lemma has_card_ext {A} (S T : A -> Prop) a : (forall x, S x <-> T x) -> has_card S a -> has_card T a.
Proof. intros E (l & N & L & H). exists l. split; auto. split; auto. intros x. rewrite H. apply E. Qed.

Lemma pow2_inj a b : 2 ^ a = 2 ^ b -> a = b.
Proof. intros H. apply (Nat.pow_inj_r 2); auto. Qed.

(* basis of the row space given by xrref *)
Lemma rank_spec n M : wf n M ->
  exists B, wf n B /\ length B = rank n M /\ independent n B /\ B = firstn (rank n M) (rref n M) /\
    (forall v, row_space n M v <-> row_space n B v) /\ rank n M <= length M /\ rank n M <= n /\
    (forall i, i < rank n M -> ~ zero_row (nth i (rref n M) [])) /\
    (forall i, rank n M <= i < length M -> zero_row (nth i (rref n M) [])).
Proof.
  intros W. destruct (xrref_spec n M W) as (t & Ht & H1 & H2 & P & E & IP & EP). cbn zeta in *.
  assert (Er : rank n M = t) by (unfold rank; rewrite E, leads_length; auto). rewrite Er.
  set (R := rref n M) in *. assert (WR : wf n R) by (apply rref_wf; auto).
  assert (LR : length R = length M) by apply rref_length.
  assert (IR : inv n (length M) R) by (apply rref_inv; auto).
  assert (WF : wf n (firstn t R)).
  { unfold wf in *. rewrite Forall_forall in *. intros x Hx. apply WR. rewrite <- (firstn_skipn t R). apply in_or_app; auto. }
  assert (LF : length (firstn t R) = t) by (rewrite firstn_length; lia).
  exists (firstn t R). split; auto. split; auto. split; [|split; auto; split].
  - intros c Lc Z. rewrite LF in *. apply vec_ext; rewrite ?zeros_length; auto. intros i Hi.
    rewrite <- (firstn_rows_injective n (length M) R t WR LR IR Ht H1 c i) by lia. rewrite Z, !nth_zeros; auto.
  - intros v. rewrite (rref_row_space n n M v W). fold R. rewrite !row_space_iff by auto. split.
    + intros (c & Lc & Ec). exists (firstn t c). split; [rewrite !firstn_length; lia|].
      rewrite <- vecmat_drop_zeros; auto; try lia. rewrite LR; auto.
    + intros (c & Lc & Ec). exists (c ++ zeros (length M - t)).
      assert (Lz : length (c ++ zeros (length M - t)) = length R) by (rewrite app_length, zeros_length; lia).
      split; auto. rewrite (vecmat_drop_zeros n R t); auto; try lia; [|rewrite LR; auto].
      rewrite LF in Lc. rewrite <- Lc at 1. rewrite firstn_app_exact; auto.
  - split; auto. split.
    + assert (ND : NoDup (leads t R)).
      { apply (NoDup_nth _ 0). rewrite leads_length. intros i j Hi Hj. rewrite !nth_leads by auto. intros Q.
        destruct (Nat.eq_dec i j); auto. destruct IR as [Ha _]. pose proof (H1 i Hi). pose proof (H1 j Hj).
        destruct (lt_dec i j); [destruct (Ha i j); lia|destruct (Ha j i); lia]. }
      assert (I : incl (leads t R) (seq 0 n)).
      { intros x Hx. apply In_nth with (d := 0) in Hx as (i & Hi & <-). rewrite leads_length in Hi.
        rewrite nth_leads by auto. apply in_seq. specialize (H1 i Hi). lia. }
      apply NoDup_incl_length in I; auto. rewrite leads_length, seq_length in I. auto.
    + split.
      * intros i Hi Z. apply pivot_zero in Z. rewrite (wf_nth n) in Z by (auto; lia). specialize (H1 i Hi). lia.
      * intros i Hi. rewrite H2 by auto. intros j; apply nth_zeros.
Qed.

Lemma rank_full_independent n M : wf n M -> (rank n M = length M <-> independent n M).
Proof.
  intros W. destruct (rank_spec n M W) as (B & WB & LB & IB & _ & EB & Hr & _).
  pose proof (independent_card n B WB IB) as CB.
  apply (has_card_ext _ (row_space n M)) in CB; [|intros; symmetry; apply EB]. rewrite LB in CB.
  split.
  - intros E c Lc Z.
    (* the map c |-> c M is onto a set of size 2^k, hence injective *)
    destruct (vec_eq_dec c (zeros (length M))) as [Q|Q]; auto. exfalso.
    destruct CB as (l & ND & Ll & Hl).
    set (ws := filter (fun w => negb (if vec_eq_dec w c then true else false)) (words (length M))).
    assert (I : incl l (map (fun w => vecmat n w M) ws)).
    { intros v Hv. apply Hl in Hv. apply row_space_iff in Hv as (w & Lw & Ew); auto.
      apply in_map_iff. destruct (vec_eq_dec w c) as [->|Nw].
      - exists (zeros (length M)). split; [rewrite vecmat_zeros; congruence|].
        apply filter_In. split; [apply in_words, zeros_length|]. destruct (vec_eq_dec _ _); auto; congruence.
      - exists w. split; auto. apply filter_In. split; [apply in_words; auto|]. destruct (vec_eq_dec _ _); auto; congruence. }
    apply NoDup_incl_length in I; auto. rewrite map_length, Ll, E in I.
    assert (Lws : length ws < 2 ^ length M).
    { rewrite <- words_length. assert (Ic : In c (words (length M))) by (apply in_words; auto).
      assert (J : forall L, In c L -> length (filter (fun w => negb (if vec_eq_dec w c then true else false)) L) < length L).
      { assert (K : forall (f : vec -> bool) L, length (filter f L) <= length L)
          by (intros f L; induction L as [|z L IHL]; cbn; auto; destruct (f z); cbn; lia).
        induction L as [|x L IHL]; [intros []|]. intros HL. cbn [filter length].
        destruct (vec_eq_dec x c) as [->|Nx]; cbn [negb]; [apply Nat.lt_succ_r, K|].
        cbn [length]. destruct HL as [|HL]; [congruence|]. specialize (IHL HL). lia. }
      apply J; auto. }
    lia.
  - intros I. apply pow2_inj. eapply has_card_unique; [exact CB|]. apply independent_card; auto.
Qed.

(* ---- pseudo inverse ---- *)
Definition place (k : nat) (ps : list nat) (init : mat) : mat :=
  fold_left (fun R '(t, p) => upd p (unit_vec k t) R) (combine (seq 0 (length ps)) ps) init.

Lemma place_spec k : forall (l : list (nat * nat)) init, NoDup (map snd l) ->
  (forall t p, In (t, p) l -> p < length init) ->
  let X := fold_left (fun R '(t, p) => upd p (unit_vec k t) R) l init in
  length X = length init /\
  (forall t p, In (t, p) l -> nth p X [] = unit_vec k t) /\
  (forall p, ~ In p (map snd l) -> nth p X [] = nth p init []).
Proof.
  induction l as [|[t p] l IH]; intros init ND HB; cbn [fold_left map snd] in *.
  - split; auto. split; auto. intros ? ? [].
  - inversion ND; subst. destruct (IH (upd p (unit_vec k t) init)) as (L & H1' & H2'); auto.
    { intros t' p' Hin. rewrite upd_length. apply (HB t' p'). right; auto. }
    cbn zeta in *. rewrite upd_length in L. split; auto. split.
    + intros t' p' [E|Hin]; [|apply H1'; auto]. inversion E; subst.
      rewrite H2' by auto. rewrite nth_upd, Nat.eqb_refl; auto. apply (HB t' p'). left; auto.
    + intros p' Hp'. rewrite H2' by (intros Z; apply Hp'; right; auto). rewrite nth_upd; [|apply (HB t p); left; auto].
      destruct (p' =? p) eqn:E; auto. apply Nat.eqb_eq in E. exfalso; apply Hp'; left; auto.
Qed.

Lemma map_snd_combine {A B} (l : list A) (l' : list B) : length l = length l' -> map snd (combine l l') = l'.
Proof. revert l'; induction l as [|x l IH]; intros [|y l']; cbn; intros; auto; try lia. rewrite IH; auto. Qed.

Lemma in_combine_seq (l : list nat) t p : In (t, p) (combine (seq 0 (length l)) l) <-> t < length l /\ nth t l 0 = p.
Proof.
  split.
  - intros H. apply (In_nth _ _ (0, 0)) in H as (i & Hi & E). rewrite combine_length, seq_length in Hi.
    rewrite combine_nth in E by (rewrite seq_length; auto). rewrite nth_seq in E by lia. inversion E; subst. split; auto; lia.
  - intros [Ht <-]. assert (E : (t, nth t l 0) = nth t (combine (seq 0 (length l)) l) (0, 0)).
    { rewrite combine_nth by (rewrite seq_length; auto). rewrite nth_seq by auto. auto. }
    rewrite E. apply nth_In. rewrite combine_length, seq_length; lia.
Qed.

Lemma wf_repeat_zeros k n : wf k (repeat (zeros k) n).
Proof. unfold wf. rewrite Forall_forall. intros x Hx. apply repeat_spec in Hx. subst. apply zeros_length. Qed.

Section PInv.
Variables (n : nat) (M : mat).
Hypothesis W : wf n M.
Let k := length M.

Lemma pinv_spec : exists t P E, let R := rref n M in
  t = rank n M /\ t <= k /\ invertible k P /\ matmul n P M = R /\ wf k E /\ length E = n /\
  pseudo_inverse n M = matmul k E P /\
  (forall i, i < t -> vecmat k (nth i R []) E = unit_vec k i) /\
  (forall i, t <= i < k -> nth i R [] = zeros n).
Proof.
  destruct (xrref_spec n M W) as (t & Ht & H1 & H2 & P & Ex & IP & EP). cbn zeta in *. fold k in Ht, H2, IP.
  set (R := rref n M) in *. assert (WR : wf n R) by (apply rref_wf; auto).
  assert (LR : length R = k) by apply rref_length.
  assert (IR : inv n k R) by (apply rref_inv; auto).
  assert (Er : rank n M = t) by (unfold rank; rewrite Ex, leads_length; auto).
  assert (ND : NoDup (leads t R)).
  { apply (NoDup_nth _ 0). rewrite leads_length. intros i j Hi Hj. rewrite !nth_leads by auto. intros Q.
    destruct (Nat.eq_dec i j); auto. destruct IR as [Ha _]. pose proof (H1 i Hi). pose proof (H1 j Hj).
    destruct (lt_dec i j); [destruct (Ha i j); lia|destruct (Ha j i); lia]. }
  set (E := place k (leads t R) (repeat (zeros k) n)).
  assert (PS := place_spec k (combine (seq 0 (length (leads t R))) (leads t R)) (repeat (zeros k) n)).
  rewrite map_snd_combine in PS by (rewrite seq_length; auto).
  destruct PS as (LE & E1 & E2); auto.
  { intros s p Hin. apply in_combine_seq in Hin as [Hs <-]. rewrite leads_length in Hs.
    rewrite repeat_length, nth_leads by auto. apply H1; auto. }
  cbn zeta in *. fold (place k (leads t R) (repeat (zeros k) n)) in LE, E1, E2. fold E in LE, E1, E2.
  rewrite repeat_length in LE.
  assert (F1 : forall s, s < t -> nth (pivot (nth s R [])) E [] = unit_vec k s).
  { intros s Hs. apply E1. apply in_combine_seq. rewrite leads_length, nth_leads; auto. }
  assert (F2 : forall p, p < n -> ~ In p (leads t R) -> nth p E [] = zeros k).
  { intros p Hp Hin. rewrite E2 by auto. rewrite (nth_indep _ _ (zeros k)) by (rewrite repeat_length; auto). apply nth_repeat. }
  assert (WE : wf k E).
  { unfold wf. rewrite Forall_forall. intros x Hx. apply In_nth_row in Hx as (p & Hp & <-). rewrite LE in Hp.
    destruct (in_dec Nat.eq_dec p (leads t R)) as [I|I].
    - apply In_nth with (d := 0) in I as (s & Hs & <-). rewrite leads_length in Hs.
      rewrite nth_leads, F1 by auto. apply unit_vec_length.
    - rewrite F2; auto. apply zeros_length. }
  exists t, P, E. cbn zeta. assert (IP2 := IP). destruct IP2 as (IP1 & IP2 & IP3). repeat apply conj; auto using eq_sym.
  - unfold pseudo_inverse. rewrite Ex, leads_length. destruct (t =? 0) eqn:T0.
    + apply Nat.eqb_eq in T0.
      assert (E0 : E = repeat (zeros k) n) by (unfold E, place; rewrite T0; reflexivity).
      fold k. rewrite E0. symmetry. destruct IP as (WP & LP & _).
      unfold matmul. clear - WP. induction n as [|m IH]; cbn; auto.
      fold (zeros k). rewrite vecmat_zeros by auto. rewrite IH; auto.
    + unfold E, place; rewrite leads_length; reflexivity.
  - intros i Hi. apply vec_ext; rewrite vecmat_length, ?unit_vec_length; auto. intros j Hj.
    rewrite nth_vecmat by auto.
    (* column j of E is the indicator of the pivot of row j (if j < t) *)
    destruct (le_lt_dec t j) as [Htj|Htj].
    + assert (C : column j E = zeros n).
      { apply vec_ext; rewrite column_length, ?zeros_length; auto. intros p Hp. rewrite nth_column, nth_zeros.
        destruct (in_dec Nat.eq_dec p (leads t R)) as [I|I].
        - apply In_nth with (d := 0) in I as (s & Hs & <-). rewrite leads_length in Hs.
          rewrite nth_leads, F1, nth_unit_vec by auto. apply Nat.eqb_neq. lia.
        - rewrite F2 by (auto; lia). apply nth_zeros. }
      rewrite C, dot_zeros_r, nth_unit_vec by auto. symmetry. apply Nat.eqb_neq. lia.
    + assert (C : column j E = unit_vec n (pivot (nth j R []))).
      { apply vec_ext; rewrite column_length, ?unit_vec_length; auto. intros p Hp. rewrite nth_column.
        rewrite nth_unit_vec by lia.
        destruct (in_dec Nat.eq_dec p (leads t R)) as [I|I].
        - apply In_nth with (d := 0) in I as (s & Hs & Es). rewrite leads_length in Hs.
          rewrite nth_leads in Es by auto. subst p. rewrite F1, nth_unit_vec by auto.
          destruct (j =? s) eqn:Q.
          + apply Nat.eqb_eq in Q. subst s. symmetry. apply Nat.eqb_refl.
          + symmetry. apply Nat.eqb_neq. apply Nat.eqb_neq in Q. intros Z. apply Q.
            apply (proj1 (NoDup_nth (leads t R) 0) ND); rewrite ?leads_length; auto. rewrite !nth_leads; auto.
        - rewrite F2 by (auto; lia). rewrite nth_zeros. symmetry. apply Nat.eqb_neq. intros ->. apply I.
          rewrite <- (nth_leads t R j 0) by auto. apply nth_In. rewrite leads_length; auto. }
      rewrite C, dot_unit_r by (apply wf_nth; auto; lia).
      rewrite <- nth_column. rewrite (rref_column n k R j) by (auto; lia).
      rewrite !nth_unit_vec by lia. apply Nat.eqb_sym.
Qed.

(* generalised inverse: M X M = M *)
Lemma pinv_mxm : matmul n (matmul k M (pseudo_inverse n M)) M = M.
Proof.
  destruct pinv_spec as (t & P & E & Et & Ht & (WP & LP & Q & WQ & LQ & QP & PQ) & PM & WE & LE & -> & H1 & H2).
  set (R := rref n M) in *. assert (WR : wf n R) by (apply rref_wf; auto).
  assert (LR : length R = k) by apply rref_length.
  assert (EM : M = matmul n Q R).
  { rewrite <- PM, <- (matmul_assoc k k n), QP, matmul_eye_l; auto. }
  assert (RER : matmul n (matmul k R E) R = R).
  { apply mat_ext; rewrite !matmul_length; auto. intros i Hi. rewrite LR in Hi.
    rewrite !nth_matmul by (rewrite ?matmul_length; lia).
    destruct (le_lt_dec t i) as [Hti|Hti].
    - rewrite H2, vecmat_zeros, vecmat_zeros by (auto; lia). auto.
    - rewrite H1 by auto. apply vecmat_unit; auto. }
  assert (WEP : wf k (matmul k E P)) by (apply wf_matmul; auto).
  assert (WMX : wf k (matmul k M (matmul k E P))) by (apply wf_matmul; auto).
  rewrite (matmul_assoc n k n) by (auto; rewrite ?matmul_length; auto).
  rewrite (matmul_assoc k k n E P M) by auto. rewrite PM.
  rewrite EM at 1. rewrite (matmul_assoc k n n Q R) by (auto using wf_matmul; rewrite ?matmul_length; auto).
  rewrite <- (matmul_assoc n k n R E R) by auto. rewrite RER. auto.
Qed.

(* right inverse *)
Lemma pinv_right : rank n M = k -> matmul k M (pseudo_inverse n M) = eye k.
Proof.
  intros Rk.
  destruct pinv_spec as (t & P & E & Et & Ht & (WP & LP & Q & WQ & LQ & QP & PQ) & PM & WE & LE & -> & H1 & H2).
  set (R := rref n M) in *. assert (WR : wf n R) by (apply rref_wf; auto).
  assert (LR : length R = k) by apply rref_length.
  assert (EM : M = matmul n Q R).
  { rewrite <- PM, <- (matmul_assoc k k n), QP, matmul_eye_l; auto. }
  assert (RE : matmul k R E = eye k).
  { apply mat_ext; rewrite matmul_length, ?eye_length; auto. intros i Hi.
    rewrite nth_matmul, nth_eye by lia. apply H1; lia. }
  rewrite EM at 1. rewrite (matmul_assoc k n k Q R) by (auto using wf_matmul; rewrite ?matmul_length; auto).
  rewrite <- (matmul_assoc n k k R E P) by auto. rewrite RE, matmul_eye_l; auto.
Qed.

Lemma pinv_shape : wf k (pseudo_inverse n M) /\ length (pseudo_inverse n M) = n.
Proof.
  destruct pinv_spec as (t & P & E & Et & Ht & (WP & LP & _) & PM & WE & LE & -> & H1 & H2).
  split; [apply wf_matmul; auto|rewrite matmul_length; auto].
Qed.
End PInv.
