(* Row reduction over GF(2). *)
From Verif Require Import Common Vec_Model Vec_Proof LinAlg_Model Linear_Spec.

(* ---- row space as combinations ---- *)
Lemma row_space_length n M v : wf n M -> row_space n M v -> length v = n.
Proof.
  intros W H. induction H as [|r v Hr H IH]; [apply zeros_length|].
  unfold wf in W; rewrite Forall_forall in W. rewrite vxor_length; rewrite (W r Hr); auto.
Qed.

Lemma row_space_sub n M M' v : incl M M' -> row_space n M v -> row_space n M' v.
Proof. intros I H; induction H; [constructor|constructor 2; auto]. Qed.

Lemma row_space_vxor n M u v : wf n M -> row_space n M u -> row_space n M v -> row_space n M (vxor u v).
Proof.
  intros W Hu Hv. induction Hu as [|r u Hr Hu IH].
  - rewrite vxor_zeros_l; auto. eapply row_space_length; eauto.
  - rewrite vxor_assoc. constructor 2; auto.
Qed.

Lemma row_space_vecmat n M u : wf n M -> row_space n M (vecmat n u M).
Proof.
  revert M; induction u as [|x u IH]; intros [|r M] W; cbn; try constructor.
  apply wf_cons in W as [Hr W]. specialize (IH M W).
  apply (row_space_sub _ _ (r :: M)) in IH; [|intros z Hz; right; auto].
  destruct x; auto. constructor 2; auto. left; auto.
Qed.

Lemma In_nth_row (M : mat) r : In r M -> exists i, i < length M /\ nth i M [] = r.
Proof. intros H. apply In_nth with (d := []) in H. exact H. Qed.

Lemma row_space_iff n M v : wf n M ->
  (row_space n M v <-> exists c, length c = length M /\ vecmat n c M = v).
Proof.
  intros W. split.
  - intros H. induction H as [|r v Hr H IH].
    + exists (zeros (length M)). rewrite zeros_length, vecmat_zeros; auto.
    + destruct IH as (c & Lc & E). apply In_nth_row in Hr as (i & Hi & Er).
      exists (vxor (unit_vec (length M) i) c).
      rewrite vxor_length, vecmat_vxor, vecmat_unit, E, Er, unit_vec_length; auto;
        rewrite unit_vec_length; auto.
  - intros (c & _ & <-). apply row_space_vecmat; auto.
Qed.

Lemma row_space_in n M r : wf n M -> In r M -> row_space n M r.
Proof.
  intros W H. rewrite <- (vxor_zeros_r r n).
  - constructor 2; auto. constructor.
  - unfold wf in W; rewrite Forall_forall in W; auto.
Qed.

Lemma row_space_trans n M M' v : wf n M -> (forall r, In r M' -> row_space n M r) ->
  row_space n M' v -> row_space n M v.
Proof. intros W I H; induction H; [constructor|apply row_space_vxor; auto]. Qed.

(* ---- pivot ---- *)
Lemma pivot_le row : pivot row <= length row.
Proof. induction row as [|[] row IH]; cbn; lia. Qed.

Lemma pivot_before row j : j < pivot row -> nth j row false = false.
Proof. revert j; induction row as [|[] row IH]; cbn; intros j H; try lia. destruct j; auto. apply IH; lia. Qed.

Lemma pivot_at row : pivot row < length row -> nth (pivot row) row false = true.
Proof. induction row as [|[] row IH]; cbn; intros H; try lia; auto with arith. Qed.

Lemma pivot_gt row g : (forall j, j <= g -> nth j row false = false) -> g < length row -> g < pivot row.
Proof.
  intros H L. destruct (le_lt_dec (pivot row) g) as [E|E]; auto.
  assert (Q : nth (pivot row) row false = true) by (apply pivot_at; lia).
  rewrite H in Q; auto. discriminate.
Qed.

Lemma pivot_eq row g : nth g row false = true -> (forall j, j < g -> nth j row false = false) -> pivot row = g.
Proof.
  intros H1 H2. destruct (lt_eq_lt_dec (pivot row) g) as [[E|E]|E]; auto.
  - assert (L : g < length row).
    { destruct (le_lt_dec (length row) g) as [L|L]; auto. rewrite nth_overflow in H1 by auto. discriminate. }
    assert (Q : nth (pivot row) row false = true) by (apply pivot_at; lia). rewrite H2 in Q; auto. discriminate.
  - apply pivot_before in E. congruence.
Qed.

Lemma pivot_leading row j : leading row j <-> (j < length row /\ pivot row = j).
Proof.
  split.
  - intros [H1 H2]. split; [|apply pivot_eq; auto].
    destruct (le_lt_dec (length row) j) as [L|L]; auto. rewrite nth_overflow in H1 by auto. discriminate.
  - intros [L <-]. split; [apply pivot_at; auto|]. intros; apply pivot_before; auto.
Qed.

Lemma pivot_zero row : zero_row row <-> pivot row = length row.
Proof.
  split.
  - intros H. pose proof (pivot_le row). destruct (Nat.eq_dec (pivot row) (length row)); auto.
    assert (E : nth (pivot row) row false = true) by (apply pivot_at; lia). rewrite H in E. discriminate.
  - intros E j. destruct (le_lt_dec (length row) j); [apply nth_overflow; auto|apply pivot_before; lia].
Qed.

Lemma zero_row_zeros row : zero_row row <-> row = zeros (length row).
Proof.
  split.
  - intros H. apply vec_ext; [rewrite zeros_length; auto|]. intros; rewrite H, nth_zeros; auto.
  - intros E j. rewrite E. apply nth_zeros.
Qed.

(* ---- argmin ---- *)
Lemma argmin_lt l : l <> [] -> argmin l < length l.
Proof.
  induction l as [|x l IH]; [congruence|]. intros _. cbn [argmin]. destruct l as [|y l]; [cbn; lia|].
  specialize (IH ltac:(discriminate)). destruct (x <=? _); cbn [length] in *; lia.
Qed.

Lemma argmin_min l i : i < length l -> nth (argmin l) l 0 <= nth i l 0.
Proof.
  revert i; induction l as [|x l IH]; intros i H; [cbn in H; lia|]. cbn [argmin].
  destruct l as [|y l]; [destruct i; cbn in *; [auto|lia]|].
  destruct (x <=? nth (argmin (y :: l)) (y :: l) 0) eqn:E.
  - apply Nat.leb_le in E. destruct i as [|i]; [auto|]. change (x <= nth i (y :: l) 0). cbn [length] in H.
    etransitivity; [exact E|]. apply (IH i). cbn [length]; lia.
  - apply Nat.leb_gt in E. change (nth (argmin (y :: l)) (y :: l) 0 <= nth i (x :: y :: l) 0).
    destruct i as [|i]; [change (nth 0 (x :: y :: l) 0) with x; lia|].
    apply (IH i). cbn [length] in *; lia.
Qed.

Lemma argmin_first l i : i < argmin l -> nth (argmin l) l 0 < nth i l 0.
Proof.
  revert i; induction l as [|x l IH]; intros i H; [cbn in H; lia|]. cbn [argmin] in *.
  destruct l as [|y l]; [lia|].
  destruct (x <=? nth (argmin (y :: l)) (y :: l) 0) eqn:E; [lia|].
  apply Nat.leb_gt in E. destruct i as [|i]; [exact E|].
  change (nth (S (argmin (y :: l))) (x :: y :: l) 0) with (nth (argmin (y :: l)) (y :: l) 0).
  change (nth (S i) (x :: y :: l) 0) with (nth i (y :: l) 0). apply IH; lia.
Qed.

Lemma argmin_unique l p : p < length l -> (forall i, i < length l -> nth p l 0 <= nth i l 0) ->
  (forall i, i < p -> nth p l 0 < nth i l 0) -> argmin l = p.
Proof.
  intros Hp H1 H2. assert (Ha : argmin l < length l) by (apply argmin_lt; destruct l; cbn in *; [lia|discriminate]).
  destruct (lt_eq_lt_dec (argmin l) p) as [[E|E]|E]; auto.
  - specialize (H2 _ E). pose proof (argmin_min l p Hp). lia.
  - pose proof (argmin_first l p E). specialize (H1 _ Ha). lia.
Qed.

(* ---- upd ---- *)
Lemma upd_length {A} i (x : A) l : length (upd i x l) = length l.
Proof. revert i; induction l as [|y l IH]; intros [|i]; cbn; auto. Qed.

Lemma nth_upd {A} i j (x d : A) l : i < length l -> nth j (upd i x l) d = if j =? i then x else nth j l d.
Proof. revert i j; induction l as [|y l IH]; intros [|i] [|j]; cbn; intros; try lia; auto. apply IH; lia. Qed.

Lemma upd_ge {A} i (x : A) l : length l <= i -> upd i x l = l.
Proof. revert i; induction l as [|y l IH]; intros [|i]; cbn; intros; try lia; auto. rewrite IH; auto; lia. Qed.

Lemma map_upd {A B} (f : A -> B) i x l : map f (upd i x l) = upd i (f x) (map f l).
Proof. revert i; induction l as [|y l IH]; intros [|i]; cbn; auto. rewrite IH; auto. Qed.

(* ---- one step ---- *)
Definition swapped (M : mat) (r : nat) : mat :=
  let p := argmin (map pivot (skipn r M)) + r in upd p (nth r M []) (upd r (nth p M []) M).

Definition chosen (M : mat) (r : nat) : nat := argmin (map pivot (skipn r M)) + r.

Lemma nth_skipn' {A} r (l : list A) i d : nth i (skipn r l) d = nth (r + i) l d.
Proof. revert r; induction l as [|x l IH]; intros [|r]; cbn; auto. - destruct i; auto. Qed.

Lemma chosen_lt M r : r < length M -> r <= chosen M r < length M.
Proof.
  intros H. unfold chosen.
  assert (argmin (map pivot (skipn r M)) < length (map pivot (skipn r M))).
  { apply argmin_lt. intros E. apply (f_equal (@length _)) in E. rewrite map_length, skipn_length in E. cbn in E; lia. }
  rewrite map_length, skipn_length in H0. lia.
Qed.

Lemma chosen_min M r i : r <= i < length M -> pivot (nth (chosen M r) M []) <= pivot (nth i M []).
Proof.
  intros H. unfold chosen. set (l := map pivot (skipn r M)).
  assert (L : length l = length M - r) by (unfold l; rewrite map_length, skipn_length; auto).
  assert (N : forall j, nth j l 0 = pivot (nth (r + j) M [])).
  { intros j. unfold l. change 0 with (pivot []) at 1. rewrite map_nth, nth_skipn'; auto. }
  pose proof (argmin_min l (i - r)) as Hm. rewrite !N in Hm.
  replace (r + (i - r)) with i in Hm by lia. rewrite Nat.add_comm. apply Hm. lia.
Qed.

Lemma swapped_length M r : length (swapped M r) = length M.
Proof. unfold swapped; rewrite !upd_length; auto. Qed.

Lemma nth_swapped M r i : r < length M ->
  nth i (swapped M r) [] = if i =? chosen M r then nth r M [] else if i =? r then nth (chosen M r) M [] else nth i M [].
Proof.
  intros H. pose proof (chosen_lt M r H). unfold swapped. fold (chosen M r). rewrite nth_upd by (rewrite upd_length; lia).
  destruct (i =? chosen M r); auto. rewrite nth_upd; auto.
Qed.

Definition eliminated (M : mat) (r : nat) : mat :=
  map (eliminate r (pivot (nth r M [])) (nth r M [])) (combine (seq 0 (length M)) M).

Lemma eliminated_length M r : length (eliminated M r) = length M.
Proof. unfold eliminated. rewrite map_length, combine_length, seq_length; lia. Qed.

Lemma nth_eliminated M r i : i < length M ->
  nth i (eliminated M r) [] =
  if negb (i =? r) && nth (pivot (nth r M [])) (nth i M []) false then vxor (nth i M []) (nth r M []) else nth i M [].
Proof.
  intros H. unfold eliminated.
  rewrite nth_indep with (d' := eliminate r (pivot (nth r M [])) (nth r M []) (0, []))
    by (rewrite map_length, combine_length, seq_length; lia).
  rewrite map_nth, combine_nth by (rewrite seq_length; auto). rewrite nth_seq by auto. reflexivity.
Qed.

Lemma rref_step_eq n M r : rref_step n M r =
  if n <=? pivot (nth r (swapped M r) []) then swapped M r else eliminated (swapped M r) r.
Proof. reflexivity. Qed.

Lemma rref_step_length n M r : length (rref_step n M r) = length M.
Proof. rewrite rref_step_eq. destruct (n <=? _); rewrite ?eliminated_length, swapped_length; auto. Qed.

Lemma in_by_nth (M : mat) x : (exists i, i < length M /\ nth i M [] = x) <-> In x M.
Proof. split; [intros (i & H & <-); apply nth_In; auto|apply In_nth_row]. Qed.

(* swapping permutes the rows *)
Lemma swapped_in M r x : r < length M -> (In x (swapped M r) <-> In x M).
Proof.
  intros H. pose proof (chosen_lt M r H). rewrite <- !in_by_nth, swapped_length. split; intros (i & Hi & E).
  - rewrite nth_swapped in E by auto. destruct (i =? chosen M r); [exists r; auto|].
    destruct (i =? r); [exists (chosen M r); split; [lia|auto]|exists i; auto].
  - destruct (Nat.eq_dec i r) as [->|N]; [|destruct (Nat.eq_dec i (chosen M r)) as [->|N']].
    + exists (chosen M r). split; [lia|]. rewrite nth_swapped, Nat.eqb_refl; auto.
    + exists r. split; [lia|]. rewrite nth_swapped, Nat.eqb_refl by auto.
      destruct (r =? chosen M r) eqn:Q; auto. apply Nat.eqb_eq in Q. lia.
    + exists i. split; auto. rewrite nth_swapped by auto.
      rewrite (proj2 (Nat.eqb_neq _ _) N), (proj2 (Nat.eqb_neq _ _) N'); auto.
Qed.

(* a property of rows closed under xor is preserved *)
Lemma eliminated_closed (Q : vec -> Prop) M r : r < length M ->
  (forall x y, In x M -> In y M -> Q x -> Q y -> Q (vxor x y)) ->
  Forall Q M -> Forall Q (eliminated M r).
Proof.
  intros H C F. rewrite Forall_forall in *. intros x Hx. apply In_nth_row in Hx as (i & Hi & <-).
  rewrite eliminated_length in Hi. rewrite nth_eliminated by auto.
  assert (In (nth i M []) M) by (apply nth_In; auto). assert (In (nth r M []) M) by (apply nth_In; auto).
  destruct (_ && _); auto.
Qed.

Lemma rref_step_closed n (Q : vec -> Prop) M r : r < length M ->
  (forall x y, length x = length y -> Q x -> Q y -> Q (vxor x y)) -> forall m, wf m M ->
  Forall Q M -> Forall Q (rref_step n M r).
Proof.
  intros H C m W F. rewrite rref_step_eq.
  assert (F' : Forall Q (swapped M r)).
  { rewrite Forall_forall in *. intros x Hx. apply swapped_in in Hx; auto. }
  destruct (n <=? _); auto. apply eliminated_closed; auto; rewrite ?swapped_length; auto.
  intros x y Hx Hy. apply C. unfold wf in W. rewrite Forall_forall in W.
  apply swapped_in in Hx, Hy; auto. rewrite !W; auto.
Qed.

Lemma rref_step_wf n m M r : r < length M -> wf m M -> wf m (rref_step n M r).
Proof.
  intros H W. apply rref_step_closed with (m := m); auto. intros x y E Hx Hy. rewrite vxor_length; auto.
Qed.

Lemma rref_loop_ind n (I : nat -> mat -> Prop) M :
  I 0 M -> (forall r X, r < length M -> length X = length M -> I r X -> I (S r) (rref_step n X r)) ->
  I (length M) (rref n M) /\ length (rref n M) = length M.
Proof.
  intros H0 HS. unfold rref.
  assert (G : forall k, k <= length M ->
    let X := fold_left (rref_step n) (seq 0 k) M in I k X /\ length X = length M).
  { induction k as [|k IH]; intros Hk; [cbn; auto|].
    rewrite seq_S, fold_left_app. cbn [fold_left]. destruct IH as [HI HL]; [lia|].
    rewrite Nat.add_0_l. split; [apply HS; auto|rewrite rref_step_length; auto]. }
  apply (G (length M)); auto.
Qed.

Lemma rref_length n M : length (rref n M) = length M.
Proof. apply (rref_loop_ind n (fun _ _ => True)); auto. Qed.

Lemma rref_closed n (Q : vec -> Prop) M m :
  (forall x y, length x = length y -> Q x -> Q y -> Q (vxor x y)) -> wf m M ->
  Forall Q M -> Forall Q (rref n M).
Proof.
  intros C W F.
  destruct (rref_loop_ind n (fun _ X => wf m X /\ Forall Q X) M) as [[_ H] _]; auto.
  intros r X Hr L [WX FX]. rewrite <- L in Hr. split; [apply rref_step_wf; auto|eapply rref_step_closed; eauto].
Qed.

Lemma rref_wf n m M : wf m M -> wf m (rref n M).
Proof. intros W. apply rref_closed with (m := m); auto. intros x y E Hx Hy. rewrite vxor_length; auto. Qed.

(* the row space is unchanged *)
Lemma rref_step_space n m M r : wf m M -> r < length M ->
  (forall x, In x (rref_step n M r) -> row_space m M x) /\
  (forall x, In x M -> row_space m (rref_step n M r) x).
Proof.
  intros W H. split.
  - apply Forall_forall. apply rref_step_closed with (m := m); auto.
    + intros x y _; apply row_space_vxor; auto.
    + apply Forall_forall. intros x Hx. apply row_space_in; auto.
  - intros x Hx. rewrite rref_step_eq. apply (swapped_in M r) in Hx; auto.
    assert (WS : wf m (swapped M r)).
    { unfold wf in *. rewrite Forall_forall in *. intros y Hy. apply swapped_in in Hy; auto. }
    destruct (n <=? _); [apply row_space_in; auto|].
    set (S := swapped M r) in *. assert (LS : length S = length M) by apply swapped_length.
    assert (WE : wf m (eliminated S r)).
    { apply eliminated_closed; auto; [lia|]. intros y z Hy Hz Ly Lz. rewrite vxor_length; congruence. }
    apply In_nth_row in Hx as (i & Hi & <-).
    pose proof (nth_eliminated S r i Hi) as Ei.
    assert (Hr' : r < length S) by lia.
    pose proof (nth_eliminated S r r Hr') as Er. rewrite Nat.eqb_refl in Er. cbn [negb andb] in Er.
    assert (Ir : row_space m (eliminated S r) (nth r S [])).
    { apply row_space_in; auto. rewrite <- Er. apply nth_In. rewrite eliminated_length; auto. }
    assert (Ii : row_space m (eliminated S r) (nth i (eliminated S r) [])).
    { apply row_space_in; auto. apply nth_In. rewrite eliminated_length; auto. }
    rewrite Ei in Ii. destruct (_ && _); auto.
    rewrite <- (vxor_cancel_r (nth r S []) (nth i S [])); [apply row_space_vxor; auto|].
    rewrite !(wf_nth m) by auto. auto.
Qed.

Lemma rref_space n m M : wf m M ->
  (forall x, In x (rref n M) -> row_space m M x) /\ (forall x, In x M -> row_space m (rref n M) x).
Proof.
  intros W.
  destruct (rref_loop_ind n (fun _ X => wf m X /\ (forall x, In x X -> row_space m M x) /\
     (forall x, In x M -> row_space m X x)) M) as [(_ & H) _]; auto.
  - split; auto. split; intros; apply row_space_in; auto.
  - intros r X Hr L (WX & H1 & H2). rewrite <- L in Hr.
    pose proof (rref_step_wf n m X r Hr WX) as WS.
    destruct (rref_step_space n m X r WX Hr) as [S1 S2].
    split; auto. split; intros x Hx.
    + apply (row_space_trans m M X); auto.
    + apply (row_space_trans m (rref_step n X r) X); auto.
Qed.

Lemma rref_row_space n m M v : wf m M -> (row_space m M v <-> row_space m (rref n M) v).
Proof.
  intros W. destruct (rref_space n m M W) as [H1 H2].
  split; apply row_space_trans; auto. apply rref_wf; auto.
Qed.

(* ---- echelon form ---- *)
Definition inv (n r : nat) (M : mat) : Prop :=
  (forall i j, i < r -> i < j -> j < length M ->
     pivot (nth i M []) < pivot (nth j M []) \/ (n <= pivot (nth i M []) /\ n <= pivot (nth j M []))) /\
  (forall i j, i < r -> i < length M -> j < length M -> i <> j -> pivot (nth i M []) < n ->
     nth (pivot (nth i M [])) (nth j M []) false = false).

Lemma inv_step n r M : wf n M -> r < length M -> inv n r M -> inv n (S r) (rref_step n M r).
Proof.
  intros W Hr [Ha Hc]. pose proof (chosen_lt M r Hr) as HC.
  rewrite rref_step_eq.
  set (S1 := swapped M r). assert (LS : length S1 = length M) by apply swapped_length.
  assert (WS : wf n S1).
  { unfold wf in *. rewrite Forall_forall in *. intros y Hy. apply swapped_in in Hy; auto. }
  (* rows below r *)
  assert (N1 : forall i, i < r -> nth i S1 [] = nth i M []).
  { intros i Hi. unfold S1. rewrite nth_swapped by auto.
    rewrite !(proj2 (Nat.eqb_neq _ _)) by lia. auto. }
  assert (N2 : forall i, r <= i < length M -> exists i', r <= i' < length M /\ nth i S1 [] = nth i' M []).
  { intros i Hi. unfold S1. rewrite nth_swapped by auto. destruct (i =? chosen M r); [exists r; split; [lia|auto]|].
    destruct (i =? r); [exists (chosen M r); split; [lia|auto]|exists i; auto]. }
  assert (Nr : nth r S1 [] = nth (chosen M r) M []).
  { unfold S1. rewrite nth_swapped, Nat.eqb_refl by auto. destruct (r =? _) eqn:E; auto. apply Nat.eqb_eq in E. congruence. }
  assert (Mr : forall i, r <= i < length M -> pivot (nth r S1 []) <= pivot (nth i S1 [])).
  { intros i Hi. rewrite Nr. destruct (N2 i Hi) as (i' & Hi' & ->). apply chosen_min; auto. }
  assert (A1 : forall i j, i < r -> i < j -> j < length M ->
     pivot (nth i S1 []) < pivot (nth j S1 []) \/ (n <= pivot (nth i S1 []) /\ n <= pivot (nth j S1 []))).
  { intros i j Hi Hij Hj. rewrite (N1 i Hi). destruct (le_lt_dec r j) as [E|E].
    - destruct (N2 j ltac:(lia)) as (j' & Hj' & ->). apply Ha; lia.
    - rewrite (N1 j E). apply Ha; lia. }
  assert (C1 : forall i j, i < r -> j < length M -> i <> j -> pivot (nth i S1 []) < n ->
     nth (pivot (nth i S1 [])) (nth j S1 []) false = false).
  { intros i j Hi Hj Hij. rewrite (N1 i Hi). destruct (le_lt_dec r j) as [E|E].
    - destruct (N2 j ltac:(lia)) as (j' & Hj' & ->). apply Hc; lia.
    - rewrite (N1 j E). apply Hc; lia. }
  clearbody S1. clear Ha Hc N1 N2 Nr HC.
  destruct (n <=? pivot (nth r S1 [])) eqn:E.
  - apply Nat.leb_le in E. split.
    + intros i j Hi Hij Hj. rewrite LS in Hj. destruct (Nat.eq_dec i r) as [->|Ni]; [|apply A1; lia].
      right. split; auto. etransitivity; [exact E|]. apply Mr; lia.
    + intros i j Hi Hi' Hj Hij Hp. rewrite LS in *.
      destruct (Nat.eq_dec i r) as [->|Ni]; [lia|]. apply C1; auto; lia.
  - apply Nat.leb_gt in E. set (f := pivot (nth r S1 [])) in *.
    assert (LE : length (eliminated S1 r) = length M) by (rewrite eliminated_length; auto).
    assert (Lrow : forall i, i < length M -> length (nth i S1 []) = n) by (intros; apply wf_nth; auto; lia).
    assert (Fr : nth f (nth r S1 []) false = true) by (apply pivot_at; rewrite Lrow; auto).
    (* entries of the result *)
    assert (EN : forall i g, i < length M -> nth g (nth i (eliminated S1 r) []) false =
      if negb (i =? r) && nth f (nth i S1 []) false
      then xorb (nth g (nth i S1 []) false) (nth g (nth r S1 []) false) else nth g (nth i S1 []) false).
    { intros i g Hi. rewrite nth_eliminated by lia. fold f. destruct (_ && _); auto.
      rewrite nth_vxor; auto. rewrite !Lrow; auto. }
    assert (ER : nth r (eliminated S1 r) [] = nth r S1 []).
    { rewrite nth_eliminated by lia. rewrite Nat.eqb_refl. reflexivity. }
    assert (WE : wf n (eliminated S1 r)).
    { apply eliminated_closed; auto; [lia|]. intros y z Hy Hz Ly Lz. rewrite vxor_length; congruence. }
    assert (LrowE : forall i, i < length M -> length (nth i (eliminated S1 r) []) = n) by (intros; apply wf_nth; auto; lia).
    (* pivots of the earlier rows: all < f *)
    assert (PB : forall i, i < r -> pivot (nth i S1 []) < f).
    { intros i Hi. destruct (A1 i r Hi Hi Hr) as [Q|[_ Q]]; auto. unfold f in E. lia. }
    assert (PE : forall i, i < r -> pivot (nth i (eliminated S1 r) []) = pivot (nth i S1 [])).
    { intros i Hi. pose proof (PB i Hi) as Q. apply pivot_eq.
      - rewrite EN by lia. rewrite (C1 i r) by lia. rewrite xorb_false_r.
        assert (nth (pivot (nth i S1 [])) (nth i S1 []) false = true) by (apply pivot_at; rewrite Lrow; lia).
        destruct (_ && _); auto.
      - intros j Hj. rewrite EN by lia. rewrite (pivot_before (nth i S1 []) j) by auto.
        rewrite (pivot_before (nth r S1 []) j) by (fold f; lia). destruct (_ && _); auto. }
    split.
    + intros i j Hi Hij Hj. rewrite LE in Hj. left.
      destruct (Nat.eq_dec i r) as [->|Ni].
      * rewrite ER. fold f. apply pivot_gt; [|rewrite LrowE; lia].
        intros g Hg. rewrite EN by lia. rewrite (proj2 (Nat.eqb_neq j r)) by lia. cbn [negb andb].
        assert (Mj : f <= pivot (nth j S1 [])) by (apply Mr; lia).
        destruct (Nat.eq_dec g f) as [->|Ng].
        -- rewrite Fr. destruct (nth f (nth j S1 []) false); auto.
        -- rewrite (pivot_before (nth j S1 []) g), (pivot_before (nth r S1 []) g) by (fold f; lia).
           destruct (nth f (nth j S1 []) false); auto.
      * assert (Hir : i < r) by lia. rewrite PE by auto. pose proof (PB i Hir) as Q.
        apply pivot_gt; [|rewrite LrowE; lia].
        intros g Hg. rewrite EN by lia.
        rewrite (pivot_before (nth r S1 []) g) by (fold f; lia). rewrite xorb_false_r.
        assert (nth g (nth j S1 []) false = false).
        { destruct (A1 i j Hir Hij Hj) as [Z|[Z _]]; [|lia]. apply pivot_before; lia. }
        destruct (_ && _); auto.
    + intros i j Hi Hi' Hj Hij Hp. rewrite LE in *.
      destruct (Nat.eq_dec i r) as [->|Ni].
      * rewrite ER. fold f. rewrite EN by lia. rewrite (proj2 (Nat.eqb_neq j r)) by lia. cbn [negb andb].
        rewrite Fr. destruct (nth f (nth j S1 []) false); auto.
      * assert (Hir : i < r) by lia. rewrite PE in * by auto. rewrite EN by lia.
        rewrite (C1 i j), (C1 i r) by lia. destruct (_ && _); auto.
Qed.

Lemma rref_inv n M : wf n M -> inv n (length M) (rref n M).
Proof.
  intros W. destruct (rref_loop_ind n (fun r X => wf n X /\ inv n r X) M) as [[_ H] _]; auto.
  - split; auto. split; intros; lia.
  - intros r X Hr L [WX IX]. rewrite <- L in Hr. split; [apply rref_step_wf; auto|apply inv_step; auto].
Qed.

Lemma rref_is_rref n M : wf n M -> is_rref (rref n M).
Proof.
  intros W. pose proof (rref_inv n M W) as [Ha Hc]. pose proof (rref_wf n n M W) as WR.
  rewrite <- (rref_length n M) in Ha, Hc. set (R := rref n M) in *. clearbody R.
  split; [|split].
  - intros i i' Hi Hi' Z. apply pivot_zero. apply pivot_zero in Z.
    rewrite (wf_nth n) in * by (auto; lia). pose proof (pivot_le (nth i' R [])) as Q. rewrite (wf_nth n) in Q by auto.
    destruct (Ha i i') as [E|[_ E]]; auto; try lia.
  - intros i i' j j' Hi Hi' L L'. apply pivot_leading in L as [Lj <-], L' as [Lj' <-].
    rewrite (wf_nth n) in * by (auto; lia). destruct (Ha i i') as [E|[E _]]; auto; lia.
  - intros i i' j Hi Hi' Ne L. apply pivot_leading in L as [Lj <-]. rewrite (wf_nth n) in * by (auto; lia).
    apply Hc; auto.
Qed.
