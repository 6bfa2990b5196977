From Verif Require Import Common Bits_Model Vec_Model LinAlg_Model BlockCode_Model Array_Model Nd_Model.
From Verif Require Import Linear_Spec Code_Spec Vec_Proof LinAlg_Proof XRref_Proof Null_Proof BlockCode_Proof CosetLeaders_Proof Decoders_Proof.
From Verif Require Import History_Model History_Spec.
Local Open Scope nat_scope.

(* ---- arrays and matrices ---- *)
Lemma concat_chunk n (M : mat) : wf n M -> map (fun i => firstn n (skipn (i * n) (concat M))) (seq 0 (length M)) = M.
Proof.
  induction M as [|r M IH]; intros W; auto. inversion W as [|? ? Lr W']; subst. cbn [length seq map concat]. f_equal.
  - cbn. rewrite firstn_app, firstn_all2 by lia. rewrite Nat.sub_diag. cbn. apply app_nil_r.
  - rewrite <- seq_shift, map_map. rewrite <- (IH W') at 2. apply map_ext. intros i. f_equal.
    replace (Datatypes.S i * length r) with (length r + i * length r) by lia.
    rewrite skipn_app. rewrite skipn_all2 by lia. cbn. f_equal. lia.
Qed.
Lemma mat_array n M : wf n M -> mat_of_array (array_of_mat n M) = Some (n, M).
Proof. intros W. unfold mat_of_array, array_of_mat. cbn. f_equal. f_equal. apply concat_chunk; auto. Qed.
Lemma skipn_add {A} a b (l : list A) : skipn a (skipn b l) = skipn (b + a) l.
Proof. revert l. induction b as [|b IH]; intros l; auto. destruct l; cbn; auto. apply skipn_nil. Qed.
Lemma concat_chunks n k (d : list bool) : length d = k * n -> concat (map (fun i => firstn n (skipn (i * n) d)) (seq 0 k)) = d.
Proof.
  revert d. induction k as [|k IH]; intros d L.
  - destruct d; cbn in *; auto; lia.
  - cbn [seq map concat]. cbn [Nat.mul skipn]. rewrite <- seq_shift, map_map.
    rewrite (map_ext _ (fun i => firstn n (skipn (i * n) (skipn n d)))).
    + rewrite IH by (rewrite skipn_length; lia). apply firstn_skipn.
    + intros i. rewrite skipn_add. reflexivity.
Qed.
Lemma array_mat x n M : length (data x) = prod (shape x) -> mat_of_array x = Some (n, M) ->
  wf n M /\ x = array_of_mat n M.
Proof.
  unfold mat_of_array. destruct x as [sh d]; cbn. destruct sh as [|k [|n' [|]]]; try discriminate. cbn. intros L [= <- <-].
  assert (L' : length d = k * n') by lia. split.
  - unfold wf. apply Forall_forall. intros r Hr. apply in_map_iff in Hr as (i & <- & Hi). apply in_seq in Hi.
    rewrite firstn_length, skipn_length. assert (i * n' + n' <= k * n') by nia. lia.
  - unfold array_of_mat. rewrite map_length, seq_length. f_equal. rewrite concat_chunks; auto.
Qed.

(* ---- the code of a matrix ---- *)
(* ---- tables ---- *)
Lemma no_checks : forall C, bc_m C = 0 -> bc_H C = [] ->
  forall fuel, coset_leaders_fuel C fuel = None.
Proof.
  intros C Hm HH. unfold coset_leaders_fuel. rewrite Hm.
  assert (Cols : Forall (fun h => h = 0%N) (H_cols C)).
  { unfold H_cols. rewrite HH. apply Forall_forall. intros h Hh. apply in_map_iff in Hh as (c & <- & Hc).
    unfold transpose in Hc. apply in_map_iff in Hc as (j & <- & _). reflexivity. }
  assert (VC : forall cols j b, Forall (fun h => h = 0%N) cols -> nth 0 (visited b) true = true -> visit_cols 0 0 j cols b = inl b).
  { induction cols as [|h cols IH]; intros j b F Vb; cbn [visit_cols]; auto. inversion F; subst.
    unfold visit. cbn [N.lxor N.to_nat]. rewrite Vb. rewrite Nat.eqb_refl. cbn [negb andb]. apply IH; auto. }
  assert (G : forall fuel syns b, Forall (fun s => s = 0%N) syns -> nth 0 (visited b) true = true ->
     bfs_loop 0 (H_cols C) fuel syns b = None).
  { induction fuel as [|f IH]; intros syns b F Vb; cbn [bfs_loop]; auto.
    assert (VA : forall syns b, Forall (fun s => s = 0%N) syns -> nth 0 (visited b) true = true ->
       visit_all 0 (H_cols C) syns b = inl b).
    { induction syns0 as [|s syns0 IHs]; intros b0 F0 V0; cbn [visit_all]; auto. inversion F0; subst. rewrite VC; auto. }
    rewrite VA by auto. apply IH; cbn [next visited]; auto. }
  intros fuel. apply G; auto.
Qed.
Lemma leaders_some C l : valid_code C -> coset_leaders C = Some l -> bc_m C <> 0.
Proof.
  intros V E Z. unfold coset_leaders in E. rewrite no_checks in E; [discriminate|auto|].
  pose proof (proj2 (ok_H C V)) as LH. rewrite Z in LH. destruct (bc_H C); [reflexivity|discriminate].
Qed.
Lemma leaders_wf C l : valid_code C -> coset_leaders C = Some l -> bc_m C <> 0 -> wf (bc_n C) l.
Proof.
  intros V E Hm. destruct (coset_leaders_spec C (ok_checker C V) Hm) as (l' & E' & L & HS). rewrite E in E'. injection E' as <-.
  unfold wf. apply Forall_forall. intros v Hv. apply In_nth with (d := []) in Hv as (i & Hi & <-). apply HS. lia.
Qed.
Lemma clwd_cached C l : valid_code C -> coset_leaders C = Some l -> bc_m C <> 0 ->
  coset_leader_weight_distribution C false = Some (bincount (bc_n C + 1) (map vsum l)).
Proof.
  intros V E Hm.
  destruct (clwd_ok C (ok_checker C V) false Hm) as (d & l1 & E1 & EL1 & _ & Ld & Hd).
  destruct (clwd_ok C (ok_checker C V) true Hm) as (d' & l2 & E2 & EL2 & _ & Ld' & Hd').
  rewrite E in EL1, EL2. injection EL1 as <-. injection EL2 as <-.
  rewrite E1. cbn in E2. rewrite E in E2. cbn [option_map] in E2. injection E2 as E2. rewrite E2. f_equal.
  apply (nth_ext _ _ 0 0); [congruence|]. intros w Hw. rewrite Hd, Hd' by lia. reflexivity.
Qed.

Record facts (g : bool) (n k m : nat) (G H : mat) : Prop := {
  fa_valid : valid_code (matrix_code n k m G (pseudo_inverse n G) H);
  fa_null : if g then null_matrix n G = Some H else exists N, null_matrix n H = Some N /\ G = rref n N }.

Lemma code_from_facts g n M C : wf n M -> code_from g n M = Some C ->
  exists k m G H, C = matrix_code n k m G (pseudo_inverse n G) H /\ facts g n k m G H /\
    (if g then G = M /\ k = length M /\ m = n - length M else H = M /\ m = length M /\ k = n - length M).
Proof.
  intros W E. destruct g; cbn in E.
  - assert (I : independent n M /\ length M <> 0).
    { split.
      - apply rank_full_independent; auto. destruct (Nat.eq_dec (rank n M) (length M)) as [R|R]; auto.
        rewrite code_of_generator_none in E; [discriminate|auto|]. left. intros Q. apply R. apply rank_full_independent; auto.
      - intros Z. rewrite code_of_generator_none in E; auto. discriminate. }
    destruct (code_of_generator_valid n M W (proj1 I) (proj2 I)) as (C' & E' & _ & _ & _ & V & _).
    rewrite E in E'. injection E' as <-. unfold code_of_generator in E. destruct (null_matrix n M) as [H|] eqn:EN; [|discriminate].
    injection E as <-. exists (length M), (n - length M), M, H. split; auto. split; auto. constructor; auto.
  - assert (I : independent n M /\ length M <> 0).
    { unfold code_of_check in E. split.
      - apply rank_full_independent; auto. destruct (Nat.eq_dec (rank n M) (length M)) as [R|R]; auto.
        rewrite null_none in E; auto. discriminate.
      - intros Z. rewrite null_none in E; auto. discriminate. }
    destruct (code_of_check_valid n M W (proj1 I) (proj2 I)) as (C' & E' & _ & _ & _ & V & _).
    rewrite E in E'. injection E' as <-. unfold code_of_check in E. destruct (null_matrix n M) as [N|] eqn:EN; [|discriminate].
    injection E as <-. exists (n - length M), (length M), (rref n N), M. split; auto. split; auto. constructor; eauto.
Qed.

Definition extends (h h' : heap) := forall a c, nth_error h a = Some c -> nth_error h' a = Some c.
Lemma extends_refl h : extends h h. Proof. intros a c; auto. Qed.
Lemma extends_trans h1 h2 h3 : extends h1 h2 -> extends h2 h3 -> extends h1 h3. Proof. unfold extends; auto. Qed.
Lemma extends_app h t : extends h (h ++ t).
Proof. intros a c E. rewrite nth_error_app1; auto. apply nth_error_Some. congruence. Qed.

(* ---- one object ---- *)
Section Object.
Variables (g : bool) (n k m : nat) (G H : mat).
Hypothesis F : facts g n k m G H.
Let Gi := pseudo_inverse n G.
Let C := matrix_code n k m G Gi H.
Variables (safe : nat -> Prop) (L0 : nat).
Hypothesis fresh_safe : forall a, L0 <= a -> safe a.

Lemma V : valid_code C. Proof. apply F. Qed.
Lemma wfG : wf n G. Proof. apply (ok_G C). apply V. Qed.
Lemma lenG : length G = k. Proof. apply (ok_G C). apply V. Qed.
Lemma wfH : wf n H. Proof. apply (ok_H C). apply V. Qed.
Lemma lenH : length H = m. Proof. apply (ok_H C). apply V. Qed.
Lemma wfGi : wf k Gi. Proof. unfold Gi. rewrite <- lenG. apply pinv_shape. apply wfG. Qed.
Lemma wfW : wf n (codewords C).
Proof.
  unfold wf. apply Forall_forall. intros v Hv. apply in_map_iff in Hv as (j & <- & _).
  apply (ok_encode_length C (ok_encoder C V)). apply message_length.
Qed.

Definition at_mat (h : heap) (a : nat) (c : nat) (M : mat) : Prop := nth_error h a = Some (Bits (array_of_mat c M)) /\ safe a.
Definition at_counts (h : heap) (a : nat) (l : list nat) : Prop := nth_error h a = Some (Counts l) /\ safe a.
Definition opt {A} (x : option A) (P : A -> Prop) : Prop := match x with Some a => P a | None => True end.

Record obj_ok (o : code_obj) (h : heap) : Prop := {
  k_len : L0 <= length h;
  k_n : o_n o = n; k_k : o_k o = k; k_m : o_m o = m;
  k_arg : match o_arg o with Generator a => g = true /\ at_mat h a n G | Checker a => g = false /\ at_mat h a n H end;
  k_G : opt (c_G o) (fun a => at_mat h a n G);
  k_Ginv : opt (c_Ginv o) (fun a => at_mat h a k Gi);
  k_H : opt (c_H o) (fun a => at_mat h a n H);
  k_words : opt (c_words o) (fun a => at_mat h a n (codewords C));
  k_cwd : opt (c_cwd o) (fun a => at_counts h a (weight_distribution C false));
  k_dist : opt (c_dist o) (fun d => minimum_distance C false = Some d);
  k_leaders : opt (c_leaders o) (fun a => exists l, coset_leaders C = Some l /\ at_mat h a n l);
  k_clwd : opt (c_clwd o) (fun a => exists d, coset_leader_weight_distribution C false = Some d /\ at_counts h a d);
  k_pack : opt (c_pack o) (fun d => packing_radius C false = Some d);
  k_cover : opt (c_cover o) (fun d => covering_radius C false = Some d);
  k_fl : f_leaders o = true -> coset_leaders C <> None }.

Definition runs {A} (f : method_of A) (o : code_obj) (h : heap) (P : option A -> heap -> Prop) : Prop :=
  exists r o' h', f (o, h) = (r, (o', h')) /\ obj_ok o' h' /\ extends h h' /\ P r h'.

Lemma runs_ret {A} (x : A) o h (P : option A -> heap -> Prop) : obj_ok o h -> P (Some x) h -> runs (ret x) o h P.
Proof. intros K HP. exists (Some x), o, h. split; [reflexivity|]. split; auto. split; auto. apply extends_refl. Qed.
Lemma runs_lift {A} (x : option A) o h (P : option A -> heap -> Prop) : obj_ok o h -> P x h -> runs (lift x) o h P.
Proof. intros K HP. exists x, o, h. split; [reflexivity|]. split; auto. split; auto. apply extends_refl. Qed.
Lemma runs_self {A} (get : code_obj -> A) o h (P : option A -> heap -> Prop) : obj_ok o h -> P (Some (get o)) h -> runs (self get) o h P.
Proof. intros K HP. exists (Some (get o)), o, h. split; [reflexivity|]. split; auto. split; auto. apply extends_refl. Qed.
Lemma runs_bind {A B} (f : method_of A) (k' : A -> method_of B) o h (P : option A -> heap -> Prop) (Q : option B -> heap -> Prop) : runs f o h P ->
  (forall o' h', obj_ok o' h' -> extends h h' -> P None h' -> Q None h') ->
  (forall x o' h', obj_ok o' h' -> extends h h' -> P (Some x) h' -> runs (k' x) o' h' Q) -> runs (bind f k') o h Q.
Proof.
  intros (r & o' & h' & E & K & X & HP) HN HS. unfold bind, runs. rewrite E. destruct r as [x|].
  - destruct (HS x o' h' K X HP) as (r & o'' & h'' & E2 & K2 & X2 & HQ). exists r, o'', h''. split; auto. split; auto.
    split; auto. eapply extends_trans; eauto.
  - exists None, o', h'. split; auto. split; auto. split; auto. eapply HN; eauto.
Qed.
Lemma runs_weaken {A} (f : method_of A) o h (P Q : option A -> heap -> Prop) :
  runs f o h P -> (forall r h', extends h h' -> P r h' -> Q r h') -> runs f o h Q.
Proof. intros (r & o' & h' & E & K & X & HP) HPQ. exists r, o', h'. auto. Qed.

Lemma at_mat_ext h h' a c M : extends h h' -> at_mat h a c M -> at_mat h' a c M.
Proof. intros X [E S]. split; auto. Qed.
Lemma at_counts_ext h h' a l : extends h h' -> at_counts h a l -> at_counts h' a l.
Proof. intros X [E S]. split; auto. Qed.
Lemma opt_mono {A} (x : option A) (P Q : A -> Prop) : opt x P -> (forall a, P a -> Q a) -> opt x Q.
Proof. destruct x; cbn; auto. Qed.
Lemma obj_ext o h h' : extends h h' -> L0 <= length h' -> obj_ok o h -> obj_ok o h'.
Proof.
  intros X L []. constructor; auto.
  - destruct (o_arg o); destruct k_arg0; split; auto; eapply at_mat_ext; eauto.
  - eapply opt_mono; eauto. intros; eapply at_mat_ext; eauto.
  - eapply opt_mono; eauto. intros; eapply at_mat_ext; eauto.
  - eapply opt_mono; eauto. intros; eapply at_mat_ext; eauto.
  - eapply opt_mono; eauto. intros; eapply at_mat_ext; eauto.
  - eapply opt_mono; eauto. intros; eapply at_counts_ext; eauto.
  - eapply opt_mono; eauto. cbn. intros a (l & El & Ha). exists l. split; auto. eapply at_mat_ext; eauto.
  - eapply opt_mono; eauto. cbn. intros a (l & El & Ha). exists l. split; auto. eapply at_counts_ext; eauto.
Qed.
Lemma new_cell (h : heap) (c : cell) : nth_error (h ++ [c]) (length h) = Some c.
Proof. clear. rewrite nth_error_app2 by lia. rewrite Nat.sub_diag. auto. Qed.
Lemma runs_alloc c o h (P : option nat -> heap -> Prop) : obj_ok o h ->
  (safe (length h) -> nth_error (h ++ [c]) (length h) = Some c -> P (Some (length h)) (h ++ [c])) -> runs (alloc c) o h P.
Proof.
  intros K HP. exists (Some (length h)), o, (h ++ [c]). split; [reflexivity|].
  pose proof (k_len _ _ K) as L. split; [|split].
  - apply (obj_ext o h); auto; [apply extends_app|rewrite app_length; lia].
  - apply extends_app.
  - apply HP; [auto|apply new_cell].
Qed.
Lemma runs_read_bits a x o h (P : option (array bool) -> heap -> Prop) : obj_ok o h -> nth_error h a = Some (Bits x) ->
  P (Some x) h -> runs (read_bits a) o h P.
Proof. intros K E HP. exists (Some x), o, h. cbn. rewrite E. split; auto. split; auto. split; auto. apply extends_refl. Qed.
Lemma runs_read_mat a c M o h (P : option (nat * mat) -> heap -> Prop) : obj_ok o h -> wf c M ->
  nth_error h a = Some (Bits (array_of_mat c M)) -> P (Some (c, M)) h -> runs (read_mat a) o h P.
Proof.
  intros K W E HP. exists (Some (c, M)), o, h. unfold read_mat, bind. cbn [read_bits]. rewrite E. unfold lift.
  rewrite (mat_array c M W). split; auto. split; auto. split; auto. apply extends_refl.
Qed.
Lemma runs_read_counts a l o h (P : option (list nat) -> heap -> Prop) : obj_ok o h -> nth_error h a = Some (Counts l) ->
  P (Some l) h -> runs (read_counts a) o h P.
Proof. intros K E HP. exists (Some l), o, h. cbn. rewrite E. split; auto. split; auto. split; auto. apply extends_refl. Qed.
Lemma runs_update f o h (P : option unit -> heap -> Prop) : obj_ok (f o) h -> P (Some tt) h -> runs (update f) o h P.
Proof. intros K HP. exists (Some tt), (f o), h. split; [reflexivity|]. split; auto. split; auto. apply extends_refl. Qed.
Lemma runs_cached {A} (get : code_obj -> option A) set (compute : method_of A) o h (P : option A -> heap -> Prop) :
  obj_ok o h -> (forall x, get o = Some x -> P (Some x) h) -> (get o = None -> runs compute o h P) ->
  (forall x o' h', obj_ok o' h' -> P (Some x) h' -> obj_ok (set x o') h') -> runs (cached get set compute) o h P.
Proof.
  intros K HG HC HS. unfold runs, cached. unfold bind at 1. cbn [self fst]. destruct (get o) as [x|] eqn:Eg.
  - apply runs_ret; auto.
  - fold (runs (x <- compute;; _ <- update (set x);; ret x) o h P).
    eapply runs_bind; [apply HC; auto| auto |]. cbn. intros x o' h' K' X HP.
    eapply runs_bind with (P := fun r h'' => h'' = h' /\ r = Some tt); [apply runs_update; auto|..].
    + intros ? ? _ _ [_ ?]. discriminate.
    + intros [] o'' h'' K'' X' [-> _]. apply runs_ret; auto.
Qed.
Lemma runs_with {A B} (get : code_obj -> A) (k' : A -> method_of B) o h P : runs (k' (get o)) o h P -> runs (x <- self get ;; k' x) o h P.
Proof. intros R. exact R. Qed.

Ltac setter := let o := fresh in intros ? o ? [] ?; constructor; cbn; auto.

Definition is_addr (Q : heap -> nat -> Prop) (r : option nat) (h : heap) : Prop := exists a, r = Some a /\ Q h a.

Lemma generator_matrix_ok o h : obj_ok o h -> runs generator_matrix o h (is_addr (fun h a => at_mat h a n G)).
Proof.
  intros K. apply runs_cached; auto.
  - intros x E. pose proof (k_G _ _ K) as Q. rewrite E in Q. exists x; auto.
  - intros _. apply runs_with. pose proof (k_arg _ _ K) as Q. destruct (o_arg o) as [a|a].
    + apply runs_ret; auto. exists a. split; auto. apply Q.
    + destruct Q as [Eg Q].
      eapply runs_bind with (P := is_addr (fun h a => at_mat h a n H)).
      * apply runs_cached; auto.
        -- intros x E. pose proof (k_H _ _ K) as Z. rewrite E in Z. exists x; auto.
        -- intros _. apply runs_ret; auto. exists a; auto.
        -- intros x o' h' K' (? & [= <-] & Z). destruct K'; constructor; cbn; auto.
      * intros ? ? _ _ (? & ? & _). discriminate.
      * intros b o1 h1 K1 X1 (? & [= <-] & Z).
        pose proof (fa_null _ _ _ _ _ _ F) as FN. rewrite Eg in FN. destruct FN as (N & EN & EG).
        eapply runs_bind with (P := fun r _ => r = Some (n, H)).
        -- apply (runs_read_mat b n H); auto; [apply wfH|apply Z].
        -- discriminate.
        -- intros nH o2 h2 K2 X2 [= ->]. cbn [fst snd].
           eapply runs_bind with (P := fun r _ => r = Some N).
           ++ apply runs_lift; auto.
           ++ discriminate.
           ++ intros N' o3 h3 K3 X3 [= ->]. apply runs_alloc; auto. intros S E. eexists; split; [reflexivity|].
              split; auto. rewrite EG. auto.
  - intros x o' h' K' (? & [= <-] & Z). destruct K'; constructor; cbn; auto.
Qed.
Lemma check_matrix_ok o h : obj_ok o h -> runs check_matrix o h (is_addr (fun h a => at_mat h a n H)).
Proof.
  intros K. apply runs_cached; auto.
  - intros x E. pose proof (k_H _ _ K) as Q. rewrite E in Q. exists x; auto.
  - intros _. apply runs_with. pose proof (k_arg _ _ K) as Q. destruct (o_arg o) as [a|a].
    + destruct Q as [Eg Q].
      eapply runs_bind; [apply generator_matrix_ok; auto|intros ? ? _ _ (? & ? & _); discriminate|].
      intros b o1 h1 K1 X1 (? & [= <-] & Z).
      pose proof (fa_null _ _ _ _ _ _ F) as FN. rewrite Eg in FN.
      eapply runs_bind with (P := fun r _ => r = Some (n, G)).
      * apply (runs_read_mat b n G); auto; [apply wfG|apply Z].
      * discriminate.
      * intros nG o2 h2 K2 X2 [= ->]. cbn [fst snd].
        eapply runs_bind with (P := fun r _ => r = Some H).
        -- apply runs_lift; auto.
        -- discriminate.
        -- intros N' o3 h3 K3 X3 [= ->]. apply runs_alloc; auto. intros S E. eexists; split; [reflexivity|]. split; auto.
    + apply runs_ret; auto. exists a. split; auto. apply Q.
  - intros x o' h' K' (? & [= <-] & Z). destruct K'; constructor; cbn; auto.
Qed.
Lemma right_inverse_ok o h : obj_ok o h -> runs generator_matrix_right_inverse o h (is_addr (fun h a => at_mat h a k Gi)).
Proof.
  intros K. apply runs_cached; auto.
  - intros x E. pose proof (k_Ginv _ _ K) as Q. rewrite E in Q. exists x; auto.
  - intros _. eapply runs_bind; [apply generator_matrix_ok; auto|intros ? ? _ _ (? & ? & _); discriminate|].
    intros b o1 h1 K1 X1 (? & [= <-] & Z).
    eapply runs_bind with (P := fun r _ => r = Some (n, G)).
    + apply (runs_read_mat b n G); auto; [apply wfG|apply Z].
    + discriminate.
    + intros nG o2 h2 K2 X2 [= ->]. cbn [fst snd]. rewrite lenG.
      apply runs_alloc; auto. intros S E. eexists; split; [reflexivity|]. split; auto.
  - intros x o' h' K' (? & [= <-] & Z). destruct K'; constructor; cbn; auto.
Qed.

Definition is_code (C' : block_code) (r : option block_code) (h : heap) : Prop := r = Some C'.
Lemma with_G_ok o h : obj_ok o h -> runs with_G o h (is_code (matrix_code n k m G [] [])).
Proof.
  intros K. unfold with_G. do 3 apply runs_with.
  rewrite (k_n _ _ K), (k_k _ _ K), (k_m _ _ K).
  eapply runs_bind; [apply generator_matrix_ok; auto|intros ? ? _ _ (? & ? & _); discriminate|].
  intros b o1 h1 K1 X1 (? & [= <-] & Z).
  eapply runs_bind with (P := fun r _ => r = Some (n, G)).
  - apply (runs_read_mat b n G); auto; [apply wfG|apply Z].
  - discriminate.
  - intros nG o2 h2 K2 X2 [= ->]. apply runs_ret; auto. reflexivity.
Qed.
Lemma with_Ginv_ok o h : obj_ok o h -> runs with_Ginv o h (is_code (matrix_code n k m [] Gi [])).
Proof.
  intros K. unfold with_Ginv. do 3 apply runs_with.
  rewrite (k_n _ _ K), (k_k _ _ K), (k_m _ _ K).
  eapply runs_bind; [apply right_inverse_ok; auto|intros ? ? _ _ (? & ? & _); discriminate|].
  intros b o1 h1 K1 X1 (? & [= <-] & Z).
  eapply runs_bind with (P := fun r _ => r = Some (k, Gi)).
  - apply (runs_read_mat b k Gi); auto; [apply wfGi|apply Z].
  - discriminate.
  - intros nG o2 h2 K2 X2 [= ->]. apply runs_ret; auto. reflexivity.
Qed.
Lemma with_H_ok o h : obj_ok o h -> runs with_H o h (is_code (matrix_code n k m [] [] H)).
Proof.
  intros K. unfold with_H. do 3 apply runs_with.
  rewrite (k_n _ _ K), (k_k _ _ K), (k_m _ _ K).
  eapply runs_bind; [apply check_matrix_ok; auto|intros ? ? _ _ (? & ? & _); discriminate|].
  intros b o1 h1 K1 X1 (? & [= <-] & Z).
  eapply runs_bind with (P := fun r _ => r = Some (n, H)).
  - apply (runs_read_mat b n H); auto; [apply wfH|apply Z].
  - discriminate.
  - intros nG o2 h2 K2 X2 [= ->]. apply runs_ret; auto. reflexivity.
Qed.

(* ---- the methods ---- *)
Definition is_new (x : option (array bool)) (r : option nat) (h : heap) : Prop :=
  match x with
  | Some y => exists a, r = Some a /\ nth_error h a = Some (Bits y)
  | None => r = None
  end.
Definition result_is {A} (x : option A) (r : option A) (h : heap) : Prop := r = x.

Lemma encode_value_ok x o h : obj_ok o h -> runs (encode_value x) o h (result_is (encode_nd false C x)).
Proof.
  intros K. eapply runs_bind; [apply with_G_ok; auto|discriminate|]. intros C' o' h' K' X [= ->]. apply runs_lift; auto. reflexivity.
Qed.
Lemma project_value_ok x o h : obj_ok o h -> runs (project_value x) o h (result_is (project_nd false C x)).
Proof.
  intros K. eapply runs_bind; [apply with_Ginv_ok; auto|discriminate|]. intros C' o' h' K' X [= ->]. apply runs_lift; auto. reflexivity.
Qed.
Lemma check_value_ok x o h : obj_ok o h -> runs (check_value x) o h (result_is (check_nd false C x)).
Proof.
  intros K. eapply runs_bind; [apply with_H_ok; auto|discriminate|]. intros C' o' h' K' X [= ->]. apply runs_lift; auto. reflexivity.
Qed.

Lemma codewords_ok o h : obj_ok o h -> runs codewords_method o h (is_addr (fun h a => at_mat h a n (codewords C))).
Proof.
  intros K. apply runs_cached; auto.
  - intros x E. pose proof (k_words _ _ K) as Q. rewrite E in Q. exists x; auto.
  - intros _. eapply runs_bind; [apply with_G_ok; auto|discriminate|]. intros C' o1 h1 K1 X1 [= ->].
    eapply runs_bind with (P := fun r _ => r = Some tt); [apply runs_update; auto; destruct K1; constructor; auto|discriminate|].
    intros [] o2 h2 K2 X2 _. apply runs_alloc; auto. intros S E. eexists; split; [reflexivity|]. split; auto.
  - intros x o' h' K' (? & [= <-] & Z). destruct K'; constructor; cbn; auto.
Qed.
Lemma wd_view : weight_distribution (matrix_code n k m G [] []) false = weight_distribution C false.
Proof.
  unfold weight_distribution. cbn [bc_k bc_n matrix_code].
  assert (E : forall f i d, batch_loop (matrix_code n k m G [] []) 1024 f i d = batch_loop C 1024 f i d); [|apply E].
  induction f as [|f IH]; intros i d; cbn [batch_loop]; auto. cbn [bc_k bc_n bc_encode matrix_code C].
  destruct (2 ^ k <=? i); auto.
Qed.
Lemma cwd_ok o h : obj_ok o h -> runs codeword_weight_distribution o h (is_addr (fun h a => at_counts h a (weight_distribution C false))).
Proof.
  intros K. apply runs_cached; auto.
  - intros x E. pose proof (k_cwd _ _ K) as Q. rewrite E in Q. exists x; auto.
  - intros _. apply runs_with, runs_with. rewrite (k_n _ _ K). destruct (f_words o).
    + eapply runs_bind; [apply codewords_ok; auto|intros ? ? _ _ (? & ? & _); discriminate|].
      intros b o1 h1 K1 X1 (? & [= <-] & Z).
      eapply runs_bind with (P := fun r _ => r = Some (n, codewords C)).
      * apply (runs_read_mat b n (codewords C)); auto; [apply wfW|apply Z].
      * discriminate.
      * intros nG o2 h2 K2 X2 [= ->]. cbn [fst snd]. apply runs_alloc; auto. intros S E. eexists; split; [reflexivity|]. split; auto.
        rewrite E. do 2 f_equal. rewrite (weight_distribution_spec C false), <- (weight_distribution_spec C true) by apply V. reflexivity.
    + eapply runs_bind; [apply with_G_ok; auto|discriminate|]. intros C' o1 h1 K1 X1 [= ->].
      apply runs_alloc; auto. intros S E. eexists; split; [reflexivity|]. split; [rewrite <- wd_view; exact E|auto].
  - intros x o' h' K' (? & [= <-] & Z). destruct K'; constructor; cbn; auto.
Qed.
Lemma minimum_distance_ok o h : obj_ok o h -> runs minimum_distance_method o h (result_is (minimum_distance C false)).
Proof.
  intros K. apply runs_cached; auto.
  - intros x E. pose proof (k_dist _ _ K) as Q. rewrite E in Q. symmetry. exact Q.
  - intros _. eapply runs_bind; [apply cwd_ok; auto|intros ? ? _ _ (? & ? & _); discriminate|].
    intros b o1 h1 K1 X1 (? & [= <-] & Z).
    eapply runs_bind with (P := fun r _ => r = Some (weight_distribution C false)).
    + apply (runs_read_counts b _ _ _ _ K1 (proj1 Z)). reflexivity.
    + discriminate.
    + intros nG o2 h2 K2 X2 [= ->]. apply runs_lift; auto. reflexivity.
  - intros x o' h' K' Z. destruct K'; constructor; cbn; auto.
Qed.
Definition is_leaders (r : option nat) (h : heap) : Prop :=
  match coset_leaders C with Some l => exists a, r = Some a /\ at_mat h a n l | None => r = None end.
Lemma coset_leaders_method_ok o h : obj_ok o h -> runs coset_leaders_method o h is_leaders.
Proof.
  intros K. apply runs_cached; auto.
  - intros x E. pose proof (k_leaders _ _ K) as Q. rewrite E in Q. destruct Q as (l & El & Z). unfold is_leaders. rewrite El. eauto.
  - intros _. eapply runs_bind; [apply with_H_ok; auto|discriminate|]. intros C' o1 h1 K1 X1 [= ->].
    eapply runs_bind with (P := result_is (coset_leaders C)); [apply runs_lift; auto; reflexivity| |].
    + intros ? ? _ _ Z. unfold is_leaders. rewrite <- Z. auto.
    + intros l o2 h2 K2 X2 Z.
      eapply runs_bind with (P := fun r _ => r = Some tt).
      * apply runs_update; auto. destruct K2; constructor; auto. intros _ Q. unfold result_is in Z. congruence.
      * discriminate.
      * intros [] o3 h3 K3 X3 _. apply runs_alloc; auto. intros S E. unfold is_leaders. rewrite <- Z. eexists; split; [reflexivity|]. split; auto.
  - intros x o' h' K' Z. unfold is_leaders in Z. destruct (coset_leaders C) as [l|] eqn:El; [|discriminate]. destruct Z as (a & [= <-] & Z).
    destruct K'; constructor; cbn; auto. eauto.
Qed.
Definition is_clwd (r : option nat) (h : heap) : Prop :=
  match coset_leader_weight_distribution C false with Some d => exists a, r = Some a /\ at_counts h a d | None => r = None end.
Lemma clwd_method_ok o h : obj_ok o h -> runs coset_leader_weight_distribution_method o h is_clwd.
Proof.
  intros K. apply runs_cached; auto.
  - intros x E. pose proof (k_clwd _ _ K) as Q. rewrite E in Q. destruct Q as (d & El & Z). unfold is_clwd. rewrite El. eauto.
  - intros _. apply runs_with, runs_with. rewrite (k_n _ _ K). destruct (f_leaders o) eqn:Ef.
    + pose proof (k_fl _ _ K Ef) as NL. destruct (coset_leaders C) as [l|] eqn:El; [|congruence].
      pose proof (leaders_some C l V El) as Hm.
      eapply runs_bind with (P := is_addr (fun h a => at_mat h a n l)).
      * eapply runs_weaken; [apply coset_leaders_method_ok; auto|]. intros r h' _ Z. unfold is_leaders in Z. rewrite El in Z. exact Z.
      * intros ? ? _ _ (? & ? & _); discriminate.
      * intros b o1 h1 K1 X1 (? & [= <-] & Z).
        eapply runs_bind with (P := fun r _ => r = Some (n, l)).
        -- apply (runs_read_mat b n l); auto; [apply (leaders_wf C l V El Hm)|apply Z].
        -- discriminate.
        -- intros nG o2 h2 K2 X2 [= ->]. cbn [fst snd]. apply runs_alloc; auto. intros S E.
           unfold is_clwd. rewrite (clwd_cached C l V El Hm). eexists; split; [reflexivity|]. split; auto.
    + eapply runs_bind; [apply with_H_ok; auto|discriminate|]. intros C' o1 h1 K1 X1 [= ->].
      eapply runs_bind with (P := result_is (coset_leader_weight_distribution C false)); [apply runs_lift; auto; reflexivity| |].
      * intros ? ? _ _ Z. unfold is_clwd. rewrite <- Z. auto.
      * intros l o2 h2 K2 X2 Z. apply runs_alloc; auto. intros S E. unfold is_clwd. rewrite <- Z. eexists; split; [reflexivity|]. split; auto.
  - intros x o' h' K' Z. unfold is_clwd in Z. destruct (coset_leader_weight_distribution C false) as [l|] eqn:El; [|discriminate].
    destruct Z as (a & [= <-] & Z). destruct K'; constructor; cbn; auto. eauto.
Qed.
Lemma packing_ok o h : obj_ok o h -> runs packing_radius_method o h (result_is (packing_radius C false)).
Proof.
  intros K. apply runs_cached; auto.
  - intros x E. pose proof (k_pack _ _ K) as Q. rewrite E in Q. symmetry. exact Q.
  - intros _. unfold packing_radius. eapply runs_bind; [apply minimum_distance_ok; auto| |].
    + intros ? ? _ _ Z. unfold result_is in *. rewrite <- Z. auto.
    + intros d o1 h1 K1 X1 Z. apply runs_ret; auto. unfold result_is in *. rewrite <- Z. reflexivity.
  - intros x o' h' K' Z. destruct K'; constructor; cbn; auto.
Qed.
Lemma covering_ok o h : obj_ok o h -> runs covering_radius_method o h (result_is (covering_radius C false)).
Proof.
  intros K. apply runs_cached; auto.
  - intros x E. pose proof (k_cover _ _ K) as Q. rewrite E in Q. symmetry. exact Q.
  - intros _. unfold covering_radius. eapply runs_bind; [apply clwd_method_ok; auto| |].
    + intros ? ? _ _ Z. unfold is_clwd, result_is in *. destruct (coset_leader_weight_distribution C false); [|reflexivity].
      destruct Z as (? & ? & _). discriminate.
    + intros b o1 h1 K1 X1 Z. unfold is_clwd in Z. destruct (coset_leader_weight_distribution C false) as [d|]; [|discriminate].
      destruct Z as (? & [= <-] & Z).
      eapply runs_bind with (P := fun r _ => r = Some d); [apply (runs_read_counts b _ _ _ _ K1 (proj1 Z)); reflexivity|discriminate|].
      intros d' o2 h2 K2 X2 [= ->]. apply runs_lift; auto. unfold result_is. destruct (rev (flatnonzero d)); reflexivity.
  - intros x o' h' K' Z. destruct K'; constructor; cbn; auto.
Qed.

End Object.
