From Verif Require Import Common Labeling_Model Labeling_Proof Conv_Model Array_Model Array_Spec Array_Proof Array_Lift NdMaps_Spec.
Local Open Scope nat_scope.

Lemma skipn_skipn {A} x y (l : list A) : skipn x (skipn y l) = skipn (x + y) l.
Proof. rewrite Nat.add_comm. revert l. induction y as [|y IH]; intros l; [reflexivity|]. destruct l as [|z l]; [rewrite !skipn_nil; reflexivity|]. cbn. apply IH. Qed.
Definition rows {A} (pre : list nat) (n : nat) (a : array A) : list (list A) :=
  map (fun i => firstn n (skipn (i * n) (data a))) (seq 0 (prod pre)).
Lemma rows_length {A} pre n (a : array A) : length (rows pre n a) = prod pre.
Proof. unfold rows. rewrite map_length, seq_length. reflexivity. Qed.
Lemma firstn_skipn_nth {A} (d : A) (l : list A) (s n : nat) : s + n <= length l ->
  firstn n (skipn s l) = map (fun k => nth (s + k) l d) (seq 0 n).
Proof.
  intros H. apply (list_ext d); [rewrite firstn_length, skipn_length, map_length, seq_length; lia|].
  intros i Hi. rewrite firstn_length in Hi. rewrite nth_firstn_lt, nth_skipn_add, nth_map_seq by lia. reflexivity.
Qed.
Lemma line_row {A} (d : A) (a : array A) pre n p : well_formed a -> shape a = pre ++ [n] -> valid_index pre p ->
  line d a n p [] = nth (ravel pre p) (rows pre n a) [].
Proof.
  intros W S V. pose proof (ravel_lt _ _ V) as R. unfold rows. rewrite nth_map_seq by exact R.
  unfold well_formed in W. rewrite S, prod_app in W. unfold prod at 2 in W. cbn [fold_right] in W.
  rewrite (firstn_skipn_nth d) by nia. unfold line, get. apply map_ext. intros k. rewrite S.
  rewrite ravel_app by exact (valid_length _ _ V). f_equal. unfold prod. cbn. lia.
Qed.
Lemma concat_pieces {A} (n : nat) : forall k (l : list A), length l = k * n -> concat (map (fun i => firstn n (skipn (i * n) l)) (seq 0 k)) = l.
Proof.
  induction k as [|k IH]; intros l H; [destruct l; [reflexivity|discriminate]|].
  cbn [seq map concat]. rewrite Nat.mul_0_l. cbn [skipn]. rewrite <- seq_shift, map_map.
  rewrite (map_ext _ (fun i => firstn n (skipn (i * n) (skipn n l)))).
  - rewrite IH by (rewrite skipn_length; lia). apply firstn_skipn.
  - intros i. f_equal. rewrite skipn_skipn. f_equal. lia.
Qed.
Lemma data_rows {A} (a : array A) pre n : well_formed a -> shape a = pre ++ [n] ->
  data a = concat (rows pre n a) /\ Forall (fun r => length r = n) (rows pre n a).
Proof.
  intros W S. unfold well_formed in W. rewrite S, prod_app in W. unfold prod at 2 in W. cbn [fold_right] in W. rewrite Nat.mul_1_r in W.
  split; [symmetry; apply concat_pieces; exact W|]. apply Forall_forall. intros r Hr. apply in_map_iff in Hr as (i & <- & Hi).
  apply in_seq in Hi. rewrite firstn_length, skipn_length, W. nia.
Qed.
Lemma nth_concat {A} (m : nat) : forall (rs : list (list A)) i, Forall (fun r => length r = m) rs -> i < length rs ->
  firstn m (skipn (i * m) (concat rs)) = nth i rs [].
Proof.
  induction rs as [|r rs IH]; intros i F Hi; [cbn in Hi; lia|]. inversion F as [|r' rs' Hr Hrs E]; subst.
  destruct i as [|i]; cbn [nth concat]; [apply firstn_app_exact|].
  replace (S i * length r) with (i * length r + length r) by lia. rewrite <- skipn_skipn, skipn_app_exact.
  rewrite IH; [reflexivity|assumption|cbn in Hi; lia].
Qed.

(** If the result is the concatenation of the results of the rows, the method lifts. *)
Lemma lifts_intro {A B} (dA : A) (dB : B) (f : list A -> option (list B)) (F : array A -> option (array B)) (outlen : nat -> nat) :
  (forall l r, f l = Some r -> length r = outlen (length l)) ->
  (forall pre n a, well_formed a -> shape a = pre ++ [n] -> Forall (lt 0) pre ->
     F a = option_map (fun rs => Arr (pre ++ [outlen n]) (concat rs)) (sequence (map f (rows pre n a)))) ->
  lifts dA dB f F.
Proof.
  intros HL HF pre n a W S Hpos. rewrite (HF pre n a W S Hpos). destruct (data_rows a pre n W S) as [_ FR].
  destruct (sequence (map f (rows pre n a))) as [rs|] eqn:E; cbn [option_map].
  - apply sequence_spec in E.
    assert (Lrs : length rs = prod pre) by (apply (f_equal (@length _)) in E; rewrite !map_length, rows_length in E; congruence).
    assert (Ni : forall i, i < prod pre -> f (nth i (rows pre n a) []) = Some (nth i rs [])).
    { intros i Hi. apply (f_equal (fun l => nth i l None)) in E.
      rewrite (nth_indep _ None (f [])), map_nth in E by (rewrite map_length, rows_length; exact Hi).
      rewrite E. rewrite (nth_indep _ None (Some [])), map_nth by (rewrite map_length; lia). reflexivity. }
    assert (FL : Forall (fun r => length r = outlen n) rs).
    { apply Forall_forall. intros r Hr. apply (In_nth _ _ []) in Hr as (i & Hi & <-). rewrite Lrs in Hi.
      rewrite (HL _ _ (Ni i Hi)). f_equal. rewrite Forall_forall in FR. apply FR. apply nth_In. rewrite rows_length. exact Hi. }
    set (out := Arr (pre ++ [outlen n]) (concat rs)).
    assert (Wo : well_formed out).
    { unfold well_formed, out. cbn [shape data]. rewrite (concat_length_m (outlen n)), Lrs, prod_app by exact FL. unfold prod at 3. cbn. lia. }
    split; [exact Wo|]. exists (outlen n). split; [reflexivity|]. intros p Hp.
    rewrite (line_row dA a pre n p W S Hp), Ni by exact (ravel_lt _ _ Hp). f_equal.
    rewrite (line_row dB out pre (outlen n) p Wo eq_refl Hp). unfold rows. rewrite nth_map_seq by exact (ravel_lt _ _ Hp).
    unfold out. cbn [data]. symmetry. apply nth_concat; [exact FL|]. rewrite Lrs. exact (ravel_lt _ _ Hp).
  - assert (H : exists i, i < prod pre /\ f (nth i (rows pre n a) []) = None).
    { clear - E. rewrite <- (rows_length pre n a). induction (rows pre n a) as [|r rs IH]; [discriminate|]. cbn [map sequence] in E.
      destruct (f r) as [x|] eqn:Er; [|exists 0; cbn; split; [lia|exact Er]].
      destruct (sequence (map f rs)); [discriminate|]. destruct (IH eq_refl) as (i & Hi & Hn). exists (S i). cbn. split; [lia|exact Hn]. }
    destruct H as (i & Hi & Hn). destruct (unravel _ _ Hi) as (p & Hp & <-). exists p. split; [exact Hp|].
    rewrite (line_row dA a pre n p W S Hp). exact Hn.
Qed.

(** reshaping *)
Lemma rev_shape (sh pre : list nat) n : sh = pre ++ [n] -> rev sh = n :: rev pre.
Proof. intros ->. rewrite rev_app_distr. reflexivity. Qed.
Lemma reshape_pre {A} (sh : list nat) (l : list A) pre n k : Forall (lt 0) pre -> length l = prod pre * k -> forall s, s = pre ++ [n] ->
  reshape_auto (removelast s) [] (Arr sh l) = Some (Arr (pre ++ [k]) l).
Proof.
  intros Hp L s ->. rewrite removelast_last. apply prod_pos in Hp.
  apply (reshape_auto_ok (Arr sh l) pre [] k); [unfold prod at 2; cbn; lia|]. cbn [data]. unfold prod at 2. cbn. lia.
Qed.
Lemma reshape_pre_none {A} (sh : list nat) (l : list A) pre n : length l mod prod pre <> 0 -> forall s, s = pre ++ [n] ->
  reshape_auto (removelast s) [] (Arr sh l) = None.
Proof.
  intros L s ->. rewrite removelast_last. unfold reshape_auto. replace (prod pre * prod []) with (prod pre) by (unfold prod at 3; cbn; lia).
  cbn [data]. destruct (Nat.eqb_spec (prod pre) 0); [reflexivity|]. destruct (Nat.eqb_spec (length l mod prod pre) 0); [contradiction|]. reflexivity.
Qed.
Lemma chunks_app {A} b : forall k1 k2 (l1 l2 : list A), length l1 = k1 * b -> chunks (k1 + k2) b (l1 ++ l2) = chunks k1 b l1 ++ chunks k2 b l2.
Proof.
  induction k1 as [|k1 IH]; intros k2 l1 l2 H; [destruct l1; [reflexivity|discriminate]|].
  cbn [Nat.add chunks app]. rewrite firstn_app, skipn_app. replace (b - length l1) with 0 by lia. cbn [firstn skipn]. rewrite app_nil_r. f_equal.
  apply IH. rewrite skipn_length. lia.
Qed.
Lemma chunks_concat_rows {A} b k : forall (rs : list (list A)), Forall (fun r => length r = k * b) rs ->
  chunks (length rs * k) b (concat rs) = concat (map (chunks k b) rs).
Proof.
  induction rs as [|r rs IH]; intros F; [reflexivity|]. inversion F; subst. cbn [length Nat.mul concat map]. rewrite chunks_app by assumption.
  f_equal. apply IH. assumption.
Qed.
Lemma reshape_chunks {A} b (l : list A) : reshape b l = chunks (length l / b) b l.
Proof. reflexivity. Qed.
Lemma reshape_rows_concat {A} b n (rs : list (list A)) : 0 < b -> n mod b = 0 -> Forall (fun r => length r = n) rs ->
  reshape b (concat rs) = concat (map (reshape b) rs).
Proof.
  intros Hb Hn F. apply Nat.mod_divides in Hn as [k Ek]; [|lia]. assert (En : n = k * b) by lia. clear Ek.
  rewrite reshape_chunks, (concat_length_m n) by exact F. rewrite En, Nat.mul_assoc, Nat.div_mul by lia.
  rewrite chunks_concat_rows; [|rewrite <- En; exact F]. f_equal. apply map_ext_in. intros r Hr. rewrite reshape_chunks.
  rewrite Forall_forall in F. rewrite (F r Hr), En, Nat.div_mul by lia. reflexivity.
Qed.
Lemma reshape_count {A} b n (rs : list (list A)) : 0 < b -> n mod b = 0 -> Forall (fun r => length r = n) rs ->
  length (reshape b (concat rs)) = length rs * (n / b) /\ Forall (fun r => length r = b) (reshape b (concat rs)).
Proof.
  intros Hb Hn F. apply Nat.mod_divides in Hn as [k Ek]; [|lia]. assert (En : n = k * b) by lia. clear Ek.
  assert (L : length (concat rs) = (length rs * k) * b) by (rewrite (concat_length_m n) by exact F; nia).
  rewrite reshape_chunks, L, Nat.div_mul by lia. destruct (concat_chunks b (length rs * k) (concat rs) L) as (_ & H2 & H3).
  rewrite H3. rewrite En, Nat.div_mul by lia. split; [reflexivity|exact H2].
Qed.
(** the check that the first and the last reshape make together is the divisibility of the last dimension *)
Lemma flat_divides P n b : 0 < P -> 0 < b -> (P * n) mod b = 0 -> (P * n / b) mod P = 0 -> n mod b = 0.
Proof.
  intros HP Hb H1 H2. apply Nat.mod_divides in H1 as [c Hc]; [|lia]. rewrite Hc, Nat.mul_comm, Nat.div_mul in H2 by lia.
  apply Nat.mod_divides in H2 as [d Hd]; [|lia]. subst c. apply Nat.mod_divides; [lia|]. exists d. nia.
Qed.

(** sequence *)
Lemma sequence_some {A} (l : list A) : sequence (map Some l) = Some l.
Proof. apply sequence_spec. reflexivity. Qed.
Lemma sequence_map_some {A B} (g : A -> B) (l : list A) : sequence (map (fun x => Some (g x)) l) = Some (map g l).
Proof. apply sequence_spec. rewrite map_map. reflexivity. Qed.
Lemma sequence_all_some {A} (l : list (option A)) : sequence l = all_some l.
Proof. induction l as [|[x|] l IH]; cbn; [reflexivity|rewrite IH; reflexivity|reflexivity]. Qed.
Lemma sequence_app {A} (l1 l2 : list (option A)) :
  sequence (l1 ++ l2) = match sequence l1, sequence l2 with Some r1, Some r2 => Some (r1 ++ r2) | _, _ => None end.
Proof.
  induction l1 as [|[x|] l1 IH]; cbn; [destruct (sequence l2); reflexivity| |reflexivity]. rewrite IH.
  destruct (sequence l1); [|reflexivity]. destruct (sequence l2); reflexivity.
Qed.
Lemma sequence_concat {A B} (g : A -> option B) : forall (rss : list (list A)),
  sequence (map g (concat rss)) = option_map (@concat B) (sequence (map (fun l => sequence (map g l)) rss)).
Proof.
  induction rss as [|rs rss IH]; [reflexivity|]. cbn [concat map sequence]. rewrite map_app, sequence_app, IH.
  destruct (sequence (map g rs)) as [r|]; [|reflexivity]. destruct (sequence (map (fun l => sequence (map g l)) rss)); reflexivity.
Qed.
Lemma sequence_none {A B} (f : A -> option B) (l : list A) x : In x l -> f x = None -> sequence (map f l) = None.
Proof.
  induction l as [|y l IH]; intros Hx Hf; [contradiction|]. cbn. destruct Hx as [->|Hx]; [rewrite Hf; reflexivity|].
  rewrite (IH Hx Hf). destruct (f y); reflexivity.
Qed.
Lemma rows_nonempty {A} pre n (a : array A) : Forall (lt 0) pre -> exists r, In r (rows pre n a).
Proof.
  intros H. apply prod_pos in H. destruct (rows pre n a) as [|r rs] eqn:E; [apply (f_equal (@length _)) in E; rewrite rows_length in E; cbn in E; lia|].
  exists r. left. reflexivity.
Qed.

(** apply_scalar on the rows *)
From Verif Require Import NdMaps_Model.
Lemma apply_scalar_rows {A B} (dA : A) (dB : B) (g : list A -> option B) (sh : list nat) b (a : array A) : well_formed a -> shape a = sh ++ [b] ->
  apply_scalar dA dB g a = match sequence (map g (rows sh b a)) with Some [] => None | Some r => Some (Arr sh r) | None => None end.
Proof.
  intros W S. unfold apply_scalar. set (h := fun l => option_map (fun x => [x]) (g l)). unfold apply_along_axis. rewrite (norm_axis_last a sh b S). unfold outer_of, inner_of.
  rewrite (sh_first sh [] b a S), (sh_skip sh [] b a S), (sh_nth sh [] b a S).
  change (prod []) with 1. cbn [seq].
  assert (FL : forall o, o < prod sh -> flat_line dA b 1 (data a) o 0 = nth o (rows sh b a) []).
  { intros o Ho. destruct (unravel _ _ Ho) as (p & Hp & <-). rewrite <- (line_row dA a sh b p W S Hp).
    exact (flat_line_spec dA sh [] b a S p [] Hp (Forall2_nil _)). }
  assert (E1 : flat_map (fun o => map (fun i => h (flat_line dA b 1 (data a) o i)) [0]) (seq 0 (prod sh)) = map h (rows sh b a)).
  { rewrite flat_map_concat_map. transitivity (map (fun o => h (nth o (rows sh b a) [])) (seq 0 (prod sh))).
    - cbn [map]. rewrite (map_ext_in _ (fun o => [h (nth o (rows sh b a) [])])) by (intros o Ho; apply in_seq in Ho; rewrite FL by lia; reflexivity).
      generalize (seq 0 (prod sh)). intros l. induction l as [|o l IH]; [reflexivity|]. cbn. rewrite IH. reflexivity.
    - apply (list_ext None); [rewrite !map_length, seq_length, rows_length; reflexivity|]. intros i Hi. rewrite map_length, seq_length in Hi.
      rewrite nth_map_seq by exact Hi. rewrite (nth_indep _ None (h [])), map_nth by (rewrite map_length, rows_length; exact Hi). reflexivity. }
  rewrite E1.
  assert (E2 : sequence (map h (rows sh b a)) = option_map (map (fun x => [x])) (sequence (map g (rows sh b a)))).
  { unfold h. clear. generalize (rows sh b a). intros l. induction l as [|r rs IH]; [reflexivity|]. cbn [map sequence]. destruct (g r); cbn [option_map]; [|reflexivity].
    rewrite IH. destruct (sequence (map g rs)); reflexivity. }
  rewrite E2. destruct (sequence (map g (rows sh b a))) as [res|] eqn:E; cbn [option_map]; [|reflexivity].
  destruct res as [|x res]; [reflexivity|]. cbn [map length].
  replace (forallb _ (map (fun x => [x]) res)) with true.
  - apply sequence_spec in E.
    assert (EL : length (x :: res) = prod sh) by (apply (f_equal (@length _)) in E; rewrite !map_length, rows_length in E; congruence).
    rewrite (along_shape dA dB sh [] b a S), removelast_last. do 2 f_equal.
    unfold along. cbn [data]. unfold outer_of, inner_of. rewrite (sh_first sh [] b a S), (sh_skip sh [] b a S), (sh_nth sh [] b a S).
    change (prod []) with 1. cbn [seq map flat_map]. apply (list_ext dB).
    + rewrite (flat_map_seq_length _ 1) by (intros; reflexivity). cbn [length] in *. lia.
    + intros i Hi. rewrite (flat_map_seq_length _ 1) in Hi by (intros; reflexivity). rewrite Nat.mul_1_r in Hi.
      pose proof (flat_map_seq_nth (fun o => [nth 0 (match h (flat_line dA b 1 (data a) o 0) with Some r => broadcast 1 r | None => [] end) dB] ++ []) 1 (prod sh) i 0 dB (fun _ _ => eq_refl) Hi Nat.lt_0_1) as P.
      rewrite Nat.mul_1_r, Nat.add_0_r in P. rewrite P. cbn [app nth]. rewrite FL by exact Hi.
      apply (f_equal (fun l => nth i l None)) in E. rewrite (nth_indep _ None (g [])), map_nth in E by (rewrite map_length, rows_length; exact Hi).
      rewrite (nth_indep _ None (Some dB)), map_nth in E by (rewrite map_length, EL; exact Hi).
      unfold h. rewrite E. reflexivity.
  - symmetry. apply forallb_forall. intros r Hr. apply in_map_iff in Hr as (y & <- & _). reflexivity.
Qed.
