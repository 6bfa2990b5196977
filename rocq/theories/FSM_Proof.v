From Coq Require Import QArith Lqa.
From Verif Require Import Common LinAlg_Model BlockCode_Model LinAlg_Proof Decoders_Proof FSM_Model FSM_Spec.
Local Open Scope nat_scope.

(* ---------------- process ---------------- *)
Lemma process_app M xs ys s :
  process M (xs ++ ys) s =
  (fst (process M xs s) ++ fst (process M ys (snd (process M xs s))), snd (process M ys (snd (process M xs s)))).
Proof.
  revert s; induction xs as [|x xs IH]; intros s; cbn [process app fst snd].
  - destruct (process M ys s); reflexivity.
  - rewrite IH. destruct (process M xs (fsm_next M s x)) as [o f]; reflexivity.
Qed.

Lemma process_length M xs s : length (fst (process M xs s)) = length xs.
Proof. revert s; induction xs as [|x xs IH]; intros s; cbn [process]; auto. specialize (IH (fsm_next M s x)). destruct (process M xs _); cbn in *; congruence. Qed.

Lemma process_state M xs s : mealy_ok M -> s < num_states M -> input_word M xs -> snd (process M xs s) < num_states M.
Proof.
  intros (_ & _ & _ & N). revert s; induction xs as [|x xs IH]; intros s Hs W; cbn [process]; auto.
  inversion W; subst. specialize (IH (fsm_next M s x) ltac:(auto) ltac:(auto)). destruct (process M xs _); auto.
Qed.

Lemma process_snoc M xs x s : process M (xs ++ [x]) s =
  (fst (process M xs s) ++ [fsm_out M (snd (process M xs s)) x], fsm_next M (snd (process M xs s)) x).
Proof. rewrite process_app. reflexivity. Qed.

Lemma moore_app M xs ys s :
  moore_process M (xs ++ ys) s =
  (fst (moore_process M xs s) ++ fst (moore_process M ys (snd (moore_process M xs s))), snd (moore_process M ys (snd (moore_process M xs s)))).
Proof.
  revert s; induction xs as [|x xs IH]; intros s; cbn [moore_process app fst snd].
  - destruct (moore_process M ys s); reflexivity.
  - cbv zeta. rewrite IH. destruct (moore_process M xs _) as [o f]; reflexivity.
Qed.
Lemma moore_length M xs s : length (fst (moore_process M xs s)) = length xs.
Proof. revert s; induction xs as [|x xs IH]; intros s; cbn [moore_process]; auto. cbv zeta. specialize (IH (nth x (nth s (moore_transitions M) []) 0)). destruct (moore_process M xs _); cbn in *; congruence. Qed.

(* ---------------- edges ---------------- *)
Lemma edge_row_spec {A} (d : A) (lab : nat -> A) n l : forall row, length row = n -> (forall p, In p l -> snd p < n) ->
  let r := fold_left (fun row '(x, s1) => upd s1 (lab x) row) l row in
  length r = n /\ forall s1, s1 < n -> 
   (exists x, In (x, s1) l /\ nth s1 r d = lab x) \/ ((forall x, ~ In (x, s1) l) /\ nth s1 r d = nth s1 row d).
Proof.
  induction l as [|[x t] l IH]; intros row L B; cbn [fold_left].
  - split; auto.
  - destruct (IH (upd t (lab x) row)) as [L' S]; [rewrite upd_length; auto|intros; apply B; right; auto|].
    split; auto. intros s1 Hs. destruct (S s1 Hs) as [(y & I & E)|[NI E]].
    + left. exists y. split; auto. right; auto.
    + rewrite nth_upd in E by (rewrite L; apply (B (x, t)); left; auto). destruct (Nat.eqb_spec s1 t).
      * subst. left. exists x. split; auto. left; auto.
      * right. split; auto. intros y [H|H]; [inversion H; congruence|apply (NI y H)].
Qed.

Lemma in_combine_seq {A} n (l : list A) x y d : length l = n -> In (x, y) (combine (seq 0 n) l) <-> x < n /\ nth x l d = y.
Proof.
  intros L. split.
  - intros H. apply (In_nth _ _ (0, d)) in H as (i & Hi & E). rewrite combine_length, seq_length in Hi.
    rewrite combine_nth in E by (rewrite seq_length; auto). rewrite nth_seq in E by lia. inversion E; subst. cbn. split; [lia|auto].
  - intros [Hx E]. replace (x, y) with (nth x (combine (seq 0 n) l) (0, d)); [apply nth_In; rewrite combine_length, seq_length; lia|].
    rewrite combine_nth, nth_seq by (rewrite ?seq_length; auto; lia). subst. reflexivity.
Qed.

Lemma edge_table_spec {A} M (d : A) lab s0 s1 : mealy_ok M -> s0 < num_states M -> s1 < num_states M ->
  (exists x, x < num_input_symbols M /\ fsm_next M s0 x = s1 /\ nth s1 (nth s0 (edge_table M d lab) []) d = lab s0 x) \/
  ((forall x, x < num_input_symbols M -> fsm_next M s0 x <> s1) /\ nth s1 (nth s0 (edge_table M d lab) []) d = d).
Proof.
  intros (P & Lo & R & N) H0 H1. destruct (R s0 H0) as [Lt _]. unfold edge_table. rewrite nth_map_seq by auto.
  destruct (edge_row_spec d (lab s0) (num_states M) (combine (seq 0 (num_input_symbols M)) (nth s0 (fsm_transitions M) [])) (repeat d (num_states M))) as [_ S].
  - apply repeat_length.
  - intros [x t] I. apply (in_combine_seq _ _ _ _ 0) in I as [I E]; auto. cbn. subst t. apply N; auto.
  - destruct (S s1 H1) as [(x & I & E)|[NI E]].
    + left. exists x. apply (in_combine_seq _ _ _ _ 0) in I as [I E']; auto.
    + right. split; [|rewrite E, nth_repeat; auto]. intros x Hx E'. apply (NI x). apply (in_combine_seq _ _ _ _ 0); auto.
Qed.

(* on parallel edges the largest input symbol wins *)
Lemma edge_row_last {A} (d : A) (lab : nat -> A) n : forall t a row, length row = n -> (forall v, In v t -> v < n) ->
  let r := fold_left (fun row '(x, s1) => upd s1 (lab x) row) (combine (seq a (length t)) t) row in
  length r = n /\ forall s1, s1 < n ->
   (exists i, i < length t /\ nth i t 0 = s1 /\ (forall j, j < length t -> nth j t 0 = s1 -> j <= i) /\ nth s1 r d = lab (a + i)) \/
   ((forall i, i < length t -> nth i t 0 <> s1) /\ nth s1 r d = nth s1 row d).
Proof.
  induction t as [|v t IH]; intros a row L B; cbn [combine seq length fold_left].
  - split; [exact L|]. intros s1 H. right. split; [intros i Hi; lia|reflexivity].
  - assert (Hv : v < n) by (apply B; left; auto).
    destruct (IH (S a) (upd v (lab a) row)) as [L' S']; [rewrite upd_length; auto|intros; apply B; right; auto|].
    split; [exact L'|]. intros s1 Hs. destruct (S' s1 Hs) as [(i & Hi & E & M & V)|[NI V]].
    + left. exists (S i). split; [lia|]. split; [exact E|]. split; [|rewrite V; f_equal; lia].
      intros [|j] Hj Ej; [lia|]. specialize (M j ltac:(lia) Ej). lia.
    + rewrite nth_upd in V by lia. destruct (Nat.eqb_spec s1 v).
      * subst s1. left. exists 0. split; [lia|]. split; [reflexivity|]. split; [|rewrite V; f_equal; lia].
        intros [|j] Hj Ej; [lia|]. destruct (NI j ltac:(lia) Ej).
      * right. split; [|exact V]. intros [|i] Hi Ei; [cbn in Ei; congruence|]. apply (NI i ltac:(lia) Ei).
Qed.
Lemma edge_table_last {A} M (d : A) lab s0 s1 : mealy_ok M -> s0 < num_states M -> s1 < num_states M ->
  (exists x, x < num_input_symbols M /\ fsm_next M s0 x = s1 /\ (forall y, y < num_input_symbols M -> fsm_next M s0 y = s1 -> y <= x) /\
     nth s1 (nth s0 (edge_table M d lab) []) d = lab s0 x) \/
  ((forall x, x < num_input_symbols M -> fsm_next M s0 x <> s1) /\ nth s1 (nth s0 (edge_table M d lab) []) d = d).
Proof.
  intros (P & Lo & R & N) H0 H1. destruct (R s0 H0) as [Lt _]. unfold edge_table. rewrite nth_map_seq by auto.
  destruct (edge_row_last d (lab s0) (num_states M) (nth s0 (fsm_transitions M) []) 0 (repeat d (num_states M))) as [_ S'].
  - apply repeat_length.
  - intros v I. apply (In_nth _ _ 0) in I as (x & Hx & <-). apply N; [auto|lia].
  - rewrite Lt in S'. destruct (S' s1 H1) as [(x & Hx & E & M' & V)|[NI E]].
    + left. exists x. auto.
    + right. split; [exact NI|rewrite E, nth_repeat; auto].
Qed.
Lemma edge_table_shape {A} M (d : A) lab : length (edge_table M d lab) = num_states M /\ (forall r, In r (edge_table M d lab) -> length r = num_states M).
Proof.
  split; [unfold edge_table; rewrite map_length, seq_length; reflexivity|]. intros r H. apply in_map_iff in H as (s & <- & _).
  generalize (combine (seq 0 (num_input_symbols M)) (nth s (fsm_transitions M) [])). intros l.
  assert (G : forall row : list A, length (fold_left (fun row '(x, s1) => upd s1 (lab s x) row) l row) = length row).
  { induction l as [|[x t] l IH]; intros row; [reflexivity|]. cbn [fold_left]. rewrite IH. apply upd_length. }
  rewrite G, repeat_length. reflexivity.
Qed.

Section Trace.
Context (M : mealy).
(* state sequence chosen by the traceback: s_0, ..., s_T for final state f *)
Fixpoint trace (rcs : list (list nat)) (f : nat) : list nat :=
  match rcs with [] => [f] | c :: cs => trace cs (nth f c 0) ++ [f] end.
Definition edge (s0 s1 : nat) : BinNums.Z := nth s1 (nth s0 (input_edges M) []) (-1)%Z.
Lemma backtrack_acc rcs f acc : viterbi_backtrack M rcs f acc = viterbi_backtrack M rcs f [] ++ acc.
Proof.
  revert f acc; induction rcs as [|c cs IH]; intros f acc; cbn [viterbi_backtrack]; auto. rewrite IH. rewrite (IH _ [_]). rewrite <- app_assoc. reflexivity.
Qed.
Lemma backtrack_cons c cs f : viterbi_backtrack M (c :: cs) f [] = viterbi_backtrack M cs (nth f c 0) [] ++ [edge (nth f c 0) f].
Proof. cbn [viterbi_backtrack]. rewrite backtrack_acc. reflexivity. Qed.
Lemma backtrack_length rcs f : length (viterbi_backtrack M rcs f []) = length rcs.
Proof. revert f; induction rcs as [|c cs IH]; intros f; auto. rewrite backtrack_cons, app_length, IH. cbn. lia. Qed.
Lemma trace_length rcs f : length (trace rcs f) = S (length rcs).
Proof. revert f; induction rcs as [|c cs IH]; intros f; cbn [trace]; auto. rewrite app_length, IH. cbn. lia. Qed.
(* the labels along the traced states *)
Fixpoint labels (ss : list nat) : list BinNums.Z :=
  match ss with s0 :: (s1 :: _) as ss' => edge s0 s1 :: labels ss' | _ => [] end.
Lemma labels_snoc ss s0 s1 : labels ((ss ++ [s0]) ++ [s1]) = labels (ss ++ [s0]) ++ [edge s0 s1].
Proof. induction ss as [|a ss IH]; auto. destruct ss as [|b ss]; auto. cbn [app labels] in *. rewrite IH. reflexivity. Qed.
Lemma backtrack_trace rcs f : viterbi_backtrack M rcs f [] = labels (trace rcs f).
Proof.
  revert f; induction rcs as [|c cs IH]; intros f; auto. rewrite backtrack_cons, IH. cbn [trace].
  assert (exists ss, trace cs (nth f c 0) = ss ++ [nth f c 0]) as [ss ->].
  { destruct cs; cbn [trace]; [exists []; auto|eexists; reflexivity]. }
  rewrite labels_snoc. reflexivity.
Qed.
Lemma nth_labels ss i : S i < length ss -> nth i (labels ss) (-1)%Z = edge (nth i ss 0) (nth (S i) ss 0).
Proof.
  revert i; induction ss as [|a ss IH]; intros i H; cbn in H; [lia|]. destruct ss as [|b ss]; cbn in H; [lia|].
  destruct i as [|i]; auto. cbn [labels nth]. rewrite IH by (cbn; lia). reflexivity.
Qed.
(* last tau+1 states of  0^(tau+1) ++ (trace with its first state forgotten and replaced by 0) *)
Definition window tau (tr : list nat) : list nat := let w := repeat 0 (tau + 1) ++ tl tr in skipn (length w - (tau + 1)) w.
Lemma window_snoc tau tr s : tr <> [] -> roll_in (window tau tr) s = window tau (tr ++ [s]).
Proof.
  intros NE. unfold roll_in, window. cbv zeta. destruct tr as [|a tr]; [congruence|]. cbn [app tl].
  assert (E : forall (w : list nat) j, tl (skipn j w) = skipn (S j) w). { intros w j. revert w; induction j; destruct w; cbn; auto. apply IHj. }
  rewrite E, !app_assoc. set (w := repeat 0 (tau + 1) ++ tr). rewrite (app_length w). cbn [length].
  assert (Lw : length w = tau + 1 + length tr) by (unfold w; rewrite app_length, repeat_length; auto). rewrite Lw.
  rewrite skipn_app. replace (tau + 1 + length tr + 1 - (tau + 1)) with (S (tau + 1 + length tr - (tau + 1))) by lia.
  replace (S (tau + 1 + length tr - (tau + 1)) - length w) with 0 by lia. reflexivity.
Qed.
Lemma nth_skipn' (w : list nat) i j : nth i (skipn j w) 0 = nth (i + j) w 0.
Proof.
  revert w; induction j as [|j IH]; intros w; [rewrite Nat.add_0_r; reflexivity|].
  destruct w; [destruct (i + S j); destruct i; reflexivity|]. cbn [skipn]. rewrite IH, Nat.add_succ_r. reflexivity.
Qed.
Lemma window_late tau tr : tau + 2 <= length tr -> 1 <= tau ->
  nth 0 (window tau tr) 0 = nth (length tr - (tau + 1)) tr 0 /\ nth 1 (window tau tr) 0 = nth (length tr - tau) tr 0.
Proof.
  intros H Ht. destruct tr as [|a tr]; cbn in H; [lia|]. unfold window. cbv zeta. cbn [tl]. rewrite app_length, repeat_length. cbn [length].
  assert (E : forall i, nth i (skipn (tau + 1 + length tr - (tau + 1)) (repeat 0 (tau + 1) ++ tr)) 0 = nth (i + length tr) (repeat 0 (tau + 1) ++ tr) 0).
  { intros i. replace (tau + 1 + length tr - (tau + 1)) with (length tr) by lia. apply nth_skipn'. }
  rewrite !E. rewrite !app_nth2, !repeat_length by (rewrite repeat_length; lia).
  replace (S (length tr) - (tau + 1)) with (S (length tr - tau - 1)) by lia. replace (S (length tr) - tau) with (S (length tr - tau)) by lia. cbn [nth].
  split; f_equal; lia.
Qed.
Lemma window_at tau tr : tau + 1 = length tr -> 1 <= tau -> nth 0 (window tau tr) 0 = 0 /\ nth 1 (window tau tr) 0 = nth 1 tr 0.
Proof.
  intros H Ht. destruct tr as [|a tr]; cbn in H; [lia|]. unfold window. cbv zeta. cbn [tl]. rewrite app_length, repeat_length.
  replace (tau + 1 + length tr - (tau + 1)) with tau by lia. rewrite skipn_app, repeat_length. replace (tau - (tau + 1)) with 0 by lia.
  cbn [skipn]. replace (skipn tau (repeat 0 (tau + 1))) with [0]; [auto|]. clear. induction tau; cbn; auto.
Qed.
Lemma window_early tau tr : length tr < tau + 1 -> nth 0 (window tau tr) 0 = 0 /\ nth 1 (window tau tr) 0 = 0.
Proof.
  intros H. unfold window. cbv zeta. rewrite app_length, repeat_length. set (q := tl tr).
  assert (length q = length tr - 1) by (unfold q; destruct tr; cbn; lia).
  rewrite skipn_app, repeat_length. replace (tau + 1 + length q - (tau + 1)) with (length q) by lia. replace (length q - (tau + 1)) with 0 by lia. cbn [skipn].
  replace (skipn (length q) (repeat 0 (tau + 1))) with (repeat 0 (tau + 1 - length q)).
  2:{ generalize (length q). clear. intros q. generalize (tau + 1). intros m. revert m; induction q; intros [|m]; cbn; auto. }
  destruct tr as [|a tr]; [subst q; cbn; rewrite app_nil_r; destruct tau as [|[|]]; cbn; auto|].
  cbn [length] in *. destruct (tau + 1 - length q) as [|[|j]] eqn:Ej; cbn; auto; try lia.
Qed.
Lemma hd_trace_cons c cs f : hd 0 (trace (c :: cs) f) = hd 0 (trace cs (nth f c 0)).
Proof. cbn [trace]. pose proof (trace_length cs (nth f c 0)). destruct (trace cs (nth f c 0)); [discriminate|reflexivity]. Qed.
End Trace.

(* ---------------- order facts ---------------- *)
Section Viterbi.
Context (V : metric_ops) {Z : Type} (M : mealy) (metric : nat -> Z -> V) (LW : metric_laws V) (OK : mealy_ok M).
Notation le a b := (mle V a b = true).
Notation inf := (minf V).
Local Notation n := (num_states M).
Local Notation k := (num_input_symbols M).

Lemma le_refl (a : V) : le a a. Proof. destruct (mle_total V LW a a); auto. Qed.
Lemma lt_le (a b : V) : mlt V a b = true -> le a b.
Proof. intros H. destruct (mle_total V LW a b) as [T|T]; auto. unfold mle in T. rewrite H in T. discriminate. Qed.
Lemma nlt_le (a b : V) : mlt V a b = false -> le b a.
Proof. intros H. unfold mle. rewrite H. reflexivity. Qed.
Lemma lt_not_le (a b : V) : mlt V a b = true -> le b a -> False.
Proof. unfold mle. intros -> H. discriminate. Qed.
Lemma lt_le_trans (a b c : V) : mlt V a b = true -> le b c -> mlt V a c = true.
Proof. intros H1 H2. destruct (mlt V a c) eqn:E; auto. exfalso. apply (lt_not_le a b H1). eapply (mle_trans V LW); [exact H2|]. apply nlt_le, E. Qed.

(* ---------------- one step ---------------- *)
Definition edges : list (nat * (nat * nat)) :=
  flat_map (fun s0 => map (fun e => (s0, e)) (combine (nth s0 (fsm_transitions M) []) (nth s0 (fsm_outputs M) []))) (seq 0 n).

Lemma edges_iff s0 s1 y : In (s0, (s1, y)) edges <-> s0 < n /\ exists x, x < k /\ fsm_next M s0 x = s1 /\ fsm_out M s0 x = y.
Proof.
  destruct OK as (P & Lo & R & N). unfold edges. rewrite in_flat_map. split.
  - intros (s & Is & I). apply in_map_iff in I as (e & E & I). inversion E; subst s e. apply in_seq in Is. split; [lia|].
    destruct (R s0 ltac:(lia)) as [L1 L2]. apply (In_nth _ _ (0, 0)) in I as (x & Hx & Ex). rewrite combine_length in Hx. rewrite combine_nth in Ex by congruence.
    inversion Ex. exists x. repeat split; auto. lia.
  - intros (Hs & x & Hx & E1 & E2). exists s0. rewrite in_seq. split; [lia|]. destruct (R s0 Hs) as [L1 L2]. apply in_map_iff. exists (s1, y). split; auto.
    replace (s1, y) with (nth x (combine (nth s0 (fsm_transitions M) []) (nth s0 (fsm_outputs M) [])) (0, 0)); [apply nth_In; rewrite combine_length; lia|].
    rewrite combine_nth by congruence. unfold fsm_next, fsm_out in *. congruence.
Qed.

Lemma fold_flat {A B C} (g : A -> B -> C -> A) (h : B -> list C) l a :
  fold_left (fun acc b => fold_left (fun acc c => g acc b c) (h b) acc) l a =
  fold_left (fun acc e => g acc (fst e) (snd e)) (flat_map (fun b => map (fun c => (b, c)) (h b)) l) a.
Proof.
  revert a; induction l as [|b l IH]; intros a; cbn [fold_left flat_map]; auto. rewrite IH, fold_left_app. f_equal.
  generalize (h b). intros hl. revert a. induction hl as [|c hl IH']; intros a; cbn [fold_left map]; auto.
Qed.

Lemma step_flat row z : viterbi_step V M metric row z =
  fold_left (fun acc e => viterbi_relax V metric row z (fst e) acc (snd e)) edges (repeat inf n, repeat 0 n).
Proof. unfold viterbi_step, edges. rewrite <- (fold_flat (fun acc s0 e => viterbi_relax V metric row z s0 acc e)). reflexivity. Qed.

Definition cand row z s0 y := madd V (nth s0 row inf) (metric y z).

Lemma relax_fold row z l : forall m c, length m = n -> length c = n ->
  (forall s0 s1 y, In (s0, (s1, y)) l -> s1 < n) ->
  let '(m', c') := fold_left (fun acc e => viterbi_relax V metric row z (fst e) acc (snd e)) l (m, c) in
  length m' = n /\ length c' = n /\
  (forall s, s < n -> le (nth s m' inf) (nth s m inf)) /\
  (forall s0 s1 y, In (s0, (s1, y)) l -> le (nth s1 m' inf) (cand row z s0 y)) /\
  (forall s1, s1 < n -> (nth s1 m' inf = nth s1 m inf /\ nth s1 c' 0 = nth s1 c 0) \/
     exists y, In (nth s1 c' 0, (s1, y)) l /\ nth s1 m' inf = cand row z (nth s1 c' 0) y /\ mlt V (nth s1 m' inf) (nth s1 m inf) = true).
Proof.
  induction l as [|(s0 & s1 & y) l IH]; intros m c Lm Lc B; cbn [fold_left fst snd].
  - split; [auto|split; [auto|split; [intros; apply le_refl|split; [intros ? ? ? []|auto]]]].
  - unfold viterbi_relax at 2. fold (cand row z s0 y).
    assert (H1 : s1 < n) by (apply (B s0 s1 y); left; auto).
    destruct (mlt V (cand row z s0 y) (nth s1 m inf)) eqn:E.
    + specialize (IH (upd s1 (cand row z s0 y) m) (upd s1 s0 c)). rewrite !upd_length in IH. specialize (IH Lm Lc ltac:(intros; eapply B; right; eauto)).
      destruct (fold_left _ l _) as [m' c']. destruct IH as (L1 & L2 & D & C & A).
      assert (D' : forall s, s < n -> le (nth s m' inf) (nth s m inf)).
      { intros s Hs. specialize (D s Hs). rewrite nth_upd in D by lia. destruct (Nat.eqb_spec s s1); auto. subst.
        eapply (mle_trans V LW); [exact D|]. apply lt_le, E. }
      repeat split; auto.
      * intros a b w [H|H]; [inversion H; subst|eapply C; eauto]. specialize (D b H1). rewrite nth_upd, Nat.eqb_refl in D by lia. exact D.
      * intros s Hs. destruct (A s Hs) as [[E1 E2]|(w & I & E1 & E2)].
        -- rewrite nth_upd in E1 by lia. rewrite nth_upd in E2 by lia. destruct (Nat.eqb_spec s s1); auto. subst s. right. exists y. rewrite E2, E1. repeat split; auto. left; auto.
        -- right. exists w. repeat split; auto. right; auto. eapply lt_le_trans; [exact E2|]. rewrite nth_upd by lia. destruct (Nat.eqb_spec s s1); [subst; apply lt_le, E|apply le_refl].
    + specialize (IH m c Lm Lc ltac:(intros; eapply B; right; eauto)).
      destruct (fold_left _ l _) as [m' c']. destruct IH as (L1 & L2 & D & C & A). repeat split; auto.
      * intros a b w [H|H]; [inversion H; subst|eapply C; eauto]. eapply (mle_trans V LW); [apply D; auto|]. apply nlt_le, E.
      * intros s Hs. destruct (A s Hs) as [?|(w & I & E1 & E2)]; auto. right. exists w. repeat split; auto. right; auto.
Qed.

Lemma step_spec row z : let '(m, c) := viterbi_step V M metric row z in
  length m = n /\ length c = n /\
  (forall s x, s < n -> x < k -> le (nth (fsm_next M s x) m inf) (cand row z s (fsm_out M s x))) /\
  (forall s1, s1 < n -> (nth s1 m inf = inf /\ nth s1 c 0 = 0) \/
     exists x, nth s1 c 0 < n /\ x < k /\ fsm_next M (nth s1 c 0) x = s1 /\
       nth s1 m inf = cand row z (nth s1 c 0) (fsm_out M (nth s1 c 0) x) /\ mlt V (nth s1 m inf) inf = true) /\
  (forall s1, s1 < n -> nth s1 c 0 < n).
Proof.
  rewrite step_flat. pose proof (relax_fold row z edges (repeat inf n) (repeat 0 n)) as H. rewrite !repeat_length in H. specialize (H eq_refl eq_refl).
  assert (B : forall s0 s1 y, In (s0, (s1, y)) edges -> s1 < n).
  { intros s0 s1 y I. apply edges_iff in I as (Hs & x & Hx & <- & _). destruct OK as (_ & _ & _ & N). auto. }
  specialize (H B). destruct (fold_left _ edges _) as [m c]. destruct H as (L1 & L2 & D & C & A).
  assert (A' : forall s1, s1 < n -> (nth s1 m inf = inf /\ nth s1 c 0 = 0) \/
     exists x, nth s1 c 0 < n /\ x < k /\ fsm_next M (nth s1 c 0) x = s1 /\
       nth s1 m inf = cand row z (nth s1 c 0) (fsm_out M (nth s1 c 0) x) /\ mlt V (nth s1 m inf) inf = true).
  { intros s1 Hs. destruct (A s1 Hs) as [[E1 E2]|(y & I & E1 & E2)].
    - left. rewrite nth_repeat in E1. rewrite nth_repeat in E2. auto.
    - right. apply edges_iff in I as (H0 & x & Hx & En & Ey). exists x. subst y. rewrite nth_repeat in E2. repeat split; auto. }
  repeat split; auto.
  - intros s x Hs Hx. apply C. apply edges_iff. split; auto. exists x; auto.
  - intros s1 Hs. destruct (A' s1 Hs) as [[_ ->]|(x & H & _)]; auto. destruct OK; auto.
Qed.

(* ---------------- forward pass ---------------- *)
Lemma forward_snoc row zs z : viterbi_forward V M metric row (zs ++ [z]) =
  let '(cs, m) := viterbi_forward V M metric row zs in let '(m', c) := viterbi_step V M metric m z in (cs ++ [c], m').
Proof.
  revert row; induction zs as [|z0 zs IH]; intros row; cbn [app viterbi_forward].
  - destruct (viterbi_step V M metric row z); reflexivity.
  - destruct (viterbi_step V M metric row z0) as [r c]. rewrite IH. destruct (viterbi_forward V M metric r zs) as [cs m]. destruct (viterbi_step V M metric m z); reflexivity.
Qed.

Lemma run_metric_snoc init s xs x zs z : length xs = length zs ->
  run_metric V M metric init s (xs ++ [x]) (zs ++ [z]) =
  madd V (run_metric V M metric init s xs zs) (metric (fsm_out M (snd (process M xs s)) x) z).
Proof.
  intros L. unfold run_metric. rewrite process_snoc. cbn [fst].
  assert (C : forall {A B} (a a' : list A) (b b' : list B), length a = length b -> combine (a ++ a') (b ++ b') = combine a b ++ combine a' b').
  { intros A B a. induction a as [|p a IH]; intros a' [|q b] b' H; cbn in *; try discriminate; auto. f_equal. apply IH. congruence. }
  rewrite C by (rewrite process_length; auto). rewrite map_app, fold_left_app. reflexivity.
Qed.


Lemma lower_bound init zs : length init = n -> forall s xs, s < n -> input_word M xs -> length xs = length zs ->
  le (nth (snd (process M xs s)) (snd (viterbi_forward V M metric init zs)) inf) (run_metric V M metric init s xs zs).
Proof.
  intros Li. induction zs as [|z zs IH] using rev_ind; intros s xs Hs W L.
  - destruct xs; [|discriminate]. cbn [process snd viterbi_forward]. unfold run_metric. cbn. apply le_refl.
  - rewrite app_length in L. cbn in L. destruct xs as [|x xs _] using rev_ind; [cbn in L; lia|].
    rewrite app_length in L. cbn in L. apply Forall_app in W as [W Wx]. inversion Wx; subst.
    rewrite run_metric_snoc, process_snoc, forward_snoc by lia. cbn [snd].
    specialize (IH s xs Hs W ltac:(lia)).
    destruct (viterbi_forward V M metric init zs) as [cs m]. cbn [snd] in *.
    pose proof (step_spec m z) as S. destruct (viterbi_step V M metric m z) as [m' c]. cbn [snd]. destruct S as (_ & _ & C & _).
    eapply (mle_trans V LW); [apply C; auto; apply process_state; auto|]. unfold cand. apply (madd_mono V LW). exact IH.
Qed.


(* backtracking labels *)

Lemma forward_lengths init zs : length init = n -> length (fst (viterbi_forward V M metric init zs)) = length zs /\ length (snd (viterbi_forward V M metric init zs)) = n.
Proof.
  revert init; induction zs as [|z zs IH]; intros init L; cbn [viterbi_forward]; auto.
  pose proof (step_spec init z) as S. destruct (viterbi_step V M metric init z) as [m c]. destruct S as (L1 & _).
  specialize (IH m L1). destruct (viterbi_forward V M metric m zs). cbn in *. lia.
Qed.

(* survivors: for a finite metric there is a run that achieves it and goes through the traced states *)
Lemma achieved init zs : length init = n -> forall f, f < n ->
  let '(cs, m) := viterbi_forward V M metric init zs in
  mlt V (nth f m inf) inf = true ->
  exists s xs, s < n /\ input_word M xs /\ length xs = length zs /\ snd (process M xs s) = f /\
    run_metric V M metric init s xs zs = nth f m inf /\ mlt V (nth s init inf) inf = true /\ hd 0 (trace (rev cs) f) = s /\
    (no_parallel_edges M -> viterbi_backtrack M (rev cs) f [] = map Z.of_nat xs).
Proof.
  intros Li. induction zs as [|z zs IH] using rev_ind; intros f Hf.
  - cbn [viterbi_forward]. intros F. exists f, []. repeat split; auto. constructor.
  - rewrite forward_snoc. destruct (viterbi_forward V M metric init zs) as [cs m]. 
    pose proof (step_spec m z) as S. destruct (viterbi_step V M metric m z) as [m' c]. destruct S as (_ & _ & _ & A & Ac).
    intros F. destruct (A f Hf) as [[E _]|(x & H0 & Hx & E1 & E2 & E3)].
    { rewrite E in F. exfalso. eapply lt_not_le; [exact F|]. apply le_refl. }
    assert (F0 : mlt V (nth (nth f c 0) m inf) inf = true).
    { destruct (mlt V (nth (nth f c 0) m inf) inf) eqn:E; auto. apply nlt_le in E.
      exfalso. eapply lt_not_le; [exact E3|]. rewrite E2. unfold cand. rewrite <- (madd_inf V LW (metric (fsm_out M (nth f c 0) x) z)) at 1. apply (madd_mono V LW). exact E. }
    destruct (IH _ H0 F0) as (s & xs & Hs & W & L & P & R & FI & T & Bt).
    exists s, (xs ++ [x]). repeat split; auto.
    + apply Forall_app; split; auto.
    + rewrite !app_length, L. reflexivity.
    + rewrite process_snoc. cbn [snd]. rewrite P. exact E1.
    + rewrite run_metric_snoc, R, P by auto. symmetry. exact E2.
    + rewrite rev_app_distr. cbn [rev app trace]. destruct (trace (rev cs) (nth f c 0)) eqn:ET; cbn in *; auto.
      exfalso. revert ET. destruct (rev cs); cbn; [discriminate|]. intros HH. apply app_eq_nil in HH as [_ HH]. discriminate.
    + intros NP. rewrite rev_app_distr. cbn [rev app]. rewrite backtrack_cons, Bt, map_app by auto. f_equal. cbn [map]. f_equal. unfold edge, input_edges.
      destruct (edge_table_spec M (-1)%Z (fun _ x => Z.of_nat x) (nth f c 0) f OK H0 Hf) as [(x' & Hx' & N' & ->)|[NX _]].
      * f_equal. apply (NP _ _ _ H0 Hx' Hx). congruence.
      * exfalso. apply (NX x Hx E1).
Qed.

(* ---------------- streaming ---------------- *)
Lemma streaming_app mem zs zs' : viterbi_streaming V M metric mem (zs ++ zs') =
  let '(xs, mem1) := viterbi_streaming V M metric mem zs in let '(xs', mem2) := viterbi_streaming V M metric mem1 zs' in (xs ++ xs', mem2).
Proof.
  revert mem; induction zs as [|z zs IH]; intros mem; cbn [app viterbi_streaming].
  - destruct (viterbi_streaming V M metric mem zs'); reflexivity.
  - destruct (streaming_step V M metric mem z) as [x mem']. rewrite IH. destruct (viterbi_streaming V M metric mem' zs) as [xs m1]. destruct (viterbi_streaming V M metric m1 zs'); reflexivity.
Qed.
Lemma streaming_length mem zs : length (fst (viterbi_streaming V M metric mem zs)) = length zs.
Proof. revert mem; induction zs as [|z zs IH]; intros mem; cbn [viterbi_streaming]; auto. destruct (streaming_step V M metric mem z) as [x m]. specialize (IH m). destruct (viterbi_streaming V M metric m zs). cbn in *. lia. Qed.


Lemma trace_states rcs f : f < n -> (forall c s, In c rcs -> s < n -> nth s c 0 < n) -> Forall (fun s => s < n) (trace rcs f).
Proof.
  revert f; induction rcs as [|c cs IH]; intros f Hf B; cbn [trace]; [constructor; auto|]. apply Forall_app. split; [|constructor; auto].
  apply IH; [apply B; auto; left; auto|]. intros; apply B; auto. right; auto.
Qed.




Definition mem_inv tau (init : list V) (zs : list Z) (mem : metric_memory V) : Prop :=
  let '(cs, m) := viterbi_forward V M metric init zs in
  mem_paths mem = map (fun s => window tau (trace (rev cs) s)) (seq 0 n) /\
  length (mem_metrics mem) = n /\ map (fun row => last row inf) (mem_metrics mem) = m.

Lemma streaming_step_inv tau init zs mem z : length init = n -> mem_inv tau init zs mem ->
  let '(x, mem') := streaming_step V M metric mem z in
  mem_inv tau init (zs ++ [z]) mem' /\
  let s_star := argmin_by (mle V) (snd (viterbi_forward V M metric init (zs ++ [z]))) in
  s_star < n /\
  x = edge M (nth 0 (window tau (trace (rev (fst (viterbi_forward V M metric init zs))) s_star)) 0) (nth 1 (window tau (trace (rev (fst (viterbi_forward V M metric init zs))) s_star)) 0).
Proof.
  intros Li. unfold mem_inv, streaming_step. rewrite forward_snoc. pose proof (forward_lengths init zs Li) as [_ Lm].
  destruct (viterbi_forward V M metric init zs) as [cs m]. cbn [fst snd] in *. intros (P & Lq & ->).
  pose proof (step_spec m z) as S. destruct (viterbi_step V M metric m z) as [m' c]. destruct S as (L1 & L2 & _ & _ & Ac). cbn [snd].
  assert (Hs : argmin_by (mle V) m' < n).
  { destruct (argmin_by_spec (mle V) (mle_total V LW) (mle_trans V LW) m' inf) as [H _]; [|lia]. intros ->. cbn in L1. destruct OK; lia. }
  split; [split; [|split]|split; auto].
  - cbn [mem_paths]. apply map_ext_in. intros s I. apply in_seq in I. rewrite rev_app_distr. cbn [rev app trace].
    rewrite P, nth_map_seq by (apply Ac; lia). apply window_snoc. intros E. pose proof (trace_length (rev cs) (nth s c 0)). rewrite E in H. discriminate.
  - cbn [mem_metrics]. rewrite map_length, combine_length. lia.
  - cbn [mem_metrics]. rewrite map_map. revert L1 Lq. generalize (mem_metrics mem). generalize n. clear. intros n.
    revert m'. induction n as [|n IH]; intros [|a m'] [|b q] L1 Lq; cbn in *; try discriminate; auto. f_equal; [|apply IH; lia].
    unfold roll_in. apply last_last.
  - rewrite P, nth_map_seq by auto. reflexivity.
Qed.

Lemma streaming_inv tau init zs0 zs mem : length init = n -> mem_inv tau init zs0 mem ->
  let '(xs, mem') := viterbi_streaming V M metric mem zs in
  mem_inv tau init (zs0 ++ zs) mem' /\
  forall t, t < length zs ->
  let pre := zs0 ++ firstn t zs in
  let s_star := argmin_by (mle V) (snd (viterbi_forward V M metric init (zs0 ++ firstn (S t) zs))) in
  s_star < n /\
  nth t xs (-1)%Z = edge M (nth 0 (window tau (trace (rev (fst (viterbi_forward V M metric init pre))) s_star)) 0) (nth 1 (window tau (trace (rev (fst (viterbi_forward V M metric init pre))) s_star)) 0).
Proof.
  intros Li. revert zs0 mem; induction zs as [|z zs IH]; intros zs0 mem I; cbn [viterbi_streaming].
  - rewrite app_nil_r. split; auto. cbn. lia.
  - pose proof (streaming_step_inv tau init zs0 mem z Li I) as S. destruct (streaming_step V M metric mem z) as [x mem']. destruct S as (I' & Hs & Ex).
    specialize (IH _ _ I'). destruct (viterbi_streaming V M metric mem' zs) as [xs mem'']. destruct IH as [I'' O].
    rewrite <- app_assoc in I''. cbn [app] in I''. split; auto. intros t Ht. destruct t as [|t].
    + cbn [firstn nth]. rewrite app_nil_r. split; auto.
    + specialize (O t ltac:(cbn in Ht; lia)). cbv zeta in O. rewrite <- !app_assoc in O. exact O.
Qed.





Lemma init_mem_inv tau state zero : state < n -> mem_inv tau (upd state zero (repeat inf n)) [] (streaming_memory V M tau state zero).
Proof.
  intros Hs. unfold mem_inv, streaming_memory. cbn [viterbi_forward mem_paths mem_metrics rev trace]. repeat split.
  - unfold window. cbn [tl]. rewrite app_nil_r, repeat_length, Nat.sub_diag. cbn [skipn]. rewrite <- (seq_length n 0) at 1. generalize (seq 0 n). intros l. induction l; cbn; f_equal; auto.
  - rewrite upd_length, repeat_length. reflexivity.
  - rewrite map_upd, last_last. f_equal. generalize n. intros j. induction j; cbn [repeat map]; f_equal; auto.
    rewrite Nat.add_1_r. clear. induction tau; auto.
Qed.

(* every survivor starts in state 0 when all other states are excluded initially *)

Lemma trace_start init zs f : length init = n -> (forall s, s < n -> s <> 0 -> nth s init inf = inf) -> f < n -> zs <> [] ->
  hd 0 (trace (rev (fst (viterbi_forward V M metric init zs))) f) = 0.
Proof.
  intros Li Hi. revert f. induction zs as [|z zs IH] using rev_ind; intros f Hf NE; [congruence|].
  pose proof (achieved init (zs ++ [z]) Li f Hf) as Ach. rewrite forward_snoc in *.
  assert (Nil : zs = [] -> fst (viterbi_forward V M metric init zs) = []) by (intros ->; reflexivity).
  destruct (viterbi_forward V M metric init zs) as [cs m]. cbn [fst] in *.
  pose proof (step_spec m z) as S. destruct (viterbi_step V M metric m z) as [m' c]. destruct S as (_ & _ & _ & A & Ac). cbn [fst].
  destruct (A f Hf) as [[_ E]|(x & H0 & Hx & E1 & E2 & E3)].
  - rewrite rev_app_distr. cbn [rev app]. rewrite hd_trace_cons, E. destruct zs as [|z' zs]; [rewrite Nil by auto; reflexivity|].
    apply IH; [destruct OK; auto|discriminate].
  - destruct (Ach E3) as (s & xs & Hs & _ & _ & _ & _ & FI & T & _). rewrite T. destruct (Nat.eq_dec s 0) as [|NZ]; auto.
    rewrite (Hi s Hs NZ) in FI. exfalso. eapply lt_not_le; [exact FI|apply le_refl].
Qed.
End Viterbi.
