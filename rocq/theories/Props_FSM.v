(* C46-C48: Mealy and Moore machines, block and streaming Viterbi. *)
From Coq Require Import QArith Lqa.
From Verif Require Import Common LinAlg_Model BlockCode_Model FSM_Model FSM_Spec.
From Verif Require FSM_Proof LinAlg_Proof Decoders_Proof.
Local Open Scope nat_scope.

(* ================= C46 *)
Theorem C46_mealy_streaming : forall M xs ys s,
  let '(o1, s1) := process M xs s in
  let '(o2, s2) := process M ys s1 in
  process M (xs ++ ys) s = (o1 ++ o2, s2).
Proof. intros. rewrite FSM_Proof.process_app. destruct (process M xs s) as [o1 s1]. cbn [fst snd]. destruct (process M ys s1); reflexivity. Qed.

Theorem C46_mealy_run : forall M xs s, length (fst (process M xs s)) = length xs /\
  (mealy_ok M -> s < num_states M -> input_word M xs -> snd (process M xs s) < num_states M) /\
  (* output t is the table entry at the state reached after the first t symbols *)
  (forall t, t < length xs -> nth t (fst (process M xs s)) 0 = fsm_out M (snd (process M (firstn t xs) s)) (nth t xs 0)).
Proof.
  intros M xs s. split; [apply FSM_Proof.process_length|split; [intros; apply FSM_Proof.process_state; auto|]].
  intros t Ht. assert (E : xs = firstn t xs ++ nth t xs 0 :: skipn (S t) xs).
  { rewrite <- (firstn_skipn t xs) at 1. f_equal. clear - Ht. revert t Ht; induction xs as [|x xs IH]; intros t Ht; cbn in Ht; [lia|]. destruct t; auto. cbn [skipn nth]. apply IH. lia. }
  assert (L : length (fst (process M (firstn t xs) s)) = t) by (rewrite FSM_Proof.process_length, firstn_length; lia).
  rewrite E at 1. rewrite FSM_Proof.process_app. cbn [fst]. rewrite app_nth2 by lia. rewrite L, Nat.sub_diag. cbn [process].
  destruct (process M (skipn (S t) xs) _). reflexivity.
Qed.

(* num_output_symbols is one more than the largest table entry: every output is below it, and the bound is attained *)
Theorem C46_output_alphabet : forall M, mealy_ok M -> 0 < num_input_symbols M ->
  (forall xs s, s < num_states M -> input_word M xs -> Forall (fun y => y < num_output_symbols M) (fst (process M xs s))) /\
  (exists s x, s < num_states M /\ x < num_input_symbols M /\ fst (process M [x] s) = [num_output_symbols M - 1]).
Proof.
  intros M (Hs & Lo & Hr & Hn) Hx. assert (MX : forall l y, In y l -> y <= fold_right Nat.max 0 l).
  { induction l as [|a l IH]; intros y [].  - subst. cbn. lia. - cbn. specialize (IH y H). lia. }
  assert (MI : forall l, l <> [] -> In (fold_right Nat.max 0 l) l).
  { induction l as [|a l IH]; [congruence|]. intros _. cbn [fold_right]. destruct l as [|b l']; [left; cbn; lia|].
    specialize (IH ltac:(discriminate)). destruct (Nat.max_spec a (fold_right Nat.max 0 (b :: l'))) as [[_ ->]|[_ ->]]; [right; exact IH|left; reflexivity]. }
  assert (In1 : forall s x, s < num_states M -> x < num_input_symbols M -> In (fsm_out M s x) (concat (fsm_outputs M))).
  { intros s x Hs' Hx'. apply in_concat. exists (nth s (fsm_outputs M) []). split; [apply nth_In; lia|]. apply nth_In. destruct (Hr s Hs') as [_ E]. lia. }
  split.
  - induction xs as [|x xs IH]; intros s Hs' W; [constructor|]. inversion W as [|? ? Hx' W']; subst. cbn [process]. specialize (IH (fsm_next M s x) (Hn s x Hs' Hx') W').
    destruct (process M xs (fsm_next M s x)) as [ys f]. cbn [fst] in *. constructor; [|exact IH]. unfold num_output_symbols. specialize (MX _ _ (In1 s x Hs' Hx')). lia.
  - unfold num_output_symbols. rewrite Nat.sub_succ, Nat.sub_0_r. assert (NE : concat (fsm_outputs M) <> []) by (intros E; specialize (In1 0 0 Hs Hx); rewrite E in In1; destruct In1).
    specialize (MI _ NE). apply in_concat in MI as (row & Hrow & Hy).
    apply (In_nth _ _ []) in Hrow as (s & Hs' & <-). apply (In_nth _ _ 0) in Hy as (x & Hx' & Ex). rewrite Lo in Hs'. destruct (Hr s Hs') as [_ Lr].
    exists s, x. split; [exact Hs'|]. split; [lia|]. cbn [process fst]. f_equal. exact Ex.
Qed.

Theorem C46_moore_streaming : forall M xs ys s,
  let '(o1, s1) := moore_process M xs s in
  let '(o2, s2) := moore_process M ys s1 in
  moore_process M (xs ++ ys) s = (o1 ++ o2, s2) /\ length o1 = length xs.
Proof.
  intros. pose proof (FSM_Proof.moore_length M xs s). rewrite FSM_Proof.moore_app. destruct (moore_process M xs s) as [o1 s1]. cbn [fst snd] in *. destruct (moore_process M ys s1); auto.
Qed.
(* a Moore machine behaves as the Mealy machine whose output on (s, x) is the output of the next state *)
Theorem C46_moore_as_mealy : forall (A : list (list nat)) (B : list nat) xs s,
  (forall s, s < length A -> length (nth s A []) = length (nth 0 A []) /\
     forall x, x < length (nth 0 A []) -> nth x (nth s A []) 0 < length A) ->
  s < length A -> Forall (fun x => x < length (nth 0 A [])) xs ->
  moore_process {| moore_transitions := A; moore_outputs := B |} xs s =
  process {| fsm_transitions := A; fsm_outputs := map (map (fun s' => nth s' B 0)) A |} xs s.
Proof.
  intros A B xs s R. revert s; induction xs as [|x xs IH]; intros s Hs W; cbn [moore_process process]; auto. inversion W; subst. destruct (R s Hs) as [L N].
  unfold fsm_next, fsm_out. cbn [fsm_transitions fsm_outputs moore_transitions moore_outputs].
  rewrite IH by auto.
  destruct (process _ xs _) as [o f]. f_equal. f_equal.
  set (g := fun s' => nth s' B 0). change (@nil nat) with (map g []) at 2. rewrite map_nth.
  rewrite (nth_indep (map g _) 0 (g 0)) by (rewrite map_length; lia). rewrite (map_nth g). reflexivity.
Qed.

(* ================= C47 *)
(* rationals with infinity satisfy the laws the theorems assume *)
Theorem C47_rational_metrics : metric_laws xQ.
Proof.
  constructor; intros; unfold mle in *; cbn in *;
  repeat match goal with x : option Q |- _ => destruct x end; cbn in *; auto; try discriminate;
  rewrite ?negb_involutive in *; rewrite ?Qle_bool_iff in *.
  - match goal with |- (?a <= ?b)%Q \/ _ => destruct (Qlt_le_dec a b); [left; lra|right; lra] end.
  - lra.
  - lra.
Qed.

(* input_edges: the label of an existing edge, -1 where there is none *)
Theorem C47_edges : forall M s0 s1, mealy_ok M -> s0 < num_states M -> s1 < num_states M ->
  let e := nth s1 (nth s0 (input_edges M) []) (-1)%Z in
  (exists x, x < num_input_symbols M /\ fsm_next M s0 x = s1 /\ e = Z.of_nat x) \/
  ((forall x, x < num_input_symbols M -> fsm_next M s0 x <> s1) /\ e = (-1)%Z).
Proof. intros M s0 s1 OK H0 H1. apply (FSM_Proof.edge_table_spec M (-1)%Z (fun _ x => Z.of_nat x)); auto. Qed.

(* both edge matrices: where several symbols lead from s0 to s1, the entry belongs to the largest of them; elsewhere it is -1 *)
Theorem C47_edge_matrices : forall M, mealy_ok M ->
  (length (input_edges M) = num_states M /\ (forall r, In r (input_edges M) -> length r = num_states M)) /\
  (length (output_edges M) = num_states M /\ (forall r, In r (output_edges M) -> length r = num_states M)) /\
  forall s0 s1, s0 < num_states M -> s1 < num_states M ->
  let e := nth s1 (nth s0 (input_edges M) []) 0%Z in let o := nth s1 (nth s0 (output_edges M) []) 0%Z in
  (exists x, x < num_input_symbols M /\ fsm_next M s0 x = s1 /\ (forall y, y < num_input_symbols M -> fsm_next M s0 y = s1 -> y <= x) /\
     e = Z.of_nat x /\ fst (process M [x] s0) = [Z.to_nat o] /\ (0 <= o)%Z) \/
  ((forall x, x < num_input_symbols M -> snd (process M [x] s0) <> s1) /\ e = (-1)%Z /\ o = (-1)%Z).
Proof.
  intros M OK. split; [apply FSM_Proof.edge_table_shape|]. split; [apply FSM_Proof.edge_table_shape|]. intros s0 s1 H0 H1 e o.
  assert (L : forall lab, length (nth s0 (edge_table M (-1)%Z lab) []) = num_states M).
  { intros lab. destruct (FSM_Proof.edge_table_shape M (-1)%Z lab) as [A B]. apply B. apply nth_In. lia. }
  unfold e, o, input_edges, output_edges. rewrite (nth_indep _ 0%Z (-1)%Z) by (rewrite L; lia).
  rewrite (nth_indep (nth s0 (edge_table M (-1)%Z (fun s x => Z.of_nat (fsm_out M s x))) []) 0%Z (-1)%Z) by (rewrite L; lia).
  destruct (FSM_Proof.edge_table_last M (-1)%Z (fun _ x => Z.of_nat x) s0 s1 OK H0 H1) as [(x & Hx & Ex & Mx & Vx)|[Nx Vx]];
  destruct (FSM_Proof.edge_table_last M (-1)%Z (fun s x => Z.of_nat (fsm_out M s x)) s0 s1 OK H0 H1) as [(y & Hy & Ey & My & Vy)|[Ny Vy]].
  - left. assert (y = x) by (specialize (Mx y Hy Ey); specialize (My x Hx Ex); lia). subst y. exists x. rewrite Vx, Vy. cbn [process fst].
    rewrite Nat2Z.id. repeat split; auto. lia.
  - destruct (Ny x Hx Ex).
  - destruct (Nx y Hy Ey).
  - right. rewrite Vx, Vy. auto.
Qed.

Theorem C47_viterbi : forall (V : metric_ops) (Z : Type) M (metric : nat -> Z -> V) zs init,
  metric_laws V -> mealy_ok M -> no_parallel_edges M -> length init = num_states M ->
  let '(input_hat, metrics) := viterbi V M metric zs init in
  length input_hat = num_states M /\ length metrics = num_states M /\
  forall f, f < num_states M ->
  (* no run ending in f is better than the returned metric *)
  (forall s xs, s < num_states M -> input_word M xs -> length xs = length zs -> snd (process M xs s) = f ->
     mle V (nth f metrics (minf V)) (run_metric V M metric init s xs zs) = true) /\
  (* and, if f can be reached at finite cost, the returned inputs drive the machine to f at exactly that metric *)
  (mlt V (nth f metrics (minf V)) (minf V) = true ->
   exists s xs, nth f input_hat [] = map Z.of_nat xs /\ s < num_states M /\ input_word M xs /\ length xs = length zs /\
     mlt V (nth s init (minf V)) (minf V) = true /\
     snd (process M xs s) = f /\ run_metric V M metric init s xs zs = nth f metrics (minf V)).
Proof.
  intros V Z M metric zs init LW OK NP Li. unfold viterbi.
  destruct (FSM_Proof.forward_lengths V M metric LW OK init zs Li) as [L1 L2].
  pose proof (FSM_Proof.lower_bound V M metric LW OK init zs Li) as LB.
  pose proof (FSM_Proof.achieved V M metric LW OK init zs Li) as AC.
  destruct (viterbi_forward V M metric init zs) as [cs m]. cbn [fst snd] in *.
  rewrite map_length, seq_length. split; [auto|split; [auto|]]. intros f Hf. split.
  - intros s xs Hs W L <-. apply LB; auto.
  - intros F. destruct (AC f Hf F) as (s & xs & Hs & W & L & P & R & FI & _ & Bt). exists s, xs. rewrite nth_map_seq by auto. auto 10.
Qed.

(* the returned metrics are the optimum for every machine, also with parallel edges *)
Theorem C47_metrics : forall (V : metric_ops) (Z : Type) M (metric : nat -> Z -> V) zs init,
  metric_laws V -> mealy_ok M -> length init = num_states M ->
  let metrics := snd (viterbi V M metric zs init) in
  forall f, f < num_states M ->
  (forall s xs, s < num_states M -> input_word M xs -> length xs = length zs -> snd (process M xs s) = f ->
     mle V (nth f metrics (minf V)) (run_metric V M metric init s xs zs) = true) /\
  (mlt V (nth f metrics (minf V)) (minf V) = true ->
   exists s xs, s < num_states M /\ input_word M xs /\ length xs = length zs /\
     snd (process M xs s) = f /\ run_metric V M metric init s xs zs = nth f metrics (minf V)).
Proof.
  intros V Z M metric zs init LW OK Li. unfold viterbi.
  pose proof (FSM_Proof.lower_bound V M metric LW OK init zs Li) as LB.
  pose proof (FSM_Proof.achieved V M metric LW OK init zs Li) as AC.
  destruct (viterbi_forward V M metric init zs) as [cs m]. cbn [fst snd] in *. intros f Hf. split.
  - intros s xs Hs W L <-. apply LB; auto.
  - intros F. destruct (AC f Hf F) as (s & xs & Hs & W & L & P & R & FI & _ & Bt). exists s, xs. auto 10.
Qed.

Definition hamming_metric (y z : nat) : xQ := Some (inject_Z (if y =? z then 0 else 1)).

(* With parallel edges the returned inputs need not achieve the returned metric: on the memoryless machine
   that copies its input bit, observing 0 yields input 1, at the reported metric 0. *)
Theorem C47_parallel_refuted :
  let M := {| fsm_transitions := [[0; 0]]; fsm_outputs := [[0; 1]] |} in
  mealy_ok M /\ viterbi xQ M hamming_metric [0] [Some 0%Q] = ([[1%Z]], [Some (0 + inject_Z 0)%Q]) /\
  run_metric xQ M hamming_metric [Some 0%Q] 0 [1] [0] = Some (0 + inject_Z 1)%Q.
Proof.
  cbv zeta. split; [|split; reflexivity]. unfold mealy_ok. cbn. repeat split; try lia.
  - destruct s; [auto|lia]. - destruct s; [auto|lia]. - intros s x Hs Hx. destruct s; [|lia]. destruct x as [|[|]]; cbn; lia.
Qed.

(* the (7,5) convolutional encoder machine satisfies the hypotheses *)
Definition fsm_7_5 : mealy :=
  {| fsm_transitions := [[0; 1]; [2; 3]; [0; 1]; [2; 3]]; fsm_outputs := [[0; 3]; [1; 2]; [3; 0]; [2; 1]] |}.
Example C47_satisfiable : mealy_ok fsm_7_5 /\ no_parallel_edges fsm_7_5 /\
  viterbi xQ fsm_7_5 hamming_metric [3; 1; 0] [Some 0%Q; None; None; None] =
  ([[1%Z; 0%Z; 0%Z]; [1%Z; 0%Z; 1%Z]; [1%Z; 1%Z; 0%Z]; [1%Z; 1%Z; 1%Z]],
   snd (viterbi xQ fsm_7_5 hamming_metric [3; 1; 0] [Some 0%Q; None; None; None])).
Proof.
  split; [|split; [|vm_compute; reflexivity]].
  - unfold mealy_ok. cbn [num_states num_input_symbols fsm_7_5 fsm_transitions fsm_outputs length nth]. split; [lia|split; [auto|split]].
    + intros s Hs. do 4 (destruct s as [|s]; [auto|]). lia.
    + intros s x Hs Hx. do 4 (destruct s as [|s]; [destruct x as [|[|]]; cbn; lia|]). lia.
  - intros s x x' Hs Hx Hx'. cbn in Hs, Hx, Hx'. do 4 (destruct s as [|s]; [destruct x as [|[|]], x' as [|[|]]; cbn; lia|]). lia.
Qed.

(* ================= C48 *)
(* feeding the observations block by block is the same as feeding them at once *)
Theorem C48_streaming : forall (V : metric_ops) (Z : Type) M (metric : nat -> Z -> V) mem zs zs',
  let '(xs, mem1) := viterbi_streaming V M metric mem zs in
  let '(xs', mem2) := viterbi_streaming V M metric mem1 zs' in
  viterbi_streaming V M metric mem (zs ++ zs') = (xs ++ xs', mem2) /\ length xs = length zs.
Proof.
  intros. pose proof (FSM_Proof.streaming_length V M metric mem zs). rewrite FSM_Proof.streaming_app.
  destruct (viterbi_streaming V M metric mem zs) as [xs m1]. cbn [fst] in *. destruct (viterbi_streaming V M metric m1 zs'); auto.
Qed.

(* From a fresh decoder with traceback length tau >= 1: the decision output at step t is the input at time t - tau
   of the block-Viterbi survivor over the first t observations, ending in the state that is best after t+1
   observations.  (At t = tau this needs the initial state 0; before that the output is the label of the 0 -> 0
   edge and carries no information.) *)
Theorem C48_decisions : forall (V : metric_ops) (Z : Type) M (metric : nat -> Z -> V) tau state zero zs t,
  metric_laws V -> mealy_ok M -> 1 <= tau -> state < num_states M -> t < length zs ->
  let init := upd state zero (repeat (minf V) (num_states M)) in
  let out := fst (viterbi_streaming V M metric (streaming_memory V M tau state zero) zs) in
  let best := argmin_by (mle V) (snd (viterbi V M metric (firstn (t + 1) zs) init)) in
  let survivor := nth best (fst (viterbi V M metric (firstn t zs) init)) [] in
  best < num_states M /\
  (forall s, s < num_states M -> mle V (nth best (snd (viterbi V M metric (firstn (t + 1) zs) init)) (minf V))
                                       (nth s (snd (viterbi V M metric (firstn (t + 1) zs) init)) (minf V)) = true) /\
  ((tau < t \/ (tau = t /\ state = 0)) -> nth t out (-1)%Z = nth (t - tau) survivor (-1)%Z) /\
  (t < tau -> nth t out (-1)%Z = nth 0 (nth 0 (input_edges M) []) (-1)%Z).
Proof.
  intros V Z M metric tau state zero zs t LW OK Ht Hs Hz init out best survivor.
  assert (Li : length init = num_states M) by (unfold init; rewrite LinAlg_Proof.upd_length, repeat_length; auto).
  pose proof (FSM_Proof.streaming_inv V M metric LW OK tau init [] zs _ Li (FSM_Proof.init_mem_inv V M metric tau state zero Hs)) as SI.
  unfold out. destruct (viterbi_streaming V M metric (streaming_memory V M tau state zero) zs) as [xs mem']. destruct SI as [_ O].
  specialize (O t Hz). cbv zeta in O. cbn [app fst] in O |- *. rewrite <- Nat.add_1_r in O.
  assert (Eb : best = argmin_by (mle V) (snd (viterbi_forward V M metric init (firstn (t + 1) zs)))).
  { unfold best, viterbi. destruct (viterbi_forward V M metric init (firstn (t + 1) zs)); reflexivity. }
  rewrite <- Eb in O. destruct O as [Hb Ex].
  destruct (FSM_Proof.forward_lengths V M metric LW OK init (firstn t zs) Li) as [Lc _].
  destruct (FSM_Proof.forward_lengths V M metric LW OK init (firstn (t + 1) zs) Li) as [_ Lm].
  set (tr := FSM_Proof.trace (rev (fst (viterbi_forward V M metric init (firstn t zs)))) best) in *.
  assert (Ltr : length tr = S t). { unfold tr. rewrite FSM_Proof.trace_length, rev_length, Lc, firstn_length. lia. }
  assert (Es : survivor = FSM_Proof.labels M tr).
  { unfold survivor, viterbi. unfold tr. destruct (viterbi_forward V M metric init (firstn t zs)) as [cs m]. cbn [fst].
    rewrite nth_map_seq by auto. apply FSM_Proof.backtrack_trace. }
  split; [auto|split; [|split]].
  - intros s Hs'. replace (snd (viterbi V M metric (firstn (t + 1) zs) init)) with (snd (viterbi_forward V M metric init (firstn (t + 1) zs))) by (unfold viterbi; destruct (viterbi_forward V M metric init (firstn (t + 1) zs)); reflexivity).
    rewrite Eb. destruct (Decoders_Proof.argmin_by_spec (mle V) (mle_total V LW) (mle_trans V LW) (snd (viterbi_forward V M metric init (firstn (t + 1) zs))) (minf V)) as (_ & D & _).
    + intros E. rewrite E in Lm. cbn in Lm. lia.
    + apply D. lia.
  - intros C. rewrite Ex, Es, FSM_Proof.nth_labels by lia. destruct C as [C|[C S0]].
    + destruct (FSM_Proof.window_late tau tr) as [-> ->]; try lia. replace (length tr - (tau + 1)) with (t - tau) by lia. replace (length tr - tau) with (S (t - tau)) by lia. reflexivity.
    + destruct (FSM_Proof.window_at tau tr) as [-> ->]; try lia. subst tau. rewrite Nat.sub_diag.
      replace (nth 0 tr 0) with 0; auto. symmetry. transitivity (hd 0 tr); [destruct tr; reflexivity|]. unfold tr.
      apply (FSM_Proof.trace_start V M metric LW OK); auto.
      * intros s Hs' NZ. unfold init. rewrite LinAlg_Proof.nth_upd by (rewrite repeat_length; auto). subst state. destruct (Nat.eqb_spec s 0); [congruence|]. apply nth_repeat.
      * intros E. apply (f_equal (@length Z)) in E. rewrite firstn_length in E. cbn in E. lia.
  - intros C. rewrite Ex. destruct (FSM_Proof.window_early tau tr) as [-> ->]; try lia. reflexivity.
Qed.

(* The decision is not always that of the best path: the code reads the path stored for the best *new* state
   before the paths are advanced.  On the (7,5) encoder with Hamming distance on output bits and traceback length 4,
   state 2 is the only best state after 5 observations and its survivor starts with input 0, yet 1 is output. *)
Definition bit_metric (y z : nat) : xQ :=
  Some (inject_Z (Z.of_nat (Nat.b2n (xorb (Nat.odd y) (Nat.odd z)) + Nat.b2n (xorb (Nat.odd (y / 2)) (Nat.odd (z / 2)))))).
Theorem C48_best_path_refuted :
  let zs := [0; 1; 0; 3; 1] in
  let '(input_hat, metrics) := viterbi xQ fsm_7_5 bit_metric zs (upd 0 (Some 0%Q : xQ) (repeat None 4)) in
  (forall s, s < 4 -> s <> 2 -> mlt xQ (nth 2 metrics None) (nth s metrics None) = true) /\
  nth 0 (nth 2 input_hat []) (-1)%Z = 0%Z /\
  nth 4 (fst (viterbi_streaming xQ fsm_7_5 bit_metric (streaming_memory xQ fsm_7_5 4 0 (Some 0%Q : xQ)) zs)) (-1)%Z = 1%Z.
Proof.
  cbv zeta. remember (viterbi _ _ _ _ _) as v eqn:E. vm_compute in E. subst v. split; [|split; [reflexivity|vm_compute; reflexivity]].
  intros s Hs N. do 4 (destruct s as [|s]; [try (exfalso; lia); try reflexivity|]). lia.
Qed.

(* A decoder created with a non-zero initial state forgets it: decoding the noiseless output of input 0 0 0 from
   state 1 with traceback length 2, the first decision is the label -1 of a missing edge. *)
Theorem C48_initial_state_refuted :
  process fsm_7_5 [0; 0; 0] 1 = ([1; 3; 0], 0) /\
  nth 2 (fst (viterbi_streaming xQ fsm_7_5 bit_metric (streaming_memory xQ fsm_7_5 2 1 (Some 0%Q : xQ)) [1; 3; 0])) 0%Z = (-1)%Z /\
  fst (viterbi xQ fsm_7_5 bit_metric [1; 3; 0] (upd 1 (Some 0%Q : xQ) (repeat None 4))) =
  [[0%Z; 0%Z; 0%Z]; [0%Z; 0%Z; 1%Z]; [0%Z; 1%Z; 0%Z]; [0%Z; 1%Z; 1%Z]].
Proof. repeat split; vm_compute; reflexivity. Qed.

(* noiseless streaming decoding on the same machine: after the traceback delay the inputs come out *)
Example C48_example :
  fst (viterbi_streaming xQ fsm_7_5 bit_metric (streaming_memory xQ fsm_7_5 4 0 (Some 0%Q : xQ))
         (fst (process fsm_7_5 [1; 0; 1; 1; 0; 0; 1; 0; 0] 0))) =
  [0%Z; 0%Z; 0%Z; 0%Z; 1%Z; 0%Z; 1%Z; 1%Z; 0%Z].
Proof. vm_compute. reflexivity. Qed.
