(* C65: forward-backward (BCJR) on finite-state machines. *)
From Coq Require Import Reals Lra.
From Verif Require Import Common FSM_Model FSM_Spec FB_Model FB_Spec.
From Verif Require FB_Proof.
Local Open Scope nat_scope.

(* forward_backward returns the exact posterior probability of every input symbol at every time: the weight of the
   runs (initial state, input word) having that symbol there, over the weight of all runs, where the weight of a
   run is initial(s_0) * prod_t prior_t(x_t) exp(metric(y_t, z_t)) * final(s_L) *)
Theorem C65_posteriors : forall (Z : Type) M (metric : nat -> Z -> option R) observed priors initial final,
  mealy_ok M -> no_parallel_edges M ->
  length initial = num_states M -> length final = num_states M -> length priors = length observed ->
  (forall s, s < num_states M -> (0 <= nth s initial 0)%R) -> (forall s, s < num_states M -> (0 <= nth s final 0)%R) ->
  Forall (fun p => forall x, x < num_input_symbols M -> (0 <= nth x p 0)%R) priors ->
  let total := total_weight M metric initial final (combine observed priors) in
  (0 < total (fun _ => true))%R ->
  length (forward_backward M metric observed priors initial final) = length observed /\
  forall t, t < length observed -> exists posterior,
    nth t (forward_backward M metric observed priors initial final) None = Some posterior /\
    length posterior = num_input_symbols M /\
    (forall x, x < num_input_symbols M ->
       nth x posterior 0%R = (total (fun xs => (nth t xs 0 =? x)%nat) / total (fun _ => true))%R).
Proof. intros Z M metric observed priors initial final OK NP LI LF LP NI NF PO. apply FB_Proof.forward_backward_spec; auto. Qed.

(* With parallel edges the result is wrong: the machine copying its input bit, observing 0 with likelihood ratio
   9:1, gives posterior 1/2 although 9/10 of the weight has input 0. *)
Definition copy_machine : mealy := {| fsm_transitions := [[0; 0]]; fsm_outputs := [[0; 1]] |}.
Definition nine_metric (y z : nat) : option R := Some (if y =? z then ln 9 else 0%R).
Theorem C65_parallel_refuted :
  mealy_ok copy_machine /\
  forward_backward copy_machine nine_metric [0] [[(1/2)%R; (1/2)%R]] [1%R] [1%R] = [Some [(1/2)%R; (1/2)%R]] /\
  total_weight copy_machine nine_metric [1%R] [1%R] (combine [0] [[(1/2)%R; (1/2)%R]]) (fun xs => nth 0 xs 0 =? 0) = (9/2)%R /\
  total_weight copy_machine nine_metric [1%R] [1%R] (combine [0] [[(1/2)%R; (1/2)%R]]) (fun _ => true) = 5%R.
Proof.
  split; [|split; [|split]].
  - unfold mealy_ok, copy_machine. cbn. repeat split; try lia. + destruct s; [auto|lia]. + destruct s; [auto|lia]. + intros s x Hs Hx. destruct s; [|lia]. destruct x as [|[|]]; cbn; lia.
  - unfold forward_backward. cbn [combine map log_alphas log_betas]. f_equal.
    unfold log_posterior_row, log_gamma, edge_table. cbn -[xlog logsumexp xplus Rplus Rdiv normalize_row]. 
    set (a := logsumexp _). assert (exists v, a = Some v) as [v ->].
    { unfold a, logsumexp. cbn. unfold xlog. destruct (Rlt_dec 0 1); [|lra]. destruct (Rlt_dec 0 (1/2)); [|lra]. cbn. eexists; reflexivity. }
    unfold normalize_row. cbn -[Rplus Rdiv Ropp exp]. f_equal. pose proof (exp_pos (v + - Rmax v v)). f_equal; [|f_equal]; field; lra.
  - unfold total_weight. cbn. rewrite exp_ln by lra. lra.
  - unfold total_weight. cbn. rewrite exp_ln by lra. rewrite exp_0. lra.
Qed.

(* a non-trivial case: two-state machine, one observation, all hypotheses met *)
Definition delay_machine : mealy := {| fsm_transitions := [[0; 1]; [0; 1]]; fsm_outputs := [[0; 0]; [1; 1]] |}.
Example C65_satisfiable : mealy_ok delay_machine /\ no_parallel_edges delay_machine /\
  (0 < total_weight delay_machine nine_metric [1%R; 0%R] [(1/2)%R; (1/2)%R] (combine [0%nat; 1%nat] [[(1/2)%R; (1/2)%R]; [(1/4)%R; (3/4)%R]]) (fun _ => true))%R.
Proof.
  split; [|split].
  - unfold mealy_ok, delay_machine. cbn [num_states num_input_symbols fsm_transitions fsm_outputs length nth]. split; [lia|split; [auto|split]].
    + intros s Hs. do 2 (destruct s as [|s]; [auto|]). lia.
    + intros s x Hs Hx. do 2 (destruct s as [|s]; [destruct x as [|[|]]; cbn; lia|]). lia.
  - intros s x x' Hs Hx Hx'. cbn in Hs, Hx, Hx'. do 2 (destruct s as [|s]; [destruct x as [|[|]], x' as [|[|]]; cbn; lia|]). lia.
  - unfold total_weight. cbn. rewrite exp_ln, exp_0 by lra. lra.
Qed.
