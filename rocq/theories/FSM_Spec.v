(* Specification of finite-state machines and of optimal paths, independent of the algorithms. *)
From Coq Require Import QArith.
From Verif Require Import Common FSM_Model.
Local Open Scope nat_scope.

(* tables of the same rectangular shape, at least one state, transitions into the state set *)
Definition mealy_ok (M : mealy) : Prop :=
  0 < num_states M /\ length (fsm_outputs M) = num_states M /\
  (forall s, s < num_states M -> length (nth s (fsm_transitions M) []) = num_input_symbols M /\
                                 length (nth s (fsm_outputs M) []) = num_input_symbols M) /\
  (forall s x, s < num_states M -> x < num_input_symbols M -> fsm_next M s x < num_states M).

(* no two input symbols lead from the same state to the same state *)
Definition no_parallel_edges (M : mealy) : Prop :=
  forall s x x', s < num_states M -> x < num_input_symbols M -> x' < num_input_symbols M ->
  fsm_next M s x = fsm_next M s x' -> x = x'.

(* input words over the input alphabet *)
Definition input_word (M : mealy) (xs : list nat) : Prop := Forall (fun x => x < num_input_symbols M) xs.

(* what the code uses of float comparison and addition *)
Record metric_laws (V : metric_ops) : Prop := {
  mle_total : forall a b : V, mle V a b = true \/ mle V b a = true;
  mle_trans : forall a b c : V, mle V a b = true -> mle V b c = true -> mle V a c = true;
  mle_inf : forall a : V, mle V a (minf V) = true;
  madd_inf : forall a : V, madd V (minf V) a = minf V;
  madd_mono : forall a b c : V, mle V a b = true -> mle V (madd V a c) (madd V b c) = true }.

(* metric accumulated along the run of the machine on xs from state s, observing zs *)
Definition run_metric (V : metric_ops) {Z} (M : mealy) (metric : nat -> Z -> V) (init : list V)
  (s : nat) (xs : list nat) (zs : list Z) : V :=
  fold_left (madd V) (map (fun '(y, z) => metric y z) (combine (fst (process M xs s)) zs)) (nth s init (minf V)).

(* rationals with +infinity *)
Definition xQ : metric_ops :=
  {| mt := option Q;
     mlt := fun a b => match a, b with
                       | Some x, Some y => negb (Qle_bool y x)
                       | Some _, None => true
                       | None, _ => false
                       end;
     madd := fun a b => match a, b with Some x, Some y => Some (x + y)%Q | _, _ => None end;
     minf := None |}.
