(* Model of src/komm/_finite_state_machine/MealyMachine.py and MooreMachine.py.
   States, input symbols and output symbols are natural numbers (Python: non-negative array indices);
   out-of-range or negative indices, for which numpy raises or wraps around, are outside the model. *)
From Coq Require Import QArith.
From Verif Require Import Common LinAlg_Model BlockCode_Model.
Local Open Scope nat_scope.

(* MealyMachine.py:51-53 *)
Record mealy := { fsm_transitions : list (list nat); fsm_outputs : list (list nat) }.

(* MealyMachine.py:75 and 90 (shape of the transition table) *)
Definition num_states (M : mealy) : nat := length (fsm_transitions M).
Definition num_input_symbols (M : mealy) : nat := length (nth 0 (fsm_transitions M) []).
(* MealyMachine.py:105 *)
Definition num_output_symbols (M : mealy) : nat := S (fold_right Nat.max 0 (concat (fsm_outputs M))).

(* indexing self.transitions[s, x] and self.outputs[s, x] *)
Definition fsm_next (M : mealy) (s x : nat) : nat := nth x (nth s (fsm_transitions M) []) 0.
Definition fsm_out (M : mealy) (s x : nat) : nat := nth x (nth s (fsm_outputs M) []) 0.

(* MealyMachine.py:123-127: later symbols overwrite earlier ones on parallel edges *)
Definition edge_table {A} (M : mealy) (missing : A) (label : nat -> nat -> A) : list (list A) :=
  map (fun s0 => fold_left (fun row '(x, s1) => upd s1 (label s0 x) row)
                   (combine (seq 0 (num_input_symbols M)) (nth s0 (fsm_transitions M) []))
                   (repeat missing (num_states M)))
      (seq 0 (num_states M)).
Definition input_edges (M : mealy) : list (list Z) := edge_table M (-1)%Z (fun _ x => Z.of_nat x).
(* MealyMachine.py:145-149 *)
Definition output_edges (M : mealy) : list (list Z) := edge_table M (-1)%Z (fun s x => Z.of_nat (fsm_out M s x)).

(* MealyMachine.py:181-188 *)
Fixpoint process (M : mealy) (xs : list nat) (s : nat) : list nat * nat :=
  match xs with
  | [] => ([], s)
  | x :: xs' =>
      let y := fsm_out M s x in
      let '(ys, sf) := process M xs' (fsm_next M s x) in (y :: ys, sf)
  end.

(* MooreMachine.py:58-60 *)
Record moore := { moore_transitions : list (list nat); moore_outputs : list nat }.
(* MooreMachine.py:144-150: the transition is taken before the output is read *)
Fixpoint moore_process (M : moore) (xs : list nat) (s : nat) : list nat * nat :=
  match xs with
  | [] => ([], s)
  | x :: xs' =>
      let s' := nth x (nth s (moore_transitions M) []) 0 in
      let y := nth s' (moore_outputs M) 0 in
      let '(ys, sf) := moore_process M xs' s' in (y :: ys, sf)
  end.

(* Path metrics.  The code only compares (<) and adds floats, and uses inf.  The model takes any type with
   these three, so that both exact and rounded arithmetic are instances (no NaN). *)
Record metric_ops := { mt :> Type; mlt : mt -> mt -> bool; madd : mt -> mt -> mt; minf : mt }.
Definition mle (V : metric_ops) (a b : V) : bool := negb (mlt V b a).

Section Viterbi.
Context (V : metric_ops) {Z : Type} (M : mealy) (metric : nat -> Z -> V).

(* MealyMachine.py:222-225: one candidate transition s0 -> s1 with output y *)
Definition viterbi_relax (row : list V) (z : Z) (s0 : nat) (acc : list V * list nat) (e : nat * nat)
  : list V * list nat :=
  let '(m, c) := acc in
  let '(s1, y) := e in
  let candidate := madd V (nth s0 row (minf V)) (metric y z) in
  if mlt V candidate (nth s1 m (minf V)) then (upd s1 candidate m, upd s1 s0 c) else (m, c).

(* MealyMachine.py:220-225 (and 261-268): one time step, from metrics[t, :] to (metrics[t+1, :], choices[t, :]) *)
Definition viterbi_step (row : list V) (z : Z) : list V * list nat :=
  fold_left (fun acc s0 => fold_left (viterbi_relax row z s0)
                             (combine (nth s0 (fsm_transitions M) []) (nth s0 (fsm_outputs M) [])) acc)
    (seq 0 (num_states M)) (repeat (minf V) (num_states M), repeat 0 (num_states M)).

(* MealyMachine.py:219-225: the list of rows of `choices`, and the last row of `metrics` *)
Fixpoint viterbi_forward (row : list V) (zs : list Z) : list (list nat) * list V :=
  match zs with
  | [] => ([], row)
  | z :: zs' =>
      let '(row', c) := viterbi_step row z in
      let '(cs, final) := viterbi_forward row' zs' in (c :: cs, final)
  end.

(* MealyMachine.py:230-234, from the last row of choices to the first *)
Fixpoint viterbi_backtrack (rev_choices : list (list nat)) (s1 : nat) (acc : list BinNums.Z) : list BinNums.Z :=
  match rev_choices with
  | [] => acc
  | c :: cs =>
      let s0 := nth s1 c 0 in
      viterbi_backtrack cs s0 (nth s1 (nth s0 (input_edges M) []) (-1)%Z :: acc)
  end.

(* MealyMachine.py:190-236.  The result is the list of the columns input_hat[:, final_state], and metrics[L, :].
   initial_metrics is an argument (the default None, zeros, is one choice of it). *)
Definition viterbi (zs : list Z) (initial_metrics : list V) : list (list BinNums.Z) * list V :=
  let '(cs, final) := viterbi_forward initial_metrics zs in
  (map (fun f => viterbi_backtrack (rev cs) f []) (seq 0 (num_states M)), final).

(* MealyMachine.py:10-12 *)
Record metric_memory := { mem_paths : list (list nat); mem_metrics : list (list V) }.

(* np.roll(row, -1) followed by an assignment to the last column *)
Definition roll_in {A} (row : list A) (x : A) : list A := tl row ++ [x].

(* MealyMachine.py:261-281: one observation; paths with fewer than two columns raise in the code *)
Definition streaming_step (mem : metric_memory) (z : Z) : BinNums.Z * metric_memory :=
  let last_column := map (fun row => last row (minf V)) (mem_metrics mem) in
  let '(new_metrics, choices) := viterbi_step last_column z in
  let s_star := argmin_by (mle V) new_metrics in
  let row := nth s_star (mem_paths mem) [] in
  let s0 := nth 0 row 0 in
  let s1 := nth 1 row 0 in
  (nth s1 (nth s0 (input_edges M) []) (-1)%Z,
   {| mem_paths := map (fun s => roll_in (nth (nth s choices 0) (mem_paths mem) []) s) (seq 0 (num_states M));
      mem_metrics := map (fun '(r, x) => roll_in r x) (combine (mem_metrics mem) new_metrics) |}).

(* MealyMachine.py:260-283 *)
Fixpoint viterbi_streaming (mem : metric_memory) (zs : list Z) : list BinNums.Z * metric_memory :=
  match zs with
  | [] => ([], mem)
  | z :: zs' =>
      let '(x, mem') := streaming_step mem z in
      let '(xs, mem'') := viterbi_streaming mem' zs' in (x :: xs, mem'')
  end.

(* ViterbiStreamDecoder.py:31-37: zero paths, metrics inf except 0.0 at (state, -1) *)
Definition streaming_memory (tau state : nat) (zero : V) : metric_memory :=
  {| mem_paths := repeat (repeat 0 (tau + 1)) (num_states M);
     mem_metrics := upd state (repeat (minf V) tau ++ [zero]) (repeat (repeat (minf V) (tau + 1)) (num_states M)) |}.
End Viterbi.
Arguments mem_paths {V}. Arguments mem_metrics {V}.
