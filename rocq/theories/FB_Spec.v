(* Posterior input probabilities, by enumeration of all runs. *)
From Coq Require Import Reals.
From Verif Require Import Common FSM_Model FB_Model.
Local Open Scope nat_scope.

(* all input words of a given length *)
Fixpoint input_words (k L : nat) : list (list nat) :=
  match L with 0 => [[]] | S L' => flat_map (fun x => map (cons x) (input_words k L')) (seq 0 k) end.

(* probability weight of the run on xs from s, without the initial probability:
   product over time of prior(x_t) * exp(metric(y_t, z_t)), times the final probability of the last state *)
Fixpoint run_weight {Z} (M : mealy) (metric : nat -> Z -> option R) (final : list R) (steps : list (Z * list R)) (s : nat) (xs : list nat) : R :=
  match steps, xs with
  | st :: steps', x :: xs' =>
      (nth x (snd st) 0 * xexp (metric (fsm_out M s x) (fst st)) * run_weight M metric final steps' (fsm_next M s x) xs')%R
  | _, _ => nth s final 0%R
  end.

(* total weight of the runs (over all initial states and input words) satisfying a condition on the inputs *)
Definition total_weight {Z} (M : mealy) (metric : nat -> Z -> option R) (initial final : list R) (steps : list (Z * list R))
  (cond : list nat -> bool) : R :=
  Rsum (map (fun s => (nth s initial 0 *
     Rsum (map (run_weight M metric final steps s) (filter cond (input_words (num_input_symbols M) (length steps)))))%R)
    (seq 0 (num_states M))).
