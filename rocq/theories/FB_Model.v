(* Model of MealyMachine.forward_backward (MealyMachine.py:285-363).
   Floating-point numbers are idealised to real numbers; log-domain values are [option R], None being -inf. *)
From Coq Require Import Reals.
From Verif Require Import Common LinAlg_Model FSM_Model.
Local Open Scope nat_scope.

(* np.log on non-negative numbers (log 0 = -inf, MealyMachine.py:325-328) *)
Definition xlog (p : R) : option R := if Rlt_dec 0 p then Some (ln p) else None.
Definition xexp (a : option R) : R := match a with Some x => exp x | None => 0%R end.
(* float addition with -inf *)
Definition xplus (a b : option R) : option R :=
  match a, b with Some x, Some y => Some (x + y)%R | _, _ => None end.
(* np.logaddexp *)
Definition logaddexp (a b : option R) : option R :=
  match a, b with
  | Some x, Some y => Some (ln (exp x + exp y))
  | Some x, None => Some x
  | None, b => b
  end.
(* np.logaddexp.reduce (identity -inf) *)
Definition logsumexp (l : list (option R)) : option R := fold_left logaddexp l None.
(* np.amax with -inf *)
Definition xmax (a b : option R) : option R :=
  match a, b with Some x, Some y => Some (Rmax x y) | Some x, None => Some x | None, b => b end.
Definition Rsum (l : list R) : R := fold_right Rplus 0%R l.

Section FB.
Context {Z : Type} (M : mealy) (metric : nat -> Z -> option R).
Notation xget l i := (nth i l None).

(* MealyMachine.py:331-333: for a fixed s0 the symbols x are visited in increasing order, so a later parallel
   edge overwrites an earlier one; different s0 do not interfere *)
Definition log_gamma (step : Z * list R) : list (list (option R)) :=
  edge_table M None (fun s0 x => xplus (xlog (nth x (snd step) 0%R)) (metric (fsm_out M s0 x) (fst step))).

(* MealyMachine.py:336-339 *)
Definition alpha_step (g : list (list (option R))) (alpha : list (option R)) : list (option R) :=
  map (fun s1 => logsumexp (map (fun s0 => xplus (xget (nth s0 g []) s1) (xget alpha s0)) (seq 0 (num_states M))))
      (seq 0 (num_states M)).
(* MealyMachine.py:335-339: rows log_alpha[0 .. L-1] *)
Fixpoint log_alphas (gs : list (list (list (option R)))) (alpha : list (option R)) : list (list (option R)) :=
  match gs with [] => [] | g :: gs' => alpha :: log_alphas gs' (alpha_step g alpha) end.

(* MealyMachine.py:342-345 *)
Definition beta_step (g : list (list (option R))) (beta : list (option R)) : list (option R) :=
  map (fun s0 => logsumexp (map (fun s1 => xplus (xget (nth s0 g []) s1) (xget beta s1)) (seq 0 (num_states M))))
      (seq 0 (num_states M)).
(* MealyMachine.py:341-345: rows log_beta[1 .. L] *)
Fixpoint log_betas (gs : list (list (list (option R)))) (final : list (option R)) : list (list (option R)) :=
  match gs with
  | [] => []
  | g :: gs' => match gs' with
                | [] => [final]
                | g' :: _ => let bs := log_betas gs' final in beta_step g' (hd [] bs) :: bs
                end
  end.

(* MealyMachine.py:350-356 *)
Definition log_posterior_row (alpha : list (option R)) (g : list (list (option R))) (beta : list (option R)) : list (option R) :=
  map (fun x => logsumexp (map (fun s0 => let s1 := fsm_next M s0 x in
                              xplus (xplus (xget alpha s0) (xget (nth s0 g []) s1)) (xget beta s1)) (seq 0 (num_states M))))
      (seq 0 (num_input_symbols M)).

(* MealyMachine.py:358-361; all -inf gives NaN in the code, None here *)
Definition normalize_row (row : list (option R)) : option (list R) :=
  match fold_left xmax row None with
  | None => None
  | Some m =>
      let e := map (fun a => xexp (xplus a (Some (- m)%R))) row in
      Some (map (fun v => (v / Rsum e)%R) e)
  end.

(* MealyMachine.py:310-363; the defaults (uniform distributions) are explicit arguments *)
Definition forward_backward (observed : list Z) (input_priors : list (list R)) (initial final : list R) : list (option (list R)) :=
  let gs := map log_gamma (combine observed input_priors) in
  let alphas := log_alphas gs (map xlog initial) in
  let betas := log_betas gs (map xlog final) in
  map (fun '(a, (g, b)) => normalize_row (log_posterior_row a g b)) (combine alphas (combine gs betas)).
End FB.
