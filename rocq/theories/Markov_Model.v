(* Model of MarkovChain.  Source: /repo/src/komm/_sources/MarkovChain.py,
   /repo/src/komm/_util/validators.py.

   The transition matrix is a sequence of rows over an arbitrary ordered field
   F (exact arithmetic; the code uses floats).  States are 0 .. n-1.  Python
   sets are modelled as sequences without an order being relied on; every
   theorem speaks about membership only, or holds for any enumeration. *)
Set Warnings "-notation-overridden,-ambiguous-paths".
From mathcomp Require Import all_ssreflect all_algebra.
Set Implicit Arguments.
Unset Strict Implicit.
Unset Printing Implicit Defensive.
Import Order.TTheory GRing.Theory Num.Theory.
Local Open Scope nat_scope.

(* ------------------------------------------------------------------ *)
(* Graph part: [n] is the number of states, [e i j] is the entry of the
   boolean array  transition_matrix > 0. *)

(* np.flatnonzero(adjacency_matrix[u]); MarkovChain.py 86, 579, 586 *)
Definition flatnonzero (n : nat) (row : pred nat) : seq nat := [seq j <- iota 0 n | row j].

(* while-loop of _accessible_states_from; MarkovChain.py 81-88.  The stack's
   top is the head of the list, so stack.extend pushes the reversed neighbours.
   Fuel counts iterations; None: out of fuel. *)
Fixpoint dfs (n : nat) (e : rel nat) (fuel : nat) (accessible stack : seq nat) : option (seq nat) :=
  match stack with
  | [::] => Some accessible
  | state :: stack' =>
      if fuel is fuel'.+1 then
        if state \in accessible then dfs n e fuel' accessible stack'
        else
          let accessible' := state :: accessible in
          let neighbors := flatnonzero n (e state) in
          dfs n e fuel' accessible' (rev [seq j <- neighbors | j \notin accessible'] ++ stack')
      else None
  end.

(* _accessible_states_from; MarkovChain.py 77-88 (Markov_Proof.dfs_total: the
   fuel n*n+1 is never exhausted) *)
Definition accessible (n : nat) (e : rel nat) (state : nat) : seq nat :=
  odflt [::] (dfs n e (n * n).+1 [::] [:: state]).

(* _communicating_classes; MarkovChain.py 122-134 *)
Definition classes_step (n : nat) (reach : nat -> seq nat) (st : seq (seq nat) * seq nat) (i : nat) :=
  let: (classes, visited) := st in
  if i \in visited then st
  else
    let eq := [seq j <- iota 0 n | (j \in reach i) && (i \in reach j)] in
    (rcons classes eq, eq ++ visited).

Definition communicating_classes (n : nat) (e : rel nat) : seq (seq nat) :=
  (foldl (classes_step n (accessible n e)) ([::], [::]) (iota 0 n)).1.

(* is_irreducible; MarkovChain.py 195 *)
Definition is_irreducible (n : nat) (e : rel nat) : bool :=
  size (communicating_classes n e) == 1.

(* _transient_states; MarkovChain.py 246-254 *)
Definition transient_states (n : nat) (e : rel nat) : seq nat :=
  [seq i <- iota 0 n | has (fun j => i \notin accessible n e j) (accessible n e i)].

(* recurrent_states; MarkovChain.py 306 *)
Definition recurrent_states (n : nat) (e : rel nat) : seq nat :=
  [seq i <- iota 0 n | i \notin transient_states n e].

(* period, body of the inner for loop of the BFS; MarkovChain.py 579-583.  The
   dict levels is a partial function. *)
Definition bfs_visit (cls : seq nat) (lu : nat) (st : (nat -> option nat) * seq nat) (v : nat) :=
  let: (levels, queue) := st in
  if (v \in cls) && ~~ isSome (levels v)
  then ((fun w => if w == v then Some lu.+1 else levels w), rcons queue v)
  else st.

(* period, the BFS while loop; MarkovChain.py 577-583.  None: out of fuel or
   KeyError. *)
Fixpoint bfs (n : nat) (e : rel nat) (cls : seq nat) (fuel : nat)
    (levels : nat -> option nat) (queue : seq nat) : option (nat -> option nat) :=
  match queue with
  | [::] => Some levels
  | u :: queue' =>
      if fuel is fuel'.+1 then
        if levels u is Some lu then
          let: (levels', queue'') := foldl (bfs_visit cls lu) (levels, queue') (flatnonzero n (e u)) in
          bfs n e cls fuel' levels' queue''
        else None
      else None
  end.

(* period, gcd step; MarkovChain.py 586-589.  math.gcd ignores signs, so the
   difference is taken as a distance.  None: KeyError. *)
Definition gcd_step (cls : seq nat) (levels : nat -> option nat) (u : nat) (d : option nat) (v : nat) :=
  if v \in cls then
    match d, levels u, levels v with
    | Some d', Some lu, Some lv => Some (gcdn d' (maxn lu.+1 lv - minn lu.+1 lv))
    | _, _, _ => None
    end
  else d.

(* period; MarkovChain.py 546-590.  None: StopIteration, KeyError or fuel
   (Markov_Period.period_spec: never for a state of the chain). *)
Definition period (n : nat) (e : rel nat) (state : nat) : option nat :=
  if [seq c <- communicating_classes n e | state \in c] is cls :: _ then
    obind (fun levels =>
      foldl (fun d u => foldl (gcd_step cls levels u) d (flatnonzero n (e u))) (Some 0) cls)
      (bfs n e cls n.+1 (fun w => if w == state then Some 0 else None) [:: state])
  else None.

(* is_aperiodic; MarkovChain.py 625 *)
Definition is_aperiodic (n : nat) (e : rel nat) : bool :=
  all (fun i => period n e i == Some 1) (iota 0 n).

(* is_regular; MarkovChain.py 341 *)
Definition is_regular (n : nat) (e : rel nat) : bool := is_irreducible n e && is_aperiodic n e.

(* index_of_primitivity; MarkovChain.py 372-379.  Boolean matrix product;
   [None]: ValueError. *)
Fixpoint primitivity_loop (n : nat) (e : rel nat) (left k : nat) (Pn : rel nat) : option nat :=
  if left is left'.+1 then
    if all (fun i => all (Pn i) (iota 0 n)) (iota 0 n) then Some k
    else primitivity_loop n e left' k.+1 (fun i j => has (fun l => Pn i l && e l j) (iota 0 n))
  else None.

(* max_n = (n-1)**2 + 1; for n = 0 the code has max_n = 2, not 1, but returns
   at the first iteration in both cases *)
Definition index_of_primitivity (n : nat) (e : rel nat) : option nat :=
  primitivity_loop n e ((n - 1) ^ 2 + 1) 1 e.

(* ------------------------------------------------------------------ *)
(* Numerical part *)
Section Chain.
Variable F : realFieldType.
Implicit Type P : seq (seq F).
Local Open Scope ring_scope.

(* P[i, j] *)
Definition entry P (i j : nat) : F := nth 0 (nth [::] P i) j.

(* validate_transition_matrix(value, square=True); validators.py 44-60, with
   tol standing for the tolerance of np.allclose *)
Definition accepts (tol : F) P : bool :=
  [&& all (fun row => size row == size P) P,
      all (fun row => all (fun x => 0 <= x) row) P &
      all (fun row => `| \sum_(x <- row) x - 1 | <= tol) P].

(* transition_matrix > 0; MarkovChain.py 78 *)
Definition adjacency P : rel nat := fun i j => 0 < entry P i j.

(* absorbing_states; MarkovChain.py 413 *)
Definition absorbing_states P : seq nat := [seq i <- iota 0 (size P) | entry P i i == 1].

(* is_absorbing; MarkovChain.py 448-454 *)
Definition is_absorbing P : bool :=
  let absorbing := absorbing_states P in
  if absorbing is [::] then false
  else all (fun i => has (fun j => j \in accessible (size P) (adjacency P) i) absorbing)
           [seq i <- iota 0 (size P) | i \notin absorbing].

(* P[np.ix_(rows, cols)]; MarkovChain.py 484, 541 *)
Definition submatrix P (rows cols : seq nat) : 'M[F]_(size rows, size cols) :=
  \matrix_(i, j) entry P (nth 0%N rows i) (nth 0%N cols j).

(* mean_number_of_visits; MarkovChain.py 480-487.  [transient] is the order in
   which Python happens to list the set of transient states.  None: ValueError
   or LinAlgError (singular matrix). *)
Definition mean_number_of_visits P (transient : seq nat) : option 'M[F]_(size transient) :=
  if is_absorbing P then
    let Q := submatrix P transient transient in
    if (1%:M - Q) \in unitmx then Some (invmx (1%:M - Q)) else None
  else None.

(* mean_time_to_absorption; MarkovChain.py 511-512 *)
Definition mean_time_to_absorption P (transient : seq nat) : option 'cV[F]_(size transient) :=
  omap (fun N : 'M_(size transient) => \col_i \sum_j N i j) (mean_number_of_visits P transient).

(* absorption_probabilities; MarkovChain.py 537-543; [absorbing] is the order
   in which Python lists the set of absorbing states *)
Definition absorption_probabilities P (transient absorbing : seq nat)
    : option 'M[F]_(size transient, size absorbing) :=
  omap (fun N : 'M_(size transient) => N *m submatrix P transient absorbing)
       (mean_number_of_visits P transient).

(* stationary_distribution; MarkovChain.py 239-241: the arguments A.T and b of
   np.linalg.lstsq, A = hstack((P - I, ones)), b = (0, ..., 0, 1) *)
Definition lstsq_matrix P : 'M[F]_(size P + 1, size P) :=
  col_mx (\matrix_(i, j) (entry P j i - (j == i)%:R)) (const_mx 1).
Definition lstsq_rhs P : 'cV[F]_(size P + 1) := col_mx 0 (const_mx 1).

(* ||A x - b||^2, which np.linalg.lstsq minimises *)
Definition residual m n (A : 'M[F]_(m, n)) (b : 'cV_m) (x : 'cV_n) : F :=
  \sum_i ((A *m x - b) i ord0) ^+ 2.

(* stationary_distribution; MarkovChain.py 235-243.  numpy's lstsq is modelled
   by what it promises: some x with minimal residual. *)
Definition stationary_distribution P (pi : 'cV[F]_(size P)) : Prop :=
  is_irreducible (size P) (adjacency P) /\
  forall x, residual (lstsq_matrix P) (lstsq_rhs P) pi <= residual (lstsq_matrix P) (lstsq_rhs P) x.

(* ------------------------------------------------------------------ *)
(* np.random.Generator.choice(n, p=p): one uniform draw u in [0, 1);
   cdf = p.cumsum(); cdf /= cdf[-1]; cdf.searchsorted(u, side='right'), the
   number of entries of cdf that are <= u (cdf is non-decreasing). *)
Definition cumsum (p : seq F) : seq F := [seq \sum_(x <- take k.+1 p) x | k <- iota 0 (size p)].
Definition choice (p : seq F) (u : F) : nat :=
  count (fun c => c / last 0 (cumsum p) <= u) (cumsum p).

(* simulate; MarkovChain.py 656-662; [draws] are the uniform draws, one per
   step *)
Fixpoint simulate P (state : nat) (draws : seq F) : seq nat :=
  if draws is u :: draws' then state :: simulate P (choice (nth [::] P state) u) draws' else [::].

(* simulate_until_absorption, the loop; MarkovChain.py 693-696.  None: the
   draws ran out before the loop ended. *)
Fixpoint until_loop P (transient : seq nat) (state : nat) (draws : seq F) : option (seq nat) :=
  if state \in transient then
    if draws is u :: draws' then
      let state' := choice (nth [::] P state) u in
      omap (cons state') (until_loop P transient state' draws')
    else None
  else Some [::].

(* simulate_until_absorption; MarkovChain.py 687-696; outer None: ValueError *)
Definition simulate_until_absorption P (state : nat) (draws : seq F) : option (option (seq nat)) :=
  if is_absorbing P then
    Some (omap (cons state) (until_loop P (transient_states (size P) (adjacency P)) state draws))
  else None.

End Chain.
