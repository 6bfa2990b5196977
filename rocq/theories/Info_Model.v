(* Model of the information-theory functions and of the mutual_information /
   capacity methods of the discrete channels.
   Source: /repo/src/komm/_util/information_theory.py, /repo/src/komm/_util/validators.py,
   /repo/src/komm/_channels/*.py.
   Floating point is modelled by exact real arithmetic.  [tol] is the tolerance
   of np.isclose / np.allclose.  None stands for the ValueError that is raised. *)
From Coq Require Import Reals List Bool Arith.
From Verif Require Import FB_Model Quant_Model.
Import ListNotations.
Local Open Scope R_scope.

Definition Reqb (x y : R) : bool := if Req_EM_T x y then true else false.

(* validators.py 9-16; 'e' is BaseE *)
Inductive log_base := BaseE | Base (b : R).
Definition validate_log_base (b : log_base) : bool :=
  match b with BaseE => true | Base v => negb (Rleb v 0 || Reqb v 1) end.

(* validators.py 19-22 *)
Definition validate_probability (p : R) : bool := Rleb 0 p && Rleb p 1.

(* validators.py 25-42 (joint=False) *)
Definition validate_pmf (tol : R) (pmf : list R) : bool :=
  forallb (fun p => Rleb 0 p) pmf && Rleb (Rabs (Rsum pmf - 1)) tol.

(* validators.py 45-61; a 2D array is a list of rows of equal length *)
Definition validate_matrix (tol : R) (W : list (list R)) : bool :=
  forallb (fun row => length row =? length (hd [] W))%nat W &&
  forallb (fun row => forallb (fun p => Rleb 0 p) row) W &&
  forallb (fun row => Rleb (Rabs (Rsum row - 1)) tol) W.

(* np.log(x), np.log2(x), np.log(x) / np.log(base): information_theory.py 46-51.
   np.log2 is ln x / ln 2 in exact arithmetic. *)
Definition log_in (b : log_base) (x : R) : R :=
  match b with BaseE => ln x | Base v => ln x / ln v end.
Definition log2 (x : R) : R := ln x / ln 2.

(* information_theory.py 42-52 *)
Definition entropy (tol : R) (b : log_base) (pmf : list R) : option R :=
  if validate_pmf tol pmf && validate_log_base b
  then Some (Rsum (map (fun p => p * log_in b (1 / p)) (filter (fun p => Rltb 0 p) pmf)))
  else None.

(* information_theory.py 73-76 *)
Definition binary_entropy (p : R) : option R :=
  if validate_probability p then
    Some (if Reqb p 0 || Reqb p 1 then 0 else - p * log2 p - (1 - p) * log2 (1 - p))
  else None.

(* information_theory.py 98-105, the while loop with a bound [fuel] on its
   iterations (None when it is exhausted) *)
Fixpoint bisect (fuel : nat) (tol h low high : R) : option R :=
  match fuel with
  | O => None
  | S fuel' =>
      if Rltb tol (high - low) then
        let mid := (low + high) / 2 in
        match binary_entropy mid with
        | Some v => if Rltb v h then bisect fuel' tol h mid high else bisect fuel' tol h low mid
        | None => None
        end
      else Some ((low + high) / 2)
  end.

(* information_theory.py 94-105 *)
Definition binary_entropy_inv (fuel : nat) (tol h : R) : option R :=
  if Rleb 0 h && Rleb h 1 then
    if Reqb h 0 || Reqb h 1 then Some (0.5 * h) else bisect fuel tol h 0 0.5
  else None.

(* float results that can be infinite *)
Inductive ext := Fin (r : R) | PInf | MInf.

(* information_theory.py 144-160.  p / 0 = inf for p > 0; log inf = inf; dividing
   by the negative np.log(base) of a base below 1 gives -inf. *)
Definition relative_entropy (tol : R) (b : log_base) (pmf qmf : list R) : option ext :=
  if validate_pmf tol pmf && validate_pmf tol qmf && validate_log_base b then
    if (length pmf =? length qmf)%nat then
      let pairs := filter (fun pq => Rltb 0 (fst pq)) (combine pmf qmf) in
      if existsb (fun pq => Reqb (snd pq) 0) pairs
      then Some (match b with BaseE => PInf | Base v => if Rltb 1 v then PInf else MInf end)
      else Some (Fin (Rsum (map (fun pq => fst pq * log_in b (fst pq / snd pq)) pairs)))
    else None
  else None.

(* np.dot(input_pmf, transition_matrix) *)
Definition ncols (W : list (list R)) : nat := length (hd [] W).
Definition entry (W : list (list R)) (x y : nat) : R := nth y (nth x W []) 0.
Definition output_pmf (pmf : list R) (W : list (list R)) : list R :=
  map (fun y => Rsum (map (fun x => nth x pmf 0 * entry W x y) (seq 0 (length W)))) (seq 0 (ncols W)).

Fixpoint sequence {A} (l : list (option A)) : option (list A) :=
  match l with
  | [] => Some []
  | Some a :: l' => match sequence l' with Some r => Some (a :: r) | None => None end
  | None :: _ => None
  end.

(* information_theory.py 165-178; np.dot raises for shapes that do not match *)
Definition mutual_information (tol : R) (b : log_base) (pmf : list R) (W : list (list R)) : option R :=
  if validate_pmf tol pmf && validate_log_base b && validate_matrix tol W && (length pmf =? length W)%nat then
    match entropy tol b (output_pmf pmf W), sequence (map (entropy tol b) W) with
    | Some hy, Some hs => Some (hy - Rsum (map (fun x => nth x pmf 0 * nth x hs 0) (seq 0 (length pmf))))
    | _, _ => None
    end
  else None.

(* log2(base) with base = e for 'e' (the closed-form channels) *)
Definition base_value (b : log_base) : R := match b with BaseE => exp 1 | Base v => v end.

(* x ** y for x, y >= 0 *)
Definition rpow (x y : R) : R := if Reqb y 0 then 1 else if Reqb x 0 then 0 else exp (y * ln x).

Definition opt2 (f : R -> R -> R) (a b : option R) : option R :=
  match a, b with Some x, Some y => Some (f x y) | _, _ => None end.

(* input_pmf[1] (IndexError for shorter pmfs) *)
Definition second (pmf : list R) : option R := nth_error pmf 1.

(* BinarySymmetricChannel.py 82-87, 102-105 *)
Definition bsc_mutual_information (tol p : R) (b : log_base) (pmf : list R) : option R :=
  if validate_pmf tol pmf && validate_log_base b then
    match second pmf with
    | Some pi => opt2 (fun h1 h2 => (h1 - h2) / log2 (base_value b)) (binary_entropy (p + pi - 2 * p * pi)) (binary_entropy p)
    | None => None
    end
  else None.
Definition bsc_capacity (p : R) (b : log_base) : option R :=
  if validate_log_base b then option_map (fun h => (1 - h) / log2 (base_value b)) (binary_entropy p) else None.
Definition bsc_matrix (p : R) : list (list R) := [[1 - p; p]; [p; 1 - p]].

(* BinaryErasureChannel.py 82-87, 102-104 *)
Definition bec_mutual_information (tol eps : R) (b : log_base) (pmf : list R) : option R :=
  if validate_pmf tol pmf && validate_log_base b then
    match second pmf with
    | Some pi => option_map (fun h => (1 - eps) * h / log2 (base_value b)) (binary_entropy pi)
    | None => None
    end
  else None.
Definition bec_capacity (eps : R) (b : log_base) : option R :=
  if validate_log_base b then Some ((1 - eps) / log2 (base_value b)) else None.
Definition bec_matrix (eps : R) : list (list R) := [[1 - eps; 0; eps]; [0; 1 - eps; eps]].

(* ZChannel.py 82-87, 102-108 *)
Definition z_mutual_information (tol p : R) (b : log_base) (pmf : list R) : option R :=
  if validate_pmf tol pmf && validate_log_base b then
    match second pmf with
    | Some pi => opt2 (fun h1 h2 => (h1 - pi * h2) / log2 (base_value b)) (binary_entropy (pi * (1 - p))) (binary_entropy p)
    | None => None
    end
  else None.
Definition z_capacity (p : R) (b : log_base) : option R :=
  if validate_log_base b then
    if Reqb p 1 then Some 0
    else let q := 1 - p in Some (log2 (1 + q * rpow p (p / q)) / log2 (base_value b))
  else None.
Definition z_matrix (p : R) : list (list R) := [[1; 0]; [p; 1 - p]].

(* information_theory.py 196-204: one pass of the loop body *)
Definition ab_step (W : list (list R)) (r : list R) : list R :=
  let qsum y := Rsum (map (fun x => nth x r 0 * entry W x y) (seq 0 (length W))) in
  let q x y := if Reqb (qsum y) 0 then 0 else nth x r 0 * entry W x y / qsum y in
  let prod x := fold_right Rmult 1 (map (fun y => rpow (q x y) (entry W x y)) (seq 0 (ncols W))) in
  let total := Rsum (map prod (seq 0 (length W))) in
  map (fun x => prod x / total) (seq 0 (length W)).

(* np.amax(np.abs(r - last_r)) > tol; last_r is infinite (None) at first *)
Definition ab_continues (tol : R) (r : list R) (last : option (list R)) : bool :=
  match last with
  | None => true
  | Some l => existsb (fun ab => Rltb tol (Rabs (fst ab - snd ab))) (combine r l)
  end.

(* information_theory.py 190-206; [fuel] is max_iter - iters *)
Fixpoint arimoto_blahut (fuel : nat) (tol : R) (W : list (list R)) (r : list R) (last : option (list R)) : list R :=
  match fuel with
  | O => r
  | S fuel' => if ab_continues tol r last then arimoto_blahut fuel' tol W (ab_step W r) (Some r) else r
  end.

(* DiscreteMemorylessChannel.py 92-96; np.ones(n) / n *)
Definition dmc_capacity (tol : R) (b : log_base) (W : list (list R)) : option R :=
  mutual_information tol b
    (arimoto_blahut 1000 (/ 1000000000000) W (repeat (1 / INR (length W)) (length W)) None) W.
