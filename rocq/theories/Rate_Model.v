(* Model of rate() and kraft_parameter() of FixedToVariableCode and
   VariableToFixedCode (/repo/src/komm/_lossless_coding).  Exact rationals stand
   for the floats; tol is the tolerance of np.isclose in validate_pmf
   (/repo/src/komm/_util/validators.py 25-42).  None stands for ValueError or IndexError. *)
From Verif Require Import Common Prefix_Model PmfCodes_Model.
From Coq Require Import QArith Qabs.
Local Open Scope nat_scope.

Definition validate_pmf_q (tol : Q) (pmf : list Q) : bool :=
  forallb (fun p => Qle_bool 0 p) pmf && Qle_bool (Qabs (qsum pmf - 1)) tol.

(* itertools.product(pmf, repeat=k) *)
Fixpoint product_repeat (pmf : list Q) (k : nat) : list (list Q) :=
  match k with
  | O => [[]]
  | S k' => flat_map (fun p => map (cons p) (product_repeat pmf k')) pmf
  end.
(* np.prod *)
Definition qprod (l : list Q) : Q := fold_right Qmult 1%Q l.

Fixpoint qdot (a b : list Q) : Q :=
  match a, b with x :: a', y :: b' => (x * y + qdot a' b')%Q | _, _ => 0%Q end.
Definition nat_q (n : nat) : Q := inject_Z (Z.of_nat n).

(* FixedToVariableCode.py 434-439; lengths 338: in the order of the mapping's items *)
Definition f2v_rate (tol : Q) (c : f2v) (pmf : list Q) : option Q :=
  if validate_pmf_q tol pmf then
    let lengths := map (fun w => nat_q (length w)) (f2v_codewords c) in
    let probabilities := map qprod (product_repeat pmf (f2v_k c)) in
    if length lengths =? length probabilities then Some (qdot lengths probabilities / nat_q (f2v_k c))%Q else None
  else None.

(* FixedToVariableCode.py 411-413 *)
Definition f2v_kraft_parameter (c : f2v) : Q :=
  qsum (map (fun w => / inject_Z (Z.of_N (f2v_tgt c) ^ Z.of_nat (length w)))%Q (f2v_codewords c)).

(* VariableToFixedCode.py 358-363; pmf[symb] raises IndexError out of range.  A
   zero denominator is not reached for an accepted code with non-empty sourcewords. *)
Definition v2f_rate (tol : Q) (c : v2f) (pmf : list Q) : option Q :=
  if validate_pmf_q tol pmf then
    if forallb (forallb (fun x => (x <? N.of_nat (length pmf))%N)) (v2f_sourcewords c) then
      let lengths := map (fun w => nat_q (length w)) (v2f_sourcewords c) in
      let probabilities := map (fun w => qprod (map (fun x => nth (N.to_nat x) pmf 0%Q) w)) (v2f_sourcewords c) in
      Some (nat_q (v2f_n c) / qdot lengths probabilities)%Q
    else None
  else None.
