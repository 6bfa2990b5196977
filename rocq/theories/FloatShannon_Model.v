(** ShannonCode in double precision.

    [PmfCodes_Model.shannon_make] follows /repo/src/komm/_lossless_coding/ShannonCode.py with exact rational
    arithmetic.  Here the same lines are followed with every floating-point operation rounded to the nearest binary64
    number ([Float_Model.binary64]).  The base-2 logarithm of the C library is a parameter [clog2].
    Simplification: overflow is not modelled (the theorems keep probabilities above 2^-1000, so that 1/p stays far
    below the greatest double). *)
From Coq Require Import Reals.
From Flocq Require Import Core.
From Verif Require Import Common Prefix_Model PmfCodes_Model Float_Model.
Local Open Scope R_scope.

(* ShannonCode.py 92: reduce(np.multiply.outer, [pmf] * k).ravel(), each product rounded *)
Fixpoint float_products (pmf : list R) (k : nat) : list R :=
  match k with
  | O => [1]
  | S O => pmf
  | S k' => flat_map (fun a => map (fun b => binary64 (a * b)) pmf) (float_products pmf k')
  end.
(* ShannonCode.py 85-88: np.maximum(1, np.ceil(np.log2(1 / pmf))).astype(int) *)
Definition float_shannon_length (clog2 : R -> R) (p : R) : nat := Z.to_nat (Z.max 1 (Zceil (clog2 (binary64 (1 / p))))).
(* ShannonCode.py 57-67 (the positivity check) and 91-98; validate_pmf is not repeated here *)
Definition float_shannon_make (clog2 : R -> R) (pmf : list R) (k : nat) : option f2v :=
  if forallb (fun p => if Rlt_dec 0 p then true else false) pmf then
    match canonical_code (map (float_shannon_length clog2) (float_products pmf k)) 2 with
    | None => None
    | Some ws => let S := N.of_nat (length pmf) in f2v_make S 2 k (dict_of_pairs (combine (tuples S k) ws))
    end
  else None.
