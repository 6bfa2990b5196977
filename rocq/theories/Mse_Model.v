(** Model of /repo/src/komm/_quantization/base.py: ScalarQuantizer.mean_squared_error. *)
From Coq Require Import List Reals.
From Verif Require Import Quant_Model.
Import ListNotations.
Local Open Scope R_scope.

(** base.py 81-83: one cell.  numpy.linspace, the integrand, numpy.trapezoid (the
    last two are those of Quant_Model, exact real arithmetic). *)
Definition cell_error (pdf : R -> R) (points : nat) (level a b : R) : R :=
  let x := linspace a b points in
  trapezoid (map (fun u => (level - u) ^ 2 * pdf u) x) x.

(** base.py 79-84: the loop over the levels with the boundaries lam[i], lam[i+1]. *)
Fixpoint cell_errors (pdf : R -> R) (points : nat) (levels lam : list R) : R :=
  match levels, lam with
  | level :: levels', a :: ((b :: _) as lam') => cell_error pdf points level a b + cell_errors pdf points levels' lam'
  | _, _ => 0
  end.

(** base.py 54-85. *)
Definition mean_squared_error (q : quantizer) (pdf : R -> R) (xmin xmax : R) (points : nat) : R :=
  cell_errors pdf points (levels q) (xmin :: thresholds q ++ [xmax]).
