(** Entropy, relative entropy, Kraft parameter and rate of a code in double precision.
    /repo/src/komm/_util/information_theory.py 42-52, 74-76 and 148-157, _lossless_coding/FixedToVariableCode.py 411-413 and 434-439,
    _lossless_coding/VariableToFixedCode.py 358-363.
    [Info_Model] and [Rate_Model] follow these lines in exact arithmetic.  Here every floating-point operation is rounded to
    the nearest binary64 number.  np.sum, np.dot and np.prod add and multiply in any order, np.dot with or without fused
    multiply-add; log, log2 and pow of the C library are parameters.
    Simplifications: no overflow (1/p is infinite for p below 2^-1024), no NaN; validate_pmf and validate_log_base are not
    repeated here. *)
Set Warnings "-ambiguous-paths".
From Coq Require Import Reals Permutation.
From Verif Require Import Common Float_Model Info_Model.
Local Open Scope R_scope.

(** x is a result of np.dot of the pairs in l: products and sums in some order, every operation (or every fused
    multiply-add) rounded *)
Inductive rounded_dot : list (R * R) -> R -> Prop :=
| dot_none : rounded_dot [] 0
| dot_one : forall a b, rounded_dot [(a, b)] (binary64 (a * b))
| dot_fma : forall a b l l' x, rounded_dot l x -> Permutation ((a, b) :: l) l' -> rounded_dot l' (binary64 (x + a * b))
| dot_add : forall l1 l2 l x1 x2, rounded_dot l1 x1 -> rounded_dot l2 x2 -> Permutation (l1 ++ l2) l ->
    rounded_dot l (binary64 (x1 + x2)).
Definition any_dot (npdot : list R -> list R -> R) : Prop := forall a b, length a = length b -> rounded_dot (combine a b) (npdot a b).
(** np.prod *)
Inductive rounded_product : list R -> R -> Prop :=
| prod_none : rounded_product [] 1
| prod_one : forall x, rounded_product [x] x
| prod_mul : forall l1 l2 l x1 x2, rounded_product l1 x1 -> rounded_product l2 x2 -> Permutation (l1 ++ l2) l ->
    rounded_product l (binary64 (x1 * x2)).
Definition any_product (npprod : list R -> R) : Prop := forall l, rounded_product l (npprod l).

(** information_theory.py 46-51: np.log, np.log2, np.log(x) / np.log(base) *)
Definition float_log (clog clog2 : R -> R) (b : log_base) (x : R) : R :=
  match b with
  | BaseE => clog x
  | Base v => if Req_EM_T v 2 then clog2 x else binary64 (clog x / clog v)
  end.
(** information_theory.py 44-52 *)
Definition float_entropy (clog clog2 : R -> R) (npdot : list R -> list R -> R) (b : log_base) (pmf : list R) : R :=
  let pmf := filter (fun p => if Rlt_dec 0 p then true else false) pmf in
  npdot pmf (map (fun p => float_log clog clog2 b (binary64 (1 / p))) pmf).

(** information_theory.py 148-157; qmf is positive where pmf is (np.log(inf) otherwise: Info_Model) *)
Definition float_relative_entropy (clog clog2 : R -> R) (npdot : list R -> list R -> R) (b : log_base) (pmf qmf : list R) : R :=
  let masked := filter (fun pq => if Rlt_dec 0 (fst pq) then true else false) (combine pmf qmf) in
  npdot (map fst masked) (map (fun pq => float_log clog clog2 b (binary64 (fst pq / snd pq))) masked).

(** information_theory.py 74-76; math.log2 *)
Definition float_binary_entropy (clog2 : R -> R) (p : R) : R :=
  if Req_EM_T p 0 then 0 else if Req_EM_T p 1 then 0
  else binary64 (binary64 (- p * clog2 p) - binary64 (binary64 (1 - p) * clog2 (binary64 (1 - p)))).

(** FixedToVariableCode.py 411-413; T is the target cardinality *)
Definition float_kraft_parameter (cpow : R -> R -> R) (npsum : list R -> R) (T : nat) (lengths : list nat) : R :=
  npsum (map (fun l => cpow (INR T) (- INR l)) lengths).

(** itertools.product(pmf, repeat=k) *)
Fixpoint blocks (pmf : list R) (k : nat) : list (list R) :=
  match k with
  | O => [[]]
  | S k' => flat_map (fun p => map (cons p) (blocks pmf k')) pmf
  end.
(** FixedToVariableCode.py 434-439 *)
Definition float_rate (npdot : list R -> list R -> R) (npprod : list R -> R) (k : nat) (lengths : list nat) (pmf : list R) : R :=
  let probabilities := map npprod (blocks pmf k) in
  binary64 (npdot (map INR lengths) probabilities / INR k).
(** VariableToFixedCode.py 358-363; n is the target block size *)
Definition float_v2f_rate (npdot : list R -> list R -> R) (npprod : list R -> R) (n : nat) (sourcewords : list (list nat)) (pmf : list R) : R :=
  let lengths := map (@length nat) sourcewords in
  let probabilities := map (fun x => npprod (map (fun symb => nth symb pmf 0) x)) sourcewords in
  binary64 (INR n / npdot (map INR lengths) probabilities).
