(* Model of /repo/src/komm/_quantization: base.py, ScalarQuantizer.py, UniformQuantizer.py, LloydMaxQuantizer.py.
   Floating-point numbers are replaced by real numbers. *)
From Coq Require Import Reals.
From Verif Require Import Common.
Local Open Scope R_scope.

Definition Rleb (x y : R) : bool := if Rle_dec x y then true else false.
Definition Rltb (x y : R) : bool := if Rlt_dec x y then true else false.

(* an object with its two arrays *)
Record quantizer := { levels : list R; thresholds : list R }.

(* base.py 38: np.digitize(input, thresholds, right=False), i.e. searchsorted(..., side="right"): how many thresholds are <= x *)
Definition digitize (q : quantizer) (x : R) : nat := length (filter (fun t => Rleb t x) (thresholds q)).
(* base.py 52 *)
Definition quantize (q : quantizer) (x : R) : R := nth (digitize q x) (levels q) 0.

(* numpy.unique: the distinct values in increasing order *)
Fixpoint insert_unique (x : R) (l : list R) : list R :=
  match l with
  | [] => [x]
  | y :: l' => if Rltb x y then x :: l else if Rltb y x then y :: insert_unique x l' else l
  end.
Definition np_unique (l : list R) : list R := fold_right insert_unique [] l.
(* ScalarQuantizer.py 52-54 *)
Fixpoint interleave (y t : list R) : list R :=
  match y, t with
  | a :: y', b :: t' => a :: b :: interleave y' t'
  | a :: _, [] => [a]
  | [], _ => []
  end.
(* ScalarQuantizer.py 43-57 *)
Definition ScalarQuantizer (y t : list R) : option quantizer :=
  if negb (Nat.eqb (length t + 1) (length y)) then None
  else if list_eq_dec Req_EM_T (np_unique (interleave y t)) (interleave y t) then Some {| levels := y; thresholds := t |} else None.

(* UniformQuantizer.py 129, 143 *)
Definition uniform_levels (L : nat) (step offset : R) : list R := map (fun i => (INR i - (INR L - 1) / 2 + offset) * step) (seq 0 L).
Definition uniform_thresholds (L : nat) (step offset : R) : list R := removelast (map (fun y => y + step / 2) (uniform_levels L step offset)).
(* 49-56 *)
Definition UniformQuantizer (L : nat) (step offset : R) : option quantizer :=
  if Nat.leb L 1 then None else if Rltb 0 step then Some {| levels := uniform_levels L step offset; thresholds := uniform_thresholds L step offset |} else None.
(* 58-85, 87-114 *)
Definition mid_riser (L : nat) (step : R) : option quantizer := UniformQuantizer L step (if Nat.even L then 0 else - (1 / 2)).
Definition mid_tread (L : nat) (step : R) : option quantizer := UniformQuantizer L step (if Nat.odd L then 0 else - (1 / 2)).

(* numpy.linspace(a, b, num)  (for num = 1 it is [a]) *)
Definition linspace (a b : R) (num : nat) : list R := map (fun k => a + INR k * ((b - a) / (INR num - 1))) (seq 0 num).
(* numpy.trapezoid(y, x) *)
Fixpoint trapezoid (y x : list R) : R :=
  match y, x with
  | y0 :: ((y1 :: _) as y'), x0 :: ((x1 :: _) as x') => (x1 - x0) * (y0 + y1) / 2 + trapezoid y' x'
  | _, _ => 0
  end.
(* LloydMaxQuantizer.py 159-164, one cell *)
Definition centroid (pdf : R -> R) (points : nat) (a b old : R) : R :=
  let x := linspace a b points in
  let denominator := trapezoid (map pdf x) x in
  if Req_EM_T denominator 0 then old else trapezoid (map (fun u => u * pdf u) x) x / denominator.
(* 157: 0.5 * (y[:-1] + y[1:]) *)
Fixpoint midpoints (y : list R) : list R :=
  match y with a :: ((b :: _) as y') => (1 / 2 * (a + b)) :: midpoints y' | _ => [] end.
(* 159-164: the new levels from the cell boundaries and the old levels *)
Fixpoint centroids (pdf : R -> R) (points : nat) (lam y : list R) : list R :=
  match y, lam with
  | old :: y', a :: ((b :: _) as lam') => centroid pdf points a b old :: centroids pdf points lam' y'
  | _, _ => []
  end.
(* 156-166; [close] is np.allclose *)
Fixpoint lloyd_loop (close : list R -> list R -> bool) (pdf : R -> R) (points : nat) (xmin xmax : R) (iter : nat) (y lam : list R) : list R * list R :=
  match iter with
  | O => (y, lam)
  | S it =>
      let lam := midpoints y in
      let y' := centroids pdf points (xmin :: lam ++ [xmax]) y in
      if close y' y then (y', lam) else lloyd_loop close pdf points xmin xmax it y' lam
  end.
(* 149-168; the uninitialised np.empty thresholds of line 154 are given by [garbage]: they are overwritten because max_iter = 1000 *)
Definition lloyd_max_quantizer (close : list R -> list R -> bool) (pdf : R -> R) (num_levels : nat) (xmin xmax : R) (points max_iter : nat) (garbage : list R) : quantizer :=
  let delta := (xmax - xmin) / INR num_levels in
  let y := linspace (xmin + delta / 2) (xmax - delta / 2) num_levels in
  let '(y, lam) := lloyd_loop close pdf points xmin xmax max_iter y garbage in
  {| levels := y; thresholds := lam |}.
Definition LloydMaxQuantizer (close : list R -> list R -> bool) (pdf : R -> R) (xmin xmax : R) (num_levels : nat) (garbage : list R) : quantizer :=
  lloyd_max_quantizer close pdf num_levels xmin xmax 4096 1000 garbage.
