(** /repo/src/komm/_util/signal_processing.py on arrays: sampling_rate_compress,
    sampling_rate_expand (57-64, 107-118) along any axis, and convolve (164-172). *)
From Coq Require Import Reals.
From Coquelicot Require Import Complex.
From Verif Require Import Common Signal_Model Corr_Model Array_Model.
Local Open Scope nat_scope.

(** signal_processing.py 57-64: checks, then basic slicing of one axis (indexer[axis] is an IndexError for a bad axis) *)
Definition compress_nd {A} (d : A) (input : array A) (factor offset axis : Z) : option (array A) :=
  if negb (0 <? factor)%Z then None
  else if negb ((0 <=? offset)%Z && (offset <? factor)%Z) then None
  else match norm_axis (length (shape input)) axis with
       | None => None
       | Some ax =>
           let n := nth ax (shape input) 0 in
           let f := Z.to_nat factor in
           let o := Z.to_nat offset in
           Some (along d d (fun l => strided d l o f) ((n - o + f - 1) / f) ax input)
       end.
(** signal_processing.py 107-118: zeros of the expanded shape, then assignment to a strided slice *)
Definition expand_nd {A} (zero : A) (input : array A) (factor offset axis : Z) : option (array A) :=
  if negb (0 <? factor)%Z then None
  else if negb ((0 <=? offset)%Z && (offset <? factor)%Z) then None
  else match norm_axis (length (shape input)) axis with
       | None => None
       | Some ax =>
           let n := nth ax (shape input) 0 in
           let f := Z.to_nat factor in
           let o := Z.to_nat offset in
           let slots := (n * f - o + f - 1) / f in
           if negb (slots =? n) then None
           else Some (along zero zero (fun l => write_strided (repeat zero (n * f)) o f l) (n * f) ax input)
       end.

Inductive conv_mode := Full | Same | Valid.
Section Convolve.
Context (T : dtype).
(** the C function behind numpy.convolve (_pyarray_correlate in numpy/core/src/multiarray/multiarraymodule.c):
    three loops of dot products of [a] (the longer array, n1 elements) with pieces of [w] (n2 elements);
    [Corr_Model.npdot] stops at the shorter operand, so cutting one of them gives the C count *)
Definition correlate (a w : list T) (mode : conv_mode) : list T :=
  let n1 := length a in
  let n2 := length w in
  let n_left := match mode with Valid => 0 | Same => n2 / 2 | Full => n2 - 1 end in
  let n_right := match mode with Valid => 0 | Same => n2 - n2 / 2 - 1 | Full => n2 - 1 end in
  map (fun i => npdot T (firstn (n2 - n_left + i) a) (skipn (n_left - i) w)) (seq 0 n_left)
  ++ map (fun i => npdot T (firstn n2 (skipn i a)) w) (seq 0 (n1 - n2 + 1))
  ++ map (fun i => npdot T (skipn (n1 - n2 + 1 + i) a) (firstn (n2 - 1 - i) w)) (seq 0 n_right).
(** numpy.convolve; None = ValueError (empty operand) *)
Definition np_convolve (a v : list T) (mode : conv_mode) : option (list T) :=
  let a' := if length a <? length v then v else a in
  let v' := if length a <? length v then a else v in
  if length a' =? 0 then None
  else if length v' =? 0 then None
  else Some (correlate a' (rev v') mode).
(** signal_processing.py 164-172 *)
Definition convolve (input1 input2 : array T) (axis : Z) (mode : conv_mode) : option (array T) :=
  if length (shape input1) =? 1
  then apply_along_axis (d_zero T) (d_zero T) (fun y => np_convolve (data input1) y mode) axis input2
  else if length (shape input2) =? 1
  then apply_along_axis (d_zero T) (d_zero T) (fun y => np_convolve (data input2) y mode) axis input1
  else None.
End Convolve.
(** float arrays *)
Definition real_dtype : dtype := {| carrier := R; d_zero := 0%R; d_add := Rplus; d_mul := Rmult; d_conj := fun x => x |}.
