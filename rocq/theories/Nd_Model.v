(** The public methods of block codes and decoders on arrays with any number of axes:
    /repo/src/komm/_error_control_block/base.py 79-131 (and the overriding methods of
    SystematicBlockCode.py 172-211, CyclicCode.py 173-218, PolarCode.py 70-78,
    TerminatedConvolutionalCode.py 127-137) and _error_control_decoders/*.py.  What happens
    to one word is modelled elsewhere (the functions of [block_code]). *)
From Coq Require Import QArith.
From Verif Require Import Common Bits_Model Vec_Model LinAlg_Model BlockCode_Model Array_Model.
Local Open Scope nat_scope.

(** [vect] says whether the inner function carries @vectorize (CyclicCode, BCHCode, PolarCode,
    TerminatedConvolutionalCode and the decoders that process one word at a time) or works
    on arrays by matmul / fancy indexing (BlockCode, SystematicBlockCode and their subclasses). *)
Definition method {A B} (dA : A) (dB : B) (vect : bool) (b m : nat) (f : list A -> list B) : array A -> option (array B) :=
  blockwise b (if vect then vectorize dA dB (fun l => Some (f l)) else rowwise dA dB f m).

(** base.py 79-84, 88-93, 126-131 *)
Definition encode_nd (vect : bool) (C : block_code) := method false false vect (bc_k C) (bc_n C) (bc_encode C).
Definition project_nd (vect : bool) (C : block_code) := method false false vect (bc_n C) (bc_k C) (bc_project C).
Definition check_nd (vect : bool) (C : block_code) := method false false vect (bc_n C) (bc_m C) (bc_check C).
(** base.py 109-112 *)
Definition inverse_encode_nd (vect : bool) (C : block_code) (v : array bool) : option (array bool) :=
  match check_nd vect C v with
  | None => None
  | Some s => if forallb negb (data s) then project_nd vect C v else None
  end.

(** bit_operations.py 36-45 on an array with two or more axes: one integer per line of the last axis *)
Definition bits_to_int_nd (a : array bool) : option (array N) :=
  match apply_along_axis false 0%N (fun l => Some [bits_to_int l LSB_first]) (-1) a with
  | None => None
  | Some r => Some (Arr (removelast (shape r)) (data r))
  end.
(** table[idx] for a table with rows of length [n] *)
Definition take_rows (table : list vec) (n : nat) (idx : array N) : array bool :=
  Arr (shape idx ++ [n]) (flat_map (fun i => nth (N.to_nat i) table []) (data idx)).
(** np.bitwise_xor(a, b) of two arrays of the same shape *)
Definition xor_nd (a b : array bool) : array bool := Arr (shape a) (vxor (data a) (data b)).
(** SyndromeTableDecoder.py 39-47 *)
Definition syndrome_decode_nd (vect : bool) (C : block_code) (lds : list vec) : array bool -> option (array bool) :=
  blockwise (bc_n C) (fun r =>
    match check_nd vect C r with
    | None => None
    | Some s => match bits_to_int_nd s with
                | None => None
                | Some idx => project_nd vect C (xor_nd r (take_rows lds (bc_n C) idx))
                end
    end).
(** ExhaustiveSearchDecoder.py 46-57; lines 48-54 act on the last axis for any number of leading axes *)
Definition exhaustive_hard_nd (vect : bool) (C : block_code) : array bool -> option (array bool) :=
  blockwise (bc_n C) (fun r =>
    match rowwise false false (fun w => nth (argmin_by Nat.leb (map (fun c => vsum (vxor w c)) (codewords C))) (codewords C) []) (bc_n C) r with
    | None => None
    | Some v_hat => project_nd vect C v_hat
    end).
Definition exhaustive_soft_nd (vect : bool) (C : block_code) : array Q -> option (array bool) :=
  blockwise (bc_n C) (fun r =>
    match rowwise 0%Q false (fun w => nth (argmin_by Qle_bool (map (soft_metric w) (codewords C))) (codewords C) []) (bc_n C) r with
    | None => None
    | Some v_hat => project_nd vect C v_hat
    end).
