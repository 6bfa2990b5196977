(** Model of bits_to_int and int_to_bits on arrays with any number of axes (_util/bit_operations.py 8-99).
    The interesting part is np.apply_along_axis on a function that returns Python integers: numpy creates
    the output buffer with the dtype it finds for the FIRST row's value, and casts every other value to it. *)
From Verif Require Import Common Bits_Model Array_Model NdMaps_Model.
Local Open Scope nat_scope.

(** The dtype np.asanyarray gives to a non-negative Python integer (numpy, on a 64-bit platform): int64 when
    it fits in a C long, uint64 when it fits in an unsigned one, object otherwise.  Called by
    np.apply_along_axis on each value returned at bit_operations.py line 44. *)
Inductive int_dtype := Int64 | UInt64 | PyObject.
Definition int_dtype_of (v : N) : int_dtype :=
  if (v <? 2 ^ 63)%N then Int64 else if (v <? 2 ^ 64)%N then UInt64 else PyObject.

(** `buff[ind] = asanyarray(value)` in np.apply_along_axis (reached from bit_operations.py line 45): an
    unsafe cast.  A uint64 stored into an int64 buffer wraps around silently; a Python integer that does not
    fit the buffer raises OverflowError; an object buffer keeps every value. *)
Definition store (buffer : int_dtype) (v : N) : option Z :=
  match buffer, int_dtype_of v with
  | PyObject, _ => Some (Z.of_N v)
  | Int64, Int64 => Some (Z.of_N v)
  | Int64, UInt64 => Some (Z.of_N v - 2 ^ 64)%Z
  | Int64, PyObject => None
  | UInt64, PyObject => None
  | UInt64, _ => Some (Z.of_N v)
  end.

(** bits_to_int(input, bit_order), bit_operations.py 36-45.  On a 1-D array (line 36) the result is a Python
    integer, of any size; on the other arrays it is np.apply_along_axis (line 45), which raises ValueError if
    another axis is empty, and on a 0-d array (an axis error).  A Python integer is modelled as a 0-d array. *)
Definition bits_to_int_nd (o : bit_order) (a : array bool) : option (array Z) :=
  match shape a with
  | [_] => Some (Arr [] [Z.of_N (bits_to_int (data a) o)])
  | _ =>
      match apply_scalar false 0%N (fun l => Some (bits_to_int l o)) a with
      | None => None
      | Some values =>
          match data values with
          | [] => None
          | first :: _ => option_map (Arr (shape values)) (sequence (map (store (int_dtype_of first)) (data values)))
          end
      end
  end.

(** `(input >> i) % 2` on a Python integer, which may be negative (bit_operations.py 88, 90): the i-th bit of
    the infinite two's complement representation. *)
Definition shift_bit (x : Z) (i : nat) : bool := (Z.shiftr x (Z.of_nat i) mod 2 =? 1)%Z.
(** int_to_bits on one integer (bit_operations.py 85-93). *)
Definition int_to_bits_z (x : Z) (width : nat) (o : bit_order) : list bool :=
  match o with
  | LSB_first => map (fun i => shift_bit x i) (seq 0 width)
  | MSB_first => map (fun i => shift_bit x (width - 1 - i)) (seq 0 width)
  end.
(** int_to_bits(input, width, bit_order), bit_operations.py 85-99; a 0-d input (line 85) gives a 1-D output,
    which is the same formula. *)
Definition int_to_bits_any (o : bit_order) (width : nat) (a : array Z) : array bool :=
  Arr (shape a ++ [width]) (flat_map (fun x => int_to_bits_z x width o) (data a)).
