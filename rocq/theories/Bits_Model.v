(* Model of /repo/src/komm/_util/bit_operations.py. *)
From Verif Require Import Common.
Local Open Scope N_scope.

Inductive bit_order := LSB_first | MSB_first.

(* bit_operations.py 88, 90: (input >> i) % 2. *)
Definition bit_at (n : N) (i : nat) : bool := N.odd (N.shiftr n (N.of_nat i)).

(* bit_operations.py 48-99 int_to_bits for a scalar input (the array case 94-99 maps it over
   the entries). Bits are [bool] instead of 0/1 integers. *)
Definition int_to_bits (n : N) (width : nat) (o : bit_order) : list bool :=
  match o with
  | LSB_first => map (fun i => bit_at n i) (seq 0 width)
  | MSB_first => map (fun i => bit_at n (width - 1 - i)%nat) (seq 0 width)
  end.

(* numpy.packbits(..., bitorder="little") used at line 43: consecutive groups of eight bits,
   the last one padded with zeros; the fuel is the number of bits. *)
Definition byte_of (bs : list bool) : N :=
  fold_right (fun (b : bool) acc => (if b then 1 else 0) + 2 * acc) 0 bs.

Fixpoint packbits (fuel : nat) (bs : list bool) : list N :=
  match fuel, bs with
  | O, _ => []
  | _, [] => []
  | S f, _ => byte_of (firstn 8 bs) :: packbits f (skipn 8 bs)
  end.

(* int.from_bytes(packed, byteorder="little") at line 44. *)
Definition from_bytes_little (l : list N) : N := fold_right (fun b acc => b + 256 * acc) 0 l.

(* bit_operations.py 8-45 bits_to_int for a one-dimensional input (the other case, line 45,
   maps it along the last axis). *)
Definition bits_to_int (bs : list bool) (o : bit_order) : N :=
  let bs := match o with LSB_first => bs | MSB_first => rev bs end in
  from_bytes_little (packbits (length bs) bs).
