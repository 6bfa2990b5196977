(* Model of == and hash() on the algebra objects of /repo/src/komm/_algebra, and of membership in a set.
   The built-in parts (int.__eq__, int.__hash__, the fallback rules of ==, the treatment of __hash__'s result, the
   unhashability of a class that defines __eq__ alone, set lookup by hash then equality) are CPython's on a 64-bit build.
   Simplification: two different objects of the same value; identity plays no part, because no class here returns
   NotImplemented for an operand of its own class. *)
From Verif Require Import Common.
Local Open Scope Z_scope.

Inductive ring_name := TheIntegers | TheBinaryPolynomials | TheBinaryPolynomialFractions.
Inductive pv :=
| PInt (z : Z)                  (* a Python int *)
| PPoly (v : Z)                 (* BinaryPolynomial: BinaryPolynomial.py 51-52 *)
| PFrac (n d : Z)               (* BinaryPolynomialFraction: BinaryPolynomialFraction.py 27-37, already reduced *)
| PInteger (z : Z)              (* Integer: Integers.py 5-6 *)
| PField (k m : Z)              (* FiniteBifield: FiniteBifield.py 162-175 *)
| PElem (k m v : Z)             (* FiniteBifieldElement: FiniteBifield.py 14-16 *)
| PRing (r : ring_name).        (* Integers.py 49-, BinaryPolynomial.py 310-, BinaryPolynomialFraction.py 91- *)

(* type(a).__eq__(a, b); None stands for NotImplemented *)
Definition eq_method (a b : pv) : option bool :=
  match a, b with
  | PInt x, PInt y => Some (x =? y)                                     (* built-in *)
  | PPoly v, PInt y => Some (v =? y)                                    (* BinaryPolynomial.py 98-103 *)
  | PPoly v, PPoly w => Some (v =? w)
  | PFrac n d, PFrac n' d' => Some ((n =? n') && (d =? d'))             (* BinaryPolynomialFraction.py 49-54 *)
  | PInteger x, PInteger y => Some (x =? y)                             (* Integers.py 18-21 *)
  | PField k m, PField k' m' => Some ((k =? k') && (m =? m'))           (* FiniteBifield.py 184-187 *)
  | PElem k m v, PElem k' m' w => Some (((k =? k') && (m =? m')) && (v =? w))   (* FiniteBifield.py 27-30 *)
  | PRing r, PRing s =>                                                 (* Integers.py 53-56, BinaryPolynomial.py 315-318, BinaryPolynomialFraction.py 96-99 *)
      match r, s with
      | TheIntegers, TheIntegers | TheBinaryPolynomials, TheBinaryPolynomials | TheBinaryPolynomialFractions, TheBinaryPolynomialFractions => Some true
      | _, _ => None
      end
  | _, _ => None
  end.

(* a == b: the left operand's method, then the right operand's, then identity *)
Definition py_eq (a b : pv) : bool :=
  match eq_method a b with
  | Some r => r
  | None => match eq_method b a with Some r => r | None => false end
  end.

(* CPython's hash of an int, and what it makes of the int returned by a __hash__ method *)
Definition avoid_minus_one (h : Z) : Z := if h =? -1 then -2 else h.
Definition int_hash (z : Z) : Z := avoid_minus_one (Z.sgn z * (Z.abs z mod (2 ^ 61 - 1))).
Definition slot_hash (r : Z) : Z := if (- 2 ^ 63 <=? r) && (r <? 2 ^ 63) then avoid_minus_one r else int_hash r.

(* hash(a); None: TypeError, unhashable *)
Definition py_hash (a : pv) : option Z :=
  match a with
  | PInt z => Some (int_hash z)
  | PPoly v => Some (slot_hash v)                         (* BinaryPolynomial.py 63-64 *)
  | PElem _ _ v => Some (slot_hash (slot_hash v))         (* FiniteBifield.py 24-25 *)
  | _ => None                                             (* __eq__ without __hash__ *)
  end.

(* x in s, for a set whose elements are l: an element with the same hash that compares equal *)
Definition set_in (x : pv) (l : list pv) : option bool :=
  match py_hash x with
  | None => None
  | Some h => Some (existsb (fun y => match py_hash y with Some h' => (h =? h') && py_eq y x | None => false end) l)
  end.
