(* Model of /repo/src/komm/_algebra/ring.py (power, binary_horner, horner), of the element classes that implement its
   protocol (Integers.py, BinaryPolynomial.py, BinaryPolynomialFraction.py, FiniteBifield.py), of
   BinaryPolynomial.evaluate and of domain.py on integers. *)
From Verif Require Import Common Bits_Model BinPoly_Model BlockCode_Model.
Local Open Scope N_scope.

(* ring.py 10-28: what horner and power use of the Ring / RingElement protocols.  [r_int z x] is z * x for a Python int z
   (the __rmul__ of the element classes). *)
Record ring_desc (A : Type) := { r_zero : A; r_one : A; r_add : A -> A -> A; r_mul : A -> A -> A; r_int : Z -> A -> A }.
Arguments r_zero {A}. Arguments r_one {A}. Arguments r_add {A}. Arguments r_mul {A}. Arguments r_int {A}.

(* ring.py 31-58: power; ValueError (None) for a negative exponent.  [ring_power] is the recursion of lines 50-58. *)
Definition power {A} (R : ring_desc A) (x : A) (n : Z) : option A :=
  if (n <? 0)%Z then None else Some (ring_power (r_mul R) (r_one R) x (Z.to_N n)).

(* ring.py 61-73: for coefficient in reversed(coefficients): result *= x; if coefficient: result += coefficient * one *)
Definition binary_horner {A} (R : ring_desc A) (coefficients : list Z) (x : A) : A :=
  fold_left (fun result coefficient =>
    let result := r_mul R result x in
    if (coefficient =? 0)%Z then result else r_add R result (r_int R coefficient (r_one R)))
  (rev coefficients) (r_zero R).

(* ring.py 76-96: result = result * x + coefficient * one *)
Definition horner {A} (R : ring_desc A) (coefficients : list Z) (x : A) : A :=
  fold_left (fun result coefficient => r_add R (r_mul R result x) (r_int R coefficient (r_one R)))
  (rev coefficients) (r_zero R).

(* BinaryPolynomial.py 168-185, 215-230: evaluate(point) = binary_horner(self.coefficients(), point) *)
Definition evaluate {A} (R : ring_desc A) (p : N) (point : A) : A :=
  binary_horner R (map Z.b2z (int_to_bits p (Nat.max (bit_length p) 1) LSB_first)) point.

(* Integers.py 4-46 *)
Definition Integers : ring_desc Z := {| r_zero := 0%Z; r_one := 1%Z; r_add := Z.add; r_mul := Z.mul; r_int := fun z x => (x * z)%Z |}.
(* BinaryPolynomial.py 111-134: int * polynomial looks at the parity of the int *)
Definition BinaryPolynomials : ring_desc N :=
  {| r_zero := 0; r_one := 1; r_add := padd; r_mul := pmul; r_int := fun z x => if (z mod 2 =? 0)%Z then 0 else x |}.
(* FiniteBifield.py 36-56, with the given modulus; both operands in the same field (the check of lines 32-34 passes) *)
Definition Bifield (m : N) : ring_desc N :=
  {| r_zero := 0; r_one := 1; r_add := gf_add; r_mul := gf_mul m; r_int := fun z x => if (z mod 2 =? 0)%Z then 0 else x |}.
(* BinaryPolynomialFraction.py 56-75.  The constructor raises when a denominator is zero; no operand has one, so the value
   (0, 1) in the None branches is never used (Eval_Proof). *)
Definition the_frac (o : option pfrac) : pfrac := match o with Some x => x | None => (0, 1) end.
Definition Fractions : ring_desc pfrac :=
  {| r_zero := (0, 1); r_one := (1, 1);
     r_add := fun x y => the_frac (frac_add x y); r_mul := fun x y => the_frac (frac_mul x y);
     r_int := fun z x => the_frac (mk_frac (if (z mod 2 =? 0)%Z then 0 else fst x) (snd x)) |}.

(* BinaryPolynomialFraction.py 82-86 with field.py 14-28: a negative power is a power of the inverse, whose constructor raises
   when the fraction is zero *)
Definition frac_pow (x : pfrac) (n : Z) : option pfrac :=
  if (n <? 0)%Z then match frac_inv x with
                     | Some y => power Fractions y (- n)
                     | None => None
                     end
  else power Fractions x n.

(* Integers.py 38-46: Python's divmod; None is ZeroDivisionError *)
Definition int_divmod (a b : Z) : option (Z * Z) := if (b =? 0)%Z then None else Some ((a / b)%Z, (a mod b)%Z).

(* domain.py 14-31: while y != zero: x, y = y, x % y.  The fuel is never exhausted (Eval_Proof.int_gcd_ok). *)
Fixpoint int_gcd_loop (fuel : nat) (x y : Z) : option Z :=
  if (y =? 0)%Z then Some x else
  match fuel with O => None | S f => int_gcd_loop f y (x mod y)%Z end.
Definition int_gcd (x y : Z) : option Z := int_gcd_loop (S (Z.abs_nat y)) x y.
(* domain.py 34-56 *)
Fixpoint int_xgcd_loop (fuel : nat) (x y : Z) : option (Z * Z * Z) :=
  if (x =? 0)%Z then Some (y, 0, 1)%Z else
  match fuel with
  | O => None
  | S f => match int_xgcd_loop f (y mod x)%Z x with
           | None => None
           | Some (d, s, t) => Some (d, (t - s * (y / x))%Z, s)
           end
  end.
Definition int_xgcd (x y : Z) : option (Z * Z * Z) := int_xgcd_loop (S (Z.abs_nat x)) x y.
(* domain.py 59-77 *)
Definition int_lcm (x y : Z) : option Z :=
  if ((x =? 0) || (y =? 0))%Z then Some 0%Z else
  match int_gcd x y with Some g => Some (x / g * y)%Z | None => None end.

(* BinaryPolynomial.py 70-82: from_coefficients.  np.packbits (bit_operations.py 43) sets a bit for every entry that is not
   zero after the cast to uint8 (line 38), which keeps the value modulo 256. *)
Definition poly_from_coefficients (cs : list Z) : N := bits_to_int (map (fun c => negb (c mod 256 =? 0)%Z) cs) LSB_first.
(* BinaryPolynomial.py 84-96: from_exponents: np.bincount counts the occurrences; a negative exponent raises ValueError *)
Definition poly_from_exponents (exponents : list Z) : option N :=
  if existsb (fun e => (e <? 0)%Z) exponents then None
  else Some (poly_from_coefficients (map Z.of_nat (bincount 0 (map Z.to_nat exponents)))).
(* BinaryPolynomial.py 168-185: [width or max(degree + 1, 1)]: None and 0 mean the default; range of a negative width is empty *)
Definition poly_coefficients (p : N) (width : option Z) : list bool :=
  let default := Nat.max (bit_length p) 1 in
  int_to_bits p (match width with None => default | Some w => if (w =? 0)%Z then default else Z.to_nat w end) LSB_first.
(* BinaryPolynomial.py 187-199: np.flatnonzero *)
Definition poly_exponents (p : N) : list nat :=
  map fst (filter snd (combine (seq 0 (length (poly_coefficients p None))) (poly_coefficients p None))).
(* BinaryPolynomial.py 201-213 *)
Definition poly_reciprocal (p : N) (width : option Z) : N := bits_to_int (rev (poly_coefficients p width)) LSB_first.
(* BinaryPolynomial.py 105-109: Python's shifts raise ValueError (None) for a negative count *)
Definition poly_shl (p : N) (n : Z) : option N := if (n <? 0)%Z then None else Some (N.shiftl p (Z.to_N n)).
Definition poly_shr (p : N) (n : Z) : option N := if (n <? 0)%Z then None else Some (N.shiftr p (Z.to_N n)).
