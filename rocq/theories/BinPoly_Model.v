(* Model of /repo/src/komm/_algebra/BinaryPolynomial.py, domain.py, ring.power, Integers.prime_factors,
   BinaryPolynomialFraction.py and the arithmetic of FiniteBifield.py.
   A binary polynomial is the integer [N] whose bit i is the coefficient of X^i; None = an exception.
   Loops run on explicit fuel; the theorems show that the supplied fuel never runs out. *)
From Verif Require Import Common.
Local Open Scope N_scope.

(* int.bit_length() *)
Definition bit_length (a : N) : nat := N.size_nat a.

(* BinaryPolynomial.py 111-112, 114-115 *)
Definition padd (a b : N) : N := N.lxor a b.
Definition psub (a b : N) : N := N.lxor a b.

(* 120-128: while b: ... *)
Fixpoint mul_loop (fuel : nat) (value a b : N) : N :=
  match fuel with
  | O => value
  | S f => if b =? 0 then value
           else mul_loop f (if N.odd b then N.lxor value a else value) (N.shiftl a 1) (N.shiftr b 1)
  end.
Definition pmul (a b : N) : N := mul_loop (bit_length b) 0 a b.

(* 139-148; d >= 0 is the comparison of the bit lengths. *)
Fixpoint div_loop (fuel : nat) (div md den : N) : option (N * N) :=
  if (bit_length den <=? bit_length md)%nat then
    match fuel with
    | O => None
    | S f =>
        let d := N.of_nat (bit_length md - bit_length den) in
        div_loop f (N.lxor div (N.shiftl 1 d)) (N.lxor md (N.shiftl den d)) den
    end
  else Some (div, md).
Definition pdivmod (a den : N) : option (N * N) :=
  if den =? 0 then None else div_loop (bit_length a) 0 a den.
(* 150-154; the value 0 is returned where Python raises (callers are guarded). *)
Definition pquo (a b : N) : N := match pdivmod a b with Some (q, _) => q | None => 0 end.
Definition pmod (a b : N) : N := match pdivmod a b with Some (_, r) => r | None => 0 end.

(* 156-166: degree of 0 is -1 *)
Definition pdegree (a : N) : Z := (Z.of_nat (bit_length a) - 1)%Z.

(* 168-185 with width = None: max(degree + 1, 1) coefficients *)
Definition pcoefficients (a : N) : list bool :=
  map (fun i => N.testbit a (N.of_nat i)) (seq 0 (Nat.max (bit_length a) 1)).

(* ring.py 31-58 *)
Fixpoint power_loop {A} (mul : A -> A -> A) (one : A) (fuel : nat) (x : A) (n : N) : A :=
  if n =? 0 then one else if n =? 1 then x else
  match fuel with
  | O => one
  | S f => let y := power_loop mul one f x (n / 2) in
           let y := mul y y in
           if n mod 2 =? 1 then mul x y else y
  end.
Definition ring_power {A} (mul : A -> A -> A) (one : A) (x : A) (n : N) : A :=
  power_loop mul one (N.size_nat n) x n.
(* BinaryPolynomial.py 136-137 *)
Definition ppow (a : N) (n : N) : N := ring_power pmul 1 a n.

(* domain.py 14-31 *)
Fixpoint gcd_loop (fuel : nat) (x y : N) : option N :=
  if y =? 0 then Some x else
  match fuel with O => None | S f => gcd_loop f y (pmod x y) end.
Definition pgcd (x y : N) : option N := gcd_loop (S (bit_length y)) x y.

(* domain.py 34-56 *)
Fixpoint xgcd_loop (fuel : nat) (x y : N) : option (N * N * N) :=
  if x =? 0 then Some (y, 0, 1) else
  match fuel with
  | O => None
  | S f => match xgcd_loop f (pmod y x) x with
           | None => None
           | Some (d, s, t) => Some (d, psub t (pmul s (pquo y x)), s)
           end
  end.
Definition pxgcd (x y : N) : option (N * N * N) := xgcd_loop (S (bit_length x)) x y.

(* domain.py 59-77 *)
Definition domain_lcm (x y : N) : option N :=
  if (x =? 0) || (y =? 0) then Some 0 else
  match pgcd x y with Some g => Some (pmul (pquo x g) y) | None => None end.

(* functools.reduce over a non-empty argument list; None = TypeError for the empty list *)
Definition reduce {A} (f : A -> A -> option A) (l : list A) : option A :=
  match l with
  | [] => None
  | x :: r => fold_left (fun acc y => match acc with Some a => f a y | None => None end) r (Some x)
  end.
(* BinaryPolynomial.py 293-298 *)
Definition gcd_list (l : list N) : option N := reduce pgcd l.
(* BinaryPolynomial.py 300-305: product // gcd *)
Definition lcm_list (l : list N) : option N :=
  match reduce (fun a b => Some (pmul a b)) l, gcd_list l with
  | Some p, Some g => match pdivmod p g with Some (q, _) => Some q | None => None end
  | _, _ => None
  end.

(* 363-374 *)
Fixpoint power_mod_loop (fuel : nat) (result current exponent modulus : N) : N :=
  match fuel with
  | O => result
  | S f =>
      if exponent =? 0 then result
      else power_mod_loop f (if N.odd exponent then pmod (pmul result current) modulus else result)
             (pmod (pmul current current) modulus) (N.shiftr exponent 1) modulus
  end.
Definition power_mod (base exponent modulus : N) : N :=
  power_mod_loop (N.size_nat exponent) 1 base exponent modulus.

(* Integers.py 70-81: one loop iteration per unit of fuel. *)
Fixpoint pf_loop (fuel : nat) (i n : N) (factors : list N) : option (list N) :=
  if i * i <=? n then
    match fuel with
    | O => None
    | S f => if negb (n mod i =? 0) then pf_loop f (i + 1) n factors
             else pf_loop f i (n / i) (factors ++ [i])
    end
  else Some (if 1 <? n then factors ++ [n] else factors).
Definition prime_factors (n : N) : option (list N) := pf_loop (N.to_nat (N.sqrt n) + N.size_nat n) 2 n [].

(* 232-258; the set() only removes duplicates. *)
Definition px : N := 2.
Definition is_irreducible (p : N) : bool :=
  if (pdegree p <=? 0)%Z then false else
  let degree := N.of_nat (bit_length p - 1) in
  match prime_factors degree with
  | None => false
  | Some qs =>
      if forallb (fun q => match pgcd p (padd (power_mod px (2 ^ (degree / q)) p) (pmod px p)) with
                           | Some g => g =? 1 | None => false end) qs
      then padd (power_mod px (2 ^ degree) p) (pmod px p) =? 0
      else false
  end.

(* 260-284 *)
Definition is_primitive (p : N) : bool :=
  if negb (is_irreducible p) then false else
  if p =? px then false else
  let order := 2 ^ N.of_nat (bit_length p - 1) - 1 in
  match prime_factors order with
  | None => false
  | Some qs => forallb (fun q => negb (power_mod px (order / q) p =? 1)) qs
  end.

(* 329-360 *)
Definition default_primitive_polynomial (degree : N) : option N :=
  if (degree <? 1) || (24 <? degree) then None else
  nth_error [ 3; 7; 11; 19; 37; 67; 137; 285; 529; 1033; 2053; 4179; 8219; 17475; 32771; 106513; 131081;
              262273; 524327; 1048585; 2097157; 4194307; 8388641; 16777351 ] (N.to_nat (degree - 1)).

(* ---------------- BinaryPolynomialFraction *)
Definition pfrac := (N * N)%type.
(* BinaryPolynomialFraction.py 27-37 *)
Definition mk_frac (n d : N) : option pfrac :=
  if d =? 0 then None else
  match pgcd n d with Some g => Some (pquo n g, pquo d g) | None => None end.
(* 56-86 *)
Definition frac_add (x y : pfrac) := mk_frac (padd (pmul (fst x) (snd y)) (pmul (fst y) (snd x))) (pmul (snd x) (snd y)).
Definition frac_sub (x y : pfrac) := mk_frac (psub (pmul (fst x) (snd y)) (pmul (fst y) (snd x))) (pmul (snd x) (snd y)).
Definition frac_mul (x y : pfrac) := mk_frac (pmul (fst x) (fst y)) (pmul (snd x) (snd y)).
Definition frac_div (x y : pfrac) := mk_frac (pmul (fst x) (snd y)) (pmul (snd x) (fst y)).
Definition frac_inv (x : pfrac) := mk_frac (snd x) (fst x).
Definition frac_neg (x : pfrac) : pfrac := x.

(* ---------------- FiniteBifield: elements are integers; m is the modulus *)
(* FiniteBifield.py 36-62 *)
Definition gf_add (a b : N) : N := padd a b.
Definition gf_mul (m a b : N) : N := pmod (pmul a b) m.
Definition gf_inv (m a : N) : option N :=
  match pxgcd a m with Some (d, s, _) => if d =? 1 then Some s else None | None => None end.
(* 64-66 *)
Definition gf_div (m a b : N) : option N := match gf_inv m b with Some i => Some (gf_mul m a i) | None => None end.
(* 68-69 with field.power: negative exponents through the inverse *)
Definition gf_pow (m a : N) (e : Z) : option N :=
  if (e <? 0)%Z then match gf_inv m a with Some i => Some (ring_power (gf_mul m) 1 i (Z.to_N (- e))) | None => None end
  else Some (ring_power (gf_mul m) 1 a (Z.to_N e)).
(* 71-75; the bound is the order of the field *)
Fixpoint gf_log_loop (m base a : N) (n : nat) (i : N) : option N :=
  match n with
  | O => None
  | S k => if ring_power (gf_mul m) 1 base i =? a then Some i else gf_log_loop m base a k (i + 1)
  end.
Definition gf_log (m degree base a : N) : option N := gf_log_loop m base a (N.to_nat (2 ^ degree)) 0.
(* 77-87; fuel = number of distinct values possible *)
Fixpoint conj_loop (fuel : nat) (m a : N) (e : N) (l : list N) : option (list N) :=
  match fuel with
  | O => None
  | S f => let y := ring_power (gf_mul m) 1 a (2 ^ e) in
           if existsb (N.eqb y) l then Some l else conj_loop f m a (e + 1) (l ++ [y])
  end.
Definition gf_conjugates (m degree a : N) : option (list N) := conj_loop (S (S (N.to_nat degree))) m a 0 [].
(* np.convolve of a coefficient list with [y, 1]: c_k = y*p_k + p_{k-1} *)
Definition conv_linear (m : N) (p : list N) (y : N) : list N :=
  map (fun k => padd (gf_mul m (nth k p 0) y) (match k with O => 0 | S j => nth j p 0 end)) (seq 0 (S (length p))).
(* BinaryPolynomial.from_coefficients (70-82) on the values of the coefficients: bits_to_int = sum c_i * 2^i *)
Definition from_coefficient_values (l : list N) : N := fold_right (fun c acc => c + 2 * acc) 0 l.
(* 89-93 *)
Definition gf_minimal_polynomial (m degree a : N) : option N :=
  match gf_conjugates m degree a with
  | None => None
  | Some [] => None
  | Some (y :: ys) => Some (from_coefficient_values (fold_left (conv_linear m) ys [y; 1]))
  end.
(* 219-252 *)
Definition gf_horner (m : N) (coeffs : list N) (x : N) : N :=
  fold_left (fun acc c => padd (gf_mul m acc x) c) (rev coeffs) 0.
Fixpoint roots_loop (m : N) (coeffs : list N) (xs : list N) (roots : list N) : list N :=
  match xs with
  | [] => roots
  | x :: r =>
      if gf_horner m coeffs x =? 0 then
        let roots' := roots ++ [x] in
        if (length coeffs - 1 <=? length roots')%nat then roots' else roots_loop m coeffs r roots'
      else roots_loop m coeffs r roots
  end.
Definition gf_find_roots (m degree : N) (coeffs : list N) : list N :=
  roots_loop m coeffs (map N.of_nat (seq 0 (N.to_nat (2 ^ degree)))) [].
(* FiniteBifield.py 168-179 *)
Definition gf_make (degree : N) (modulus : option N) : option N :=
  if degree <? 1 then None else
  match (match modulus with None => default_primitive_polynomial degree | Some m => Some m end) with
  | None => None
  | Some m => if negb (pdegree m =? Z.of_N degree)%Z then None else
              if negb (is_irreducible m) then None else Some m
  end.
