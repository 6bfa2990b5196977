(* Elementary vocabulary for the algebra theorems. Polynomials over GF(2) are natural numbers; the coefficient of X^i is
   bit i. Nothing here refers to the algorithms, except that [pmul] is used as "the product" in divisibility; theorem
   C18_convolution pins it down as the mod-2 convolution of coefficients. *)
From Verif Require Import Common BinPoly_Model.
Local Open Scope N_scope.

(* d is prime, in elementary terms *)
Definition nprime (p : N) : Prop := 1 < p /\ forall d, (d | p) -> d = 1 \/ d = p.
Fixpoint nprod (l : list N) : N := match l with [] => 1 | x :: r => x * nprod r end.

(* sum over i <= k of a_i * b_(k-i), mod 2 *)
Definition conv_coeff (a b : N) (k : nat) : bool :=
  fold_right xorb false (map (fun i => N.testbit a (N.of_nat i) && N.testbit b (N.of_nat (k - i))) (seq 0 (S k))).

Definition ndvd (a b : N) : Prop := exists c, b = pmul c a.
(* no factorisation except the trivial ones (1 is the only unit) *)
Definition nirreducible (p : N) : Prop := p <> 0 /\ p <> 1 /\ forall a b, pmul a b = p -> a = 1 \/ b = 1.
(* the polynomial X^e + 1 *)
Definition xe1 (e : N) : N := N.lxor (N.shiftl 1 e) 1.

(* x^i and the value of the polynomial c_0 + c_1 x + ... in the field with modulus m *)
Fixpoint gf_npow (m x : N) (i : nat) : N := match i with O => 1 | S j => gf_mul m x (gf_npow m x j) end.
Definition poly_value (m : N) (cs : list N) (x : N) : N :=
  fold_right N.lxor 0 (map (fun i => gf_mul m (nth i cs 0) (gf_npow m x i)) (seq 0 (length cs))).
(* coefficients of a binary polynomial as field elements 0/1 *)
Definition bin_coeffs (p : N) : list N := map (fun b : bool => if b then 1 else 0) (pcoefficients p).

(* lowest terms *)
Definition reduced_frac (x : pfrac) : Prop :=
  snd x <> 0 /\ forall c, ndvd c (fst x) -> ndvd c (snd x) -> c = 1.
