(* Specification used by C98-C100. *)
From Verif Require Import Common.

(* The elements satisfying E form a (not necessarily commutative) ring with unit under the given operations, and [intmul z x] is
   the z-fold sum of x. *)
Record is_ring {A : Type} (E : A -> Prop) (zero one : A) (add mul : A -> A -> A) (intmul : Z -> A -> A) : Prop := {
  ring_zero : E zero;
  ring_one : E one;
  ring_add : forall x y, E x -> E y -> E (add x y);
  ring_mul : forall x y, E x -> E y -> E (mul x y);
  ring_int : forall z x, E x -> E (intmul z x);
  ring_addC : forall x y, E x -> E y -> add x y = add y x;
  ring_addA : forall x y z, E x -> E y -> E z -> add x (add y z) = add (add x y) z;
  ring_add0 : forall x, E x -> add zero x = x;
  ring_opp : forall x, E x -> exists y, E y /\ add x y = zero;
  ring_mulA : forall x y z, E x -> E y -> E z -> mul x (mul y z) = mul (mul x y) z;
  ring_mul1l : forall x, E x -> mul one x = x;
  ring_mul1r : forall x, E x -> mul x one = x;
  ring_mulDl : forall x y z, E x -> E y -> E z -> mul (add x y) z = add (mul x z) (mul y z);
  ring_mulDr : forall x y z, E x -> E y -> E z -> mul x (add y z) = add (mul x y) (mul x z);
  ring_int0 : forall x, E x -> intmul 0%Z x = zero;
  ring_intS : forall z x, E x -> intmul (z + 1)%Z x = add (intmul z x) x;
}.

(* x * (x * ( ... * 1)), n factors *)
Fixpoint npower {A} (one : A) (mul : A -> A -> A) (x : A) (n : nat) : A :=
  match n with O => one | S k => mul x (npower one mul x k) end.

(* c_0 x^0 + (c_1 x^1 + ( ... + 0)) *)
Definition power_sum {A} (zero one : A) (add mul : A -> A -> A) (intmul : Z -> A -> A) (cs : list Z) (x : A) : A :=
  fold_right add zero (map (fun i => intmul (nth i cs 0%Z) (npower one mul x i)) (seq 0 (length cs))).

(* the coefficients of the binary polynomial with bit mask p, as integers 0/1, up to any length covering all its bits *)
Definition bit_coeffs (p : N) (n : nat) : list Z := map (fun i => if N.testbit p (N.of_nat i) then 1%Z else 0%Z) (seq 0 n).
