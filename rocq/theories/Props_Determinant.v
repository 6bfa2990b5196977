(* Integer prime factorisation and determinants: C63. *)
Set Warnings "-notation-overridden,-ambiguous-paths".
From Coq Require List Sorted.
From Coq Require Import NArith ZArith PeanoNat Lia.
From Verif Require Import Det_Model BinPoly_Model Algebra_Spec.
From Verif Require BinPoly_Proof Det_Proof PrimeFactors_Proof.
From mathcomp Require Import all_ssreflect all_algebra ssrZ.
Import GRing.Theory.
Local Open Scope ring_scope.

(* prime_factors: primes in non-decreasing order with product n; nothing below 2 *)
Theorem C63_prime_factors : forall n : N, N.le 1 n ->
  exists l, prime_factors n = Some l /\ List.Forall nprime l /\ nprod l = n /\ Sorted.Sorted N.le l.
Proof. exact PrimeFactors_Proof.prime_factors_spec. Qed.
Theorem C63_prime_factors_small : forall n : N, N.le n 1 -> prime_factors n = Some List.nil.
Proof. exact PrimeFactors_Proof.prime_factors_small. Qed.

(* a matrix given by its rows: n rows of n entries *)
Definition square {A} (n : nat) (m : list (list A)) : Prop := List.length m = n /\ List.Forall (fun r => List.length r = n) m.
Definition entry {A} (d : A) (m : list (list A)) (i j : nat) : A := List.nth j (List.nth i m List.nil) d.

(* the determinant of integer and of binary polynomial matrices (binary polynomials are read as polynomials over F_2);
   mathcomp's \det is the Leibniz formula *)
Theorem C63_determinant_integer : forall n (m : list (list Z)), (0 < n)%N -> square n m ->
  Det_Model.determinant int_ring m = Some (\det (\matrix_(i < n, j < n) entry 0%R m i j)).
Proof.
move=> n m n0 S. have H1 : forall x : Z, Z.mul (Zpos xH) x = x by case.
have HN : forall x : Z, Z.mul (Zneg xH) x = - x :> [comRingType of Z] by case.
have [x [-> E]] := @Det_Proof.determinant_square Z int_ring [comRingType of Z] id (0 : [comRingType of Z]) erefl (fun _ _ => erefl) (fun _ _ => erefl) H1 HN n m n0 S.
by congr Some; rewrite [LHS]E.
Qed.
Theorem C63_determinant_polynomial : forall n (m : list (list N)), (0 < n)%N -> square n m ->
  exists d, Det_Model.determinant poly_ring m = Some d /\
  BinPoly_Proof.P d = \det (\matrix_(i < n, j < n) BinPoly_Proof.P (entry N0 m i j)).
Proof.
move=> n m n0 S. apply: (@Det_Proof.determinant_square N poly_ring _ BinPoly_Proof.P N0) => //.
- exact: BinPoly_Proof.Padd.
- exact: BinPoly_Proof.Pmul.
- move=> x /=. by rewrite BinPoly_Proof.oppp.
Qed.
(* integer * polynomial (BinaryPolynomial.__rmul__) is the |z|-fold sum *)
Theorem C63_scalar : forall (z : Z) (p : N), BinPoly_Proof.P (r_rmul poly_ring z p) = BinPoly_Proof.P p *+ Z.abs_nat z.
Proof.
move=> z p. have T : forall x : BinPoly_Proof.P2, x *+ 2 = 0.
{ move=> x. by rewrite mulr2n -[X in _ + X]BinPoly_Proof.oppp subrr. }
have E : forall n : nat, BinPoly_Proof.P p *+ n = if odd n then BinPoly_Proof.P p else 0.
{ elim=> [|n IH]; first by rewrite mulr0n. rewrite mulrS IH /=. case: (odd n) => /=; last by rewrite addr0. by rewrite -mulr2n T. }
rewrite E. have -> : odd (Z.abs_nat z) = ~~ Z.even z.
{ have O : forall q : nat, odd (Nat.mul 2 q) = false by move=> q; rewrite multE oddM.
  rewrite Z.negb_even. case: z => [|q|q] //=; case: q => [q|q|] //; by rewrite ?Pos2Nat.inj_xI ?Pos2Nat.inj_xO ?oddS O. }
rewrite /=. by case: (Z.even z) => /=.
Qed.
(* everything else is rejected *)
Theorem C63_determinant_rejects : forall A (R : ring_ops A) m, ~ square (List.length m) m \/ m = List.nil -> Det_Model.determinant R m = None.
Proof. move=> A R m. exact: Det_Proof.determinant_reject. Qed.
Example C63_satisfiable :
  Det_Model.determinant int_ring (cons (cons (Zpos 2) (cons (Zneg 3) nil)) (cons (cons (Zpos 4) (cons (Zpos 5) nil)) nil)) = Some (Zpos 22) /\
  Det_Model.determinant poly_ring (cons (cons 3%num (cons 2%num nil)) (cons (cons 5%num (cons 7%num nil)) nil)) = Some 3%num /\
  prime_factors 360%num = Some (cons 2%num (cons 2%num (cons 2%num (cons 3%num (cons 3%num (cons 5%num nil)))))).
Proof. by vm_compute. Qed.
