(* Facts about the polynomial operations of BinPoly_Model, stated over N and nat only. *)
Set Warnings "-notation-overridden,-ambiguous-paths".
From Coq Require List.
From Coq Require Import NArith ZArith PeanoNat Lia.
From Verif Require Import BinPoly_Model BinPoly_Proof GF2_Proof Algebra_Spec PrimeFactors_Proof Irreducible_Proof Algebra_Proof.
From mathcomp Require Import all_ssreflect all_algebra zify.
Set Implicit Arguments.
Unset Strict Implicit.
Unset Printing Implicit Defensive.
Import GRing.Theory.
Local Open Scope ring_scope.

Lemma pmul_lxor_r a b c : pmul a (N.lxor b c) = N.lxor (pmul a b) (pmul a c).
Proof. exact: pmulD. Qed.
Lemma pmul_lxor_l a b c : pmul (N.lxor b c) a = N.lxor (pmul b a) (pmul c a).
Proof. by rewrite pmulC pmul_lxor_r ![pmul a _]pmulC. Qed.

Lemma pmod_lxor g a b : g <> 0%num -> pmod (N.lxor a b) g = N.lxor (pmod a g) (pmod b g).
Proof. by move=> nz; apply: P_inj; rewrite Pmod // !Padd !Pmod // modpD. Qed.

Lemma pmod_small g a : g <> 0%num -> (bit_length a < bit_length g)%coq_nat -> pmod a g = a.
Proof. by move=> nz H; apply: P_inj; rewrite Pmod // modp_small // !Psize; lia. Qed.

Lemma pmod_bound g a : g <> 0%num -> (bit_length (pmod a g) < bit_length g)%coq_nat.
Proof. by move=> nz; have := size_ind_lt a nz; lia. Qed.

Lemma pmod_mul g a : g <> 0%num -> pmod (pmul a g) g = 0%num.
Proof. by move=> nz; apply: P_inj; rewrite Pmod // Pmul modp_mull. Qed.
Lemma pquo_mul g a : g <> 0%num -> pquo (pmul a g) g = a.
Proof. by move=> nz; apply: P_inj; rewrite Pdiv // Pmul mulpK // P_eq0; apply/eqP. Qed.

Lemma pdiv_eq g a : g <> 0%num -> a = N.lxor (pmul (pquo a g) g) (pmod a g).
Proof. by move=> nz; apply: P_inj; rewrite Padd Pmul Pdiv // Pmod // -divp_eq. Qed.

Lemma pmod_zero_dvd g a : g <> 0%num -> (pmod a g = 0%num <-> ndvd g a).
Proof.
move=> nz; split.
- by move=> E; exists (pquo a g); rewrite {1}(pdiv_eq a nz) E N.lxor_0_r.
- by case=> c ->; apply: pmod_mul.
Qed.
Lemma pmod_mod g a : g <> 0%num -> pmod (pmod a g) g = pmod a g.
Proof. by move=> nz; apply: pmod_small => //; apply: pmod_bound. Qed.

Lemma ppow_X i : ppow 2%num (N.of_nat i) = N.shiftl 1 (N.of_nat i).
Proof. by apply: P_inj; rewrite Ppow Nat2N.id PX Pshiftl P1 mul1r. Qed.

Lemma pmul_shiftl i a : pmul (N.shiftl 1 (N.of_nat i)) a = N.shiftl a (N.of_nat i).
Proof. by apply: P_inj; rewrite Pmul !Pshiftl P1 mul1r mulrC. Qed.

Lemma bit_length_pmul_le a b : (bit_length (pmul a b) <= bit_length a + bit_length b - 1)%coq_nat.
Proof. by rewrite -!Psize Pmul; have := size_mul_leq (P a) (P b); lia. Qed.

Lemma ndvd_lxor g a b : ndvd g a -> ndvd g b -> ndvd g (N.lxor a b).
Proof. by case=> x -> [y ->]; exists (N.lxor x y); rewrite pmul_lxor_l. Qed.
Lemma ndvd_mul g a b : ndvd g b -> ndvd g (pmul a b).
Proof. by case=> x ->; exists (pmul a x); rewrite pmulA. Qed.
Lemma ndvd_refl g : ndvd g g.
Proof. by exists 1%num; rewrite pmul1. Qed.
Lemma ndvd_0 g : ndvd g 0%num.
Proof. by exists 0%num; rewrite pmul0. Qed.
Lemma ndvd_trans a b c : ndvd a b -> ndvd b c -> ndvd a c.
Proof. by case=> x -> [y ->]; exists (pmul y x); rewrite pmulA. Qed.
Lemma ndvd_nz g a : ndvd g a -> a <> 0%num -> g <> 0%num.
Proof. by case=> x -> nz g0; apply: nz; rewrite g0 pmulC pmul0. Qed.
Lemma ndvd_bound g a : ndvd g a -> a <> 0%num -> (bit_length g <= bit_length a)%coq_nat.
Proof.
case=> x E nz. have gn : g <> 0%num by move=> g0; apply: nz; rewrite E g0 pmulC pmul0.
have xn : x <> 0%num by move=> x0; apply: nz; rewrite E x0 pmul0.
have sx : (0 < size (P x))%N by rewrite size_poly_gt0 P_eq0; apply/eqP.
rewrite E bit_length_pmul //. move: sx. rewrite Psize. lia.
Qed.
Lemma bit_length_pos a : a <> 0%num -> (0 < bit_length a)%coq_nat.
Proof.
move=> nz; have : (0 < size (P a))%N by rewrite size_poly_gt0 P_eq0; apply/eqP.
by rewrite Psize; lia.
Qed.
Lemma pmul_nz a b : a <> 0%num -> b <> 0%num -> pmul a b <> 0%num.
Proof. by move=> an bn E; case: (pmul_eq0 E). Qed.
Lemma pmul_cancel g a b : g <> 0%num -> pmul a g = pmul b g -> a = b.
Proof. by move=> nz E; rewrite -(pquo_mul a nz) E pquo_mul. Qed.
