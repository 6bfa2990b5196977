(* Maximal minors of polynomial matrices, up to divisibility. *)
Set Warnings "-notation-overridden,-ambiguous-paths".
From mathcomp Require Import all_ssreflect all_fingroup all_algebra.
Set Implicit Arguments.
Unset Strict Implicit.
Unset Printing Implicit Defensive.
Import GRing.Theory.
Local Open Scope ring_scope.

Section Minors.
Variable F : fieldType.
Notation R := {poly F}.

(* the square matrix of the columns J 0, J 1, ... *)
Definition cols k n (J : 'I_k -> 'I_n) (M : 'M[R]_(k, n)) : 'M[R]_k := \matrix_(i, j) M i (J j).
Definition minors_dvd k n (d : R) (M : 'M[R]_(k, n)) : Prop := forall J : 'I_k -> 'I_n, d %| \det (cols J M).

(* the expansion of det (A B) over all choices of columns *)
Lemma det_expand k n (A : 'M[R]_(k, n)) (B : 'M[R]_(n, k)) :
  \det (A *m B) = \sum_(f : {ffun 'I_k -> 'I_n}) (\prod_i B (f i) i) * \det (cols f A).
Proof.
rewrite -det_tr trmx_mul.
pose AB (s : 'S_k) (i : 'I_k) (j : 'I_n) := B j i * A (s i) j.
transitivity (\sum_(f : {ffun 'I_k -> 'I_n}) \sum_(s : 'S_k) (-1) ^+ s * \prod_i AB s i (f i)).
  rewrite exchange_big; apply: eq_bigr => /= s _; rewrite -big_distrr /=; congr (_ * _).
  rewrite -(bigA_distr_bigA (AB s)) /=; apply: eq_bigr => x _. by rewrite mxE; apply: eq_bigr => y _; rewrite !mxE.
apply: eq_bigr => f _. rewrite -det_tr [X in _ = _ * X]/determinant big_distrr /=. apply: eq_bigr => s _.
rewrite mulrCA; congr (_ * _). rewrite -big_split /=. by apply: eq_bigr => i _; rewrite /AB !mxE.
Qed.

Lemma cols_mull k n (A : 'M[R]_k) (M : 'M[R]_(k, n)) J : cols J (A *m M) = A *m cols J M.
Proof. by apply/matrixP => i j; rewrite !mxE; apply: eq_bigr => l _; rewrite !mxE. Qed.
Lemma cols_mulr k n m (M : 'M[R]_(k, n)) (B : 'M[R]_(n, m)) (J : 'I_k -> 'I_m) : cols J (M *m B) = M *m \matrix_(l, j) B l (J j).
Proof. by apply/matrixP => i j; rewrite !mxE; apply: eq_bigr => l _; rewrite !mxE. Qed.

Lemma dvdp_sum (I : Type) (r : seq I) (Q : pred I) (d : R) (f : I -> R) : (forall i, Q i -> d %| f i) -> d %| \sum_(i <- r | Q i) f i.
Proof. by move=> H; elim/big_ind: _ => [|x y Hx Hy|i Qi]; [exact: dvdp0|exact: dvdp_add|exact: H]. Qed.

Lemma minors_mull k n d (A : 'M[R]_k) (M : 'M[R]_(k, n)) : minors_dvd d M -> minors_dvd d (A *m M).
Proof. by move=> H J; rewrite cols_mull det_mulmx dvdp_mull. Qed.
Lemma minors_mulr k n m d (M : 'M[R]_(k, n)) (B : 'M[R]_(n, m)) : minors_dvd d M -> minors_dvd d (M *m B).
Proof. move=> H J. rewrite cols_mulr det_expand. apply: dvdp_sum => f _. by rewrite dvdp_mull. Qed.

(* unimodular equivalence *)
Definition equivalent k n (M N : 'M[R]_(k, n)) : Prop :=
  exists (A A' : 'M[R]_k) (B B' : 'M[R]_n), [/\ A' *m A = 1%:M, B *m B' = 1%:M & N = A *m M *m B].
Lemma equivalent_back k n (M N : 'M[R]_(k, n)) : equivalent M N -> exists (A : 'M[R]_k) (B : 'M[R]_n), M = A *m N *m B.
Proof. case=> A [A' [B [B' [HA HB ->]]]]. exists A', B'. by rewrite !mulmxA HA mul1mx -mulmxA HB mulmx1. Qed.
Lemma minors_equivalent k n d (M N : 'M[R]_(k, n)) : equivalent M N -> (minors_dvd d M <-> minors_dvd d N).
Proof.
move=> E; split.
- by case: E => A [A' [B [B' [_ _ ->]]]] H; apply: minors_mulr; apply: minors_mull.
- by have [A [B ->]] := equivalent_back E => H; apply: minors_mulr; apply: minors_mull.
Qed.
Lemma equivalent_refl k n (M : 'M[R]_(k, n)) : equivalent M M.
Proof. by exists 1%:M, 1%:M, 1%:M, 1%:M; rewrite !mulmx1 mul1mx. Qed.
Lemma equivalent_trans k n (M N Q : 'M[R]_(k, n)) : equivalent M N -> equivalent N Q -> equivalent M Q.
Proof.
case=> A [A' [B [B' [HA HB ->]]]] [C [C' [D [D' [HC HD ->]]]]].
exists (C *m A), (A' *m C'), (B *m D), (D' *m B'). split.
- by rewrite -mulmxA (mulmxA C') HC mul1mx.
- by rewrite -mulmxA (mulmxA D) HD mul1mx.
- by rewrite !mulmxA.
Qed.

(* two columns taken twice *)
Lemma cols_noninj k n (M : 'M[R]_(k, n)) J j1 j2 : j1 != j2 -> J j1 = J j2 -> \det (cols J M) = 0.
Proof.
move=> ne e. rewrite -det_tr. apply: (determinant_alternate ne) => i. by rewrite !mxE e.
Qed.

(* block matrices with a zero first row / first column beyond the corner *)
Definition lower k n (M : 'M[R]_(k.+1, n.+1)) : 'M[R]_(k, n) := \matrix_(i, j) M (lift ord0 i) (lift ord0 j).
Definition ext0 k n (J : 'I_k -> 'I_n) (j : 'I_k.+1) : 'I_n.+1 :=
  if unlift ord0 j is Some j' then lift ord0 (J j') else ord0.
Lemma det_row0 k n (M : 'M[R]_(k.+1, n.+1)) J : (forall j, M ord0 (lift ord0 j) = 0) ->
  \det (cols (ext0 J) M) = M ord0 ord0 * \det (cols J (lower M)).
Proof.
move=> Z. rewrite (expand_det_row _ ord0) big_ord_recl big1 ?addr0; last first.
  by move=> i _; rewrite !mxE /ext0 liftK Z mul0r.
rewrite !mxE /ext0 unlift_none; congr (_ * _). rewrite /cofactor expr0 mul1r. congr (\det _).
by apply/matrixP => i j; rewrite !mxE liftK.
Qed.
Lemma det_col0 k n (M : 'M[R]_(k.+1, n.+1)) J : (forall i, M (lift ord0 i) ord0 = 0) ->
  \det (cols (ext0 J) M) = M ord0 ord0 * \det (cols J (lower M)).
Proof.
move=> Z. rewrite (expand_det_col _ ord0) big_ord_recl big1 ?addr0; last first.
  by move=> i _; rewrite !mxE /ext0 unlift_none Z mul0r.
rewrite !mxE /ext0 unlift_none; congr (_ * _). rewrite /cofactor expr0 mul1r. congr (\det _).
by apply/matrixP => i j; rewrite !mxE liftK.
Qed.
(* all maximal minors of a matrix whose first row vanishes beyond the corner *)
Lemma minors_row0 k n (M : 'M[R]_(k.+1, n.+1)) d : (forall j, M ord0 (lift ord0 j) = 0) ->
  (minors_dvd d M <-> forall J, d %| M ord0 ord0 * \det (cols J (lower M))).
Proof.
move=> Z; split=> H J; first by rewrite -det_row0.
case: (pickP (fun p : 'I_k.+1 * 'I_k.+1 => (p.1 != p.2) && (J p.1 == J p.2))) => [[j1 j2] /= /andP [ne /eqP e]|inj].
  by rewrite (cols_noninj _ ne e) dvdp0.
rewrite (expand_det_row _ ord0). apply: dvdp_sum => j _. rewrite mxE.
case: (unliftP ord0 (J j)) => [c Ec|E0]; first by rewrite Ec Z mul0r dvdp0.
have [J' HJ] : exists J' : 'I_k -> 'I_n, forall j', J (lift j j') = lift ord0 (J' j').
  apply: (@fin_all_exists _ (fun _ => 'I_n) (fun j' c => J (lift j j') = lift ord0 c)) => j'.
  case: (unliftP ord0 (J (lift j j'))) => [c ->|E1]; first by exists c.
  by have := inj (j, lift j j'); rewrite /= E0 E1 eqxx (neq_lift j j').
have h := H J'. rewrite E0 /cofactor. set s := (-1) ^+ _. set D := \det _. have -> : D = \det (cols J' (lower M)).
  by congr (\det _); apply/matrixP => i j'; rewrite !mxE HJ.
by rewrite mulrCA; apply: dvdp_mull.
Qed.

(* a function characterised by its divisors *)
Lemma dvd_scaled (I : Type) (x : I -> R) (a g : R) : a != 0 -> (forall d, (forall i, d %| x i) <-> d %| g) ->
  forall d, (forall i, d %| a * x i) <-> d %| a * g.
Proof.
move=> a0 H d. pose e := d %/ gcdp d a.
have gnz : gcdp d a != 0 by rewrite gcdp_eq0 negb_and a0 orbT.
have E y : (d %| a * y) = (e %| y).
  have Ed : d = e * gcdp d a by rewrite divpK // dvdp_gcdl.
  have Ea : a = (a %/ gcdp d a) * gcdp d a by rewrite divpK // dvdp_gcdr.
  rewrite {1}Ed {2}Ea -mulrA [gcdp d a * y]mulrC mulrA dvdp_mul2r // mulrC Gauss_dvdpl //.
  by rewrite /e coprimep_div_gcd // a0 orbT.
by split=> [h|h]; [rewrite E; apply/H => i; rewrite -E|move=> i; rewrite E; apply/H: i; rewrite -E].
Qed.
End Minors.
