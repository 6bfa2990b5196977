Set Warnings "-notation-overridden,-ambiguous-paths".
From Coq Require List.
From Coq Require Import NArith ZArith PeanoNat Lia.
From Verif Require Import BinPoly_Model BinPoly_Proof GF2_Proof Algebra_Spec PrimeFactors_Proof Irreducible_Proof Algebra_Proof GFField_Proof.
From mathcomp Require Import all_ssreflect all_algebra zify.
Set Implicit Arguments.
Unset Strict Implicit.
Unset Printing Implicit Defensive.
Import GRing.Theory.
Local Open Scope ring_scope.

Lemma uniq_NoDup (l : list N) : uniq l -> List.NoDup l.
Proof.
elim: l => [|x l IH] /=; first by constructor. move=> /andP [nx U]. constructor; last exact: IH.
move=> H. move/negP: nx; apply. elim: l H {IH U} => //= y l IH [->|/IH]; rewrite in_cons ?eqxx // => ->; by rewrite orbT.
Qed.
Section Conj.
Variables (m : N) (irrN : nirreducible m) (a : N) (ea : elt m a).
Notation k := (bit_length m - 1)%N.
Notation z := (zc m a).
Notation ph := (phi irrN).

Lemma z_add i j : ph (z (i + j)) = ph (z i) ^+ (2 ^ j).
Proof. by rewrite !(zc_phi irrN ea) -exprM -expnD. Qed.
Lemma pow2_inj j : injective (fun x : qf_field (quo_fieldP (proj1 (nirr m) irrN)) => x ^+ (2 ^ j)).
Proof.
elim: j => [|j IH] x y; first by rewrite !expr1.
rewrite expnS mulnC !exprM => H. apply: IH. exact: (@fr_inj m irrN) H.
Qed.
Lemma z_shift i j n : z (i + n) = z (j + n) -> z i = z j.
Proof.
move=> H. apply: (@phi_inj m irrN); try exact: (zc_elt irrN ea).
apply: (@pow2_inj n). by rewrite /= -!z_add H.
Qed.
Lemma z_shift' i j n : z i = z j -> z (i + n) = z (j + n).
Proof. move=> H. apply: (@phi_inj m irrN); try exact: (zc_elt irrN ea). by rewrite !z_add H. Qed.

Lemma conjugates_spec : exists n, [/\ gf_conjugates m (N.of_nat k) a = Some (map z (iota 0 n)), uniq (map z (iota 0 n)), (0 < n)%N, z n = z 0 & (n %| k)%N].
Proof.
have [n [E U n0 zn]] := conj_spec irrN ea. exists n.
have inj : forall i j, (i < n)%N -> (j < n)%N -> z i = z j -> i = j.
  move=> i j li lj H. apply/eqP. move/(uniqP (z 0)): U => /(_ i j). rewrite !inE size_map size_iota => /(_ li lj).
  rewrite !(nth_map 0%N) ?size_iota // !nth_iota // => Q. apply/eqP. exact: Q.
have per : z n = z 0.
  move: zn => /mapP [j]. rewrite mem_iota add0n => /= lj Ej. case: j lj Ej => [//|j] lj Ej. exfalso.
  have Q : z (n - j.+1) = z 0.
    apply: (@z_shift _ _ j.+1). rewrite subnK; last by lia. by rewrite add0n.
  have : (n - j.+1)%N = 0%N by apply: inj => //; lia. lia.
split=> //.
have perm : forall q r, z (q * n + r) = z r.
  elim=> [//|q IH] r. rewrite mulSn -addnA addnC. rewrite (_ : (q * n + r + n)%N = (n + (q * n + r))%N); last by lia.
  by rewrite (z_shift' (q * n + r) per) add0n IH.
have Hk : z k = z 0 := zc_k irrN ea.
rewrite /dvdn. apply/eqP. apply: inj => //; first by rewrite ltn_mod.
by rewrite -(perm (k %/ n)%N) -divn_eq.
Qed.

Lemma minpoly_degree n : gf_conjugates m (N.of_nat k) a = Some (map z (iota 0 n)) ->
  exists f, gf_minimal_polynomial m (N.of_nat k) a = Some f /\ bit_length f = n.+1.
Proof.
have [n' [E Un n0 zn]] := conj_spec irrN ea. rewrite E => -[Q].
have {Q} En : n' = n by rewrite -(size_iota 0 n') -(size_map z (iota 0 n')) Q size_map size_iota. subst n'.
rewrite /gf_minimal_polynomial E.
case: n E Un n0 zn => // n E Un n0 zn. cbn [map iota].
have e1 : elts m (zc m a 0 :: 1%num :: nil) by move=> c [<-|[<-|[]]]; [exact: (zc_elt irrN)|exact: (elt1 irrN)].
have [el El] := fold_conv irrN (map z (iota 1 n)) e1. set l := List.fold_left _ _ _ in el El *.
have EL : PL irrN l = \prod_(y <- map ph (map z (iota 0 n.+1))) ('X - y%:P).
  rewrite El /= big_cons. congr (_ * _). rewrite /PL /= cons_poly_def phi1 cons_poly_def mul0r add0r mul1r.
  by rewrite -polyCN oppL.
have l01 : forall c, List.In c l -> c = 0%num \/ c = 1%num.
  move=> c Hc. have [i [li Ei]] := List.In_nth l c 0%num Hc. have ec := el c Hc.
  have := fL_fixed irrN ea Un n0 zn i. rewrite -EL coefPL Ei => /fixed01 [H|H]; [left|right]; apply: (@phi_inj m irrN); rewrite // ?phi0 ?phi1 //; exact: (elt1 irrN).
exists (from_coefficient_values l). split=> //.
have := from_values irrN l01. rewrite EL => /(congr1 (fun p : {poly _} => size p)). rewrite size_prod_XsubC !size_map size_iota size_map_poly => <-.
by rewrite Psize.
Qed.
End Conj.

Section Log.
Variables (m : N) (irrN : nirreducible m) (b : N) (eb : elt m b).
Notation k := (bit_length m - 1)%N.
Notation np := (gf_npow m b).
Lemma np_period n : (2 ^ k <= n)%N -> np n = np (n - (2 ^ k - 1)).
Proof.
move=> le. have P2 : (0 < 2 ^ k)%N by rewrite expn_gt0.
apply: (@phi_inj m irrN); [exact: (npow_spec irrN n eb).1|exact: (npow_spec irrN _ eb).1|].
rewrite !(npow_spec irrN _ eb).2. have -> : n = (2 ^ k + (n - 2 ^ k))%N by lia.
rewrite exprD (frob irrN). rewrite -exprS. congr (_ ^+ _). lia.
Qed.
Lemma np_small n : exists i, (i < 2 ^ k)%N /\ np i = np n.
Proof.
have P2 : (0 < 2 ^ k)%N by rewrite expn_gt0. have K := k_gt0 irrN.
have P2' : (1 < 2 ^ k)%N by rewrite -{1}(expn0 2) ltn_exp2l.
elim/ltn_ind: n => n IH. case: (ltnP n (2 ^ k)) => [l|l]; first by exists n.
have [i [li Ei]] := IH (n - (2 ^ k - 1))%N ltac:(lia). exists i. split=> //. by rewrite Ei -np_period.
Qed.
End Log.
