(* When is_catastrophic is right, when it raises, and the criterion of Massey and Sain. *)
Set Warnings "-notation-overridden,-ambiguous-paths".
From Coq Require Import ZArith NArith PeanoNat Lia List.
From Verif Require Import BinPoly_Model Conv_Model Conv_Spec Cat_Model Cat_Lists Cat_Bridge.
From Verif Require ConvCons_Proof.
From Verif Require Import BinPoly_Proof Algebra_Spec Irreducible_Proof Algebra_Proof Cat_Minors Cat_Smith Cat_Series Cat_Rank Cat_Link.
From mathcomp Require Import all_ssreflect all_fingroup all_algebra zify.
Set Implicit Arguments.
Unset Strict Implicit.
Unset Printing Implicit Defensive.
Import GRing.Theory.
Local Open Scope ring_scope.

Definition ofr k (r : 'I_k -> P2) (i : nat) : P2 := if insub i is Some o then r o else 0.
Lemma ofrE k (r : 'I_k -> P2) (i : 'I_k) : ofr r i = r i.
Proof. by rewrite /ofr valK. Qed.
Definition numx k n (M : nat -> nat -> P2) : 'M[P2]_(k, n) := \matrix_(i, j) M i j.

Section Rational.
Variables (rows : list (list N * N)) (n : nat) (q : P2) (M : nat -> nat -> P2).
Notation k := (length rows).
Notation MM := (numx k n M).
Hypothesis Q : List.Forall (fun r => N.odd (snd r) = true) rows.
Hypothesis qX : coprimep q 'X.
Hypothesis HM : forall i j, (i < k)%N -> (j < n)%N -> q * P (rowp rows i j) = M i j * P (rowq rows i).

Lemma from_last_row (f f' q' : P2) : last_row MM f -> f' * q = q' * f -> coprimep f' q' -> ~ (exists a, f' = 'X^a) -> series_catastrophic rows n.
Proof.
move=> [r [v [R [rv rM]]]] E co nm. have [h [/dvdpP [Y EY] hX h1]] := nonmonomial nm.
apply: (@catastrophic_input rows n q M Q qX HM h q' (ofr (r ord0)) (fun j => Y * ofr (R ord0) j)) => //.
  move=> j hj. have -> : ofr (R ord0) j = R ord0 (Ordinal hj) by rewrite -(ofrE (R ord0) (Ordinal hj)).
  have := congr1 (fun X : 'M_(_, _) => X ord0 (Ordinal hj)) rM. rewrite !mxE => S.
  transitivity (q' * \sum_(l < k) r ord0 l * MM l (Ordinal hj)).
    rewrite mulr_sumr. apply: eq_bigr => i _. by rewrite ofrE mxE mulrCA [r _ _ * _]mulrC.
  rewrite S mulrA -E EY !mulrA; congr (_ * _). by rewrite mulrC [Y * h]mulrC mulrA.
case: (boolP [forall i : 'I_k, h %| q' * r ord0 i]) => [/forallP A|/forallPn [i ni]]; last by exists i => //; rewrite ofrE.
exfalso. move/negP: h1; apply. have := congr1 (fun X : 'M_(_, _) => X ord0 ord0) rv. rewrite !mxE eqxx => S1. rewrite -[1]/(true%:R) -S1.
apply: dvdp_sum => i _. apply: dvdp_mulr. have := A i. rewrite Gauss_dvdpr //. apply: coprimep_dvdr co. by rewrite EY dvdp_mull.
Qed.

Lemma from_inverse (g q' d : P2) (a : nat) (C : 'M[P2]_(n, k)) : MM *m C = g%:M -> g = 'X^a * d -> q = q' * d -> ~ series_catastrophic rows n.
Proof.
move=> E Eg Eq. apply: (@not_catastrophic rows n q M qX HM q' d a (fun j i => if insub j is Some j' then ofr (C j') i else 0)) => // i i' hi hi'.
have := congr1 (fun X : 'M_(_, _) => X (Ordinal hi) (Ordinal hi')) E. rewrite !mxE -Eg (_ : (Ordinal hi == Ordinal hi') = (i == i')) // => S. rewrite mulr_natl -S.
rewrite -[X in X = _]/(\sum_(j < n) M i j * (if insub (j : nat) is Some j' then ofr (C j') i' else 0)).
apply: eq_bigr => j _. by rewrite valK mxE -(ofrE (C j) (Ordinal hi')).
Qed.

(* the minors all vanish when an input is lost *)
Lemma silent_minors : series_silent rows n -> minors_dvd 0 MM.
Proof.
move=> [u [w [W [[i0 [t0 [hi0 ut]]] Z]]]] J. rewrite dvd0p. apply/negPn/negP => nz. have {}hi0 : (i0 < k)%N by apply/ltP.
have [a [h [E hX]]] := X_factor nz. pose T := (t0.+1 + a)%N. pose U i := trunc T (u i).
have B j : (j < n)%N -> 'X^T %| \sum_(i < k) M i j * U i.
  move=> hj. have A : agree T (out_series rows w j) 0 by move=> t _; rewrite coef0 Z //; exact/ltP.
  have := @outputs rows n q M HM u w U T j hj W (fun i _ => @agree_trunc T (u i)) 0 A. by rewrite mulr0 sub0r dvdpNr.
have D : 'X^T %| U i0 * \det (cols J MM).
  have -> : U i0 * \det (cols J MM) = ((\row_i U i) *m (cols J MM *m \adj (cols J MM))) ord0 (Ordinal hi0).
    by rewrite mul_mx_adj mul_mx_scalar !mxE mulrC.
  rewrite mulmxA mxE. apply: dvdp_sum => b _. apply: dvdp_mulr. rewrite mxE.
  have := B (J b) (ltn_ord _). congr (_ %| _). apply: eq_bigr => i _. by rewrite !mxE mulrC.
move: D. have -> : U i0 * \det (cols J MM) = h * U i0 * 'X^a by rewrite E mulrCA mulrC [U i0 * h]mulrC.
rewrite /T exprD dvdp_mul2r ?expf_neq0 ?polyX_eq0 // => /(odd_cancel hX) /XnP /(_ t0 (ltnSn _)).
rewrite coef_poly ltn_addr ?ltnSn // ut => /eqP. by rewrite oner_eq0.
Qed.
Lemma minors_silent : minors_dvd 0 MM -> series_silent rows n.
Proof.
move=> D. have [|r [[i0 nz] S]] := @dependency k n MM 0 _ D; first by rewrite dvd0p oner_eq0. rewrite dvd0p in nz.
pose u i := bits (ofr r i).
have [w Hw] : exists w : nat -> nat -> bool, forall i, (i < k)%coq_nat -> forall t, series_mul (rowq rows i) (w i) t = u i t.
  apply: (finite_choice (fun i w => forall t, series_mul (rowq rows i) w t = u i t) (fun _ => false)) => i hi.
  apply: ConvCons_Proof.series_div_exists. apply: ConvCons_Proof.odd_tb. exact: (odd_row _ Q).
have W i t : (i < k)%coq_nat -> series_mul (rowq rows i) (w i) t = u i t by move=> hi; exact: Hw.
exists u, w. split=> //. split.
  exists i0, (size (r i0)).-1. split; first exact/ltP. by rewrite /u /bits ofrE -lead_coefE lead_coef_eq0.
move=> j t hj. have {}hj : (j < n)%N by apply/ltP.
have O := @outputs rows n q M HM u w (ofr r) t.+1 j hj W (fun i _ => @agree_bits t.+1 (ofr r i)) _ (@agree_trunc t.+1 (out_series rows w j)).
have Z : \sum_(i < k) M i j * ofr r i = 0.
  apply/eqP. rewrite -dvd0p. have := S (Ordinal hj). congr (_ %| _). apply: eq_bigr => i _. by rewrite ofrE mxE mulrC.
rewrite Z subr0 in O. have /XnP := odd_cancel qX O. move=> /(_ t (ltnSn t)). rewrite coef_poly ltnSn. by case: out_series => // /eqP; rewrite oner_eq0.
Qed.
End Rational.

Lemma small_minors k n (M : 'M[P2]_(k, n)) d : (n < k)%N -> minors_dvd d M.
Proof.
move=> h J. have [a [b [ne E]]] : exists a b : 'I_k, a != b /\ J a = J b.
  case: (boolP (injectiveb (finfun J))) => [/injectiveP I|/injectivePn [a [b ne E]]].
    have I' : injective J by move=> a b E; apply: I; rewrite !ffunE. have := leq_card J I'. by rewrite !card_ord leqNgt h.
  exists a, b. split=> //. by move: E; rewrite !ffunE.
by rewrite (@cols_noninj _ k n M J a b ne E) dvdp0.
Qed.
Lemma prod_nz (fs : list N) : (forall f, f \in fs -> f <> 0%num) -> \prod_(f <- fs) P f != 0.
Proof.
move=> H. rewrite prodf_seq_neq0. apply/allP => f hf. by rewrite /= P_eq0; apply/eqP/H.
Qed.

Section Run.
Variables (rows : list (list N * N)) (n : nat) (G : list (list pfrac)).
Notation k := (length rows).
Hypothesis Q : List.Forall (fun r => N.odd (snd r) = true) rows.
Hypothesis HG : generates rows n G.
Hypothesis kpos : (0 < k)%N.
Hypothesis npos : (0 < n)%N.

Lemma decompose : exists (q : N) (M : list (list N)), [/\ coprimep (P q) 'X,
  forall i j, (i < k)%N -> (j < n)%N -> P q * P (rowp rows i j) = P (pentry M i j) * P (rowq rows i) &
  let MM := numx k n (fun i j => P (pentry M i j)) in
  (is_catastrophic G = None /\ minors_dvd 0 MM) \/
  exists fs a, [/\ (k <= n)%N, size fs = k, forall f, f \in fs -> f <> 0%num, forall d, minors_dvd d MM <-> d %| \prod_(f <- fs) P f
    & [/\ last_row MM (P (List.last fs 0%num)), reduced_frac a, P (fst a) * P q = P (snd a) * P (List.last fs 0%num)
    & is_catastrophic G = Some (negb (Nat.eqb (length (exponents (fst a))) 1))]]].
Proof.
have [q [M [qX LM RM HM ->]]] := run Q HG kpos npos. exists q, M. split=> //= .
rewrite /invariant_factors LM RM //. case: Nat.ltb_spec => hn; first by left; split=> //; apply: small_minors; apply/ltP.
have {}hn : (k <= n)%N by apply/leP.
have [fs [Efs Sfs Nfs Gfs Lfs]] := inv_factors_spec M hn. rewrite Efs [bind (Some fs) _]/=.
rewrite -[numx _ _ _]/(mx k n M). case: Nat.ltb_spec => hk.
  left. split=> //. apply/Gfs. rewrite /gcd_of (_ : (size fs == k) = false) ?dvdp0 //. apply/eqP. move: hk. rewrite -[length fs]/(size fs). lia.
have Sk : size fs = k by apply/eqP; rewrite eqn_leq Sfs; apply/leP.
have q0 : q <> 0%num by apply/eqP; rewrite -P_eq0; exact: coprime_nz.
right. have [a [Ea [ra Va]]] := mk_frac_spec (List.last fs 0%num) q0. exists fs, a. rewrite Ea. split=> //.
  by move=> d; rewrite Gfs /gcd_of Sk eqxx.
split=> //; first exact: Lfs. by rewrite -!Pmul (Vcross ra q0 Va).
Qed.

Lemma sound : is_catastrophic G = Some true -> series_catastrophic rows n.
Proof.
have [q [M [qX HM D]]] := decompose. case: D => [[-> _] //|[fs [a [hn Sk Nfs Gfs [Lr ra Ea ->]]]]] [Em].
move/reduced_coprime: (ra) => [_ co].
apply: (from_last_row Q qX HM Lr Ea co). by move/monomial_spec; rewrite Em.
Qed.
Lemma raises : is_catastrophic G = None <-> series_silent rows n.
Proof.
have [q [M [qX HM D]]] := decompose. split.
- case: D => [[_ mz] _|[fs [a [hn Sk Nfs Gfs [Lr ra Ea ->]]]]] //. exact: (minors_silent Q qX HM).
- move/(silent_minors HM) => mz. case: D => [[-> _] //|[fs [a [hn Sk Nfs Gfs _]]]].
  by move/Gfs: mz; rewrite dvd0p (negbTE (prod_nz Nfs)).
Qed.
Lemma rate_one : k = 1%N -> is_catastrophic G = Some false -> ~ series_catastrophic rows n.
Proof.
move=> k1. have [q [M [qX HM D]]] := decompose. case: D => [[-> _] //|[fs [a [hn Sk Nfs Gfs [Lr ra Ea ->]]]]] [/(proj1 (monomial_spec _)) [e Ee]].
move/reduced_coprime: (ra) => [s0 co]. have sn : P (snd a) != 0 by rewrite P_eq0; apply/eqP.
have [g [C [EC [g1 g2]]]] := minors_inverse (numx k n (fun i j => P (pentry M i j))).
have Ef : \prod_(f <- fs) P f = P (List.last fs 0%num). { move: Sk. rewrite k1. case: (fs) => [|f [|? ?]] //= _. by rewrite big_cons big_nil mulr1. }
have Eg : g = P (List.last fs 0%num). { apply: eqp2. rewrite /eqp -Ef. apply/andP; split; [exact/Gfs|]. apply: g2. exact/Gfs. }
have /dvdpP [d Ed] : P (snd a) %| P q.
  have : P (snd a) %| P (fst a) * P q by rewrite Ea dvdp_mulr. by rewrite Gauss_dvdpr // coprimep_sym.
apply: (@from_inverse rows n (P q) (fun i j => P (pentry M i j)) qX HM g (P (snd a)) d e C EC); last by rewrite Ed mulrC.
rewrite Eg. apply: (mulfI sn). by rewrite -Ea Ed Ee mulrA mulrC.
Qed.
End Run.

(* feedforward encoders: the criterion of Massey and Sain *)
Section Feedforward.
Variables (rows : list (list N * N)) (n : nat).
Notation k := (length rows).
Hypothesis F : List.Forall (fun r => snd r = 1%num) rows.
Notation MM := (numx k n (fun i j => P (rowp rows i j))).
Lemma ff_odd : List.Forall (fun r => N.odd (snd r) = true) rows.
Proof. apply: List.Forall_impl F => r ->. by []. Qed.
Lemma ff_one i : (i < k)%N -> rowq rows i = 1%num.
Proof. move=> h. move/List.Forall_forall: F => /(_ (List.nth i rows (nil, 0%num))) -> //. apply: List.nth_In. exact/ltP. Qed.
Lemma massey_sain (g : P2) : (forall d, minors_dvd d MM <-> d %| g) -> (series_catastrophic rows n <-> ~ exists a, g = 'X^a).
Proof.
move=> Hg. have qX : coprimep (1 : P2) 'X by rewrite coprime1p.
have HM i j : (i < k)%N -> (j < n)%N -> 1 * P (rowp rows i j) = P (rowp rows i j) * P (rowq rows i) by move=> hi _; rewrite ff_one // P1 mul1r mulr1.
split.
- move=> S [a Ea]. have [g' [C [EC [g1 g2]]]] := minors_inverse MM.
  have Eg : g' = g by apply: eqp2; rewrite /eqp; apply/andP; split; [exact/Hg|apply: g2; exact/Hg].
  by apply: (@from_inverse rows n 1 (fun i j => P (rowp rows i j)) qX HM g' 1 1 a C EC) S; rewrite ?Eg ?mulr1.
- move=> /nonmonomial [h [hg hX h1]]. have [r [[i0 ni0] S]] := dependency h1 (proj2 (Hg h) hg).
  apply: (@catastrophic_input rows n 1 (fun i j => P (rowp rows i j)) ff_odd qX HM h 1 (ofr r) (fun j => (\sum_(i < k) P (rowp rows i j) * ofr r i) %/ h)) => //.
    move=> j hj. have E : \sum_(i < k) P (rowp rows i j) * ofr r i = \sum_i r i * MM i (Ordinal hj) by apply: eq_bigr => i _; rewrite ofrE mxE mulrC.
    have D : h %| \sum_(i < k) P (rowp rows i j) * ofr r i by rewrite E; exact: S.
    rewrite [h * _]mulrC divpK // mul1r. by apply: eq_bigr => i _; rewrite mul1r.
  by exists i0 => //; rewrite ofrE mul1r.
Qed.
End Feedforward.
