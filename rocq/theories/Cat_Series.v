(* Catastrophic inputs of a rational generator matrix: constructions and obstructions, via polynomials modulo X^T. *)
Set Warnings "-notation-overridden,-ambiguous-paths".
From Coq Require Import ZArith NArith PeanoNat Lia List.
From Verif Require Import BinPoly_Model Conv_Model Conv_Spec Cat_Spec Cat_Bridge.
From Verif Require ConvCons_Proof.
From Verif Require Import BinPoly_Proof Algebra_Spec Algebra_Proof.
From mathcomp Require Import all_ssreflect all_fingroup all_algebra zify.
Set Implicit Arguments.
Unset Strict Implicit.
Unset Printing Implicit Defensive.
Import GRing.Theory.
Local Open Scope ring_scope.

Definition agree (T : nat) (w : nat -> bool) (W : P2) : Prop := forall t, (t < T)%N -> W`_t = (w t)%:R.
Definition trunc (T : nat) (w : nat -> bool) : P2 := \poly_(t < T) (w t)%:R.
Lemma agree_trunc T w : agree T w (trunc T w).
Proof. by move=> t h; rewrite coef_poly h. Qed.
Lemma xsum_F2 (f : nat -> bool) k : (xsum (List.map f (List.seq 0 k)))%:R = \sum_(i < k) (f i)%:R :> F2.
Proof.
rewrite -(big_mkord xpredT (fun i => (f i)%:R)).
have -> : List.seq 0 k = index_iota 0 k by rewrite /index_iota subn0; move: k 0%N; elim=> [//|k IH] m /=; rewrite IH.
elim: (index_iota 0 k) => [|i l IH]; first by rewrite big_nil. rewrite big_cons -IH -F2_add /xsum /=. by case: (f i); case: (List.fold_right _ _ _).
Qed.
Lemma agree_mul T p w W : agree T w W -> agree T (series_mul p w) (P p * W).
Proof.
move=> H t ht. rewrite /series_mul xsum_F2 coefM. apply: eq_bigr => l _. rewrite coefP2 H; last by have := ltn_ord l; lia.
by case: N.testbit; rewrite ?mul1r ?mul0r.
Qed.
Lemma agree_out T rows w (W : nat -> P2) j : (forall i, (i < size rows)%N -> agree T (w i) (W i)) ->
  agree T (out_series rows w j) (\sum_(i < size rows) P (rowp rows i j) * W i).
Proof.
move=> H t ht. rewrite /out_series xsum_F2 coef_sum. apply: eq_bigr => i _. by rewrite (agree_mul _ (H i (ltn_ord i)) ht).
Qed.
Lemma XnP T (Z : P2) : reflect (forall t, (t < T)%N -> Z`_t = 0) ('X^T %| Z).
Proof.
apply: (iffP idP) => [/dvdpP [Y ->] t h|H]; first by rewrite coefMXn h.
apply/dvdpP. exists (\poly_(i < size Z) Z`_(i + T)). apply/polyP => t. rewrite coefMXn. case: ifP => h; first exact: H.
rewrite coef_poly. case: ifP => h'; first by rewrite subnK // leqNgt h. apply: nth_default. by apply: leq_trans (leq_subr T t); rewrite leqNgt h'.
Qed.
Lemma agreeP T w W : agree T w W <-> 'X^T %| W - trunc T w.
Proof.
split=> [H|/XnP H t ht]; last by have := H t ht; rewrite coefB coef_poly ht => /eqP; rewrite subr_eq0 => /eqP.
by apply/XnP => t ht; rewrite coefB coef_poly ht (H t ht) subrr.
Qed.
Lemma agree_eqm T w W W' : agree T w W -> agree T w W' -> 'X^T %| W - W'.
Proof. by move=> H H'; apply/XnP => t ht; rewrite coefB H ?H' // subrr. Qed.
Lemma eqm_agree T w W W' : agree T w W -> 'X^T %| W' - W -> agree T w W'.
Proof. by move=> H /XnP H' t ht; have := H' t ht; rewrite coefB H // => /eqP; rewrite subr_eq0 => /eqP. Qed.
Lemma odd_cancel T (a Z : P2) : coprimep a 'X -> 'X^T %| a * Z -> 'X^T %| Z.
Proof. by move=> c; rewrite Gauss_dvdpr // coprimep_sym coprimep_expr // coprimep_sym. Qed.

Definition bits (W : P2) (t : nat) : bool := W`_t != 0.
Lemma agree_bits T W : agree T (bits W) W.
Proof. by move=> t _; rewrite /bits; case: (F2_cases W`_t) => ->; rewrite ?eqxx ?oner_eq0. Qed.
Lemma odd_coprime a : N.odd a = true -> coprimep (P a) 'X.
Proof.
move=> h. rewrite -(subr0 'X) -polyC0 coprimep_XsubC. rewrite rootE horner_coef0 coefP2 /=.
by move: h; rewrite -N.bit0_odd => ->; rewrite oner_eq0.
Qed.
Lemma coprime_odd a : coprimep (P a) 'X -> N.odd a = true.
Proof.
rewrite -(subr0 'X) -polyC0 coprimep_XsubC rootE horner_coef0 coefP2 /= N.bit0_odd. by case: (N.odd a) => //; rewrite eqxx.
Qed.
Lemma series_divide (h : P2) (target : nat -> bool) : coprimep h 'X -> exists u : nat -> bool, forall T, agree T target (h * trunc T u).
Proof.
move=> c. have [a Ea] := P_surj h. rewrite -Ea in c *. have o := coprime_odd c.
have [u Hu] := ConvCons_Proof.series_div_exists a target (ConvCons_Proof.odd_tb a o).
exists u => T t ht. by rewrite (agree_mul a (@agree_trunc T u) ht) Hu.
Qed.

Section Rational.
Variables (rows : list (list N * N)) (n : nat) (q : P2) (M : nat -> nat -> P2).
Notation k := (size rows).
Hypothesis Q : List.Forall (fun r => N.odd (snd r) = true) rows.
Hypothesis qX : coprimep q 'X.
Hypothesis HM : forall i j, (i < k)%N -> (j < n)%N -> q * P (rowp rows i j) = M i j * P (rowq rows i).

Lemma row_coprime i : (i < k)%N -> coprimep (P (rowq rows i)) 'X.
Proof. by move=> h; apply: odd_coprime; apply: (odd_row _ Q); move: h => /ltP. Qed.

(* q y_j = sum of M_ij u_i, modulo X^T *)
Lemma outputs (u w : nat -> nat -> bool) (U : nat -> P2) T j : (j < n)%N ->
  (forall i t, (i < k)%coq_nat -> series_mul (rowq rows i) (w i) t = u i t) ->
  (forall i, (i < k)%N -> agree T (u i) (U i)) -> forall Y, agree T (out_series rows w j) Y ->
  'X^T %| q * Y - \sum_(i < k) M i j * U i.
Proof.
move=> hj W HU Y HY. have WI i : (i < k)%N -> agree T (w i) (trunc T (w i)) by move=> _; exact: agree_trunc.
have E1 := agree_eqm HY (@agree_out T rows w (fun i => trunc T (w i)) j WI).
rewrite -[X in q * X](subrK (\sum_(i < k) P (rowp rows i j) * trunc T (w i))) mulrDr -addrA. apply: dvdp_add; first exact: dvdp_mull.
rewrite mulr_sumr -sumrB. elim/big_ind: _ => [|x y Hx Hy|i _]; [exact: dvdp0|exact: dvdp_add|].
rewrite mulrA HM // -mulrA -mulrBr. apply: dvdp_mull.
apply: (@agree_eqm T (u i)); last exact: HU. move=> t ht. rewrite (agree_mul (rowq rows i) (WI i (ltn_ord i)) ht) W //. exact/ltP.
Qed.

(* an input s r / h with polynomial output *)
Lemma catastrophic_input (h s : P2) (r Y : nat -> P2) : coprimep h 'X ->
  (forall j, (j < n)%N -> \sum_(i < k) M i j * (s * r i) = q * (h * Y j)) ->
  (exists2 i, (i < k)%N & ~~ (h %| s * r i)) -> series_catastrophic rows n.
Proof.
move=> hX HY [i0 hi0 nd].
have [u Hu] : exists u : nat -> nat -> bool, forall i, (i < k)%coq_nat -> forall T, agree T (bits (s * r i)) (h * trunc T (u i)).
  apply: (finite_choice (fun i u => forall T, agree T (bits (s * r i)) (h * trunc T u)) (fun _ => false)) => i hi. exact: series_divide.
have [w Hw] : exists w : nat -> nat -> bool, forall i, (i < k)%coq_nat -> forall t, series_mul (rowq rows i) (w i) t = u i t.
  apply: (finite_choice (fun i w => forall t, series_mul (rowq rows i) w t = u i t) (fun _ => false)) => i hi.
  apply: ConvCons_Proof.series_div_exists. apply: ConvCons_Proof.odd_tb. exact: (odd_row _ Q).
exists u, w. split; first by move=> i t hi; apply: Hw. split.
- move=> T. pose T1 := (T + size (s * r i0)%R)%N. pose D := size h.
  case E: (List.existsb (fun t => u i0 t) (List.seq T1 D)).
    move/List.existsb_exists: E => [t [/List.in_seq ht ut]]. exists t, i0. by repeat split=> //; [lia|apply/ltP].
  exfalso. move/negP: nd; apply. apply/dvdpP. exists (trunc T1 (u i0)). rewrite [RHS]mulrC.
  have E0 : trunc (T1 + D) (u i0) = trunc T1 (u i0).
    apply/polyP => t. rewrite !coef_poly. case: (ltnP t T1) => h1; first by rewrite ltn_addr.
    case: ifP => h2 //. have -> : u i0 t = false; last by [].
    apply/negP => ut. move/negP: E; apply. apply/List.existsb_exists. exists t. split=> //. apply/List.in_seq. lia.
  have A := Hu i0 (ltP hi0) (T1 + D)%N. rewrite E0 in A. have B := agree_eqm (@agree_bits (T1 + D)%N (s * r i0)) A.
  apply/eqP. rewrite -subr_eq0. apply/eqP/polyP => t. rewrite coef0. case: (ltnP t (T1 + D)%N) => ht; first exact: (XnP _ _ B).
  rewrite coefB [X in X - _]nth_default ?[X in _ - X]nth_default ?subrr //.
    apply: leq_trans (size_mul_leq _ _) _. apply: leq_trans _ ht. have := size_poly T1 (fun t => (u i0 t)%:R : F2). rewrite -/(trunc T1 (u i0)) /D. move: (size h) (size (trunc _ _)) => x y. rewrite -subn1. clear. lia.
  by apply: leq_trans ht; exact: leq_trans (leq_addl T _) (leq_addr D _).
- exists (\sum_(j < n) size (Y j))%N => j t hj ht. have {}hj : (j < n)%N by apply/ltP.
  apply: F2_bool_inj. have HU i : (i < k)%N -> agree t.+1 (u i) (trunc t.+1 (u i)) by move=> _; exact: agree_trunc.
  have Hw' i t' : (i < k)%coq_nat -> series_mul (rowq rows i) (w i) t' = u i t' by move=> hi; exact: Hw.
  have HO := outputs hj Hw' HU (@agree_trunc t.+1 (out_series rows w j)).
  suff A : agree t.+1 (out_series rows w j) (Y j).
    rewrite -(A t (ltnSn t)) nth_default //. apply: leq_trans _ (introT leP ht). by rewrite (bigD1 (Ordinal hj)) //= leq_addr.
  apply: eqm_agree (@agree_trunc t.+1 (out_series rows w j)) _. apply: (odd_cancel qX). apply: (odd_cancel hX).
  set O := trunc _ _ in HO *. have -> : h * (q * (Y j - O)) = \sum_(i < k) M i j * (s * r i - h * trunc t.+1 (u i)) - h * (q * O - \sum_(i < k) M i j * trunc t.+1 (u i)).
    under eq_bigr do rewrite mulrBr. rewrite sumrB HY //.
    have -> : \sum_(i < k) M i j * (h * trunc t.+1 (u i)) = h * \sum_(i < k) M i j * trunc t.+1 (u i).
      by rewrite mulr_sumr; apply: eq_bigr => i _; rewrite mulrCA.
    by rewrite !mulrBr [q * (h * _)]mulrCA opprB addrA subrK.
  apply: dvdp_sub; last exact: dvdp_mull. elim/big_ind: _ => [|x y Hx Hy|i _]; [exact: dvdp0|exact: dvdp_add|].
  apply: dvdp_mull. exact: (agree_eqm (@agree_bits t.+1 (s * r i)) (Hu i (ltP (ltn_ord i)) t.+1)).
Qed.

(* a polynomial inverse up to a delay *)
Lemma not_catastrophic (q' d : P2) (a : nat) (C : nat -> nat -> P2) : q = q' * d ->
  (forall i i', (i < k)%N -> (i' < k)%N -> \sum_(j < n) M i j * C j i' = (i == i')%:R * ('X^a * d)) -> ~ series_catastrophic rows n.
Proof.
move=> Eq HC [u [w [W [Inf [T0 Fin]]]]].
pose Y j := trunc T0 (out_series rows w j). pose V i' := q' * \sum_(j < n) Y j * C j i'.
have YO j T : (j < n)%N -> agree T (out_series rows w j) (Y j).
  move=> hj t ht. rewrite coef_poly. case: ifP => h //. by rewrite (Fin j t) //; [apply/ltP|apply/leP; rewrite leqNgt h].
have key i' T : (i' < k)%N -> 'X^T %| 'X^a * trunc T (u i') - V i'.
  move=> hi'. have dX : coprimep d 'X by move: qX; rewrite Eq coprimepMl => /andP [].
  apply: (odd_cancel dX). have -> : d * ('X^a * trunc T (u i') - V i') = \sum_(j < n) C j i' * (\sum_(i < k) M i j * trunc T (u i) - q * Y j).
    under [RHS]eq_bigr do rewrite mulrBr mulr_sumr. rewrite sumrB exchange_big /= mulrBr; congr (_ - _).
      have HS i : \sum_(j < n) C j i' * (M i j * trunc T (u i)) = (\sum_(j < n) M i j * C j i') * trunc T (u i).
        by rewrite mulr_suml; apply: eq_bigr => j _; rewrite mulrCA mulrA.
      under [RHS]eq_bigr => i _ do rewrite HS HC //.
      rewrite (bigD1 (Ordinal hi')) //= big1 ?addr0 => [|i ne]; first by rewrite eqxx mul1r mulrA [d * _]mulrC.
      rewrite (_ : (i == i' :> nat) = false) ?mul0r //. exact: negbTE.
    rewrite /V Eq !mulr_sumr. by apply: eq_bigr => j _; rewrite [in RHS]mulrCA -!mulrA [C _ _ * _]mulrC mulrCA.
  elim/big_ind: _ => [|x y Hx Hy|j _]; [exact: dvdp0|exact: dvdp_add|]. apply: dvdp_mull. rewrite -opprB dvdpNr.
  by apply: (@outputs u w (fun i => trunc T (u i)) T j (ltn_ord j) W _ (Y j) (YO j T (ltn_ord j))) => i hi; exact: agree_trunc.
have [t [i [ht [hi ui]]]] := Inf (\sum_(i < k) size (V i))%N. have {}hi : (i < k)%N by apply/ltP.
have /XnP /(_ (t + a)%N) := key i (t + a).+1 hi. rewrite ltnSn => /(_ isT). rewrite coefB mulrC coefMXn ltnNge leq_addl /= addnK coef_poly.
rewrite ltnS leq_addr ui nth_default ?subr0 => [/eqP|]; first by rewrite oner_eq0.
apply: (@leq_trans t); last exact: leq_addr. apply: leq_trans _ (introT leP ht). by rewrite (bigD1 (Ordinal hi)) //= leq_addr.
Qed.
End Rational.
