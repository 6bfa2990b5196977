(* Finite-field facts over GF(2): the field GF(2)[X]/(p), Rabin's criterion, orders. *)
Set Warnings "-notation-overridden,-ambiguous-paths".
From mathcomp Require Import all_ssreflect all_fingroup all_algebra zify.
From mathcomp Require Import falgebra fieldext separable galois finfield.
Set Implicit Arguments.
Unset Strict Implicit.
Unset Printing Implicit Defensive.
Import GRing.Theory.
Local Open Scope ring_scope.

Notation F2 := 'F_2.
Notation P2 := {poly 'F_2}.

(* the quotient field *)
Record quo_field (p : P2) := QuoField {
  qf_field : finFieldType;
  qf_phi : {rmorphism P2 -> qf_field};
  qf_ker : forall a, (qf_phi a == 0) = (p %| a);
  qf_card : #|qf_field| = (2 ^ (size p).-1)%N;
  qf_onto : forall y, exists a : P2, (size a < size p)%N /\ qf_phi a = y
}.

Lemma quo_fieldP (p : P2) : irreducible_poly p -> quo_field p.
Proof.
move=> irr; have [L dimL [z rz _]] := irredp_FAdjoin irr.
pose phi0 (q : P2) : L := (map_poly (in_alg L) q).[z].
have phi_is : rmorphism phi0.
  rewrite /phi0; split=> [a b|]; first by rewrite rmorphB hornerD hornerN.
  by split=> [a b|]; rewrite ?rmorphM ?rmorph1 ?hornerM ?hornerE.
pose FL := FinFieldExtType L.
pose phi : {rmorphism P2 -> FL} := RMorphism (phi_is : @GRing.RMorphism.class_of [ringType of P2] FL phi0).
have phip : phi p = 0 by exact/rootP.
have ker a : (phi a == 0) = (p %| a).
  apply/idP/idP => [Ha|/dvdpP [q ->]]; last first.
    by rewrite rmorphM phip mulr0.
  case: (boolP (p %| a)) => // ndiv.
  have : coprimep p a.
    rewrite coprimep_def. have [_ /(_ (gcdp p a))] := irr.
    case: (size (gcdp p a) =P 1%N) => // _ /(_ isT (dvdp_gcdl _ _)) E.
    by move: ndiv; rewrite -(eqp_dvdl _ E) dvdp_gcdr.
  case/Bezout_eq1_coprimepP => -[u v] /= E.
  have : phi 1 = 0 by rewrite -E rmorphD !rmorphM (eqP Ha) phip !mulr0 addr0.
  by move/eqP; rewrite rmorph1 oner_eq0.
have card : #|FL| = (2 ^ (size p).-1)%N.
  have E1 := @card_vspacef [finFieldType of F2] FL (Vector.class [vectType F2 of L]).
  have E2 := @card_vspace [finFieldType of F2] FL (Vector.class [vectType F2 of L]) fullv.
  rewrite -E1 E2 card_Fp //. congr (2 ^ _)%N. exact: dimL.
refine (QuoField ker card _) => y.
have p1 : (1 < size p)%N by case: irr.
pose f (v : 'rV[F2]_(size p).-1) : FL := phi (rVpoly v).
have finj : injective f.
  move=> u v /eqP. rewrite /f -subr_eq0 -rmorphB ker => D.
  have S : (size (rVpoly u - rVpoly v)%R < size p)%N.
    rewrite -raddfB /= . apply: leq_ltn_trans (size_poly _ _) _. by rewrite ltn_predL ltnW.
  have : rVpoly u - rVpoly v = 0 by apply: contraTeq S => nz; rewrite -leqNgt dvdp_leq.
  by move/eqP; rewrite subr_eq0 => /eqP /(congr1 (poly_rV (d := (size p).-1))); rewrite !rVpolyK.
have /(_ y) : forall y, y \in codom f.
  apply: inj_card_onto => //. by rewrite card card_mx card_Fp // mul1n.
case/codomP => v ->. exists (rVpoly v); split=> //.
apply: leq_ltn_trans (size_poly _ _) _. by rewrite ltn_predL ltnW.
Qed.

(* Frobenius *)
Lemma char_P2 : 2%N \in [char P2].
Proof.
apply/andP; split=> //. apply/eqP/polyP => i.
by rewrite mulr2n coefD coef0 addrr_char2 // char_Fp.
Qed.
Lemma frobD k (a b : P2) : (a + b) ^+ (2 ^ k) = a ^+ (2 ^ k) + b ^+ (2 ^ k).
Proof.
elim: k => [|k IH]; first by rewrite !expr1.
rewrite expnSr !exprM IH. set u := a ^+ _; set v := b ^+ _.
have := Frobenius_autD_comm char_P2 (mulrC u v). by rewrite !Frobenius_autE.
Qed.
Lemma F2_pow (c : F2) k : c ^+ (2 ^ k) = c.
Proof.
have : c = 0 \/ c = 1 by case: c => [[|[|m]] Hm]; [left|right|]; try exact: val_inj.
by case=> ->; rewrite ?expr1n // expr0n expn_eq0.
Qed.
Lemma frob_fixed (p : P2) k : p %| 'X^(2 ^ k) - 'X -> forall a, p %| a ^+ (2 ^ k) - a.
Proof.
move=> D. elim/poly_ind => [|a c IH].
  by rewrite expr0n expn_eq0 /= subr0 dvdp0.
rewrite frobD exprMn -rmorphX /= F2_pow.
have -> : a ^+ (2 ^ k) * 'X^(2 ^ k) + c%:P - (a * 'X + c%:P) =
          a ^+ (2 ^ k) * ('X^(2 ^ k) - 'X) + (a ^+ (2 ^ k) - a) * 'X.
  rewrite mulrBr mulrBl addrA subrK opprD addrACA subrr addr0. by [].
by apply: dvdp_add; [apply: dvdp_mull|apply: dvdp_mulr].
Qed.

Section Quo.
Variables (p : P2) (q : quo_field p).
Hypothesis irr : irreducible_poly p.
Let phi := qf_phi q.
Let n := (size p).-1.
Lemma n_gt0 : (0 < n)%N.
Proof. by rewrite /n; case: irr => H _; case: (size p) H => [|[]]. Qed.
Lemma quo_exp y : y ^+ (2 ^ n) = y :> qf_field q.
Proof. by rewrite /n -(qf_card q) expf_card. Qed.
Lemma dvd_frob : p %| 'X^(2 ^ n) - 'X.
Proof. by rewrite -(qf_ker q) rmorphB rmorphX /= quo_exp subrr. Qed.
Lemma not_dvd_frob k : (0 < k < n)%N -> ~~ (p %| 'X^(2 ^ k) - 'X).
Proof.
move=> /andP[k0 kn]. apply/negP => D.
have ar y : root ('X^(2 ^ k) - 'X : {poly qf_field q}) y.
  have [a [_ <-]] := qf_onto y. rewrite rootE !hornerE hornerXn -rmorphX -rmorphB qf_ker. exact: frob_fixed.
have nz : 'X^(2 ^ k) - 'X != 0 :> {poly qf_field q}.
  rewrite -size_poly_eq0 size_addl ?size_polyXn // size_opp size_polyX ltnS. by rewrite -{1}(expn0 2) ltn_exp2l.
have rts : all (root ('X^(2 ^ k) - 'X)) (enum (qf_field q)) by apply/allP => y _; exact: ar.
have := max_poly_roots nz rts (enum_uniq _).
rewrite -cardE qf_card size_addl ?size_polyXn; last first.
  rewrite size_opp size_polyX ltnS. by rewrite -{1}(expn0 2) ltn_exp2l.
by rewrite ltnS leq_exp2l // leqNgt kn.
Qed.
Lemma frob_mod k : qf_phi q 'X ^+ (2 ^ k) = qf_phi q 'X ^+ (2 ^ (k %% n)%N).
Proof.
rewrite {1}(divn_eq k n). elim: (k %/ n)%N => [|m IH]; first by rewrite mul0n.
by rewrite mulSn -addnA expnD exprM quo_exp IH.
Qed.
Lemma dvd_frobE k : (p %| 'X^(2 ^ k) - 'X) = (n %| k)%N.
Proof.
rewrite -(qf_ker q) rmorphB rmorphX /= frob_mod -rmorphX -rmorphB qf_ker /dvdn.
case: (posnP (k %% n)%N) => [->|pos]; first by rewrite expn0 expr1 subrr dvdp0.
have := @not_dvd_frob (k %% n)%N. rewrite pos ltn_mod n_gt0 => /(_ isT) /negbTE ->.
by [].
Qed.
End Quo.

(* irreducible factors exist *)
Lemma irr_factor (p : P2) : (1 < size p)%N -> exists f, irreducible_poly f /\ f %| p.
Proof.
have [m] := ubnP (size p). elim: m p => // m IH p Hm p1.
case: (boolP [exists v : 'rV[F2]_(size p), (rVpoly v %| p) && (1 < size (rVpoly v) < size p)%N]).
  case/existsP => v /andP[dv /andP[v1 vp]]. case: (IH (rVpoly v)) => // [|f [irf df]]; first by apply: leq_trans vp _; rewrite -ltnS.
  exists f; split=> //. exact: dvdp_trans df dv.
rewrite negb_exists => /forallP H. exists p; split=> //. split=> // a a1 da.
have nzp : p != 0 by rewrite -size_poly_gt0 ltnW.
have nza : a != 0 by apply: contraNneq nzp => E; move: da; rewrite E dvd0p.
have sa : (size a <= size p)%N by rewrite dvdp_leq.
have := H (poly_rV a). rewrite poly_rV_K // da /=.
have a0 : (0 < size a)%N by rewrite size_poly_gt0.
move=> H1. rewrite -dvdp_size_eqp //.
rewrite eqn_leq sa /= leqNgt. apply: contraNN H1 => ->. by rewrite ltn_neqAle eq_sym a1 a0.
Qed.

Lemma rabin (p : P2) n : size p = n.+1 -> (0 < n)%N ->
  irreducible_poly p <->
  (p %| 'X^(2 ^ n) - 'X /\ forall q, prime q -> (q %| n)%N -> coprimep p ('X^(2 ^ (n %/ q)%N) - 'X)).
Proof.
move=> sp n0. split=> [irr|[D C]].
- have q := quo_fieldP irr. have en : (size p).-1 = n by rewrite sp. split.
    by have := dvd_frob q; rewrite en.
  move=> r pr rn. have := @not_dvd_frob p q (n %/ r)%N. rewrite en.
  have r1 := prime_gt1 pr.
  have lt : (0 < n %/ r < n)%N.
    rewrite divn_gt0 ?prime_gt0 // dvdn_leq //= ltn_Pdiv //.
  move/(_ lt) => nd. rewrite coprimep_def. have [_ /(_ (gcdp p ('X^(2 ^ (n %/ r)%N) - 'X)))] := irr.
  case: (size (gcdp _ _) =P 1%N) => // _ /(_ isT (dvdp_gcdl _ _)) E.
  by move: nd; rewrite -(eqp_dvdl _ E) dvdp_gcdr.
- have p1 : (1 < size p)%N by rewrite sp.
  have [f [irf df]] := irr_factor p1. have q := quo_fieldP irf.
  have nzp : p != 0 by rewrite -size_poly_gt0 ltnW.
  set d := (size f).-1.
  have dn : (d %| n)%N by rewrite -(dvd_frobE q irf); apply: dvdp_trans df D.
  have d0 : (0 < d)%N := n_gt0 irf.
  have nzf : f != 0 by apply: contraNneq nzp => E; move: df; rewrite E dvd0p.
  have sf : size f = d.+1 by rewrite /d prednK // size_poly_gt0.
  case: (n =P d) => [E|ne].
    have : p %= f by rewrite eqp_sym -dvdp_size_eqp // sf sp E.
    move=> Epf. split=> // a a1 da. case: irf => _ /(_ a a1). rewrite -(eqp_dvdr _ Epf) => /(_ da) Eaf.
    by apply: eqp_trans Eaf _; rewrite eqp_sym.
  exfalso. have nd1 : (1 < n %/ d)%N.
    have : (n %/ d * d = n)%N by apply: divnK. case: (n %/ d)%N => [|[|//]]; lia.
  pose r := pdiv (n %/ d)%N. have pr : prime r by exact: pdiv_prime.
  have rn : (r %| n)%N. { apply: dvdn_trans (pdiv_dvd _) _. exact: dvdn_div. }
  have := C r pr rn. rewrite coprimep_def => /eqP.
  have drn : (d %| n %/ r)%N.
    rewrite dvdn_divRL // mulnC -dvdn_divRL //. exact: pdiv_dvd.
  have ff : f %| gcdp p ('X^(2 ^ (n %/ r)%N) - 'X).
    by rewrite dvdp_gcd df (dvd_frobE q irf).
  move=> sg. have := dvdp_leq _ ff. rewrite -size_poly_gt0 sg => /(_ isT).
  by rewrite sf; lia.
Qed.
