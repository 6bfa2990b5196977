(* Rabin's test and the primitivity test of BinaryPolynomial. *)
Set Warnings "-notation-overridden,-ambiguous-paths".
From Coq Require List.
From Coq Require Import NArith ZArith PeanoNat Lia.
From Verif Require Import BinPoly_Model BinPoly_Proof GF2_Proof Algebra_Spec PrimeFactors_Proof.
From mathcomp Require Import all_ssreflect all_algebra zify.
Set Implicit Arguments.
Unset Strict Implicit.
Unset Printing Implicit Defensive.
Import GRing.Theory.
Local Open Scope ring_scope.

(* ---- N and nat *)
Lemma Nto_pow (a b : N) : N.to_nat (N.pow a b) = (N.to_nat a ^ N.to_nat b)%N.
Proof. lia. Qed.
Lemma Ndvd (a b : N) : N.divide a b <-> (N.to_nat a %| N.to_nat b)%N.
Proof.
split=> [[c ->]|/dvdnP [k E]].
- by rewrite N2Nat.inj_mul; apply: dvdn_mull.
- exists (N.of_nat k). lia.
Qed.
Lemma Nprime (q : N) : nprime q <-> prime (N.to_nat q).
Proof.
split=> [[q1 H]|/primeP [q1 H]].
- apply/primeP; split; first lia.
  move=> d dq. have [] := H (N.of_nat d); first (apply/Ndvd; by rewrite Nat2N.id).
  + by move=> E; (have -> : d = 1%N by lia); rewrite eqxx.
  + by move=> E; (have -> : d = N.to_nat q by lia); rewrite eqxx orbT.
- split; first (move/ltP: q1 => q1; clear -q1; lia). move=> d /Ndvd /H /orP [/eqP|/eqP] E; [left|right]; apply: N2Nat.inj; exact: E.
Qed.
Lemma Ndiv (a b : N) : N.to_nat (N.div a b) = (N.to_nat a %/ N.to_nat b)%N.
Proof.
rewrite N2Nat.inj_div. case: (posnP (N.to_nat b)) => [->|b0]; first by rewrite divn0.
symmetry. apply: (@Nat.div_unique _ _ _ (N.to_nat a %% N.to_nat b)%N); first by apply/ltP; rewrite ltn_mod.
by rewrite {1}(divn_eq (N.to_nat a) (N.to_nat b)) mulnC.
Qed.

(* ---- power_mod *)
Lemma modp_exp (p m : P2) k : (p %% m) ^+ k %% m = p ^+ k %% m.
Proof. elim: k => [//|k IH]. by rewrite !exprS mulrC modp_mul mulrC -modp_mul IH modp_mul. Qed.
Lemma power_mod_loop_spec m (nz : m <> 0%num) fuel : forall r c e, (N.size_nat e <= fuel)%coq_nat ->
  P (power_mod_loop fuel r c e m) %% P m = (P r * P c ^+ N.to_nat e) %% P m /\
  (e <> 0%num \/ P r = P r %% P m -> P (power_mod_loop fuel r c e m) = P (power_mod_loop fuel r c e m) %% P m).
Proof.
elim: fuel => [|f IH] r c e He; cbn [power_mod_loop].
- have -> : e = 0%num by case: e He => [|[]] //= *; lia.
  rewrite expr0 mulr1. by split=> // -[].
- case: N.eqb_spec => [->|ne]; first by rewrite expr0 mulr1; split=> // -[].
  have He' : (N.size_nat (N.shiftr e 1) <= f)%coq_nat.
    by case: e He ne => [|[p|p|]] //= *; lia.
  have Ee : N.to_nat e = (N.odd e + (N.to_nat (N.shiftr e 1)).*2)%N.
    by case: e {He ne He'} => [|[p|p|]] //=; lia.
  have Eo : N.shiftr e 1 = 0%num -> N.odd e = true.
    by case: e {He He' Ee} ne => [|[p|p|]].
  set r' := if _ then _ else _.
  have [I1 I2] := IH r' (pmod (pmul c c) m) (N.shiftr e 1) He'. split.
  + rewrite I1 /r' Pmod // Pmul.
    rewrite Ee exprD -muln2 mulnC exprM. set k := N.to_nat _.
    rewrite -modp_mul modp_exp modp_mul. case: (N.odd e).
    * rewrite Pmod // Pmul expr1 mulrA. by rewrite mulrC modp_mul mulrC.
    * by rewrite expr0 mul1r.
  + move=> H. apply: I2. case: (N.eqb_spec (N.shiftr e 1) 0) => [E|]; last by left.
    right. by rewrite /r' Eo // Pmod // modp_mod.
Qed.
Lemma power_mod_spec b e m : m <> 0%num -> e <> 0%num -> P (power_mod b e m) = (P b ^+ N.to_nat e) %% P m.
Proof.
move=> nz ne. rewrite /power_mod. have [I1 I2] := @power_mod_loop_spec m nz (N.size_nat e) 1%num b e (le_n _).
by rewrite I2 ?I1 ?P1 ?mul1r //; left.
Qed.

Lemma rabin_term p d : p <> 0%num -> P (padd (power_mod px (N.pow 2 d) p) (pmod px p)) = ('X^(2 ^ N.to_nat d) - 'X) %% P p.
Proof.
move=> nz. rewrite Padd power_mod_spec //; last by lia.
by rewrite Pmod // PX Nto_pow oppp modpD.
Qed.


Lemma nirr p : nirreducible p <-> irreducible_poly (P p).
Proof.
split.
- case=> [n0 [n1 H]]. split.
    rewrite ltn_neqAle eq_sym size_poly_gt0 P_eq0. apply/andP; split; last by apply/eqP.
    apply/negP => /size_poly1P [c c0 E]. apply: n1. apply: P_inj. rewrite E P1.
    by case: (F2_cases c) c0 => ->; rewrite ?eqxx // polyC1.
  move=> a a1 da. have [b Hb] := P_surj a. have /dvdpP [c Hc] := da.
  have [d Hd] := P_surj c. subst a c. move: Hc; rewrite -Pmul => /P_inj E.
  case: (H d b) => // [Ed|Eb].
  + move: E; rewrite Ed => ->. by rewrite Pmul P1 mul1r eqpxx.
  + by move: a1; rewrite Eb P1 size_poly1.
- case=> p1 H. split; [|split].
  + by move=> E; move: p1; rewrite E size_poly0.
  + by move=> E; move: p1; rewrite E P1 size_poly1.
  + move=> a b E. case: (size (P b) =P 1%N) => [/eqP/size_poly1P [c c0 Eb]|nb].
      right. apply: P_inj. rewrite Eb P1. by case: (F2_cases c) c0 => ->; rewrite ?eqxx // polyC1.
    left. have /eqP nb' := nb. have := H (P b) nb'. rewrite -E Pmul => /(_ (dvdp_mull _ (dvdpp _))) /eqp2 Eb.
    apply: P_inj. have nzb : P b != 0.
      apply: contraTneq p1 => Z. by rewrite -E Pmul Z mulr0 size_poly0.
    apply: (mulIf nzb). by rewrite P1 mul1r.
Qed.

Lemma is_irreducible_spec p : is_irreducible p = true <-> nirreducible p.
Proof.
rewrite nirr /is_irreducible /pdegree. case: Z.leb_spec => D.
- split=> // -[]. rewrite Psize. lia.
- set n := N.of_nat (bit_length p - 1).
  have n0 : (0 < bit_length p - 1)%N by lia.
  have nz : p <> 0%num by move=> E; rewrite E /= in D; lia.
  have [qs [E _]] := @prime_factors_spec n ltac:(lia). rewrite E.
  have In_qs := fun q => @prime_factors_in n qs q ltac:(lia) E.
  rewrite (@rabin (P p) (bit_length p - 1)%N) //; last by rewrite Psize; lia.
  have gcdE q : q <> 0%num -> match pgcd p (padd (power_mod px (N.pow 2 (N.div n q)) p) (pmod px p)) with
                           | Some g => N.eqb g 1 | None => false end = coprimep (P p) ('X^(2 ^ ((bit_length p - 1) %/ N.to_nat q)%N) - 'X).
    move=> _. have [g [-> G]] := pgcd_spec p (padd (power_mod px (N.pow 2 (N.div n q)) p) (pmod px p)).
    rewrite rabin_term // Ndiv Nat2N.id in G. rewrite -coprimep_modr /coprimep -G Psize.
    by case: g {G} => [|[[]|[]|]].
  have dvdE : (P p %| 'X^(2 ^ (bit_length p - 1)) - 'X) = N.eqb (padd (power_mod px (N.pow 2 n) p) (pmod px p)) 0.
    have := rabin_term n nz. rewrite /n Nat2N.id /dvdp => <-. rewrite P_eq0.
    by apply/eqP/N.eqb_spec.
  rewrite dvdE. split.
  + case: ifP => // /List.forallb_forall H ->. split=> // q pq dq.
    have qn : nprime (N.of_nat q) by apply/Nprime; rewrite Nat2N.id.
    have := H (N.of_nat q). rewrite gcdE; last by case: qn; lia.
    rewrite Nat2N.id. apply. apply/In_qs. split=> //. by apply/Ndvd; rewrite !Nat2N.id.
  + case=> -> H. case: ifP => //. move/negbT/negP; case. apply/List.forallb_forall => q /In_qs [pq dq].
    rewrite gcdE; last by case: pq; lia.
    apply: H; first by apply/Nprime. move/Ndvd: dq. by rewrite Nat2N.id.
Qed.

Lemma ndvdE a b : ndvd a b <-> P a %| P b.
Proof.
split=> [[c ->]|/dvdpP [q E]]; first by rewrite Pmul dvdp_mull.
have [c Ec] := P_surj q. exists c. apply: P_inj. by rewrite Pmul Ec.
Qed.
Lemma Pxe1 e : P (xe1 e) = 'X^(N.to_nat e) - 1.
Proof. by rewrite oppp /xe1 -[N.lxor _ _]/(padd _ _) Padd -{1}(N2Nat.id e) Pshiftl P1 mul1r. Qed.

Lemma is_primitive_spec p : is_primitive p = true <->
  nirreducible p /\ (let N := N.sub (N.pow 2 (N.of_nat (bit_length p - 1))) 1 in
    ndvd p (xe1 N) /\ forall e, (0 < e < N)%num -> ~ ndvd p (xe1 e)).
Proof.
rewrite /is_primitive. have II := is_irreducible_spec p.
case: (is_irreducible p) II => II; last by split=> // -[/II].
have irrN := proj1 II erefl. have irr := proj1 (nirr p) irrN. rewrite [negb true]/=.
have nz : p <> 0%num by case: irrN.
case: N.eqb_spec => [E|nX].
  split=> // -[_ /= [H _]]. move: H. rewrite E => /ndvdE. rewrite PX Pxe1.
  rewrite [N.to_nat _]/= (_ : Pos.to_nat 1 = 1%N) // expr1 => H.
  have : 'X %| (1 : P2) by rewrite -(dvdp_addr _ H) subrK dvdpp || (have := dvdp_sub (dvdpp 'X) H; rewrite opprB addrCA subrr addr0).
  by rewrite dvdp1 size_polyX.
set M := N.sub _ 1.
have q := quo_fieldP irr. set x := qf_phi q 'X.
have n0 : (0 < bit_length p - 1)%N by case: irr => S _; rewrite Psize in S; lia.
have M1 : (1 <= M)%num.
  have : (2 <= N.pow 2 (N.of_nat (bit_length p - 1)))%num by rewrite -{1}(N.pow_1_r 2); apply: N.pow_le_mono_r; lia.
  rewrite /M; lia.
have MN : N.to_nat M = (2 ^ (size (P p)).-1 - 1)%N.
  rewrite /M N2Nat.inj_sub Nto_pow Nat2N.id Psize. by rewrite -subn1.
have x0 : x != 0.
  rewrite qf_ker. apply/negP => D.
  have Z : P p %= 'X.
    rewrite -dvdp_size_eqp // eqn_leq size_polyX. have [-> _] := irr.
    by have := dvdp_leq (monic_neq0 (monicX _)) D; rewrite size_polyX => ->.
  apply: nX. apply: P_inj. rewrite PX. exact: eqp2.
have dE e : ndvd p (xe1 e) <-> x ^+ N.to_nat e = 1.
  rewrite ndvdE Pxe1 -(qf_ker q) rmorphB rmorphX rmorph1 subr_eq0. by split=> /eqP.
have xM : x ^+ N.to_nat M = 1.
  apply: (mulfI x0). rewrite -exprS mulr1 MN subn1 prednK ?expn_gt0 //. exact: quo_exp.
have [qs [E _]] := @prime_factors_spec M M1. rewrite E.
have In_qs := fun q => @prime_factors_in M qs q M1 E.
have pmE e : e <> 0%num -> N.eqb (power_mod px e p) 1 = (x ^+ N.to_nat e == 1).
  move=> ne. rewrite -subr_eq0 /x -rmorphX -(rmorph1 (qf_phi q)) -rmorphB qf_ker /dvdp.
  have p1 : (1 < size (P p))%N by case: irr.
  have E1 : 1 = 1 %% P p by rewrite modp_small // size_poly1.
  rewrite modpD modpN -E1 -PX -power_mod_spec // -P1 subr_eq0.
  by apply/N.eqb_spec/eqP => [->|/P_inj].
split.
- move/List.forallb_forall => H. split=> //. cbn zeta. split; first by apply/dE.
  move=> e [e0 eM] /dE xe.
  have [m pm dm] := prim_order_exists (n := N.to_nat M) (ltac:(lia)) xM.
  have me : (m %| N.to_nat e)%N by rewrite (prim_order_dvd pm) xe.
  have mle := dvdn_leq (ltac:(lia) : (0 < N.to_nat e)%N) me.
  have m0 := prim_order_gt0 pm.
  have r1 : (1 < N.to_nat M %/ m)%N.
    have := divnK dm. case: (N.to_nat M %/ m)%N => [|[|//]]; lia.
  pose r := pdiv (N.to_nat M %/ m)%N. have pr : prime r by exact: pdiv_prime.
  have rM : (r %| N.to_nat M)%N. { apply: dvdn_trans (pdiv_dvd _) _. exact: dvdn_div. }
  have drn : (m %| N.to_nat M %/ r)%N.
    rewrite dvdn_divRL // mulnC -dvdn_divRL //. exact: pdiv_dvd.
  have := H (N.of_nat r). rewrite pmE.
    rewrite Ndiv Nat2N.id -(prim_order_dvd pm) drn. move/(_ _)/negP; apply=> //.
    apply/In_qs; split; first by apply/Nprime; rewrite Nat2N.id.
    by apply/Ndvd; rewrite Nat2N.id.
  move/(congr1 N.to_nat). rewrite Ndiv Nat2N.id => Z. have := divnK rM. rewrite Z. lia.
- case=> _ [_ H]. apply/List.forallb_forall => r /In_qs [pr dr].
  have rM := proj1 (Ndvd _ _) dr. have pr' := proj1 (Nprime _) pr.
  have lt : (0 < N.to_nat M %/ N.to_nat r < N.to_nat M)%N.
    rewrite divn_gt0 ?prime_gt0 // dvdn_leq ?ltn_Pdiv ?prime_gt1 //; lia.
  have lt' : (0 < N.div M r < M)%num by move: lt; rewrite -Ndiv; lia.
  rewrite pmE; last by lia. apply/negP => /eqP /dE. exact: H.
Qed.
