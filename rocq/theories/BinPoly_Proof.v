(* Bridge between the integers of BinPoly_Model and mathcomp's {poly 'F_2}. *)
Set Warnings "-notation-overridden,-ambiguous-paths".
From Verif Require Import BinPoly_Model.
From Coq Require Import NArith PeanoNat Lia.
From mathcomp Require Import all_ssreflect all_algebra zify.
Set Implicit Arguments.
Unset Strict Implicit.
Unset Printing Implicit Defensive.
Import GRing.Theory.
Local Open Scope ring_scope.

Notation F2 := 'F_2.
Notation P2 := {poly 'F_2}.

Lemma F2_cases (x : F2) : x = 0 \/ x = 1.
Proof. by case: x => [[|[|m]] Hm]; [left|right|]; try exact: val_inj. Qed.
Lemma F2_add (a b : bool) : (a (+) b)%:R = a%:R + b%:R :> F2.
Proof. by case: a; case: b; apply: val_inj. Qed.
Lemma F2_bool_inj (a b : bool) : a%:R = b%:R :> F2 -> a = b.
Proof. by case: a; case: b. Qed.
Lemma char2 : 2%N \in [char F2].
Proof. exact: char_Fp. Qed.
Lemma addpp (p : P2) : p + p = 0.
Proof. by apply/polyP => i; rewrite coefD coef0 addrr_char2 // char2. Qed.
Lemma oppp (p : P2) : - p = p.
Proof. by apply/eqP; rewrite eq_sym -subr_eq0 opprK addpp. Qed.

Fixpoint Pp (p : positive) : P2 :=
  match p with
  | xH => 1
  | xO q => Pp q * 'X
  | xI q => Pp q * 'X + 1
  end.
Definition P (a : N) : P2 := match a with N0 => 0 | Npos p => Pp p end.

Lemma P_double_plus (a : N) (b : bool) : P (N.add (N.mul 2 a) (if b then 1%num else 0%num)) = P a * 'X + b%:R.
Proof. by case: a b => [|p] [] //=; rewrite ?mul0r ?add0r ?addr0. Qed.

Lemma coefP2 (a : N) (i : nat) : (P a)`_i = (N.testbit a (N.of_nat i))%:R.
Proof.
elim: i a => [|i IH] a.
- case: a => [|[p|p|]] /=; rewrite ?coef0 ?coefD ?coefMX ?coef1 //= ?add0r //.
- have -> : N.testbit a (N.of_nat i.+1) = N.testbit (N.div2 a) (N.of_nat i).
  { rewrite N.div2_spec N.shiftr_spec'. f_equal. lia. }
  rewrite -IH. case: a => [|[p|p|]] /=; rewrite ?coef0 ?coefD ?coefMX ?coef1 //= ?addr0 //.
Qed.
Lemma P_inj : injective P.
Proof.
move=> a b E. apply: N.bits_inj => n. rewrite -(N2Nat.id n). apply: F2_bool_inj. by rewrite -!coefP2 E.
Qed.
Lemma P_surj (p : P2) : exists a, P a = p.
Proof.
elim/poly_ind: p => [|p c [a Ha]]; first by exists 0%num.
case: (F2_cases c) => ->.
- exists (N.add (N.mul 2 a) 0%num). by rewrite (P_double_plus a false) Ha polyC0.
- exists (N.add (N.mul 2 a) 1%num). by rewrite (P_double_plus a true) Ha polyC1.
Qed.

Lemma P0 : P 0%num = 0. Proof. by []. Qed.
Lemma P1 : P 1%num = 1. Proof. by []. Qed.
Lemma PX : P 2%num = 'X. Proof. by rewrite /= mul1r. Qed.
Lemma Padd a b : P (padd a b) = P a + P b.
Proof. by apply/polyP => i; rewrite coefD !coefP2 /padd N.lxor_spec -F2_add; case: (N.testbit a _); case: (N.testbit b _). Qed.
Lemma Psub a b : P (psub a b) = P a - P b.
Proof. by rewrite oppp; exact: Padd. Qed.
Lemma Pdouble a : P (N.mul 2 a) = P a * 'X.
Proof. by rewrite -[N.mul 2 a]N.add_0_r (P_double_plus a false) addr0. Qed.
Lemma Pshiftl a d : P (N.shiftl a (N.of_nat d)) = P a * 'X^d.
Proof.
elim: d => [|d IH]; first by rewrite expr0 mulr1; f_equal; exact: N.shiftl_0_r.
by rewrite Nat2N.inj_succ N.shiftl_succ_r Pdouble IH exprSr mulrA.
Qed.
Lemma Pparity a : P a = P (N.div2 a) * 'X + (N.odd a)%:R.
Proof. by case: a => [|[p|p|]] /=; rewrite ?mul0r ?add0r ?addr0. Qed.

Lemma Psize a : size (P a) = bit_length a.
Proof.
case: a => [|p]; rewrite /bit_length /=; first by rewrite size_poly0.
have nz : forall q, Pp q != 0.
{ move=> q; apply/eqP => E. by move: (P_inj (E : P (Npos q) = P 0%num)). }
elim: p => [p IH|p IH|] /=; rewrite ?size_poly1 //.
- by rewrite -(@polyC1) size_MXaddC (negbTE (nz p)) IH.
- by rewrite size_mulX ?nz // IH.
Qed.
Lemma P_eq0 a : (P a == 0) = (a == 0%num :> N).
Proof. by apply/eqP/eqP => [E|->] //; apply: P_inj. Qed.

(* ---- multiplication *)
Lemma mul_loop_spec fuel : forall v a b, (N.size_nat b <= fuel)%coq_nat -> P (mul_loop fuel v a b) = P v + P a * P b.
Proof.
elim: fuel => [|f IH] v a b Hb; cbn [mul_loop].
- have -> : b = 0%num by case: b Hb => [|[]] //= *; lia.
  by rewrite mulr0 addr0.
- case: N.eqb_spec => [->|nz]; first by rewrite mulr0 addr0.
  rewrite IH.
  2:{ case: b Hb nz => [|[p|p|]] //= *; lia. }
  rewrite -[N.shiftl a 1]/(N.shiftl a (N.of_nat 1)) Pshiftl expr1 -N.div2_spec [P b]Pparity.
  have -> : P (if N.odd b then N.lxor v a else v) = P v + P a * (N.odd b)%:R.
  { by case: (N.odd b); rewrite ?mulr1 ?mulr0 ?addr0 // -[N.lxor v a]/(padd v a) Padd. }
  rewrite mulrDr mulrA -addrA. congr (_ + _). by rewrite addrC -!mulrA ['X * _]mulrC.
Qed.
Lemma Pmul a b : P (pmul a b) = P a * P b.
Proof. by rewrite /pmul mul_loop_spec ?P0 ?add0r. Qed.

(* ---- division *)
Lemma P_top a : a <> 0%num -> P a = 'X^(bit_length a).-1 + P (N.lxor a (N.shiftl 1 (N.of_nat (bit_length a).-1))).
Proof.
by move=> _; rewrite -[N.lxor _ _]/(padd _ _) Padd Pshiftl mul1r addrCA addpp addr0.
Qed.
Lemma P_monic a : a <> 0%num -> P a \is monic.
Proof.
move=> nz. apply/monicP. have : lead_coef (P a) != 0 by rewrite lead_coef_eq0 P_eq0; apply/eqP.
by case: (F2_cases (lead_coef (P a))) => -> //; rewrite eqxx.
Qed.
Lemma size_step (p q : P2) : q \is monic -> p \is monic -> (size q <= size p)%N ->
  (size (p + q * 'X^(size p - size q))%R < size p)%N.
Proof.
move=> mq mp le. have nq := monic_neq0 mq. have np := monic_neq0 mp.
have sz : size (q * 'X^(size p - size q)) = size p.
{ rewrite size_monicM ?monicXn // ?size_polyXn //; last by rewrite monic_neq0 ?monicXn. lia. }
have : (size (p + q * 'X^(size p - size q))%R <= size p)%N.
{ by apply: leq_trans (size_add _ _) _; rewrite sz maxnn. }
rewrite leq_eqVlt => /orP[/eqP E|//].
have : lead_coef (p + q * 'X^(size p - size q)) = 0.
{ rewrite /lead_coef E coefD. have -> : p`_(size p).-1 = 1 by apply/monicP.
  have -> : (q * 'X^(size p - size q))`_(size p).-1 = 1.
  { rewrite -{2}sz. by apply/monicP; rewrite monicMl ?monicXn. }
  exact: val_inj. }
move/eqP. rewrite lead_coef_eq0 => /eqP E0. move: E. rewrite E0 size_poly0 => E.
by move: np; rewrite -size_poly_eq0 -E.
Qed.

Lemma div_loop_spec den : den <> 0%num -> forall fuel dv md, (bit_length md <= fuel)%coq_nat ->
  exists q r, div_loop fuel dv md den = Some (q, r) /\ P q * P den + P r = P dv * P den + P md /\
    (size (P r) < size (P den))%N.
Proof.
move=> nz. elim=> [|f IH] dv md Hf; cbn [div_loop].
- have Z : bit_length md = 0%N by lia.
  have D : (0 < bit_length den)%N. { by rewrite -Psize lt0n size_poly_eq0 P_eq0; apply/eqP. }
  case: Nat.leb_spec => H; first by lia.
  exists dv, md; split=> //; split=> //. by rewrite !Psize; lia.
- case: Nat.leb_spec => H; last first.
    exists dv, md; split=> //; split=> //. by rewrite !Psize; lia.
  set d := (bit_length md - bit_length den)%coq_nat.
  have D : (0 < bit_length den)%N. { by rewrite -Psize lt0n size_poly_eq0 P_eq0; apply/eqP. }
  have nm : md <> 0%num. { by move=> E; move: H; rewrite E /=; lia. }
  have PM : P (N.lxor md (N.shiftl den (N.of_nat d))) = P md + P den * 'X^d.
  { by rewrite -[N.lxor _ _]/(padd _ _) Padd Pshiftl. }
  have PD : P (N.lxor dv (N.shiftl 1 (N.of_nat d))) = P dv + 'X^d.
  { by rewrite -[N.lxor _ _]/(padd _ _) Padd Pshiftl mul1r. }
  case: (IH (N.lxor dv (N.shiftl 1 (N.of_nat d))) (N.lxor md (N.shiftl den (N.of_nat d)))).
  { rewrite -Psize PM. have := size_step (P_monic nz) (P_monic nm).
    rewrite !Psize => /(_ ltac:(lia)). rewrite -[(bit_length md - bit_length den)%N]/d. move=> L. lia. }
  move=> q [r [E [Q S]]]. exists q, r; split=> //; split=> //.
  rewrite Q PM PD mulrDl [P den * _]mulrC -addrA. congr (_ + _). by rewrite addrCA addpp addr0.
Qed.
Lemma pdivmod_spec a den : den <> 0%num -> exists q r, pdivmod a den = Some (q, r) /\
  P a = P q * P den + P r /\ (size (P r) < size (P den))%N.
Proof.
move=> nz. rewrite /pdivmod. case: N.eqb_spec => // _.
case: (@div_loop_spec den nz (bit_length a) 0%num a (le_n _)) => q [r [E [Q S]]].
by exists q, r; split=> //; split=> //; rewrite Q mul0r add0r.
Qed.
Lemma Pdivmod a den : den <> 0%num -> P (pquo a den) = P a %/ P den /\ P (pmod a den) = P a %% P den.
Proof.
move=> nz. case: (pdivmod_spec a nz) => q [r [E [Q S]]]. rewrite /pquo /pmod E.
by split; [apply: divpP Q S|apply: modpP Q S].
Qed.
Lemma Pdiv a den : den <> 0%num -> P (pquo a den) = P a %/ P den.
Proof. by case/(Pdivmod a). Qed.
Lemma Pmod a den : den <> 0%num -> P (pmod a den) = P a %% P den.
Proof. by case/(Pdivmod a). Qed.

(* ---- gcd *)
Lemma size_ind_lt x y : y <> 0%num -> (bit_length (pmod x y) < bit_length y)%N.
Proof. move=> nz. rewrite -!Psize Pmod // ltn_modp P_eq0. exact/eqP. Qed.
Lemma gcd_loop_spec fuel : forall x y, (bit_length y < fuel)%N -> exists g, gcd_loop fuel x y = Some g /\ P g %= gcdp (P x) (P y).
Proof.
elim: fuel => [//|f IH] x y Hf; cbn [gcd_loop]. case: N.eqb_spec => [->|nz].
- by exists x; split=> //; rewrite gcdp0 eqpxx.
- case: (IH y (pmod x y)); first by have := size_ind_lt x nz; lia.
  move=> g [E G]. exists g; split=> //. apply: eqp_trans G _. rewrite Pmod //.
  exact: eqp_trans (gcdp_modr _ _) (gcdpC _ _).
Qed.
Lemma eqp2 (p q : P2) : p %= q -> p = q.
Proof.
move=> H. case: (boolP (p == 0)) => [/eqP E|np].
- by move: H; rewrite E eqp_sym eqp0 => /eqP ->.
- have nq : q != 0 by move: H; apply: contraL => /eqP ->; rewrite eqp0.
  have mon : forall r : P2, r != 0 -> r \is monic.
  { move=> r. case: (P_surj r) => a <-. rewrite P_eq0 => /eqP. exact: P_monic. }
  by apply/eqP; rewrite -eqp_monic ?mon.
Qed.
Lemma pgcd_spec x y : exists g, pgcd x y = Some g /\ P g = gcdp (P x) (P y).
Proof. by case: (@gcd_loop_spec (bit_length y).+1 x y (leqnn _)) => g [E /eqp2 G]; exists g. Qed.

Lemma xgcd_loop_spec fuel : forall x y, (bit_length x < fuel)%N -> exists d s t, xgcd_loop fuel x y = Some (d, s, t) /\
  P d = gcdp (P x) (P y) /\ P s * P x + P t * P y = P d /\
  (x <> 0%num -> (bit_length x < bit_length y)%N ->
     (size (P s) + size (P d) <= size (P y))%N /\ (size (P t) + size (P d) <= size (P x))%N).
Proof.
elim: fuel => [//|f IH] x y Hf; cbn [xgcd_loop]. case: N.eqb_spec => [->|nz].
- exists y, 0%num, 1%num; split=> //; split; first by rewrite gcd0p.
  split=> //. by rewrite mul0r add0r mul1r.
- case: (IH (pmod y x) x); first by have := size_ind_lt y nz; lia.
  move=> d [s [t [E [G [B S]]]]]. rewrite E. exists d, (psub t (pmul s (pquo y x))), s.
  have PS : P (psub t (pmul s (pquo y x))) = P t - P s * (P y %/ P x) by rewrite Psub Pmul Pdiv.
  split=> //; split; [|split].
  + rewrite G Pmod //. apply: eqp2. apply: eqp_trans (gcdpC _ _) _. apply: eqp_trans (gcdp_modr _ _) _. exact: eqpxx.
  + rewrite PS -B Pmod // {2}(divp_eq (P y) (P x)) mulrDr mulrBl -mulrA.
    set u := P s * (P y %/ P x * P x). set v := P s * (P y %% P x). set w := P t * P x.
    by rewrite addrA subrK addrC.
  + move=> _ L. have nx : P x != 0 by rewrite P_eq0; apply/eqP.
    have nd : (0 < size (P d))%N.
    { rewrite lt0n size_poly_eq0 G gcdp_eq0 negb_and nx orbT //. }
    have sq : size (P y %/ P x) = (size (P y) - (size (P x)).-1)%N by rewrite size_divp.
    have sx : (0 < size (P x))%N by rewrite lt0n size_poly_eq0.
    case: (N.eqb_spec (pmod y x) 0%num) => [Z|nr].
    * move: E. case: f Hf IH => [|f] Hf IH; cbn [xgcd_loop]; rewrite Z N.eqb_refl => -[Ed Es Et].
      -- rewrite PS -Es -Et P0 P1 mul0r subr0 size_poly1 size_poly0 -Ed. rewrite !Psize. lia.
      -- rewrite PS -Es -Et P0 P1 mul0r subr0 size_poly1 size_poly0 -Ed. rewrite !Psize. lia.
    * case: S => //; first exact: size_ind_lt. move=> S1 S2. split=> //. rewrite PS.
      have S3 : (size (P (pmod y x)) < size (P x))%N by rewrite !Psize size_ind_lt.
      have : (size (P t - P s * (P y %/ P x))%R <= maxn (size (P t)) (size (P s * (P y %/ P x))%R))%N.
      { by rewrite -[X in maxn _ X]size_opp size_add. }
      have : (size (P s * (P y %/ P x))%R <= (size (P s) + size (P y %/ P x)%R).-1)%N by exact: size_mul_leq.
      rewrite !Psize in L S1 S2 S3 sq nd sx *. lia.
Qed.
