(* Ring laws, gcd/lcm, fractions: proofs through the bridge to {poly 'F_2}. *)
Set Warnings "-notation-overridden,-ambiguous-paths".
From Coq Require List.
From Coq Require Import NArith ZArith PeanoNat Lia.
From Verif Require Import BinPoly_Model BinPoly_Proof GF2_Proof Algebra_Spec PrimeFactors_Proof Irreducible_Proof.
From mathcomp Require Import all_ssreflect all_algebra fraction zify.
Set Implicit Arguments.
Unset Strict Implicit.
Unset Printing Implicit Defensive.
Import GRing.Theory.
Local Open Scope ring_scope.

(* ---- ring *)
Lemma pmulC a b : pmul a b = pmul b a. Proof. by apply: P_inj; rewrite !Pmul mulrC. Qed.
Lemma pmulA a b c : pmul a (pmul b c) = pmul (pmul a b) c. Proof. by apply: P_inj; rewrite !Pmul mulrA. Qed.
Lemma pmul1 a : pmul 1%num a = a. Proof. by apply: P_inj; rewrite !Pmul mul1r. Qed.
Lemma pmul0 a : pmul 0%num a = 0%num. Proof. by apply: P_inj; rewrite !Pmul mul0r. Qed.
Lemma pmulD a b c : pmul a (padd b c) = padd (pmul a b) (pmul a c).
Proof. by apply: P_inj; rewrite !Pmul !Padd !Pmul mulrDr. Qed.
Lemma pmul_eq0 a b : pmul a b = 0%num -> a = 0%num \/ b = 0%num.
Proof.
move=> E. have : P (pmul a b) == 0 by rewrite E.
by rewrite Pmul mulf_eq0 => /orP []; rewrite P_eq0 => /eqP ->; [left|right].
Qed.
Lemma bit_length_pmul a b : a <> 0%num -> b <> 0%num -> bit_length (pmul a b) = (bit_length a + bit_length b - 1)%coq_nat.
Proof.
move=> na nb. have Na : P a != 0 by rewrite P_eq0; apply/eqP. have Nb : P b != 0 by rewrite P_eq0; apply/eqP.
by rewrite -!Psize Pmul size_mul // -subn1.
Qed.

Lemma conv_spec a b k : N.testbit (pmul a b) (N.of_nat k) = conv_coeff a b k.
Proof.
apply: F2_bool_inj. rewrite -coefP2 Pmul coefM /conv_coeff.
rewrite -(big_mkord xpredT (fun i => (P a)`_i * (P b)`_(k - i)%N)).
have : (List.seq 0 (S k)) = index_iota 0 k.+1.
  rewrite /index_iota subn0. move: k.+1 0%N. elim=> [//|n IH] m /=. by rewrite IH.
move=> ->. elim: (index_iota 0 k.+1) => [|i l IH]; first by rewrite big_nil.
rewrite big_cons [List.map _ _]/= [List.fold_right _ _ _]/= IH !coefP2.
set u := List.fold_right _ _ _. set x := N.testbit a _. set y := N.testbit b _.
by case: u; case: x; case: y; apply: val_inj.
Qed.

Lemma power_loop_morph (A : Type) (R : ringType) (mul : A -> A -> A) (one : A) (f : A -> R) (ok : A -> Prop) :
  ok one -> (forall a b, ok a -> ok b -> ok (mul a b)) ->
  f one = 1 -> (forall a b, ok a -> ok b -> f (mul a b) = f a * f b) ->
  forall fuel n x, ok x -> (N.size_nat n <= fuel)%coq_nat ->
    ok (power_loop mul one fuel x n) /\ f (power_loop mul one fuel x n) = f x ^+ N.to_nat n.
Proof.
move=> ok1 okM f1 fM. elim=> [|fuel IH] n x okx Hn; cbn [power_loop].
- have -> : n = 0%num by case: n Hn => [|[]] //= *; lia. by [].
- case: N.eqb_spec => [->|n0]; first by []. case: N.eqb_spec => [->|n1]; first by rewrite expr1.
  have Hs : (N.size_nat (N.div n 2) <= fuel)%coq_nat.
    have : (0 < n)%num by lia. move/nsize_half. lia.
  have [o1 e1] := IH (N.div n 2) x okx Hs. cbn zeta.
  have En : N.to_nat n = (N.to_nat (N.div n 2) + N.to_nat (N.div n 2) + (if N.eqb (N.modulo n 2) 1 then 1 else 0))%N.
    have := N.div_mod n 2 ltac:(lia). have := N.mod_lt n 2 ltac:(lia). case: N.eqb_spec; lia.
  set y := power_loop _ _ _ _ _ in o1 e1 *. have o2 : ok (mul y y) by exact: okM. rewrite En.
  case: ifP => _.
  + split; first by exact: okM. rewrite fM // fM // e1 -exprD addn1 exprS //.
  + by rewrite addn0 fM // e1 -exprD.
Qed.
Lemma Ppow a n : P (ppow a n) = P a ^+ N.to_nat n.
Proof.
exact: (@power_loop_morph N [ringType of P2] pmul 1%num P (fun _ => True) I (fun _ _ _ _ => I) P1 (fun a b _ _ => Pmul a b) _ n a I (le_n _)).2.
Qed.
Lemma ppow0 a : ppow a 0%num = 1%num. Proof. by []. Qed.
Lemma ppowS a n : ppow a (N.succ n) = pmul a (ppow a n).
Proof. by apply: P_inj; rewrite Pmul !Ppow N2Nat.inj_succ exprS. Qed.

(* ---- division *)
Lemma divmod_unique a d : d <> 0%num -> exists q r, pdivmod a d = Some (q, r) /\
  a = padd (pmul q d) r /\ (bit_length r < bit_length d)%coq_nat /\
  forall q' r', a = padd (pmul q' d) r' -> (bit_length r' < bit_length d)%coq_nat -> q' = q /\ r' = r.
Proof.
move=> nz. have [q [r [E [Q S]]]] := pdivmod_spec a nz. exists q, r. split=> //. split; [|split].
- by apply: P_inj; rewrite Padd Pmul.
- by rewrite -!Psize; lia.
- move=> q' r' E' S'. have Ea : P a = P q' * P d + P r' by rewrite E' Padd Pmul.
  have S2 : (size (P r') < size (P d))%N by rewrite !Psize; lia.
  split; apply: P_inj.
  + by rewrite (divpP Q S) (divpP Ea S2).
  + by rewrite (modpP Q S) (modpP Ea S2).
Qed.

(* ---- gcd *)
Lemma gcd_spec a b : exists g, pgcd a b = Some g /\ ndvd g a /\ ndvd g b /\ forall c, ndvd c a -> ndvd c b -> ndvd c g.
Proof.
have [g [E G]] := pgcd_spec a b. exists g. split=> //.
split; [|split]; rewrite ?ndvdE ?G ?dvdp_gcdl ?dvdp_gcdr //.
move=> c. by rewrite !ndvdE G dvdp_gcd => -> ->.
Qed.
Lemma xgcd_spec a b : exists d s t, pxgcd a b = Some (d, s, t) /\ pgcd a b = Some d /\ padd (pmul s a) (pmul t b) = d.
Proof.
have [d [s [t [E [G [B _]]]]]] := @xgcd_loop_spec (bit_length a).+1 a b (leqnn _).
exists d, s, t. split=> //. split; last by apply: P_inj; rewrite Padd !Pmul.
have [g [-> G']] := pgcd_spec a b. congr Some. apply: P_inj. by rewrite G G'.
Qed.
Lemma gcd_list_spec l : l <> nil -> exists g, gcd_list l = Some g /\ (forall x, List.In x l -> ndvd g x) /\
  forall c, (forall x, List.In x l -> ndvd c x) -> ndvd c g.
Proof.
case: l => // x l _. rewrite /gcd_list /reduce. elim: l x => [|y l IH] x.
- exists x. split=> //. split=> [z [->|[]]|c H]; first by exists 1%num; rewrite pmul1. by apply: H; left.
- have [g [E [ga [gb gm]]]] := gcd_spec x y. cbn [List.fold_left]. rewrite E.
  have [h [E' [h1 h2]]] := IH g. exists h. split=> //.
  have hg : ndvd h g by apply: h1; left.
  have tr u v w : ndvd u v -> ndvd v w -> ndvd u w by rewrite !ndvdE; exact: dvdp_trans.
  split.
  + move=> z [<-|[<-|Hz]]; [exact: tr hg ga|exact: tr hg gb|by apply: h1; right].
  + move=> c H. apply: h2 => z [<-|Hz].
    * by apply: gm; apply: H; [left|right; left].
    * by apply: H; right; right.
Qed.

Lemma quo_mul_gcd a b g : pgcd a b = Some g -> a <> 0%num \/ b <> 0%num ->
  [/\ g <> 0%num, P a = P (pquo a g) * P g, P b = P (pquo b g) * P g & coprimep (P (pquo a g)) (P (pquo b g))].
Proof.
move=> E nz. have [g' [E' G]] := pgcd_spec a b. move: E'; rewrite E => -[Eg]. subst g'.
have g0 : g <> 0%num.
  move=> Z. move: G. rewrite Z P0 => /esym/eqP. rewrite gcdp_eq0 !P_eq0. case/andP=> /eqP H1 /eqP H2. by case: nz.
split=> //; rewrite ?Pdiv // ?divpK // G ?dvdp_gcdl ?dvdp_gcdr //.
apply: coprimep_div_gcd. rewrite !P_eq0. by case: nz => /eqP ->; rewrite ?orbT.
Qed.

Lemma domain_lcm_spec a b : exists m, domain_lcm a b = Some m /\ ndvd a m /\ ndvd b m /\
  forall c, ndvd a c -> ndvd b c -> ndvd m c.
Proof.
rewrite /domain_lcm. case: N.eqb_spec => [->|na]; cbn [orb].
  exists 0%num. split=> //. split; [|split]; rewrite ?ndvdE ?dvdp0 //.
case: N.eqb_spec => [->|nb]; cbn [orb].
  exists 0%num. split=> //. split; [|split]; rewrite ?ndvdE ?dvdp0 //.
have [g [E G]] := pgcd_spec a b. rewrite E. eexists; split; first by [].
have [g0 Ea Eb] := quo_mul_gcd E (or_introl na). have Ng : P g != 0 by rewrite P_eq0; apply/eqP.
set u := P (pquo a g) in Ea *. set v := P (pquo b g) in Eb *. move=> cop.
rewrite !ndvdE Pmul -/u. split; [|split].
- by rewrite Ea Eb mulrCA dvdp_mull.
- by rewrite dvdp_mull.
- move=> c /ndvdE Da /ndvdE Db. rewrite ndvdE Pmul -/u. move: Da => /dvdpP [s Es].
  rewrite Es Ea in Db *. rewrite Eb mulrA dvdp_mul2r // in Db.
  rewrite Eb !mulrA dvdp_mul2r // mulrC dvdp_mul //.
  by move: Db; rewrite Gauss_dvdpl // coprimep_sym.
Qed.

Lemma lcm_list2 a b : a <> 0%num \/ b <> 0%num -> lcm_list (cons a (cons b nil)) = domain_lcm a b.
Proof.
move=> nz. rewrite /lcm_list /gcd_list /reduce. cbn [List.fold_left].
have [g [E G]] := pgcd_spec a b. rewrite E. have [g0 Ea Eb cop] := quo_mul_gcd E nz.
have [q [r [Eq [Q S]]]] := pdivmod_spec (pmul a b) g0. rewrite Eq /domain_lcm E.
have Ng : P g != 0 by rewrite P_eq0; apply/eqP.
have Q' : P q = P (pmul a b) %/ P g by exact: divpP Q S.
case: N.eqb_spec => [Z|na]; cbn [orb].
  by congr Some; apply: P_inj; rewrite Q' Pmul Z mul0r div0p.
case: N.eqb_spec => [Z|nb]; cbn [orb].
  by congr Some; apply: P_inj; rewrite Q' Pmul Z mulr0 div0p.
congr Some; apply: P_inj. by rewrite Q' !Pmul {1}Ea mulrAC mulpK.
Qed.
Lemma lcm_list2_zero : lcm_list (cons 0%num (cons 0%num nil)) = None.
Proof. by []. Qed.

Lemma product_spec l x : exists p, reduce (fun a b => Some (pmul a b)) (cons x l) = Some p /\ P p = \prod_(i <- x :: l) P i.
Proof.
rewrite /reduce. elim: l x => [|y l IH] x; cbn [List.fold_left]; first by exists x; rewrite big_seq1.
have [p [-> Ep]] := IH (pmul x y). exists p; split=> //. by rewrite Ep !big_cons Pmul mulrA.
Qed.
(* with two or more arguments, not all zero, the result is at least a common multiple *)
Lemma lcm_common l : (2 <= length l)%coq_nat -> (exists x, List.In x l /\ x <> 0%num) ->
  exists m, lcm_list l = Some m /\ forall x, List.In x l -> ndvd x m.
Proof.
case: l => [|x0 l]; first by move=> /= /Nat.nle_succ_0. move=> L [z [Hz nz]]. rewrite /lcm_list.
have [p [-> Ep]] := product_spec l x0. have [g [-> [g1 _]]] := @gcd_list_spec (cons x0 l) ltac:(done).
have g0 : g <> 0%num. { move=> Z. have := g1 z Hz. rewrite Z ndvdE P0 dvd0p P_eq0 => /eqP. exact: nz. }
have [q [r [Eq [Q S]]]] := pdivmod_spec p g0. rewrite Eq. exists q; split=> // x Hx.
have Ng : P g != 0 by rewrite P_eq0; apply/eqP. rewrite ndvdE (divpP Q S) Ep.
have [l1 [l2 El]] := List.in_split _ _ Hx. move: L g1. rewrite El => L g1.
have -> : \prod_(i <- (l1 ++ x :: l2)%list) P i = P x * \prod_(i <- (l1 ++ l2)%list) P i.
  elim: l1 {El L g1} => [|y l1 IH]; first by rewrite big_cons. by rewrite /= !big_cons IH mulrCA.
have [y Hy] : exists y, List.In y (l1 ++ l2)%list.
  case: l1 l2 L {El g1} => [|y l1] [|y2 l2] /=; [lia| | |]; try (by exists y2; left); by exists y; left.
have gy : P g %| \prod_(i <- (l1 ++ l2)%list) P i.
  have : P g %| P y. { rewrite -ndvdE. apply: g1. apply/List.in_or_app. case: (List.in_app_or _ _ _ Hy) => H; [by left|by right; right]. }
  elim: (l1 ++ l2)%list Hy => [//|w t IH] [->|H] D; rewrite big_cons; [exact: dvdp_mulr|apply: dvdp_mull; exact: IH].
move/dvdpP: gy => [c ->]. by rewrite mulrA mulpK // dvdp_mulr.
Qed.

(* ---- fractions *)
Local Notation "x %:F" := (@FracField.tofrac _ x).
Notation FR := {fraction P2}.
Definition V (x : pfrac) : FR := (P (fst x))%:F / (P (snd x))%:F.
Lemma F_eq0 a : ((P a)%:F == 0 :> FR) = (a == 0%num :> N).
Proof. by rewrite tofrac_eq0 P_eq0. Qed.
Lemma reduced_coprime x : reduced_frac x <-> snd x <> 0%num /\ coprimep (P (fst x)) (P (snd x)).
Proof.
split=> -[d0 H]; split=> //.
- have [g [E G]] := pgcd_spec (fst x) (snd x). have := H g. rewrite !ndvdE G dvdp_gcdl dvdp_gcdr => /(_ isT isT) g1.
  by rewrite coprimep_def -G g1 P1 size_poly1.
- move=> c /ndvdE D1 /ndvdE D2. have : P c %| gcdp (P (fst x)) (P (snd x)) by rewrite dvdp_gcd D1.
  move: H. rewrite coprimep_def => /size_poly1P [k k0 ->]. rewrite dvdp_C || idtac.
  move=> D. have := dvdp_leq _ D. rewrite polyC_eq0 size_polyC k0 => /(_ isT) S.
  apply: P_inj. rewrite P1. have : P c != 0. { apply: contraTneq D => ->. by rewrite dvd0p polyC_eq0. }
  rewrite -size_poly_gt0 => S0. have /size_poly1P [j j0 ->] : size (P c) == 1%N by rewrite eqn_leq S S0.
  by case: (F2_cases j) j0 => ->; rewrite ?eqxx // polyC1.
Qed.
Lemma mk_frac_spec n d : d <> 0%num -> exists x, mk_frac n d = Some x /\ reduced_frac x /\ V x = (P n)%:F / (P d)%:F.
Proof.
move=> d0. rewrite /mk_frac. case: N.eqb_spec => // _. have [g [E G]] := pgcd_spec n d. rewrite E.
have [g0 En Ed cop] := quo_mul_gcd E (or_intror d0). eexists; split; first by []. split.
- apply/reduced_coprime; split=> //= Z. apply: d0. apply: P_inj. by rewrite Ed Z mul0r.
- rewrite /V /= [in RHS]En [in RHS]Ed !tofracM invfM mulrACA mulfV ?mulr1 // F_eq0. by apply/eqP.
Qed.
Lemma mk_frac_zero n : mk_frac n 0%num = None. Proof. by []. Qed.
Lemma V_inj x y : reduced_frac x -> reduced_frac y -> V x = V y -> x = y.
Proof.
case: x y => [n1 d1] [n2 d2] /reduced_coprime /= [H1 C1] /reduced_coprime /= [H2 C2] /eqP. rewrite /V /=.
have nd1 : (P d1)%:F != 0 :> FR by rewrite F_eq0; apply/eqP. have nd2 : (P d2)%:F != 0 :> FR by rewrite F_eq0; apply/eqP.
rewrite eqr_div // -!tofracM tofrac_eq => /eqP E.
have D1 : P d1 %| P d2. { have : P d1 %| P n1 * P d2 by rewrite E dvdp_mull. by rewrite Gauss_dvdpr // coprimep_sym. }
have D2 : P d2 %| P d1. { have : P d2 %| P n2 * P d1 by rewrite -E dvdp_mull. by rewrite Gauss_dvdpr // coprimep_sym. }
have Ed : P d1 = P d2 by apply: eqp2; rewrite /eqp D1 D2.
move: E. rewrite Ed => /mulIf. rewrite P_eq0 (_ : d2 != 0%num); last by apply/eqP.
by move/(_ isT)/P_inj => ->; rewrite (P_inj Ed).
Qed.
Lemma V_eq0 x : reduced_frac x -> (V x == 0) = (fst x == 0%num).
Proof. case=> d0 _. by rewrite /V mulf_eq0 invr_eq0 !F_eq0 (_ : snd x == 0%num = false) ?orbF //; apply/eqP. Qed.
Lemma V_snd x : reduced_frac x -> (P (snd x))%:F != 0 :> FR.
Proof. case=> d0 _. by rewrite F_eq0; apply/eqP. Qed.
Lemma snd_mul x y : reduced_frac x -> reduced_frac y -> pmul (snd x) (snd y) <> 0%num.
Proof. by move=> [dx _] [dy _] /pmul_eq0 []. Qed.
Lemma Vadd x y : reduced_frac x -> reduced_frac y -> exists z, frac_add x y = Some z /\ reduced_frac z /\ V z = V x + V y.
Proof.
move=> rx ry. have [z [E [rz Vz]]] := mk_frac_spec (padd (pmul (fst x) (snd y)) (pmul (fst y) (snd x))) (snd_mul rx ry).
exists z. split=> //; split=> //. by rewrite Vz Padd !Pmul !tofracD !tofracM addf_div // V_snd.
Qed.
Lemma Vsub x y : reduced_frac x -> reduced_frac y -> exists z, frac_sub x y = Some z /\ reduced_frac z /\ V z = V x + V y.
Proof. exact: Vadd. Qed.
Lemma Vmul x y : reduced_frac x -> reduced_frac y -> exists z, frac_mul x y = Some z /\ reduced_frac z /\ V z = V x * V y.
Proof.
move=> rx ry. have [z [E [rz Vz]]] := mk_frac_spec (pmul (fst x) (fst y)) (snd_mul rx ry).
exists z. split=> //; split=> //. by rewrite Vz !Pmul !tofracM mulf_div.
Qed.
Lemma Vinv x : reduced_frac x -> fst x <> 0%num -> exists z, frac_inv x = Some z /\ reduced_frac z /\ V z = (V x)^-1.
Proof.
move=> rx nx. have [z [E [rz Vz]]] := mk_frac_spec (snd x) nx. exists z. split=> //; split=> //. by rewrite Vz invf_div.
Qed.
Lemma Vdiv x y : reduced_frac x -> reduced_frac y -> fst y <> 0%num -> exists z, frac_div x y = Some z /\ reduced_frac z /\ V z = V x / V y.
Proof.
move=> rx ry ny. have [dx _] := rx. have nz : pmul (snd x) (fst y) <> 0%num by case/pmul_eq0.
have [z [E [rz Vz]]] := mk_frac_spec (pmul (fst x) (snd y)) nz.
exists z. split=> //; split=> //. by rewrite Vz !Pmul !tofracM invf_div mulf_div.
Qed.
Lemma V_char x : V x + V x = 0.
Proof. by rewrite -mulrDl -tofracD addpp tofrac0 mul0r. Qed.

(* ---- statements about fractions at the level of integers *)
Lemma Vcross x n d : reduced_frac x -> d <> 0%num -> V x = (P n)%:F / (P d)%:F -> pmul (fst x) d = pmul (snd x) n.
Proof.
move=> rx d0 /eqP. rewrite /V eqr_div; [|exact: V_snd|by rewrite F_eq0; apply/eqP].
rewrite -!tofracM tofrac_eq => /eqP E. apply: P_inj. by rewrite !Pmul E mulrC.
Qed.
Lemma mk_frac_cross n d : d <> 0%num -> exists x, mk_frac n d = Some x /\ reduced_frac x /\ pmul n (snd x) = pmul (fst x) d.
Proof. move=> d0. have [x [E [r Vx]]] := mk_frac_spec n d0. exists x. split=> //; split=> //. by rewrite (Vcross r d0 Vx) pmulC. Qed.
Lemma frac_closed x y : reduced_frac x -> reduced_frac y ->
  (exists z, frac_add x y = Some z /\ reduced_frac z) /\ (exists z, frac_sub x y = Some z /\ reduced_frac z) /\
  (exists z, frac_mul x y = Some z /\ reduced_frac z) /\
  (fst y <> 0%num -> exists z, frac_div x y = Some z /\ reduced_frac z) /\ (fst y <> 0%num -> exists z, frac_inv y = Some z /\ reduced_frac z).
Proof.
move=> rx ry. split; [|split; [|split; [|split]]].
- by have [z [E [r _]]] := Vadd rx ry; exists z.
- by have [z [E [r _]]] := Vsub rx ry; exists z.
- by have [z [E [r _]]] := Vmul rx ry; exists z.
- by move=> ny; have [z [E [r _]]] := Vdiv rx ry ny; exists z.
- by move=> ny; have [z [E [r _]]] := Vinv ry ny; exists z.
Qed.
Lemma frac_canonical x y : reduced_frac x -> reduced_frac y -> pmul (fst x) (snd y) = pmul (fst y) (snd x) -> x = y.
Proof.
move=> rx ry E. apply: V_inj => //. apply/eqP. rewrite /V eqr_div; [|exact: V_snd|exact: V_snd].
rewrite -!tofracM tofrac_eq. by rewrite -!Pmul E.
Qed.
Lemma frac_value x y : reduced_frac x -> reduced_frac y ->
  (forall z, frac_add x y = Some z -> pmul (fst z) (pmul (snd x) (snd y)) = pmul (snd z) (padd (pmul (fst x) (snd y)) (pmul (fst y) (snd x)))) /\
  (forall z, frac_mul x y = Some z -> pmul (fst z) (pmul (snd x) (snd y)) = pmul (snd z) (pmul (fst x) (fst y))) /\
  (forall z, frac_div x y = Some z -> pmul (fst z) (pmul (snd x) (fst y)) = pmul (snd z) (pmul (fst x) (snd y))).
Proof.
move=> rx ry.
have mk n d z : mk_frac n d = Some z -> pmul (fst z) d = pmul (snd z) n.
  case: (N.eqb_spec d 0) => [->|d0]; first by [].
  have [x' [E [r Vx]]] := mk_frac_spec n d0. rewrite E => -[<-]. exact: Vcross r d0 Vx.
split; [|split] => z; exact: mk.
Qed.
Lemma red0 : reduced_frac (0%num, 1%num).
Proof. apply/reduced_coprime. split=> //=. by rewrite coprimep1. Qed.
Lemma red1 : reduced_frac (1%num, 1%num).
Proof. apply/reduced_coprime. split=> //=. by rewrite coprimep1. Qed.
Lemma V0 : V (0%num, 1%num) = 0. Proof. by rewrite /V /= tofrac0 mul0r. Qed.
Lemma V1 : V (1%num, 1%num) = 1. Proof. by rewrite /V /= tofrac1 divr1. Qed.
Lemma frac_nz x : reduced_frac x -> x <> (0%num, 1%num) -> fst x <> 0%num.
Proof. move=> rx nx E. apply: nx. apply: V_inj => //; first exact: red0. rewrite V0. apply/eqP. by rewrite V_eq0 // E. Qed.
Lemma frac_field x y z : reduced_frac x -> reduced_frac y -> reduced_frac z ->
  let bind2 (f : pfrac -> pfrac -> option pfrac) (x y : option pfrac) := match x, y with Some a, Some b => f a b | _, _ => None end in
  let add := bind2 frac_add in let mul := bind2 frac_mul in
  let X := Some x in let Y := Some y in let Z := Some z in
  frac_add x y = frac_add y x /\ add X (add Y Z) = add (add X Y) Z /\ frac_add (0%num, 1%num) x = Some x /\
  frac_add x (frac_neg x) = Some (0%num, 1%num) /\ frac_sub x y = frac_add x (frac_neg y) /\
  frac_mul x y = frac_mul y x /\ mul X (mul Y Z) = mul (mul X Y) Z /\ frac_mul (1%num, 1%num) x = Some x /\
  mul X (add Y Z) = add (mul X Y) (mul X Z) /\
  (x <> (0%num, 1%num) -> bind2 frac_mul X (frac_inv x) = Some (1%num, 1%num)) /\
  (y <> (0%num, 1%num) -> frac_div x y = bind2 frac_mul X (frac_inv y)) /\
  frac_inv (0%num, 1%num) = None /\ frac_div x (0%num, 1%num) = None.
Proof.
move=> rx ry rz bind2 add mul X Y Z. rewrite /add /mul /bind2 /X /Y /Z.
have fin u v : reduced_frac u -> reduced_frac v -> V u = V v -> Some u = Some v by move=> ru rv E; rewrite (V_inj ru rv E).
split; [|split; [|split; [|split; [|split; [|split; [|split; [|split; [|split; [|split; [|split; [|split]]]]]]]]]]].
- have [u [-> [ru Vu]]] := Vadd rx ry. have [v [-> [rv Vv]]] := Vadd ry rx. apply: fin => //. by rewrite Vu Vv addrC.
- have [u [-> [ru Vu]]] := Vadd ry rz. have [v [-> [rv Vv]]] := Vadd rx ry.
  have [s [-> [rs Vs]]] := Vadd rx ru. have [t [-> [rt Vt]]] := Vadd rv rz. apply: fin => //. by rewrite Vs Vu Vt Vv addrA.
- have [u [-> [ru Vu]]] := Vadd red0 rx. apply: fin => //. by rewrite Vu V0 add0r.
- have [u [-> [ru Vu]]] := Vadd rx rx. apply: fin => //; first exact: red0. by rewrite Vu V_char V0.
- by [].
- have [u [-> [ru Vu]]] := Vmul rx ry. have [v [-> [rv Vv]]] := Vmul ry rx. apply: fin => //. by rewrite Vu Vv mulrC.
- have [u [-> [ru Vu]]] := Vmul ry rz. have [v [-> [rv Vv]]] := Vmul rx ry.
  have [s [-> [rs Vs]]] := Vmul rx ru. have [t [-> [rt Vt]]] := Vmul rv rz. apply: fin => //. by rewrite Vs Vu Vt Vv mulrA.
- have [u [-> [ru Vu]]] := Vmul red1 rx. apply: fin => //. by rewrite Vu V1 mul1r.
- have [u [-> [ru Vu]]] := Vadd ry rz. have [v [-> [rv Vv]]] := Vmul rx ry. have [w [-> [rw Vw]]] := Vmul rx rz.
  have [s [-> [rs Vs]]] := Vmul rx ru. have [t [-> [rt Vt]]] := Vadd rv rw. apply: fin => //. by rewrite Vs Vu Vt Vv Vw mulrDr.
- move=> nx. have nx' := frac_nz rx nx. have [u [-> [ru Vu]]] := Vinv rx nx'. have [v [-> [rv Vv]]] := Vmul rx ru.
  apply: fin => //; first exact: red1. rewrite Vv Vu V1 mulfV // V_eq0 //. exact/eqP.
- move=> ny. have ny' := frac_nz ry ny. have [u [-> [ru Vu]]] := Vinv ry ny'. have [v [-> [rv Vv]]] := Vmul rx ru.
  have [w [-> [rw Vw]]] := Vdiv rx ry ny'. apply: fin => //. by rewrite Vv Vu Vw.
- by [].
- rewrite /frac_div /= (_ : pmul (snd x) 0%num = 0%num) //.
Qed.
