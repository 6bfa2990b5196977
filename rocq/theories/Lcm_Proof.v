(** When product // gcd is the least common multiple. *)
Set Warnings "-notation-overridden,-ambiguous-paths".
From Coq Require List.
From Coq Require Import NArith ZArith PeanoNat Lia.
From Verif Require Import BinPoly_Model BinPoly_Proof GF2_Proof Algebra_Spec PrimeFactors_Proof Irreducible_Proof Algebra_Proof Lcm_Spec.
From mathcomp Require Import all_ssreflect all_algebra zify.
Set Implicit Arguments.
Unset Strict Implicit.
Unset Printing Implicit Defensive.
Import GRing.Theory.
Local Open Scope ring_scope.

(* rearranging products *)
Lemma mul_ac1 (x y z r g : P2) : x * (y * g * (z * g * r)) = x * (y * z * r) * g * g.
Proof. by rewrite !mulrA [x * y * g * z]mulrAC -!mulrA; do 3 congr (_ * _); rewrite !mulrA [g * g * r]mulrC mulrA. Qed.
Lemma mul_ac2 (A a B b D : P2) : A * (a * (B * (b * D))) = a * b * (A * B * D).
Proof. by rewrite mulrCA -!mulrA; congr (_ * _); rewrite !mulrA; congr (_ * _); rewrite [A * B * b]mulrC !mulrA. Qed.
Lemma mul_ac3 (a b d R : P2) : a * d * (b * d) * R = d * (a * b * d * R).
Proof. by rewrite [a * d]mulrC -!mulrA; do 2 congr (_ * _). Qed.
Notation PR l := (\prod_(i <- l) P i).
Lemma PR_app l1 l2 : PR (l1 ++ l2)%list = PR l1 * PR l2.
Proof. by elim: l1 => [|y l1 IH] /=; [rewrite big_nil mul1r|rewrite !big_cons IH mulrA]. Qed.
Lemma PR_In x l : List.In x l -> P x %| PR l.
Proof. elim: l => [//|y l IH] [->|H]; rewrite big_cons; [exact: dvdp_mulr|apply: dvdp_mull; exact: IH]. Qed.
Lemma PR_neq0 l : ~ List.In 0%num l -> PR l != 0.
Proof.
elim: l => [|y l IH] H; first by rewrite big_nil oner_neq0.
rewrite big_cons mulf_neq0 ?IH // ?P_eq0; last by move=> G; apply: H; right.
by apply/eqP => E; apply: H; left.
Qed.
Lemma P_unit d : (P d %= 1) = (d == 1%num).
Proof. apply/idP/eqP => [/eqp2|->]; [by rewrite -P1 => /P_inj|by rewrite P1 eqpxx]. Qed.
(* the value lcm returns *)
Lemma lcm_value l : (exists x, List.In x l /\ x <> 0%num) -> exists m g, lcm_list l = Some m /\ g <> 0%num /\
  (forall x, List.In x l -> P g %| P x) /\ (forall c, (forall x, List.In x l -> ndvd c x) -> ndvd c g) /\ PR l = P m * P g.
Proof.
case: l => [|x0 l]; first by case=> x []. move=> [z [Hz nz]]. rewrite /lcm_list.
have [p [-> Ep]] := product_spec l x0. have [g [-> [g1 gm]]] := @gcd_list_spec (cons x0 l) ltac:(done).
have g0 : g <> 0%num. { move=> Z. have := g1 z Hz. rewrite Z ndvdE P0 dvd0p P_eq0 => /eqP. exact: nz. }
have [q [r [Eq [Q S]]]] := pdivmod_spec p g0. rewrite Eq. exists q, g; split=> //; split=> //; split=> [x Hx|]; first by rewrite -ndvdE; apply: g1.
split=> //. rewrite (divpP Q S) -Ep divpK // Ep. apply: dvdp_trans (PR_In Hz). rewrite -ndvdE. exact: g1.
Qed.
Lemma dvd_smaller (a m : N) : m <> 0%num -> P (pmul a m) %| P m -> a = 1%num.
Proof.
move=> m0. rewrite Pmul => D. have Nm : P m != 0 by rewrite P_eq0; apply/eqP.
move: D. rewrite -[X in _ %| X]mul1r dvdp_mul2r // dvdp1 size_poly_eq1 P_unit => /eqP. by [].
Qed.
Lemma coprime_pairs a b : (forall d, ndvd d a -> ndvd d b -> d = 1%num) <-> coprimep (P a) (P b).
Proof.
have [g [_ G]] := pgcd_spec a b. split=> H.
- have E : g = 1%num by apply: H; rewrite ndvdE G ?dvdp_gcdl ?dvdp_gcdr.
  by rewrite /coprimep -G E P1 size_poly1.
- move=> d /ndvdE D1 /ndvdE D2. apply/eqP. rewrite -P_unit -size_poly_eq1. apply/eqP.
  have : P d %| gcdp (P a) (P b) by rewrite dvdp_gcd D1.
  move: H. rewrite /coprimep => /eqP S1. have := size_poly_eq1 (gcdp (P a) (P b)). rewrite S1 eqxx => /esym E.
  by rewrite (eqp_dvdr _ E) dvdp1 => /eqP.
Qed.
Lemma coprime_prod a l : (forall b, List.In b l -> coprimep (P a) (P b)) -> coprimep (P a) (PR l).
Proof.
elim: l => [|y l IH] H; first by rewrite big_nil coprimep1.
by rewrite big_cons coprimepMr H ?IH //=; [move=> b Hb; apply: H; right|left].
Qed.
Lemma coprime_prod_dvd l (c : P2) : pairwise_coprime l -> (forall x, List.In x l -> P x %| c) -> PR l %| c.
Proof.
move=> W. elim: W => [|a l' H W IH] D; first by rewrite big_nil dvd1p.
rewrite big_cons Gauss_dvdp; first by rewrite D ?IH //; [move=> x Hx; apply: D; right|left].
apply: coprime_prod => b Hb. apply/coprime_pairs. by move/List.Forall_forall: H; apply.
Qed.

Lemma lcm_if l : (2 <= length l)%coq_nat -> pairwise_coprime l -> (exists x, List.In x l /\ x <> 0%num) ->
  exists m, lcm_list l = Some m /\ is_lcm l m.
Proof.
move=> L W nz. have [m [E C]] := lcm_common L nz. exists m; split=> //; split=> //.
have [m' [g [E' [g0 [gd [_ Pm]]]]]] := lcm_value nz. move: E'; rewrite E => -[Em]. subst m'.
move=> c D. rewrite ndvdE. apply: (@dvdp_trans _ (PR l)); first by rewrite Pm dvdp_mulr.
apply: coprime_prod_dvd => // x Hx. rewrite -ndvdE. exact: D.
Qed.
Lemma PR_quot l1 x l2 : PR (l1 ++ x :: l2)%list = P x * PR (l1 ++ l2)%list.
Proof. by rewrite !PR_app big_cons mulrCA. Qed.
Lemma lcm_only_if l m : (3 <= length l)%coq_nat -> ~ List.In 0%num l -> lcm_list l = Some m -> is_lcm l m -> pairwise_coprime l.
Proof.
move=> L nz E [C LC].
have NZ : exists x, List.In x l /\ x <> 0%num.
{ case: l L nz {E C LC} => [|x l] L nz; first by cbn in L; lia. exists x; split; first by left. by move=> Z; apply: nz; left. }
have [m' [g [E' [g0 [gd [_ Pm]]]]]] := lcm_value NZ. move: E'; rewrite E => -[Em]. subst m'.
have PN := PR_neq0 nz. have Ng : P g != 0 by rewrite P_eq0; apply/eqP.
have m0 : m <> 0%num. { move=> Z. move: PN. by rewrite Pm Z P0 mul0r eqxx. }
(* the gcd of all arguments is 1 *)
have g1 : g = 1%num.
{ have SQ : forall x, List.In x l -> exists t, PR l = P x * t * P g * P g.
  { move=> x Hx. have [l1 [l2 El]] := List.in_split _ _ Hx. move: L gd. rewrite El PR_quot => L gd.
    have GD : forall y, List.In y (l1 ++ l2)%list -> P g %| P y.
    { move=> y Hy. apply: gd. apply/List.in_or_app. case: (List.in_app_or _ _ _ Hy) => H; [by left|by right; right]. }
    have L2 : (2 <= length (l1 ++ l2)%list)%coq_nat. { move: L. rewrite !List.app_length /=. lia. }
    move: GD L2. case: (l1 ++ l2)%list => [|y [|z r]] GD L2; try (cbn in L2; lia).
    have /dvdpP [y' Ey] := GD y (or_introl erefl). have /dvdpP [z' Ez] := GD z (or_intror (or_introl erefl)).
    exists (y' * z' * PR r). rewrite !big_cons Ey Ez. exact: mul_ac1. }
  case: NZ => x [Hx _]. have [t Et] := SQ x Hx.
  have [k Ek] := P_surj (P x * t).
  have Mk : P m = P k * P g. { apply: (mulIf Ng). by rewrite -Pm Et Ek. }
  have D : ndvd m k.
  { apply: LC => y Hy. rewrite ndvdE. have [u Eu] := SQ y Hy.
    have : P k * P g * P g = P y * u * P g * P g by rewrite -Mk -Pm Eu.
    move=> /(mulIf Ng) /(mulIf Ng) ->. by rewrite dvdp_mulr. }
  have k0 : k <> 0%num. { move=> Z. apply: m0. apply: P_inj. by rewrite Mk Z P0 mul0r. }
  apply: (@dvd_smaller g k k0). move: D. rewrite ndvdE Mk Pmul. by rewrite mulrC. }
have PRm : PR l = P m by rewrite Pm g1 P1 mulr1.
(* hence any two are coprime *)
have CP : forall l1 a l2 b l3, l = (l1 ++ a :: l2 ++ b :: l3)%list -> forall d, ndvd d a -> ndvd d b -> d = 1%num.
{ move=> l1 a l2 b l3 El d /ndvdE/dvdpP [a' Ea] /ndvdE/dvdpP [b' Eb].
  set R := PR l1 * PR l2 * PR l3.
  have F : PR l = P a * P b * R.
  { rewrite El PR_app big_cons PR_app big_cons /R. exact: mul_ac2. }
  have [k Ek] := P_surj (a' * b' * P d * R).
  have Mk : P m = P d * P k. { rewrite -PRm F Ek Ea Eb. exact: mul_ac3. }
  have k0 : k <> 0%num. { move=> Z. apply: m0. apply: P_inj. by rewrite Mk Z P0 mulr0. }
  apply: (@dvd_smaller d k k0). rewrite Pmul -Mk -ndvdE. apply: LC => x Hx. rewrite ndvdE Ek.
  have Ka : a' * b' * P d * R = P a * b' * R by rewrite Ea [a' * b' * P d]mulrAC.
  have Kb : a' * b' * P d * R = a' * P b * R by rewrite Eb mulrA.
  rewrite El in Hx. destruct (List.in_app_or _ _ _ Hx) as [H|[<-|Hx2]]; [| |destruct (List.in_app_or _ _ _ Hx2) as [H|[<-|H]]].
  - apply: dvdp_mull. rewrite /R -mulrA. apply: dvdp_mulr. by apply: PR_In.
  - by rewrite Ka -mulrA dvdp_mulr.
  - apply: dvdp_mull. rewrite /R. apply: dvdp_mulr. apply: dvdp_mull. exact: PR_In.
  - rewrite Kb. apply: dvdp_mulr. exact: dvdp_mull.
  - apply: dvdp_mull. rewrite /R. apply: dvdp_mull. exact: PR_In. }
move: CP. clear. elim: l => [|a l IH] CP; first by constructor. constructor.
- apply/List.Forall_forall => b Hb. have [l2 [l3 El]] := List.in_split _ _ Hb. apply: (CP nil a l2 b l3). by rewrite El.
- apply: IH => l1 x l2 y l3 El. apply: (CP (cons a l1) x l2 y l3). by rewrite El.
Qed.
Lemma lcm_with_zero l : List.In 0%num l -> (exists x, List.In x l /\ x <> 0%num) -> exists m, lcm_list l = Some m /\ is_lcm l m.
Proof.
move=> Z nz. have [m [g [E [g0 [gd [_ Pm]]]]]] := lcm_value nz. exists m; split=> //.
have Ng : P g != 0 by rewrite P_eq0; apply/eqP.
have m0 : m = 0%num. { apply: P_inj. apply: (mulIf Ng). rewrite -Pm mul0r. have := PR_In Z. by rewrite P0 dvd0p => /eqP. }
subst m. split=> [x _|c H]; first by rewrite ndvdE P0 dvdp0. exact: H.
Qed.
Lemma lcm_single x : x <> 0%num -> lcm_list (cons x nil) = Some 1%num.
Proof.
move=> x0. have [m [g [E [g0 [gd [gm Pm]]]]]] := @lcm_value (cons x nil) (ex_intro _ x (conj (or_introl erefl) x0)). rewrite E. congr Some.
move: Pm. rewrite big_seq1 => Pm. have D : P x %| P g. { rewrite -ndvdE. apply: gm => y [->|[]]. rewrite ndvdE. exact: dvdpp. }
apply: (@dvd_smaller m g g0). by rewrite Pmul -Pm.
Qed.
Lemma is_lcm_single x : x <> 0%num -> (is_lcm (cons x nil) 1%num <-> x = 1%num).
Proof.
move=> x0. split=> [[C _]|->].
- have := C x (or_introl erefl). rewrite ndvdE P1 dvdp1 size_poly_eq1 P_unit => /eqP. by [].
- split=> [y [<-|[]]|c _]; rewrite ndvdE P1 ?dvdpp // dvd1p //.
Qed.
Lemma lcm_all_zero l : (forall x, List.In x l -> x = 0%num) -> lcm_list l = None.
Proof.
case: l => [//|x0 l] H. rewrite /lcm_list. have [p [-> _]] := product_spec l x0. have [g [-> [_ gm]]] := @gcd_list_spec (cons x0 l) ltac:(done).
have D : ndvd 0%num g. { apply: gm => x Hx. rewrite (H x Hx). by exists 0%num. }
have -> : g = 0%num by case: D => c ->; rewrite pmulC pmul0.
by [].
Qed.
