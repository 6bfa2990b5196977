(* What is_catastrophic computes: the common denominator q, the polynomial matrix M = q G, its factors, and the final test. *)
Set Warnings "-notation-overridden,-ambiguous-paths".
From Coq Require Import ZArith NArith PeanoNat Lia List.
From Verif Require Import BinPoly_Model Cat_Model Cat_Lists Cat_Bridge.
From Verif Require Import BinPoly_Proof Algebra_Spec Irreducible_Proof Algebra_Proof Cat_Minors Cat_Smith Cat_Series.
From mathcomp Require Import all_ssreflect all_fingroup all_algebra zify.
Set Implicit Arguments.
Unset Strict Implicit.
Unset Printing Implicit Defensive.
Import GRing.Theory.
Local Open Scope ring_scope.
Local Notation "x %:F" := (@FracField.tofrac _ x).

Lemma PX a : P (N.shiftl 1 (N.of_nat a)) = 'X^a.
Proof. apply/polyP => i. rewrite coefP2 coefXn N.shiftl_1_l N.pow2_bits_eqb. by case: N.eqb_spec => h; case: eqP => // h'; lia. Qed.
Lemma monomial_spec p : negb (Nat.eqb (length (exponents p)) 1) = false <-> exists a, P p = 'X^a.
Proof.
rewrite (_ : (negb (Nat.eqb (length (exponents p)) 1) = false) <-> length (exponents p) = 1%N); last first.
  by case: Nat.eqb_spec => h; split.
rewrite exponents_single. split=> -[a E]; exists a; first by rewrite E PX. by apply: P_inj; rewrite PX E.
Qed.
Lemma coprimeX (h : P2) : coprimep h 'X = (h`_0 != 0).
Proof. by rewrite -(subr0 'X) -polyC0 coprimep_XsubC rootE horner_coef0. Qed.
Lemma X_factor (f : P2) : f != 0 -> exists a h, f = 'X^a * h /\ coprimep h 'X.
Proof.
move=> nz. have [a [h nh E]] := multiplicity_XsubC f 0. rewrite nz /= in nh. rewrite subr0 in E.
exists a, h. by rewrite mulrC E -(subr0 'X) -polyC0 coprimep_XsubC nh.
Qed.
Lemma unit_one (h : P2) : h %| 1 -> h = 1.
Proof. by move=> d; apply: eqp2; rewrite /eqp d dvd1p. Qed.
Lemma nonmonomial (g : P2) : ~ (exists a, g = 'X^a) -> exists h, [/\ h %| g, coprimep h 'X & ~~ (h %| 1)].
Proof.
move=> nm. case: (eqVneq g 0) => [->|nz].
  exists ('X + 1). rewrite dvdp0 coprimeX coefD coefX coef1. split=> //. apply/negP => /unit_one /eqP.
  by rewrite -subr_eq0 addrK polyX_eq0.
have [a [h [E c]]] := X_factor nz. exists h. rewrite E dvdp_mull //. split=> //. apply/negP => /unit_one Eh.
by apply: nm; exists a; rewrite E Eh mulr1.
Qed.

Lemma V_int a : V (a, 1%num) = (P a)%:F.
Proof. by rewrite /V -[snd _]/1%num P1 tofrac1 divr1. Qed.

Definition gent (G : list (list pfrac)) i j : pfrac := List.nth j (List.nth i G nil) (0%num, 1%num).
(* the generator matrix of the rows, in lowest terms *)
Definition generates (rows : list (list N * N)) (n : nat) (G : list (list pfrac)) : Prop :=
  length G = length rows /\ (forall i, (i < length rows)%N -> length (List.nth i G nil) = n) /\
  forall i j, (i < length rows)%N -> (j < n)%N -> reduced_frac (gent G i j) /\ V (gent G i j) = (P (rowp rows i j))%:F / (P (rowq rows i))%:F.

Lemma nthE (A : Type) (d : A) l i : (i < length l)%N -> forall d', List.nth i l d = List.nth i l d'.
Proof. move=> h d'. apply: List.nth_indep. exact/ltP. Qed.
Lemma nth_mapE (A B : Type) (f : A -> B) l i d d' : (i < length l)%N -> List.nth i (List.map f l) d' = f (List.nth i l d).
Proof. move=> h. rewrite -(List.map_nth f). apply: List.nth_indep. rewrite List.map_length. exact/ltP. Qed.

Lemma cc_generates rows n : (forall i, (i < length rows)%N -> length (fst (List.nth i rows (nil, 0%num))) = n /\ rowq rows i <> 0%num) ->
  exists G, cc_generator rows = Some G /\ generates rows n G.
Proof.
move=> H. rewrite /cc_generator. set L := List.map _ rows.
have LL : length L = length rows by rewrite List.map_length.
have NL i j : (i < length rows)%N -> (j < n)%N ->
  List.nth j (List.nth i L nil) None = bind (mk_frac (rowp rows i j) 1) (fun x => bind (mk_frac (rowq rows i) 1) (frac_div x)).
  move=> hi hj. rewrite /L (nth_mapE _ (nil, 0%num)) // (nth_mapE _ 0%num) //. by have [-> _] := H i hi.
have one : 1%num <> 0%num by []. 
have ex i j : (i < length rows)%N -> (j < n)%N -> exists x, [/\ List.nth j (List.nth i L nil) None = Some x, reduced_frac x & V x = (P (rowp rows i j))%:F / (P (rowq rows i))%:F].
  move=> hi hj. rewrite NL //. have [x [-> [rx Vx]]] := mk_frac_spec (rowp rows i j) one. have [y [-> [ry Vy]]] := mk_frac_spec (rowq rows i) one. cbn [bind].
  rewrite P1 tofrac1 divr1 in Vx. rewrite P1 tofrac1 divr1 in Vy.
  have ny : fst y <> 0%num. { apply/eqP. rewrite -V_eq0 // Vy F_eq0. apply/eqP. by have [_] := H i hi. }
  have [z [Ez [rz Vz]]] := Vdiv rx ry ny. exists z. by rewrite Ez Vz Vx Vy.
have [|i j|G [EG [LG [RG NG]]]] := @all_some2_ex _ n L; rewrite ?LL.
- move=> i /ltP hi. rewrite /L (nth_mapE _ (nil, 0%num)) // List.map_length. by have [] := H i hi.
- move=> /ltP hi /ltP hj. have [x [E _ _]] := ex i j hi hj. by exists x.
exists G. split=> //. split; first by rewrite LG. split; first by move=> i /ltP hi; apply: RG; rewrite LL.
move=> i j hi hj. have [x [E rx Vx]] := ex i j hi hj. rewrite /gent.
have := NG i j (0%num, 1%num). rewrite LL => /(_ (ltP hi) (ltP hj)). rewrite E => -[<-]. by [].
Qed.

(* the least common multiple of non-zero polynomials *)
Lemma reduce_lcm x l : exists q, reduce domain_lcm (x :: l) = Some q /\ (forall y, List.In y (x :: l) -> ndvd y q) /\
  forall c, (forall y, List.In y (x :: l) -> ndvd y c) -> ndvd q c.
Proof.
rewrite /reduce. elim: l x => [|y l IH] x.
- exists x. split=> //. split=> [z [->|[]]|c H]; first by exists 1%num; rewrite pmul1. by apply: H; left.
- have [g [E [ga [gb gm]]]] := domain_lcm_spec x y. cbn [List.fold_left]. rewrite E.
  have [h [E' [h1 h2]]] := IH g. exists h. split=> //. have hg : ndvd g h by apply: h1; left.
  have tr u v w : ndvd u v -> ndvd v w -> ndvd u w by rewrite !ndvdE; exact: dvdp_trans.
  split.
  + move=> z [<-|[<-|Hz]]; [exact: tr ga hg|exact: tr gb hg|by apply: h1; right].
  + move=> c H. apply: h2 => z [<-|Hz]; last by apply: H; right; right.
    by apply: gm; apply: H; [left|right; left].
Qed.
Lemma odd_common l : (forall y, List.In y l -> coprimep (P y) 'X) -> exists c, coprimep (P c) 'X /\ forall y, List.In y l -> ndvd y c.
Proof.
elim: l => [|y l IH] H; first by exists 1%num; rewrite P1 coprime1p. have [|c [cX D]] := IH; first by move=> z hz; apply: H; right.
exists (pmul y c). split; first by rewrite Pmul coprimepMl cX H //; left.
move=> z [<-|hz]; rewrite ndvdE Pmul; first exact: dvdp_mulr. apply: dvdp_mull. by rewrite -ndvdE; exact: D.
Qed.

Section Run.
Variables (rows : list (list N * N)) (n : nat) (G : list (list pfrac)).
Notation k := (length rows).
Hypothesis Q : List.Forall (fun r => N.odd (snd r) = true) rows.
Hypothesis HG : generates rows n G.
Hypothesis kpos : (0 < k)%N.
Hypothesis npos : (0 < n)%N.

Lemma qi_coprime i : (i < k)%N -> coprimep (P (rowq rows i)) 'X.
Proof. by move=> h; apply: odd_coprime; apply: (odd_row _ Q); apply/ltP. Qed.
Lemma coprime_nz (h : P2) : coprimep h 'X -> h != 0.
Proof. apply: contraTneq => ->. by rewrite coprimeX coef0 eqxx. Qed.
Lemma qi_nz i : (i < k)%N -> (P (rowq rows i))%:F != 0 :> FR.
Proof. move=> h. rewrite tofrac_eq0. exact: coprime_nz (qi_coprime h). Qed.
(* the denominators divide the feedback polynomials *)
Lemma denominators y : List.In y (List.map snd (List.concat G)) -> coprimep (P y) 'X.
Proof.
have [LG [RG EG]] := HG. move=> /List.in_map_iff [x [<- /(in_concat_nth (0%num, 1%num)) [i [j [/ltP hi [/ltP hj E]]]]]]. 
rewrite LG in hi. rewrite RG // in hj. have [r Vx] := EG i j hi hj. rewrite /gent E in r Vx.
have q0 : rowq rows i <> 0%num by apply/eqP; rewrite -P_eq0; exact: coprime_nz (qi_coprime hi).
have E' := Vcross r q0 Vx. move/reduced_coprime: r => [s0 co].
have D : P (snd x) %| P (rowq rows i).
  have : P (snd x) %| P (fst x) * P (rowq rows i) by rewrite -Pmul E' Pmul dvdp_mulr. by rewrite Gauss_dvdpr // coprimep_sym.
exact: coprimep_dvdr D (qi_coprime hi).
Qed.

Lemma run : exists (q : N) (M : list (list N)), [/\ coprimep (P q) 'X, length M = k, forall i, (i < k)%N -> length (List.nth i M nil) = n,
  forall i j, (i < k)%N -> (j < n)%N -> P q * P (rowp rows i j) = P (pentry M i j) * P (rowq rows i)
  & is_catastrophic G = bind (invariant_factors M) (fun factors => if Nat.ltb (length factors) k then None
      else bind (mk_frac (List.last factors 0%num) q) (fun a => Some (negb (Nat.eqb (length (exponents (fst a))) 1))))].
Proof.
have [LG [RG EG]] := HG. rewrite /is_catastrophic.
case E: (List.map snd (List.concat G)) => [|x l].
  exfalso. have : List.In (snd (gent G 0 0)) (List.map snd (List.concat G)); last by rewrite E.
  apply: List.in_map. apply/(in_concat_nth (0%num, 1%num)). exists 0%N, 0%N. rewrite LG RG //. by do 2 (split; first exact/ltP).
have [q [-> [Dq Mq]]] := reduce_lcm x l. rewrite -E in Dq Mq.
have [c [cX Dc]] := odd_common denominators. have qX : coprimep (P q) 'X by apply: coprimep_dvdr cX; rewrite -ndvdE; exact: Mq.
have one : 1%num <> 0%num by []. have [fq [Efq [rfq Vfq]]] := mk_frac_spec q one. rewrite P1 tofrac1 divr1 in Vfq.
rewrite [bind (Some q) _]/= Efq [bind (Some fq) _]/=.
set L := List.map _ G. have LL : length L = k by rewrite List.map_length.
have ex i j : (i < k)%N -> (j < n)%N -> exists z, List.nth j (List.nth i L nil) None = Some z /\ P q * P (rowp rows i j) = P z * P (rowq rows i).
  move=> hi hj. rewrite /L (nth_mapE _ nil) ?LG // (nth_mapE _ (0%num, 1%num)) ?RG // -/(gent G i j). have [r Vx] := EG i j hi hj.
  have [z [-> [rz Vz]]] := Vmul rfq r. exists (fst z). split=> //.
  have D : ndvd (snd (gent G i j)) q.
    apply: Dq. apply: List.in_map. apply/(in_concat_nth (0%num, 1%num)). exists i, j. rewrite LG RG //. by do 2 (split; first exact/ltP).
  move: D => [d Ed]. have r1 : reduced_frac (pmul d (fst (gent G i j)), 1%num) by apply/reduced_coprime; split=> //; rewrite -[snd _]/1%num P1 coprimep1.
  have Ez : z = (pmul d (fst (gent G i j)), 1%num).
    apply: V_inj => //. rewrite Vz Vfq Ed V_int !Pmul !tofracM /V -mulrA; congr (_ * _).
    by rewrite mulrCA mulfV ?mulr1 // V_snd.
  apply/eqP. rewrite -(tofrac_eq (_ * _) (_ * _)) !tofracM. have -> : (P (fst z))%:F = (P q)%:F * ((P (rowp rows i j))%:F / (P (rowq rows i))%:F).
    by rewrite -Vx -Vfq -Vz Ez V_int.
  by rewrite -!mulrA mulVf ?mulr1 // qi_nz.
have [|i j|M [EM [LM [RM NM]]]] := @all_some2_ex _ n L; rewrite ?LL.
- move=> i /ltP hi. rewrite /L (nth_mapE _ nil) ?LG // List.map_length. exact: RG.
- move=> /ltP hi /ltP hj. have [x' [E' _]] := ex i j hi hj. by exists x'.
exists q, M. split=> //; first by rewrite LM.
- by move=> i /ltP hi; apply: RM; rewrite LL.
- move=> i j hi hj. have [z [Ez ->]] := ex i j hi hj. have := NM i j 0%num. rewrite LL => /(_ (ltP hi) (ltP hj)). rewrite Ez => -[->]. by [].
- by rewrite EM [bind (Some M) _]/= LG.
Qed.
End Run.
