(* BCH codes: the generator polynomial and the designed distance, over the field of GFField_Proof. *)
Set Warnings "-notation-overridden,-ambiguous-paths".
From Coq Require List Permutation.
From Coq Require Import NArith ZArith PeanoNat Lia.
From Verif Require Import BinPoly_Model BinPoly_Proof GF2_Proof Algebra_Spec PrimeFactors_Proof Irreducible_Proof Algebra_Proof.
From Verif Require Import GFField_Proof BCH_Alg.
From Verif Require BCH_Model Bits_Model Linear_Spec PolyVec_Proof.
From mathcomp Require Import all_ssreflect all_algebra zify.
Set Implicit Arguments.
Unset Strict Implicit.
Unset Printing Implicit Defensive.
Import GRing.Theory.
Local Open Scope ring_scope.

Section BCH.
Variable m : N.
Hypothesis irrN : nirreducible m.
Let irr : irreducible_poly (P m) := proj1 (nirr m) irrN.
Let q := quo_fieldP irr.
Let L := qf_field q.
Let k := (bit_length m - 1)%N.
Let n := (2 ^ k - 1)%N.
Notation phi := (GFField_Proof.phi irrN).
Notation elt := (GFField_Proof.elt m).
Notation j2 := (GFField_Proof.j2 irrN).
Hypothesis k2 : (1 < k)%N.
Hypothesis prim : ndvd m (xe1 (N.of_nat n)) /\ forall e, (0 < e < n)%N -> ~ ndvd m (xe1 (N.of_nat e)).

(* value of the binary polynomial g at y *)
Definition ev (g : N) (y : L) : L := (map_poly j2 (P g)).[y].
Lemma ev_add g h y : ev (N.lxor g h) y = ev g y + ev h y.
Proof. by rewrite /ev -[N.lxor g h]/(padd g h) Padd rmorphD hornerD. Qed.
Lemma ev_mul g h y : ev (pmul g h) y = ev g y * ev h y.
Proof. by rewrite /ev Pmul rmorphM hornerM. Qed.
Lemma ev_xe1 e y : ev (xe1 (N.of_nat e)) y = y ^+ e - 1.
Proof. by rewrite /ev Pxe1 Nat2N.id rmorphB rmorph1 /= map_polyXn hornerD hornerN hornerXn hornerC. Qed.
Lemma ev_value g x : elt x -> (poly_value m (bin_coeffs g) x = 0%num <-> ev g (phi x) = 0).
Proof.
move=> ex. have [e E] := value_spec irrN (bin_coeffs g) ex. rewrite /ev -bin_PL -E.
split=> [->|/eqP]; first by rewrite phi0. by rewrite phi_eq0 // => /eqP.
Qed.

Definition A : L := phi 2%num.
Lemma elt2 : elt 2%num.
Proof. exact: k2. Qed.
Lemma A_order e : (A ^+ e == 1) <-> ndvd m (xe1 (N.of_nat e)).
Proof.
rewrite ndvdE Pxe1 Nat2N.id -(qf_ker q) rmorphB rmorph1 rmorphX /= subr_eq0.
by rewrite /A /phi PX.
Qed.
Lemma n_gt0 : (2 < n)%N.
Proof. rewrite /n. have : (2 ^ 2 <= 2 ^ k)%N by rewrite leq_exp2l. lia. Qed.
Lemma A_n : A ^+ n = 1.
Proof. apply/eqP/A_order. exact: prim.1. Qed.
Lemma A_nz : A != 0.
Proof. apply/eqP => E. have := A_n. rewrite E expr0n. have := n_gt0. case: (n) => // n' _ /eqP. by rewrite eq_sym oner_eq0. Qed.
Lemma A_e1 e : (0 < e < n)%N -> A ^+ e != 1.
Proof. move=> H. apply/negP => /A_order. exact: prim.2. Qed.
Lemma A_inj i j : (i < n)%N -> (j < n)%N -> A ^+ i = A ^+ j -> i = j.
Proof.
have W a b : (a <= b)%N -> (b < n)%N -> A ^+ a = A ^+ b -> a = b.
  move=> ab bn E. case: (ltngtP a b) ab => // ab _. exfalso.
  have := @A_e1 (b - a)%N ltac:(lia). move/negP; apply.
  apply/eqP. apply: (mulIf (expf_neq0 a A_nz)). by rewrite mul1r -exprD subnK ?E // ltnW.
move=> Hi Hj E. case: (leqP i j) => H; first exact: W. by apply/esym/W => //; exact: ltnW.
Qed.
Lemma A_mod e : A ^+ (e %% n)%N = A ^+ e.
Proof. by rewrite {2}(divn_eq e n) exprD mulnC exprM A_n expr1n mul1r. Qed.
Lemma A_eq i j : (A ^+ i == A ^+ j) = (i %% n == j %% n)%N.
Proof.
rewrite -(A_mod i) -(A_mod j). apply/eqP/eqP => [|-> //]. have n0 : (0 < n)%N by have := n_gt0; lia.
by apply: A_inj; rewrite ltn_mod.
Qed.
Lemma A_onto (y : L) : y != 0 -> exists2 i, (i < n)%N & y = A ^+ i.
Proof.
move=> ny. case: (boolP (y \in [seq A ^+ i | i <- iota 0 n])) => [/mapP [i]|Ny].
  by rewrite mem_iota add0n => /= Hi ->; exists i.
exfalso. have H z : z != 0 -> root ('X^n - 1 : {poly L}) z.
  move=> nz. rewrite rootE hornerD hornerN hornerXn hornerC subr_eq0. apply/eqP. have := @quo_exp (P m) q z. rewrite (size_m irrN) /=.
  rewrite -/k. have -> : (2 ^ k = n.+1)%N by rewrite /n; have : (0 < 2 ^ k)%N; [rewrite expn_gt0|lia].
  rewrite exprS => E. apply: (mulfI nz). by rewrite E mulr1.
have S : size ('X^n - 1 : {poly L}) = n.+1 by rewrite size_Xn_sub_1 //; have := n_gt0; lia.
have N0 : 'X^n - 1 != 0 :> {poly L} by rewrite -size_poly_eq0 S.
have := @max_poly_roots _ _ (y :: [seq A ^+ i | i <- iota 0 n]) N0.
rewrite /= H // Ny. have -> : all (root ('X^n - 1)) [seq A ^+ i | i <- iota 0 n].
  apply/allP => _ /mapP [i _ ->]. apply: H. exact: expf_neq0 A_nz.
have -> : uniq [seq A ^+ i | i <- iota 0 n].
  rewrite map_inj_in_uniq ?iota_uniq // => i j. rewrite !mem_iota !add0n => /= Hi Hj. exact: A_inj.
move=> /(_ isT isT). by rewrite size_map size_iota S ltnn.
Qed.

(* ---- powers of alpha in the code *)
Lemma apow_elt i : elt (BCH_Model.alpha_pow m i).
Proof. exact: (rpow_spec irrN _ elt2).1. Qed.
Lemma apow_phi i : phi (BCH_Model.alpha_pow m i) = A ^+ i.
Proof. by rewrite /BCH_Model.alpha_pow (rpow_spec irrN _ elt2).2 Nat2N.id. Qed.

(* ---- minimal polynomials *)
Lemma minpoly_full a : elt a -> exists f d, [/\ gf_minimal_polynomial m (N.of_nat k) a = Some f,
  forall g, ev g (phi a) = 0 <-> ndvd f g, (0 < d <= k)%N &
  map_poly j2 (P f) = \prod_(i <- iota 0 d) ('X - (phi a ^+ (2 ^ i))%:P)].
Proof.
move=> ea. have [d [E Un n0 zn]] := conj_spec irrN ea. rewrite /gf_minimal_polynomial E.
case: d E Un n0 zn => // d E Un n0 zn. cbn [map iota].
have e1 : elts m (zc m a 0 :: 1%num :: nil) by move=> c [<-|[<-|[]]]; [exact: zc_elt|exact: (elt1 irrN)].
have [el El] := fold_conv irrN (map (zc m a) (iota 1 d)) e1. set l := List.fold_left _ _ _ in el El *.
have EL : PL irrN l = \prod_(z <- map phi (map (zc m a) (iota 0 d.+1))) ('X - z%:P).
  rewrite El /= big_cons. congr (_ * _). rewrite /PL /= cons_poly_def phi1 cons_poly_def mul0r add0r mul1r.
  by rewrite -polyCN oppL.
have l01 : forall c, List.In c l -> c = 0%num \/ c = 1%num.
  move=> c Hc. have [i [li Ei]] := List.In_nth l c 0%num Hc. have ec := el c Hc.
  have := fL_fixed irrN ea Un n0 zn i. rewrite -EL coefPL Ei => /fixed01 [H|H]; [left|right]; apply: (phi_inj (irrN := irrN)); rewrite // ?phi0 ?phi1 //; exact: elt1.
have Ef : map_poly j2 (P (from_coefficient_values l)) = \prod_(i <- iota 0 d.+1) ('X - (phi a ^+ (2 ^ i))%:P).
  rewrite (from_values irrN l01) EL big_map. rewrite big_map. by apply: eq_bigr => i _; rewrite zc_phi.
exists (from_coefficient_values l), d.+1. split=> //.
- move=> g. have -> : ev g (phi a) = 0 <-> root (map_poly j2 (P g)) (phi a) by rewrite rootE /ev; split=> /eqP.
  rewrite (fL_dvd irrN ea Un n0) -EL -(from_values irrN l01) dvdp_map. by rewrite ndvdE.
- apply/andP; split=> //. rewrite leqNgt. apply/negP => kd.
  have : uniq [:: zc m a 0; zc m a k].
    have S : subseq [:: 0%N; k] (iota 0 d.+1).
      have -> : [:: 0%N; k] = [:: 0%N] ++ [:: k] by []. have -> : d.+1 = (1 + d)%N by [].
      rewrite iotaD. apply: cat_subseq => //. rewrite sub1seq mem_iota. lia.
    exact: (subseq_uniq (map_subseq (zc m a) S) Un).
  by rewrite /= andbT mem_seq1 (zc_k irrN ea) eqxx.
Qed.
Notation mp i := (BCH_Model.phi m k i).
Lemma mp_spec i : exists d, [/\ forall g, ev g (A ^+ i) = 0 <-> ndvd (mp i) g, (0 < d <= k)%N &
  map_poly j2 (P (mp i)) = \prod_(t <- iota 0 d) ('X - (A ^+ (i * 2 ^ t))%:P)].
Proof.
have [f [d [E H D F]]] := minpoly_full (apow_elt i). exists d. rewrite /BCH_Model.phi E. rewrite apow_phi in H F. split=> //.
by rewrite F; apply: eq_bigr => t _; rewrite exprM.
Qed.
Lemma mp_dvd i g : ev g (A ^+ i) = 0 <-> ndvd (mp i) g.
Proof. by have [d [H _ _]] := mp_spec i. Qed.
Lemma ndvd_rfl g : ndvd g g. Proof. by exists 1%num; rewrite pmul1. Qed.
Lemma mp_root i : ev (mp i) (A ^+ i) = 0.
Proof. apply/mp_dvd. exact: ndvd_rfl. Qed.
Lemma mp_size i : (1 < bit_length (mp i) <= k.+1)%N.
Proof.
have [d [_ D E]] := mp_spec i. rewrite -Psize -(size_map_poly j2) E. rewrite -(big_map (fun t => A ^+ (i * 2 ^ t)) predT (fun z => 'X - z%:P)).
by rewrite size_prod_XsubC size_map size_iota ltnS.
Qed.
Lemma mp_nz i : mp i <> 0%num.
Proof. move=> E. have := mp_size i. by rewrite E. Qed.
(* the roots of a minimal polynomial are the conjugates *)
Lemma mp_conj i (y : L) : ev (mp i) y = 0 <-> exists t, y = A ^+ (i * 2 ^ t).
Proof.
have [d [H D E]] := mp_spec i. split=> [|[t ->]].
- rewrite /ev E. move/eqP. rewrite -rootE -(big_map (fun t => A ^+ (i * 2 ^ t)) predT (fun z => 'X - z%:P)) root_prod_XsubC => /mapP [t _ ->]. by exists t.
- elim: t => [|t IH]; first by rewrite expn0 muln1 mp_root.
  rewrite expnSr mulnA exprM. have /eqP := IH. rewrite -rootE => R. have /eqP := root_sq R. exact.
Qed.
Lemma mp_eq i j : mp i = mp j <-> exists t, A ^+ j = A ^+ (i * 2 ^ t).
Proof.
split=> [E|[t E]]; first by apply/mp_conj; rewrite E mp_root.
have D : ndvd (mp j) (mp i) by apply/mp_dvd/mp_conj; exists t.
have [s Es] : exists s, A ^+ i = A ^+ (j * 2 ^ s).
  exists ((k - 1) * t)%N. have H s : A ^+ (i * 2 ^ (k * s)) = A ^+ i.
    elim: s => [|s IH]; first by rewrite muln0 expn0 muln1.
    rewrite mulnS expnD mulnA exprM -IH. rewrite -!exprM. rewrite -mulnA [(2 ^ k * _)%N]mulnC mulnA.
    have := @quo_exp (P m) q (A ^+ (i * 2 ^ (k * s))). rewrite (size_m irrN) /= -/k -exprM. by rewrite IH.
  rewrite exprM E -exprM -mulnA -expnD. have -> : (t + (k - 1) * t = k * t)%N by rewrite -{1}(mul1n t) -mulnDl; congr (_ * _)%N; lia.
  by rewrite H.
have D2 : ndvd (mp i) (mp j) by apply/mp_dvd/mp_conj; exists s.
apply: P_inj. apply: eqp2. apply/andP. by move/ndvdE: D2; move/ndvdE: D => -> ->.
Qed.
Lemma mp_irr i : irreducible_poly (P (mp i)).
Proof.
split; first by rewrite Psize; case/andP: (mp_size i).
move=> u Su /dvdpP [v Ev]. have [a Ea] := P_surj u. have [b Eb] := P_surj v. rewrite -Ea -Eb -Pmul in Ev. move/P_inj: Ev => Ev.
have R := mp_root i. rewrite Ev ev_mul in R. move/eqP: R. rewrite mulf_eq0 => /orP [/eqP /mp_dvd|/eqP /mp_dvd] /ndvdE D.
- exfalso. have bn : P b != 0. { apply/eqP => Z. apply: (@mp_nz i). apply: P_inj. by rewrite Ev Pmul Z mul0r P0. }
  have an : P a != 0. { apply/eqP => Z. apply: (@mp_nz i). apply: P_inj. by rewrite Ev Pmul Z mulr0 P0. }
  have := dvdp_leq bn D. rewrite Ev Pmul size_mul //. move: Su. rewrite -Ea. have : (0 < size (P a))%N by rewrite size_poly_gt0. have : (0 < size (P b))%N by rewrite size_poly_gt0.
  move: (size (P a)) (size (P b)) => x y; lia.
- rewrite -Ea. apply/andP. split=> //. by rewrite Ev Pmul dvdp_mull.
Qed.
Lemma mp_coprime i j : mp i <> mp j -> coprimep (P (mp i)) (P (mp j)).
Proof.
move=> ne. have [_ Hi] := mp_irr i. have [_ Hj] := mp_irr j. rewrite /coprimep. apply/negPn/negP => S. apply: ne. apply: P_inj. apply: eqp2.
apply: eqp_trans (Hj _ S (dvdp_gcdr _ _)). rewrite eqp_sym. exact: Hi _ S (dvdp_gcdl _ _).
Qed.

(* ---- the generator polynomial *)
Definition is_mp (x : N) := exists i, x = mp i.
Lemma fold_pmul l x : P (List.fold_left pmul l x) = P x * \prod_(y <- l) P y.
Proof. elim: l x => [|y l IH] x /=; first by rewrite big_nil mulr1. by rewrite IH big_cons Pmul mulrA. Qed.
Lemma prod_coprime x l : is_mp x -> (forall y, List.In y l -> is_mp y) -> ~ List.In x l -> coprimep (P x) (\prod_(y <- l) P y).
Proof.
move=> [i ->]. elim: l => [|y l IH] H N; first by rewrite big_nil coprimep1.
rewrite big_cons coprimepMr IH ?andbT; last 2 first.
- by move=> z Hz; apply: H; right.
- by move=> Hz; apply: N; right.
have [j Ej] : is_mp y by apply: H; left. rewrite Ej. apply: mp_coprime => E. apply: N. left. by rewrite Ej E.
Qed.
Lemma prod_dvd l : (forall y, List.In y l -> is_mp y) -> List.NoDup l -> forall f : {poly 'F_2},
  (\prod_(y <- l) P y %| f) <-> forall y, List.In y l -> P y %| f.
Proof.
elim: l => [|x l IH] H ND f; first by rewrite big_nil dvd1p.
inversion ND; subst. rewrite big_cons Gauss_dvdp; last by apply: prod_coprime => //; [apply: H; left|move=> y Hy; apply: H; right].
have IH' := IH (fun y Hy => H y (or_intror Hy)) H3 f. split.
- move=> /andP [D /IH' Dl] y [<- //|Hy]. exact: Dl.
- move=> Dl. apply/andP; split; first by apply: Dl; left. apply/IH' => y Hy. by apply: Dl; right.
Qed.
Lemma reduce_spec l : l <> nil -> (forall y, List.In y l -> is_mp y) -> List.NoDup l ->
  exists g, [/\ BCH_Model.reduce_mul l = Some g, P g = \prod_(y <- l) P y & forall f, ndvd g f <-> forall y, List.In y l -> ndvd y f].
Proof.
case: l => // x l _ H ND. exists (List.fold_left pmul l x). split=> //; first by rewrite fold_pmul big_cons.
move=> f. rewrite ndvdE fold_pmul.
have W := prod_dvd H ND (P f). rewrite big_cons in W. split.
- by move=> D y Hy; apply/ndvdE; apply: W.1 => //.
- move=> D; apply: W.2 => y Hy. by apply/ndvdE/D.
Qed.
Lemma reduce_perm l l' : Permutation.Permutation l l' -> BCH_Model.reduce_mul l = BCH_Model.reduce_mul l'.
Proof.
move=> Pe. have E : \prod_(y <- l) P y = \prod_(y <- l') P y.
  elim: Pe => [//|x a b _ IH|x y a|a b c _ -> _ -> //]; by rewrite !big_cons ?IH // mulrCA.
case: l l' Pe E => [|x l] [|x' l'] Pe E //.
- by have := Permutation.Permutation_nil Pe.
- by have := Permutation.Permutation_nil (Permutation.Permutation_sym Pe).
- rewrite /= . congr Some. apply: P_inj. rewrite !fold_pmul. by move: E; rewrite !big_cons.
Qed.
Lemma in_lcm x delta : List.In x (BCH_Model.lcm_set m k delta) <-> exists2 i, (1 <= i < delta)%N & x = mp i.
Proof.
rewrite /BCH_Model.lcm_set List.nodup_In List.in_map_iff. split.
- move=> [i [<- /List.in_seq Hi]]. exists i => //. lia.
- move=> [i Hi ->]. exists i. split=> //. apply/List.in_seq. lia.
Qed.
Lemma lcm_mp x delta : List.In x (BCH_Model.lcm_set m k delta) -> is_mp x.
Proof. by case/in_lcm => i _ ->; exists i. Qed.
Lemma lcm_reduce delta : (2 <= delta)%N -> exists g, [/\ BCH_Model.reduce_mul (BCH_Model.lcm_set m k delta) = Some g,
  P g = \prod_(y <- BCH_Model.lcm_set m k delta) P y &
  forall f, ndvd g f <-> forall i, (1 <= i < delta)%N -> ev f (A ^+ i) = 0].
Proof.
move=> d2. have [|g [E F H]] := @reduce_spec (BCH_Model.lcm_set m k delta) _ (fun x => @lcm_mp x delta) (List.NoDup_nodup _ _).
  move=> E. have : List.In (mp 1) (BCH_Model.lcm_set m k delta) by apply/in_lcm; exists 1%N; rewrite ?d2. by rewrite E.
exists g. split=> // f. rewrite H. split.
- move=> D i Hi. apply/mp_dvd. apply: D. apply/in_lcm. by exists i.
- move=> D y /in_lcm [i Hi ->]. apply/mp_dvd. exact: D.
Qed.
(* degree of the generator *)
Lemma prod_size l : (forall y, List.In y l -> is_mp y) -> (size (\prod_(y <- l) P y)%R <= k * size l + 1)%N /\ \prod_(y <- l) P y != 0.
Proof.
elim: l => [|x l IH] H; first by rewrite big_nil size_poly1 oner_neq0 addn1.
have [S N] := IH (fun y Hy => H y (or_intror Hy)). have [i Ei] : is_mp x by apply: H; left.
rewrite big_cons. have Nx : P x != 0 by rewrite P_eq0 Ei; apply/eqP; exact: mp_nz.
split; last by rewrite mulf_neq0. rewrite size_mul //. have := mp_size i. rewrite -Ei -Psize /= mulnS.
move: (size (P x)) (size (\prod_(y <- l) P y)) S => a b; lia.
Qed.
Lemma mp_double i : mp (2 * i)%N = mp i.
Proof. apply/esym/mp_eq. exists 1%N. by rewrite expn1 mulnC. Qed.
Lemma lcm_odd x delta : List.In x (BCH_Model.lcm_set m k delta) -> List.In x (List.map (fun t => mp (2 * t + 1)%N) (List.seq 0 (delta %/ 2))).
Proof.
case/in_lcm. have W : forall b i, (i <= b)%N -> (1 <= i < delta)%N -> List.In (mp i) (List.map (fun t => mp (2 * t + 1)%N) (List.seq 0 (delta %/ 2))).
  elim=> [|b IH] i ib Hi; first by lia.
  case: (boolP (odd i)) => Oi.
  - apply/List.in_map_iff. exists (i %/ 2)%N. have E := odd_double_half i. rewrite Oi -divn2 -mul2n in E. split; first by congr (mp _); lia.
    apply/List.in_seq. have := divn_eq delta 2. have := ltn_pmod delta (isT : (0 < 2)%N). lia.
  - have E := odd_double_half i. rewrite (negbTE Oi) -divn2 -mul2n in E. rewrite -E add0n mp_double. apply: IH; lia.
by move=> i Hi ->; apply: (W i).
Qed.
Lemma gen_degree delta g : (2 <= delta)%N -> BCH_Model.reduce_mul (BCH_Model.lcm_set m k delta) = Some g -> (bit_length g - 1 <= k * (delta %/ 2))%N.
Proof.
move=> d2 Eg. have [g' [E F _]] := lcm_reduce d2. move: E. rewrite Eg => -[Egg]. subst g'.
have [S _] := prod_size (fun x => @lcm_mp x delta). rewrite -Psize F.
have Hs : (size (BCH_Model.lcm_set m k delta) <= delta %/ 2)%N.
  have := List.NoDup_incl_length (List.NoDup_nodup N.eq_dec _) (fun x => @lcm_odd x delta). rewrite List.map_length List.seq_length.
  rewrite -/(BCH_Model.lcm_set m k delta). have -> : length (BCH_Model.lcm_set m k delta) = size (BCH_Model.lcm_set m k delta) by []. lia.
have : (k * size (BCH_Model.lcm_set m k delta) <= k * (delta %/ 2))%N by rewrite leq_mul2l Hs orbT. lia.
Qed.

(* ---- words *)
Definition supp (v : list bool) : seq nat := [seq j <- iota 0 (size v) | List.nth j v false].
Notation pol v := (Bits_Model.bits_to_int v Bits_Model.LSB_first).
Lemma ev_word v y : ev (pol v) y = \sum_(j <- supp v) y ^+ j.
Proof.
rewrite /ev (@horner_coef_wide _ (size v)); last first.
  rewrite size_map_poly Psize. by apply/leP; exact: PolyVec_Proof.pol_bound v.
rewrite /supp big_filter [RHS]big_mkcond /=. have -> : iota 0 (size v) = index_iota 0 (size v) by rewrite /index_iota subn0.
rewrite big_mkord. apply: eq_bigr => j _.
rewrite coef_map coefP2 PolyVec_Proof.testbit_pol. case: (List.nth j v false); rewrite /= ?polyC1 ?polyC0 ?rmorph1 ?rmorph0 ?mul1r ?mul0r //.
Qed.
Lemma supp_cons b v : supp (b :: v) = (if b then [:: 0%N] else [::]) ++ map S (supp v).
Proof.
rewrite /supp /=. have -> : iota 1 (size v) = map S (iota 0 (size v)) by rewrite -(iotaDl 1 0).
rewrite filter_map. have -> : [seq x <- iota 0 (size v) | preim S (fun j => match j with 0 => b | S m0 => List.nth m0 v false end) x] = [seq j <- iota 0 (size v) | List.nth j v false] by apply: eq_filter.
by case: b.
Qed.
Lemma size_supp v : size (supp v) = Linear_Spec.weight v.
Proof.
elim: v => [//|b v IH]. rewrite supp_cons size_cat size_map IH. by case: b.
Qed.
Lemma supp_uniq v : uniq (supp v).
Proof. apply: filter_uniq. exact: iota_uniq. Qed.
Lemma mem_supp v j : (j \in supp v) = (j < size v)%N && List.nth j v false.
Proof. by rewrite mem_filter mem_iota add0n andbC. Qed.
Definition locs v : seq L := [seq A ^+ j | j <- supp v].
Lemma locs_uniq v : (size v <= n)%N -> uniq (locs v).
Proof.
move=> Sv. rewrite map_inj_in_uniq ?supp_uniq // => i j. rewrite !mem_supp => /andP [Hi _] /andP [Hj _]. apply: A_inj; lia.
Qed.
Lemma locs_nz v : 0 \notin locs v.
Proof. apply/mapP => -[j _ E]. by have := expf_neq0 j A_nz; rewrite -E eqxx. Qed.
Lemma ev_locs v i : ev (pol v) (A ^+ i) = \sum_(x <- locs v) x ^+ i.
Proof. rewrite ev_word /locs big_map. by apply: eq_bigr => j _; rewrite -!exprM mulnC. Qed.
Lemma size_locs v : size (locs v) = Linear_Spec.weight v.
Proof. by rewrite size_map size_supp. Qed.
(* the BCH bound *)
Lemma bch_bound v delta : (size v <= n)%N -> (forall i, (1 <= i < delta)%N -> ev (pol v) (A ^+ i) = 0) ->
  (Linear_Spec.weight v < delta)%N -> Linear_Spec.weight v = 0%N.
Proof.
move=> Sv H W. rewrite -size_locs. case E: (locs v) => [//|x xs]. exfalso.
have V : (1 : L) = 0.
  apply: (@vandermonde _ (locs v) (fun _ => 1) 1 (locs_uniq Sv) (locs_nz v) _ x); last by rewrite E mem_head.
  move=> t Ht. rewrite (eq_bigr (fun x => x ^+ t)); last by move=> y _; rewrite mul1r.
  rewrite -ev_locs H //. move: Ht. rewrite size_locs. lia.
move/eqP: V. by rewrite oner_eq0.
Qed.
End BCH.
