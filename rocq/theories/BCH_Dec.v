(* The Berlekamp decoder corrects every error of weight at most (delta - 1) / 2, and never raises. *)
Set Warnings "-notation-overridden,-ambiguous-paths".
From Coq Require List Permutation.
From Coq Require Import NArith ZArith PeanoNat Lia.
From Verif Require Import BinPoly_Model BinPoly_Proof GF2_Proof Algebra_Spec PrimeFactors_Proof Irreducible_Proof Algebra_Proof.
From Verif Require Import GFField_Proof BCH_Alg BCH_List BCH_BM BCH_Field.
From Verif Require BCH_Model Bits_Model Linear_Spec PolyVec_Proof Cyclic_Model Cyclic_Proof Vec_Proof Code_Spec BlockCode_Model BlockCode_Proof Props_Algebra.
From mathcomp Require Import all_ssreflect all_algebra zify.
Set Implicit Arguments.
Unset Strict Implicit.
Unset Printing Implicit Defensive.
Import GRing.Theory.
Local Open Scope ring_scope.
Import BCH_Model.

Section Dec.
Variable m : N.
Hypothesis irrN : nirreducible m.
Let irr : irreducible_poly (P m) := proj1 (nirr m) irrN.
Let q := quo_fieldP irr.
Let L := qf_field q.
Let k := (bit_length m - 1)%N.
Let n := (2 ^ k - 1)%N.
Notation phi := (GFField_Proof.phi irrN).
Notation elt := (GFField_Proof.elt m).
Notation elts := (GFField_Proof.elts m).
Notation PL := (GFField_Proof.PL irrN).
Hypothesis k2 : (1 < k)%N.
Hypothesis prim : ndvd m (xe1 (N.of_nat n)) /\ forall e, (0 < e < n)%N -> ~ ndvd m (xe1 (N.of_nat e)).
Notation ev := (BCH_Field.ev (irrN := irrN)).
Notation A := (BCH_Field.A irrN).
Notation locs := (BCH_Field.locs irrN).
Notation pol v := (Bits_Model.bits_to_int v Bits_Model.LSB_first).

Lemma binary_horner_eq coefs x : binary_horner m coefs x = gf_horner m (List.map (fun b : bool => if b then 1%num else 0%num) coefs) x.
Proof.
rewrite /binary_horner /gf_horner -List.map_rev. move: {1 3}0%num (List.rev coefs) => a l. elim: l a => [//|b l IH] a.
rewrite [LHS]/= IH /=. congr (List.fold_left _ _ _). by case: b => //; rewrite /padd N.lxor_0_r.
Qed.
Lemma horner_ev g x : elt x -> elt (binary_horner m (pcoefficients g) x) /\ phi (binary_horner m (pcoefficients g) x) = ev g (phi x).
Proof.
move=> ex. rewrite binary_horner_eq -/(bin_coeffs g). have eb : elts (bin_coeffs g).
  by move=> c /List.in_map_iff [[] [<- _]]; [exact: (elt1 irrN)|exact: elt0].
have [e E] := horner_spec irrN eb ex. by rewrite E bin_PL.
Qed.

Lemma log_loop_spec a : forall cnt i j, (i <= j < i + cnt)%N -> alpha_pow m j = a ->
  exists2 j', (i <= j' <= j)%N & gf_log_loop m alpha a cnt (N.of_nat i) = Some (N.of_nat j') /\ alpha_pow m j' = a.
Proof.
elim=> [|cnt IH] i j Hj Ea; first by lia. rewrite /= -/(alpha_pow m i). case: N.eqb_spec => H; first by exists i => //; lia.
have ij : i != j by apply/eqP => E; rewrite E in H.
have [j' Hj' [E1 E2]] := IH i.+1 j ltac:(lia) Ea. exists j'; first by lia. split=> //.
have -> : (N.of_nat i + 1)%num = N.of_nat i.+1 by lia. exact: E1.
Qed.
Lemma log_spec y : elt y -> y <> 0%num -> exists2 i, (i < n)%N & gf_log m (N.of_nat k) alpha y = Some (N.of_nat i) /\ phi y = A ^+ i.
Proof.
move=> ey ny. have [j Hj Ej] := @A_onto _ irrN k2 prim (phi y) ltac:(by rewrite phi_eq0 //; apply/eqP).
have Ea : alpha_pow m j = y by apply: (phi_inj (irrN := irrN)) => //; [exact: apow_elt|rewrite apow_phi].
rewrite /gf_log. have -> : N.to_nat (2 ^ N.of_nat k) = (2 ^ k)%N by rewrite Nto_pow Nat2N.id.
have Hj2 : (j < n)%N := Hj.
have [j' Hj' [E1 E2]] := @log_loop_spec y (2 ^ k)%N 0%N j ltac:(by rewrite /n in Hj2; lia) Ea.
exists j'; first by lia. split=> //. by rewrite -E2 apow_phi.
Qed.

Variables (B : bch) (g h : N) (delta : nat).
Hypothesis Bm : bch_modulus B = m.
Hypothesis Bmu : bch_mu B = k.
Hypothesis Bd : bch_delta B = delta.
Hypothesis d2 : (2 <= delta)%N.
Hypothesis dn : (delta <= n)%N.
Hypothesis Eg : reduce_mul (lcm_set m k delta) = Some g.
Hypothesis gh : pmul g h = xe1 (N.of_nat n).
Hypothesis BC : bch_code B = Cyclic_Model.cyclic_code n g h true.

Lemma g_spec f : ndvd g f <-> forall i, (1 <= i < delta)%N -> ev f (A ^+ i) = 0.
Proof. have [g' [E _ H]] := @lcm_reduce _ irrN k2 delta d2. move: E. rewrite Eg => -[Egg]. subst g'. exact: H. Qed.
Lemma n_pos : (2 < n)%N. Proof. exact: (n_gt0 k2). Qed.
Lemma ev_prod l (y : L) (f : N) : P f = \prod_(x <- l) P x -> ev f y = \prod_(x <- l) ev x y.
Proof.
rewrite /BCH_Field.ev => ->. rewrite rmorph_prod /= horner_prod. by [].
Qed.
Lemma pow2_mod i t : (n %| i * 2 ^ t)%N = (n %| i)%N.
Proof.
rewrite Gauss_dvdl // coprimeXr // coprimen2 /n. case: (k) k2 => // k' _.
by rewrite expnS mul2n oddB ?odd_double // double_gt0 expn_gt0.
Qed.
Lemma g_one : ev g 1 != 0.
Proof.
have [g' [E F _]] := @lcm_reduce _ irrN k2 delta d2. move: E. rewrite Eg => -[Egg]. subst g'.
rewrite (ev_prod 1 F). rewrite prodf_seq_neq0. apply/allP => x Hx. rewrite /=.
have Hin : List.In x (lcm_set m k delta) by elim: (lcm_set m k delta) Hx => [//|y l IH]; rewrite in_cons => /orP [/eqP ->|/IH]; [left|right].
have [i Hi ->] := (@in_lcm m k2 x delta).1 Hin. apply/eqP => Z.
have [t Et] := (@mp_conj _ irrN k2 i 1).1 Z. have := @A_eq _ irrN k2 prim (i * 2 ^ t)%N 0%N.
rewrite expr0 -Et eqxx mod0n => /esym. rewrite -/(dvdn _ _) -/k -/n pow2_mod. move/dvdn_leq. lia.
Qed.
Lemma g_nz : g <> 0%num.
Proof. move=> Z. have := g_one. by rewrite Z /BCH_Field.ev P0 rmorph0 horner0 eqxx. Qed.
Lemma h_nz : h <> 0%num.
Proof. move=> Z. have := gh. rewrite Z => E. have := n_pos. have := Cyclic_Proof.xe1_bit_length n. rewrite -E. have -> : pmul g 0 = 0%num by apply: P_inj; rewrite Pmul P0 mulr0. rewrite /=. lia. Qed.
Lemma deg_g : Cyclic_Model.deg g <> 0%N.
Proof.
rewrite /Cyclic_Model.deg => D. have gn := g_nz.
have D1 : ndvd (BCH_Model.phi m k 1) g by apply/(@mp_dvd _ irrN k2); apply: (g_spec g).1; [exact: ndvd_rfl|lia].
have := mp_size irrN k2 1. move/ndvdE: D1 => D1. have := dvdp_leq (_ : P g != 0) D1. rewrite !Psize P_eq0.
move=> /(_ (introN eqP gn)). rewrite -/k; move: D; rewrite /k; move: (bit_length g) (bit_length (BCH_Model.phi _ _ _)) => x y; lia.
Qed.
Lemma deg_h : Cyclic_Model.deg h <> 0%N.
Proof.
rewrite /Cyclic_Model.deg => D. have : h = 1%num.
  have : (size (P h) <= 1)%N by rewrite Psize; lia. move/size1_polyC => E. have hn : P h != 0 by rewrite P_eq0; apply/eqP; exact: h_nz.
  apply: P_inj. rewrite P1 E. congr (_%:P). rewrite E polyC_eq0 in hn. move: hn. case: (F2_cases ((P h)`_0)) => ->; by rewrite ?eqxx.
move=> H1. have := g_one. have := gh. rewrite H1 => E. have -> : g = xe1 (N.of_nat n) by rewrite -E; apply: P_inj; rewrite Pmul P1 mulr1.
by rewrite ev_xe1 expr1n subrr eqxx.
Qed.
(* ---- codewords *)
Notation C := (bch_code B).
Lemma codeword_ev v : Code_Spec.is_codeword C v <-> length v = n /\ forall i, (1 <= i < delta)%N -> ev (pol v) (A ^+ i) = 0.
Proof.
rewrite BC (Cyclic_Proof.cyc_codeword n g h true gh deg_h deg_g). by rewrite g_spec.
Qed.
Lemma code_encoder : Code_Spec.encoder_ok C.
Proof. rewrite BC. exact: (Cyclic_Proof.cyclic_encoder n g h true gh deg_h deg_g). Qed.
(* ---- syndrome *)
Lemma syn_spec r : let s := bch_syndrome B (pol r) in [/\ elts s, length s = (delta - 1)%N &
  forall t, (t < delta - 1)%N -> phi (List.nth t s 0%num) = ev (pol r) (A ^+ t.+1)].
Proof.
rewrite /bch_syndrome Bm Bd. split.
- move=> c /List.in_map_iff [i [<- _]]. exact: (horner_ev _ (apow_elt irrN k2 i)).1.
- by rewrite List.map_length List.seq_length.
- move=> t Ht. rewrite (List.nth_indep _ _ (binary_horner m (pcoefficients (pol r)) (alpha_pow m 0))); last by rewrite List.map_length List.seq_length; lia.
  rewrite (List.map_nth (fun i => binary_horner m (pcoefficients (pol r)) (alpha_pow m i))) List.seq_nth; last by lia.
  rewrite (horner_ev _ (apow_elt irrN k2 _)).2 apow_phi //.
Qed.
Lemma syn_PL r e : (forall i, (1 <= i < delta)%N -> ev (pol r) (A ^+ i) = ev (pol e) (A ^+ i)) ->
  PL (bch_syndrome B (pol r)) = psums (locs e) (delta - 1).
Proof.
move=> H. have [es ls ns] := syn_spec r. apply/polyP => t. rewrite coefPL coef_poly. case: ltnP => Ht.
- rewrite ns // H; last by lia. by rewrite ev_locs.
- rewrite List.nth_overflow ?phi0 // ls. lia.
Qed.
Lemma syn_zero r : List.forallb (fun x => N.eqb x 0) (bch_syndrome B (pol r)) = true <-> forall i, (1 <= i < delta)%N -> ev (pol r) (A ^+ i) = 0.
Proof.
have [es ls ns] := syn_spec r. rewrite List.forallb_forall. split.
- move=> H i Hi. have := ns (i - 1)%N ltac:(lia). have -> : (i - 1).+1 = i by lia. move=> <-.
  have /N.eqb_eq -> : N.eqb (List.nth (i - 1) (bch_syndrome B (pol r)) 0%num) 0 = true by apply: H; apply: List.nth_In; rewrite ls; lia.
  exact: phi0.
- move=> H x Hx. have [t [lt Et]] := List.In_nth _ _ 0%num Hx. rewrite ls in lt. apply/N.eqb_eq.
  have ex : elt x by exact: es. apply/eqP. rewrite -(phi_eq0 irrN) // -Et ns; last by lia. apply/eqP. apply: H. lia.
Qed.
(* ---- roots of the error locator polynomial *)
Lemma root_list s : elts s -> List.nth 0 s 0%num = 1%num ->
  List.NoDup (gf_find_roots m (N.of_nat k) s) /\ forall x, List.In x (gf_find_roots m (N.of_nat k) s) <-> elt x /\ root (PL s) (phi x).
Proof.
move=> es n0. have Hk : bit_length m = k.+1 by rewrite /k; have := k2; rewrite /k; lia.
have Hc c : List.In c s -> (c < 2 ^ N.of_nat k)%num by move=> /es /elt_lt.
have [|ND [_ H]] := @Props_Algebra.C26_find_roots m k irrN Hk s Hc.
  exists 1%num. split=> //. case: s {es Hc} n0 => [//|a s] /= ->. by left.
split=> // x. rewrite H -/(elt_lt m x). split.
- move=> [/elt_lt ex V]. split=> //. by have [_ E] := value_spec irrN s ex; rewrite rootE -E V phi0.
- move=> [ex R]. split; first exact/elt_lt. have [e E] := value_spec irrN s ex. move: R. rewrite rootE -E (phi_eq0 irrN) // => /eqP. exact.
Qed.
Lemma location x : elt x -> x <> 0%num -> exists2 i, error_location B x = Some i & (i < n)%N /\ (phi x)^-1 = A ^+ i.
Proof.
move=> ex nx. rewrite /error_location Bm Bmu. have [y [E [ey M]]] := inv_spec irrN ex nx. rewrite E.
have nxp : phi x != 0 by rewrite phi_eq0 //; apply/eqP.
have Ey : phi y = (phi x)^-1.
  have := congr1 phi M. rewrite phi_mul phi1 => H. apply: (mulfI nxp). by rewrite H divff.
have ny : y <> 0%num by move=> Z; move: Ey; rewrite Z phi0 => /esym/eqP; rewrite invr_eq0 (negbTE nxp).
have [i Hi [El Ei]] := log_spec ey ny. exists i; first by rewrite El /= Nat2N.id. by rewrite -Ey Ei.
Qed.
Lemma locate s : elts s -> List.nth 0 s 0%num = 1%num -> exists l,
  [/\ all_some (List.map (error_location B) (gf_find_roots m (N.of_nat k) s)) = Some l, List.NoDup l &
      forall j, List.In j l <-> (j < n)%N /\ root (PL s) (A ^+ j)^-1].
Proof.
move=> es n0. have [ND H] := root_list es n0.
have nz x : List.In x (gf_find_roots m (N.of_nat k) s) -> x <> 0%num.
  move=> /H [_ R] Z. move: R. rewrite Z phi0 rootE horner_coef0 coefPL n0 phi1. by rewrite oner_eq0.
have [|l [E [_ [M N]]]] := @all_some_spec N (error_location B) (gf_find_roots m (N.of_nat k) s).
  move=> x Hx. have [i Ei _] := location (proj1 (proj1 (H x) Hx)) (nz x Hx). by exists i.
exists l. split=> //.
- apply: N => // x y i Hx Hy. have [ex _] := proj1 (H x) Hx. have [ey _] := proj1 (H y) Hy.
  have [i1 -> [_ E1]] := location ex (nz x Hx). have [i2 -> [_ E2]] := location ey (nz y Hy). move=> [A1] [A2]. subst i1 i2.
  apply: (phi_inj (irrN := irrN)) => //. apply: invr_inj. by rewrite E1 E2.
- move=> j. rewrite M. split.
  + move=> [x [Hx Ex]]. have [ex R] := proj1 (H x) Hx. have [i Ei [Hi E2]] := location ex (nz x Hx).
    move: Ex. rewrite Ei => -[Ej]. subst i. split=> //. by rewrite -E2 invrK.
  + move=> [Hj R]. have [x [ex Ex]] := phi_onto (irrN := irrN) ((A ^+ j)^-1).
    have Hx : List.In x (gf_find_roots m (N.of_nat k) s) by apply/H; split=> //; rewrite Ex.
    exists x. split=> //. have [i Ei [Hi E2]] := location ex (nz x Hx). rewrite Ei. congr Some.
    move: E2. rewrite Ex invrK => /esym. exact: A_inj.
Qed.

(* the decoder never raises *)
Lemma project_length v : length (BlockCode_Model.bc_project C v) = BlockCode_Model.bc_k C.
Proof. rewrite BC /=. by rewrite PolyVec_Proof.coefficients_length //; exact: deg_h. Qed.
Lemma decode_total r : length r = n -> exists u, berlekamp_decode B r = Some u /\ length u = BlockCode_Model.bc_k C.
Proof.
move=> Lr. rewrite /berlekamp_decode /Cyclic_Model.from_coefficients. case: ifP => _.
  eexists; split; first by []. exact: project_length.
have [es ls ns] := syn_spec r. have [s [d [E el Ll n0 _]]] := @berlekamp_spec m irrN delta _ es d2 B Bm Bd.
rewrite E Bm Bmu. have [l [El ND Hl]] := locate el n0. rewrite El.
have Ln : BlockCode_Model.bc_n C = n by rewrite BC. rewrite Ln.
have Bl x : List.In x l -> (x < n)%coq_nat by move=> /Hl [Hx _]; lia.
have [v [Ev Lv]] := @add_mod2_total r (BlockCode_Model.bincount n l) ltac:(by rewrite bincount_length).
rewrite Ev /=. eexists; split; first by []. exact: project_length.
Qed.
Lemma decode_corrects u e : length u = BlockCode_Model.bc_k C -> length e = n -> (2 * Linear_Spec.weight e <= delta - 1)%N ->
  berlekamp_decode B (Vec_Model.vxor (BlockCode_Model.bc_encode C u) e) = Some u.
Proof.
move=> Lu Le We. set c := BlockCode_Model.bc_encode C u.
have Cc : Code_Spec.is_codeword C c by exists u.
have [Lc Ec] := (codeword_ev c).1 Cc. set r := Vec_Model.vxor c e.
have Lr : length r = n by rewrite /r Vec_Proof.vxor_length Lc.
have Er i : (1 <= i < delta)%N -> ev (pol r) (A ^+ i) = ev (pol e) (A ^+ i).
  move=> Hi. have Ep : pol r = N.lxor (pol c) (pol e) by apply: PolyVec_Proof.pol_vxor; rewrite Lc.
  by rewrite Ep ev_add Ec // add0r.
have Pc : BlockCode_Model.bc_project C c = u by exact: (Code_Spec.ok_project _ code_encoder u Lu).
have Se : size e = n by exact: Le.
rewrite /berlekamp_decode /Cyclic_Model.from_coefficients. case: ifP => Hz.
- congr Some. have Z : Linear_Spec.weight e = 0%N.
    apply: (@bch_bound m irrN k2 prim e delta); [by rewrite Se| |lia]. move=> i Hi. rewrite -Er //. exact: (syn_zero r).1.
  have -> : r = c; last by []. rewrite /r. have := (BlockCode_Proof.weight_zero e).1 Z. rewrite Le => ->. exact: Vec_Proof.vxor_zeros_r.
- have [es ls ns] := syn_spec r. have [s [d [E el Ll n0 [Gs Ms]]]] := @berlekamp_spec m irrN delta _ es d2 B Bm Bd.
  rewrite E Bm Bmu. have [l [El ND Hl]] := locate el n0. rewrite El.
  have Ln : BlockCode_Model.bc_n C = n by rewrite BC. rewrite Ln.
  have U : uniq (locs e) by apply: (@locs_uniq m irrN k2 prim); rewrite Se.
  have Z : 0 \notin locs e by exact: (@locs_nz m irrN k2 prim).
  have EP := syn_PL Er. rewrite EP in Gs Ms.
  have dl : (d <= size (locs e))%N.
    apply: (Ms (locator (locs e))); [exact: locator_size|exact: locator_0|]. move=> t Ht. exact: locator_gen.
  have Sz : (size (PL s) <= d.+1)%N by rewrite -Ll; exact: PL_size.
  have R := @gen_roots _ (locs e) (delta - 1) (PL s) d U Z _ dl Sz _ Gs.
  have {}R : forall z, root (PL s) z = (z != 0) && (z^-1 \in locs e).
    apply: R; [by rewrite size_locs|by rewrite coefPL n0 phi1].
  have Bl x : List.In x l -> (x < length r)%coq_nat by move=> /Hl [Hx _]; rewrite Lr; lia.
  rewrite -Lr (@add_mod2_ind r e l) ?Lr //.
  + rewrite /= /r. have -> : Vec_Model.vxor (Vec_Model.vxor c e) e = c; last by rewrite Pc.
    apply: Vec_Proof.vxor_cancel_r. by rewrite Lc.
  + by move=> x /Hl [Hx _]; lia.
  + move=> j Hj. rewrite Hl R invr_eq0 invrK expf_neq0 ?(@A_nz m irrN k2 prim) //=. split.
    * move=> [Hjn /mapP [i Hi Ei]]. have := Hi. rewrite mem_supp => /andP [Hin Hn].
      have -> : j = i by apply: (@A_inj m irrN k2 prim) => //; rewrite -/k -/n -Se. exact: Hn.
    * move=> Hn. split; first by lia. apply: map_f. rewrite mem_supp Hn andbT. change (j < length e)%N. rewrite Le. lia.
Qed.
(* the distance *)
Lemma code_distance v : Code_Spec.is_codeword C v -> (Linear_Spec.weight v < delta)%N -> Linear_Spec.weight v = 0%N.
Proof.
move=> /codeword_ev [Lv Ev] W. apply: (@bch_bound m irrN k2 prim v delta) => //. have -> : size v = length v by []. by rewrite Lv.
Qed.
End Dec.
