(* The Berlekamp iteration computes a shortest generator of the syndrome sequence. *)
Set Warnings "-notation-overridden,-ambiguous-paths".
From Coq Require List.
From Coq Require Import NArith ZArith PeanoNat Lia.
From Verif Require Import BinPoly_Model BinPoly_Proof GF2_Proof Algebra_Spec PrimeFactors_Proof Irreducible_Proof Algebra_Proof.
From Verif Require Import GFField_Proof BCH_Alg.
From Verif Require Import BCH_Model BCH_List.
From mathcomp Require Import all_ssreflect all_algebra zify.
Set Implicit Arguments.
Unset Strict Implicit.
Unset Printing Implicit Defensive.
Import GRing.Theory.
Local Open Scope ring_scope.

Section BM.
Variable m : N.
Hypothesis irrN : nirreducible m.
Let irr : irreducible_poly (P m) := proj1 (nirr m) irrN.
Let q := quo_fieldP irr.
Let L := qf_field q.
Notation phi := (GFField_Proof.phi irrN).
Notation elt := (GFField_Proof.elt m).
Notation elts := (GFField_Proof.elts m).
Notation PL := (GFField_Proof.PL irrN).
Variables (delta : nat) (syn : list N).
Hypothesis Hs : elts syn.
Hypothesis d2 : (2 <= delta)%N.
Let S := PL syn.

Definition good (i : nat) (r : bm_row) : Prop :=
  [/\ elts (bm_sigma r), length (bm_sigma r) = (bm_deg r).+1, List.nth 0 (bm_sigma r) 0%num = 1%num & (bm_deg r <= i)%N] /\
  [/\ forall t, (bm_deg r <= t < i)%N -> (PL (bm_sigma r) * S)`_t = 0, elt (bm_disc r) & (i < delta - 1)%N -> phi (bm_disc r) = (PL (bm_sigma r) * S)`_i].

Definition inv (j : nat) (t : list bm_row) : Prop :=
  [/\ length t = j.+2, key t 0 = Row [:: 1%num] 1%num 0 & forall i, (i <= j)%N -> good i (key t i.+1)] /\
  [/\ forall p, (p <= j)%N -> bm_disc (key t p) <> 0%num -> (p <= bm_deg (key t p) + bm_deg (key t j.+1))%N,
      exists2 p, (p <= j)%N & bm_disc (key t p) <> 0%num /\ p = (bm_deg (key t p) + bm_deg (key t j.+1))%N &
      forall (La : {poly L}) nu, (size La <= nu.+1)%N -> La`_0 = 1 -> (forall t, (nu <= t < delta - 1)%N -> (La * S)`_t = 0) -> (bm_deg (key t j.+1) <= nu)%N].

Lemma PL_size l : (size (PL l) <= length l)%N.
Proof. rewrite /GFField_Proof.PL. apply: leq_trans (size_Poly _) _. by rewrite size_map. Qed.

(* line 79-88 *)
Lemma update_spec t j : inv j t -> (j < delta - 1)%N -> bm_disc (key t j.+1) <> 0%num ->
  let p := fst (bm_select t j) in
  exists s' d', [/\ bm_update m t j = Some (s', d'), elts s', length s' = d'.+1, List.nth 0 s' 0%num = 1%num &
    d' = maxn (bm_deg (key t j.+1)) (j.+1 - bm_deg (key t j.+1))] /\
    forall u, (d' <= u < j.+1)%N -> (PL s' * S)`_u = 0.
Proof.
move=> [[Lt K0 G] [Vmax [p0 p0j [p0d p0v]] _]] jd dj. cbv zeta.
have [pj [pd pm]] := @select_spec t j ltac:(by rewrite K0) ltac:(by rewrite K0). set p := fst (bm_select t j) in pj pd pm *.
have pv : p = (bm_deg (key t p) + bm_deg (key t j.+1))%N.
  have := pm p0 ltac:(lia) p0d. have := Vmax p ltac:(lia) pd. lia.
set rj := key t j.+1 in dj pv *. set rk := key t p in pd pv *.
have [[ej lj n0j dej] [zj edj cj]] : good j rj by apply: G.
have [[ek lk] edk] : [/\ elts (bm_sigma rk) & length (bm_sigma rk) = (bm_deg rk).+1] /\ elt (bm_disc rk).
  rewrite /rk. case: (p) pj => [_|p' p'j]; last by have [[? ? ? ?] [? ? ?]] := G p' ltac:(lia).
  rewrite K0 /=. split; last exact: elt1. split=> // c [<-|[]]. exact: elt1.
have [iv [Ei [ei Mi]]] := inv_spec irrN edk pd.
pose sh := (j.+1 - p)%N. pose dg := maxn (bm_deg rj) (bm_deg rk + sh).
have Edg : Nat.max (bm_deg rj) (bm_deg rk + (j + 1 - p)) = dg by rewrite /dg /sh; lia.
have Esh : (j + 1 - p)%coq_nat = sh by rewrite /sh; lia.
rewrite /bm_update; cbv zeta. rewrite -/p. have -> : (j + 1)%coq_nat = j.+1 by lia. rewrite -/rj -/rk Ei.
have -> : (j.+1 - p)%coq_nat = sh by rewrite /sh; lia.
have -> : Nat.max (bm_deg rj) (bm_deg rk + sh) = dg by rewrite /dg; lia.
set l := List.map _ _. set f := fun i : nat => gf_add _ _ in l *.
have Nf i : List.nth i l 0%num = if (i <= dg)%N then f i else 0%num.
  rewrite /l. case: leqP => H; first by rewrite Common.nth_map_seq //; lia.
  rewrite List.nth_overflow // List.map_length List.seq_length. lia.
have F1 i : List.nth i (slice_assign (List.repeat 0%num (dg + 1)) 0 (bm_deg rj + 1) (bm_sigma rj)) 0%num = List.nth i (bm_sigma rj) 0%num.
  rewrite slice_nth; last by lia. by rewrite /= Nat.sub_0_r.
have F2 i : List.nth i (slice_assign (List.repeat 0%num (dg + 1)) sh (bm_deg rk + sh + 1) (bm_sigma rk)) 0%num = if (i < sh)%N then 0%num else List.nth (i - sh) (bm_sigma rk) 0%num.
  rewrite slice_nth; last by rewrite /dg; lia. case: Nat.ltb_spec => H; case: ltnP => H' //; lia.
have Ef i : f i = gf_add (List.nth i (bm_sigma rj) 0%num) (gf_mul m (gf_mul m (if (i < sh)%N then 0%num else List.nth (i - sh) (bm_sigma rk) 0%num) (bm_disc rj)) iv).
  by rewrite /f F1 F2.
have el : elts l.
  move=> c /List.in_map_iff [i [<- _]]. rewrite Ef. apply: (elt_add irrN); [exact: (elts_nth i ej)|exact: (elt_mul irrN)].
have Ep : PL l = PL (bm_sigma rj) + (phi (bm_disc rj) * phi iv) *: ('X^sh * PL (bm_sigma rk)).
  apply/polyP => i. rewrite coefD coefZ coefXnM !coefPL Nf. case: (leqP i dg) => H.
  - rewrite Ef phi_add !phi_mul. congr (_ + _). case: ifP => _; first by rewrite phi0 !mul0r mulr0. by rewrite -mulrA [RHS]mulrC.
  - rewrite (@List.nth_overflow _ (bm_sigma rj)); last by rewrite lj; move: H; rewrite /dg; lia.
    rewrite (@List.nth_overflow _ (bm_sigma rk)); last by rewrite lk; move: H; rewrite /dg; lia.
    by rewrite !phi0 if_same mulr0 addr0.
exists l, dg. split; first split=> //.
- by rewrite /l List.map_length List.seq_length; lia.
- rewrite Nf leq0n Ef n0j. have -> : (0 < sh)%N by rewrite /sh; lia.
  have E : gf_mul m (gf_mul m 0%num (bm_disc rj)) iv = 0%num.
    by apply: (phi_inj (irrN := irrN)); [exact: (elt_mul irrN)|exact: elt0|rewrite !phi_mul phi0 !mul0r].
  by rewrite E.
- rewrite /dg /sh. lia.
- move=> u Hu. rewrite Ep mulrDl coefD -scalerAl coefZ -['X^sh * _ * _]mulrA coefXnM. 
  move: (leqnn p). case: {2}p (erefl p) => [|p'] Ep' _.
  + move: Hu. rewrite /dg /sh Ep'. lia.
  + have usp : (sh <= u)%N by move: Hu; rewrite /dg; lia. rewrite ltnNge usp /=.
    have [[_ _ _ _] [zk _ ck]] : good p' rk by rewrite /rk Ep'; apply: G; lia.
    case: (ltngtP u j) Hu => // [uj|uj|uj] Hu; try lia.
    * rewrite zj; last by move: Hu; rewrite /dg; lia. rewrite zk ?mulr0 ?addr0 //. move: Hu; rewrite /dg /sh; lia.
    * rewrite uj -cj //. have -> : (j - sh)%N = p' by rewrite /sh; lia. rewrite -ck; last by lia.
      have := congr1 phi Mi. rewrite phi_mul phi1 mulrC => Mp. by rewrite -mulrA Mp mulr1 addLL.
Qed.
Lemma disc_spec s d j : elts s -> length s = d.+1 -> List.nth 0 s 0%num = 1%num -> (d <= j.+1)%N ->
  elt (bm_discrepancy m syn s d j) /\ phi (bm_discrepancy m syn s d j) = (PL s * S)`_j.+1.
Proof.
move=> es ls n0 dj. rewrite /bm_discrepancy.
have W f (l : list nat) x : elt x -> (forall i, elt (f i)) ->
    elt (List.fold_left (fun d i => gf_add d (f i)) l x) /\ phi (List.fold_left (fun d i => gf_add d (f i)) l x) = phi x + \sum_(i <- l) phi (f i).
  elim: l x => [|i l IH] x ex ef /=; first by rewrite big_nil addr0.
  have [||e E] := IH (gf_add x (f i)) => //; first by apply: (elt_add irrN). by rewrite E big_cons phi_add addrA.
have [||e E] := W (fun i => gf_mul m (List.nth (i + 1) s 0%num) (List.nth (j - i) syn 0%num)) (List.seq 0 d) (List.nth (j + 1) syn 0%num).
- exact: elts_nth.
- by move=> i; exact: (elt_mul irrN).
split=> //. rewrite E coefM big_ord_recl /= !coefPL n0 phi1 mul1r subn0. congr (_ + _); first by congr (phi (List.nth _ _ _)); lia.
have -> : List.seq 0 d = index_iota 0 d.
  rewrite /index_iota subn0. move: 0%N. elim: (d) => [//|d' IH] a /=. by rewrite IH.
rewrite (eq_bigr (fun i : 'I_j.+1 => phi (gf_mul m (List.nth (i + 1) s 0%num) (List.nth (j - i) syn 0%num)))); last first.
  move=> i _. rewrite !coefPL phi_mul /bump leq0n. congr (phi (List.nth _ _ _) * phi (List.nth _ _ _)); lia.
rewrite -(big_mkord xpredT (fun i => phi (gf_mul m (List.nth (i + 1) s 0%num) (List.nth (j - i) syn 0%num)))).
rewrite (@big_cat_nat _ _ _ d 0 j.+1) //=. rewrite [X in _ = _ + X]big_nat_cond [X in _ = _ + X]big1 ?addr0 // => i /andP [Hi _].
rewrite phi_mul (@List.nth_overflow _ s); last by rewrite ls; lia. by rewrite phi0 mul0r.
Qed.
Lemma step_spec t j : inv j t -> (j < delta - 1)%N -> exists2 t', bm_step m delta syn (Some t) j = Some t' & inv j.+1 t'.
Proof.
move=> I jd. have [[Lt K0 G] [Vmax [p0 p0j [p0d p0v]] Min]] := I.
have [[ej lj n0j dej] [zj edj cj]] : good j (key t j.+1) by apply: G.
have [s' [d' [E [es ls n0 dd zz]]]] : exists s' d', (if N.eqb (bm_disc (key t j.+1)) 0 then Some (bm_sigma (key t j.+1), bm_deg (key t j.+1)) else bm_update m t j) = Some (s', d') /\
   [/\ elts s', length s' = d'.+1, List.nth 0 s' 0%num = 1%num,
     d' = (if N.eqb (bm_disc (key t j.+1)) 0 then bm_deg (key t j.+1) else maxn (bm_deg (key t j.+1)) (j.+1 - bm_deg (key t j.+1))) &
    forall u, (d' <= u < j.+1)%N -> (PL s' * S)`_u = 0].
  case: N.eqb_spec => Hd.
  - exists (bm_sigma (key t j.+1)), (bm_deg (key t j.+1)). split=> //. split=> // u Hu.
    case: (ltngtP u j) Hu => // [uj|uj|uj] Hu; try lia; first by apply: zj; lia.
    by rewrite uj -cj // Hd phi0.
  - have [s' [d' [[E es ls n0 dd] zz]]] := update_spec I jd Hd. by exists s', d'.
have d'j : (d' <= j.+1)%N by move: dd; case: ifP => _; lia.
rewrite /bm_step. have -> : (j + 1)%coq_nat = j.+1 by lia. rewrite E.
set dc := if _ then _ else _. exists (t ++ [:: Row s' dc d'])%list => //.
have Kl p : (p <= j.+1)%N -> key (t ++ [:: Row s' dc d'])%list p = key t p by move=> Hp; apply: key_app_l; rewrite Lt; lia.
have Kr : key (t ++ [:: Row s' dc d'])%list j.+2 = Row s' dc d' by rewrite -Lt key_app_r.
have Gn : good j.+1 (Row s' dc d').
  split; split=> //=.
  - rewrite /dc. case: Nat.ltb_spec => _; last exact: elt0. exact: (disc_spec es ls n0 d'j).1.
  - move=> jd2. rewrite /dc. case: Nat.ltb_spec => H; last by lia. exact: (disc_spec es ls n0 d'j).2.
set T := (t ++ _)%list in Kl Kr *. split; split.
- by rewrite /T List.app_length Lt /=; lia.
- by rewrite Kl.
- move=> i ij. case: (ltngtP i j.+1) ij => // [ij|->] _; last by rewrite Kr. rewrite Kl //. exact: G.
- move=> p pj. rewrite Kr /= Kl //. case: (ltngtP p j.+1) pj => // [pj|->] _ Hd.
  + have := Vmax p pj Hd. rewrite dd. case: ifP => _; lia.
  + rewrite dd. case: N.eqb_spec => // _. lia.
- rewrite Kr /= dd. case: N.eqb_spec => Hd.
  + exists p0; first by lia. by rewrite Kl //; lia.
  + case: (leqP (j.+1 - bm_deg (key t j.+1)) (bm_deg (key t j.+1))) => H.
    * exists p0; first by lia. rewrite Kl; last by lia. split=> //.
    * exists j.+1 => //. rewrite Kl //. split=> //. lia.
- move=> La nu SL L0 HL. rewrite Kr /= dd. have M := Min La nu SL L0 HL. case: N.eqb_spec => Hd //.
  rewrite geq_max M /=. apply: (@massey _ (PL (bm_sigma (key t j.+1))) La S (bm_deg (key t j.+1)) nu j) => //.
  + apply: leq_trans (PL_size _) _. by rewrite lj.
  + rewrite -cj // phi_eq0 //. by apply/eqP.
  + move=> u Hu. apply: HL. lia.
Qed.
Lemma init_inv : inv 0 [:: Row [:: 1%num] 1%num 0; Row [:: 1%num] (List.nth 0 syn 0%num) 0].
Proof.
split; split=> //.
- case=> // _. split; split=> //=.
  + by move=> c [<-|[]]; exact: elt1.
  + exact: (elts_nth 0 Hs).
  + move=> _. rewrite coefM big_ord_recl big_ord0 addr0 !coefPL /= phi1 mul1r. by [].
- by case.
- by exists 0%N.
Qed.
Lemma fold_inv n : (n <= delta - 1)%N -> exists2 t, List.fold_left (bm_step m delta syn) (List.seq 0 n)
   (Some [:: Row [:: 1%num] 1%num 0; Row [:: 1%num] (List.nth 0 syn 0%num) 0]) = Some t & inv n t.
Proof.
elim: n => [|n IH] Hn; first by eexists; [reflexivity|exact: init_inv].
have [t E I] := IH ltac:(lia). rewrite List.seq_S List.fold_left_app E /=. exact: step_spec.
Qed.
Lemma berlekamp_spec (B : bch) : bch_modulus B = m -> bch_delta B = delta ->
  exists s d, [/\ berlekamp_algorithm B syn = Some s, elts s, length s = d.+1, List.nth 0 s 0%num = 1%num &
    (forall t, (d <= t < delta - 1)%N -> (PL s * S)`_t = 0) /\
    forall (La : {poly L}) nu, (size La <= nu.+1)%N -> La`_0 = 1 -> (forall t, (nu <= t < delta - 1)%N -> (La * S)`_t = 0) -> (d <= nu)%N].
Proof.
move=> Em Ed. rewrite /berlekamp_algorithm Em Ed. have [t E [[Lt K0 G] [_ _ Min]]] := fold_inv (leqnn _).
have -> : (delta - 1)%coq_nat = (delta - 1)%N by lia. rewrite E. have E2 : delta = (delta - 1).+1 by lia. rewrite [in key t _]E2.
have [[ej lj n0j dej] [zj edj cj]] := G _ (leqnn _).
by exists (bm_sigma (key t (delta - 1).+1)), (bm_deg (key t (delta - 1).+1)).
Qed.
End BM.
