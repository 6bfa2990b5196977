(* FiniteBifield: field laws, roots, minimal polynomials. *)
Set Warnings "-notation-overridden,-ambiguous-paths".
From Coq Require List.
From Coq Require Import NArith ZArith PeanoNat Lia.
From Verif Require Import BinPoly_Model BinPoly_Proof GF2_Proof Algebra_Spec PrimeFactors_Proof Irreducible_Proof Algebra_Proof.
From mathcomp Require Import all_ssreflect all_algebra zify.
Set Implicit Arguments.
Unset Strict Implicit.
Unset Printing Implicit Defensive.
Import GRing.Theory.
Local Open Scope ring_scope.

Lemma bit_length_lt a k : (bit_length a <= k)%N <-> (a < N.pow 2 (N.of_nat k))%num.
Proof.
have S x : x <> 0%num -> bit_length x = (N.to_nat (N.log2 x)).+1.
  move=> nx. rewrite /bit_length. have -> : N.size_nat x = N.to_nat (N.size x).
    case: x {nx} => [//|p] /=. elim: p => [p IH|p IH|] //=; lia.
  rewrite N.size_log2 //. lia.
case: (N.eq_dec a 0) => [->|na].
  split=> // _. apply/N.neq_0_lt_0. exact: N.pow_nonzero.
rewrite S //. rewrite N.log2_lt_pow2; lia.
Qed.

Section Field.
Variables (m : N).
Hypothesis irrN : nirreducible m.
Let irr : irreducible_poly (P m) := proj1 (nirr m) irrN.
Let q := quo_fieldP irr.
Let L := qf_field q.
Let k := (bit_length m - 1)%N.
Definition phi (a : N) : L := qf_phi q (P a).
Lemma m_nz : m <> 0%num. Proof. by case: irrN. Qed.
Lemma size_m : size (P m) = k.+1.
Proof. rewrite Psize /k. have := Psize m. case: irr => S _. rewrite Psize in S. lia. Qed.
Lemma k_gt0 : (0 < k)%N.
Proof. by case: irr => S _; rewrite size_m in S. Qed.
Definition elt (a : N) : Prop := (bit_length a <= k)%N.
Lemma elt_lt a : elt a <-> (a < N.pow 2 (N.of_nat k))%num.
Proof. exact: bit_length_lt. Qed.
Lemma elt_size a : elt a <-> (size (P a) < size (P m))%N.
Proof. by rewrite /elt size_m Psize ltnS. Qed.
Lemma phi_inj a b : elt a -> elt b -> phi a = phi b -> a = b.
Proof.
move=> /elt_size Sa /elt_size Sb /eqP. rewrite /phi -subr_eq0 -rmorphB qf_ker => D. apply: P_inj. apply/eqP. rewrite -subr_eq0.
case: (boolP (P a - P b == 0)) => // nz. move: D. apply: contraTT => _. apply/negP => /dvdp_leq => /(_ nz). apply/negP. rewrite -ltnNge.
apply: leq_ltn_trans (size_add _ _) _. by rewrite size_opp gtn_max Sa Sb.
Qed.
Lemma phi_eq0 a : elt a -> (phi a == 0) = (a == 0%num).
Proof.
move=> Ha. apply/eqP/eqP => [E|->]; last by rewrite /phi P0 rmorph0.
apply: phi_inj => //. by rewrite E /phi P0 rmorph0.
Qed.
Lemma elt0 : elt 0%num. Proof. by []. Qed.
Lemma elt1 : elt 1%num. Proof. exact: k_gt0. Qed.
Lemma phi0 : phi 0%num = 0. Proof. by rewrite /phi P0 rmorph0. Qed.
Lemma phi1 : phi 1%num = 1. Proof. by rewrite /phi P1 rmorph1. Qed.
Lemma elt_mul a b : elt (gf_mul m a b).
Proof. apply/elt_size. rewrite Pmod; last exact: m_nz. rewrite ltn_modp P_eq0. apply/eqP. exact: m_nz. Qed.
Lemma phi_mod a : qf_phi q (a %% P m) = qf_phi q a.
Proof.
apply/eqP. rewrite -subr_eq0 -rmorphB qf_ker. apply/dvdpP. exists (- (a %/ P m)).
by rewrite {2}(divp_eq a (P m)) opprD addrCA subrr addr0 mulNr.
Qed.
Lemma phi_mul a b : phi (gf_mul m a b) = phi a * phi b.
Proof. rewrite /phi Pmod; last exact: m_nz. by rewrite phi_mod Pmul rmorphM. Qed.
Lemma elt_add a b : elt a -> elt b -> elt (gf_add a b).
Proof. move=> /elt_size Sa /elt_size Sb. apply/elt_size. rewrite Padd. apply: leq_ltn_trans (size_add _ _) _. by rewrite gtn_max Sa Sb. Qed.
Lemma phi_add a b : phi (gf_add a b) = phi a + phi b.
Proof. by rewrite /phi Padd rmorphD. Qed.
Lemma phi_onto (y : L) : exists a, elt a /\ phi a = y.
Proof. have [p [S <-]] := qf_onto y. have [a Ea] := P_surj p. exists a. rewrite /phi Ea; split=> //. apply/elt_size. by rewrite Ea. Qed.

Lemma inv_spec a : elt a -> a <> 0%num -> exists b, gf_inv m a = Some b /\ elt b /\ gf_mul m a b = 1%num.
Proof.
move=> ea na. rewrite /gf_inv /pxgcd.
have [d [s [t [E [G [B H]]]]]] := @xgcd_loop_spec (bit_length a).+1 a m (leqnn _). rewrite E.
have lt : (bit_length a < bit_length m)%N by rewrite -(Psize a) -(Psize m); apply/elt_size.
have cop : coprimep (P a) (P m).
  rewrite coprimep_sym coprimep_def. have [_ /(_ (gcdp (P m) (P a)))] := irr.
  case: (size (gcdp (P m) (P a)) =P 1%N) => // _ /(_ isT (dvdp_gcdl _ _)) /eqp_size E1.
  have := dvdp_leq _ (dvdp_gcdr (P m) (P a)). rewrite E1 !Psize P_eq0 => /(_ _) /leq_trans H1.
  have : (bit_length m <= bit_length a)%N by apply: H1 => //; apply/eqP. by rewrite leqNgt lt.
have d1 : d = 1%num.
  move: cop. rewrite coprimep_def -G => /size_poly1P [c c0 Ec]. apply: P_inj. rewrite P1 Ec.
  by case: (F2_cases c) c0 => ->; rewrite ?eqxx // polyC1.
subst d. rewrite N.eqb_refl. exists s. split=> //. have [S1 _] := H na lt.
have es : elt s. { apply/elt_size. move: S1. rewrite P1 size_poly1. lia. }
split=> //. apply: phi_inj; [exact: elt_mul|exact: elt1|]. rewrite phi_mul phi1 mulrC.
rewrite /phi -rmorphM. have -> : P s * P a = 1 - P t * P m by rewrite -P1 -B addrK.
rewrite rmorphB rmorph1 rmorphM. have /eqP -> : qf_phi q (P m) == 0 by rewrite qf_ker dvdpp.
by rewrite mulr0 subr0.
Qed.
Lemma inv_zero : gf_inv m 0%num = None.
Proof.
rewrite /gf_inv /pxgcd /=. case: N.eqb_spec => // E. by case: irrN => _ [].
Qed.

Lemma npow_spec x i : elt x -> elt (gf_npow m x i) /\ phi (gf_npow m x i) = phi x ^+ i.
Proof.
move=> ex. elim: i => [|i [e E]]; first by rewrite expr0 phi1; split=> //; exact: elt1.
by split; [exact: elt_mul|rewrite /= phi_mul E exprS].
Qed.
Lemma rpow_spec x n : elt x -> elt (ring_power (gf_mul m) 1%num x n) /\ phi (ring_power (gf_mul m) 1%num x n) = phi x ^+ N.to_nat n.
Proof.
move=> ex. exact: (@power_loop_morph N L (gf_mul m) 1%num phi elt elt1 (fun a b _ _ => elt_mul a b) phi1 (fun a b _ _ => phi_mul a b) _ n x ex (le_n _)).
Qed.
Lemma rpow_npow x n : elt x -> ring_power (gf_mul m) 1%num x n = gf_npow m x (N.to_nat n).
Proof.
move=> ex. have [e1 E1] := rpow_spec n ex. have [e2 E2] := npow_spec (N.to_nat n) ex.
by apply: phi_inj; rewrite // E1 E2.
Qed.
Lemma frob x : phi x ^+ (2 ^ k) = phi x.
Proof. have := @quo_exp (P m) q (phi x). by rewrite size_m. Qed.
Lemma fermat x : elt x -> ring_power (gf_mul m) 1%num x (N.pow 2 (N.of_nat k)) = x.
Proof.
move=> ex. have [e E] := rpow_spec (N.pow 2 (N.of_nat k)) ex. apply: phi_inj => //.
by rewrite E Nto_pow Nat2N.id frob.
Qed.

Lemma gf_ring a b c : elt a -> elt b -> elt c ->
  gf_add a b = gf_add b a /\ gf_add a (gf_add b c) = gf_add (gf_add a b) c /\ gf_add 0%num a = a /\ gf_add a a = 0%num /\
  gf_mul m a b = gf_mul m b a /\ gf_mul m a (gf_mul m b c) = gf_mul m (gf_mul m a b) c /\ gf_mul m 1%num a = a /\
  gf_mul m a (gf_add b c) = gf_add (gf_mul m a b) (gf_mul m a c).
Proof.
move=> ea eb ec. split; [|split; [|split; [|split; [|split; [|split; [|split]]]]]].
- exact: N.lxor_comm.
- by symmetry; exact: N.lxor_assoc.
- exact: N.lxor_0_l.
- exact: N.lxor_nilpotent.
- by apply: phi_inj; [exact: elt_mul|exact: elt_mul|rewrite !phi_mul mulrC].
- by apply: phi_inj; [exact: elt_mul|exact: elt_mul|rewrite !phi_mul mulrA].
- by apply: phi_inj; [exact: elt_mul| |rewrite phi_mul phi1 mul1r].
- by apply: phi_inj; [exact: elt_mul|apply: elt_add; exact: elt_mul|rewrite phi_add !phi_mul phi_add mulrDr].
Qed.
Lemma div_spec a b : elt a -> elt b -> b <> 0%num -> exists c, gf_div m a b = Some c /\ elt c /\ gf_mul m c b = a.
Proof.
move=> ea eb nb. have [i [E [ei M]]] := inv_spec eb nb. rewrite /gf_div E. eexists; split; first by []. split; first exact: elt_mul.
apply: phi_inj; [exact: elt_mul|by []|]. rewrite !phi_mul -mulrA. have := congr1 phi M. by rewrite phi_mul phi1 mulrC => ->; rewrite mulr1.
Qed.
Lemma pow_pos a n : elt a -> gf_pow m a (Z.of_nat n) = Some (gf_npow m a n).
Proof.
move=> ea. rewrite /gf_pow. have -> : Z.ltb (Z.of_nat n) 0 = false by lia.
rewrite rpow_npow //. congr (Some (gf_npow _ _ _)). lia.
Qed.
Lemma pow_neg a b n : elt a -> a <> 0%num -> gf_inv m a = Some b -> gf_pow m a (- Z.of_nat (S n)) = Some (gf_npow m b (S n)).
Proof.
move=> ea na E. rewrite /gf_pow. have -> : Z.ltb (- Z.of_nat n.+1) 0 = true by lia.
have [b' [E' [eb _]]] := inv_spec ea na. move: E'. rewrite E => -[Eb]. subst b'.
rewrite rpow_npow //. congr (Some (gf_npow _ _ _)). lia.
Qed.

(* ---- values of polynomials *)
Definition elts (cs : list N) := forall c, List.In c cs -> elt c.
Definition PL (cs : list N) : {poly L} := Poly (map phi cs).
Lemma elts_nth cs i : elts cs -> elt (List.nth i cs 0%num).
Proof.
move=> H. case: (Nat.ltb_spec i (length cs)) => l; first by apply: H; apply: List.nth_In.
rewrite List.nth_overflow //.
Qed.
Lemma coefPL cs i : (PL cs)`_i = phi (List.nth i cs 0%num).
Proof.
rewrite coef_Poly. elim: cs i => [|c cs IH] [|i] //=; rewrite ?phi0 ?nth_nil //.
Qed.
Lemma xor_sum (I : Type) (l : list I) (f : I -> N) : (forall i, elt (f i)) ->
  elt (List.fold_right N.lxor 0%num (List.map f l)) /\ phi (List.fold_right N.lxor 0%num (List.map f l)) = \sum_(i <- l) phi (f i).
Proof.
move=> H. elim: l => [|i l [e E]] /=; first by rewrite big_nil phi0; split=> //; exact: elt0.
rewrite big_cons -E. split; [exact: elt_add|exact: phi_add].
Qed.
Lemma value_spec cs x : elt x -> elt (poly_value m cs x) /\ phi (poly_value m cs x) = (PL cs).[phi x].
Proof.
move=> ex. have [e E] := @xor_sum nat (List.seq 0 (length cs)) (fun i => gf_mul m (List.nth i cs 0%num) (gf_npow m x i)) (fun i => elt_mul _ _).
split=> //. rewrite E. have Ei : List.seq 0 (length cs) = index_iota 0 (size cs).
  rewrite /index_iota subn0. have -> : length cs = size cs by []. move: (size cs) 0%N. elim=> [//|n IH] j /=. by rewrite IH.
rewrite Ei big_mkord (@horner_coef_wide _ (size cs)); last by rewrite -(size_map phi); exact: size_Poly.
by apply: eq_bigr => i _; rewrite phi_mul coefPL (npow_spec i ex).2.
Qed.
Lemma horner_spec cs x : elts cs -> elt x -> elt (gf_horner m cs x) /\ phi (gf_horner m cs x) = (PL cs).[phi x].
Proof.
move=> Hc ex. rewrite /gf_horner.
have -> : forall l, List.fold_left (fun acc c => padd (gf_mul m acc x) c) (List.rev l) 0%num =
   List.fold_right (fun c acc => padd (gf_mul m acc x) c) 0%num l.
  move=> l. by rewrite -List.fold_left_rev_right List.rev_involutive.
elim: cs Hc => [|c cs IH] Hc /=; first by rewrite /PL /= horner0 phi0.
have [e E] := IH (fun d H => Hc d (or_intror H)).
split; first by apply: elt_add; [exact: elt_mul|apply: Hc; left].
by rewrite phi_add phi_mul E /PL /= horner_cons.
Qed.
Lemma horner_value cs x : elts cs -> elt x -> gf_horner m cs x = poly_value m cs x.
Proof.
move=> Hc ex. have [e1 E1] := horner_spec Hc ex. have [e2 E2] := value_spec cs ex. by apply: phi_inj; rewrite // E1 E2.
Qed.
Lemma root_value cs x : elts cs -> elt x -> N.eqb (gf_horner m cs x) 0 = root (PL cs) (phi x).
Proof.
move=> Hc ex. have [e1 E1] := horner_spec Hc ex. rewrite rootE -E1 (phi_eq0 e1). by case: N.eqb_spec => [->|/eqP/negbTE ->]; rewrite ?eqxx.
Qed.

Lemma PL_nz cs : elts cs -> (exists c, List.In c cs /\ c <> 0%num) -> PL cs != 0.
Proof.
move=> Hc [c [Hin nc]]. have [i [li Ei]] := List.In_nth cs c 0%num Hin. apply/eqP => Z.
have ec : elt c by rewrite -Ei; exact: elts_nth.
have := coefPL cs i. rewrite Z coef0 Ei => /esym/eqP. rewrite (phi_eq0 ec). by move/eqP.
Qed.

Lemma roots_loop_spec cs : elts cs -> (exists c, List.In c cs /\ c <> 0%num) ->
  forall xs roots, (forall x, List.In x (roots ++ xs)%list -> elt x) -> List.NoDup (roots ++ xs)%list ->
    (forall x, List.In x roots -> gf_horner m cs x = 0%num) ->
    roots_loop m cs xs roots = (roots ++ List.filter (fun x => N.eqb (gf_horner m cs x) 0) xs)%list.
Proof.
move=> Hc Hnz. elim=> [|x xs IH] roots He ND Hr; first by rewrite /= List.app_nil_r.
have Eapp : (roots ++ x :: xs)%list = ((roots ++ (x :: nil)) ++ xs)%list by rewrite -List.app_assoc.
cbn [roots_loop List.filter]. case Ex: (N.eqb (gf_horner m cs x) 0); last first.
  apply: IH => //.
  - move=> y Hy. apply: He. apply: List.in_or_app. case: (List.in_app_or _ _ _ Hy) => H; [by left|by right; right].
  - exact: (List.NoDup_remove_1 _ _ _ ND).
have Hr' : forall y, List.In y (roots ++ (x :: nil))%list -> gf_horner m cs y = 0%num.
  move=> y Hy. case: (List.in_app_or _ _ _ Hy) => [/Hr //|[<-|[]]]. by apply/N.eqb_spec.
rewrite Eapp in He ND. case: Nat.leb_spec => len; last by rewrite IH // -List.app_assoc.
have -> : List.filter (fun x => N.eqb (gf_horner m cs x) 0) xs = nil; last by [].
case F: (List.filter _ _) => [//|y ys]. exfalso.
have [Hy Ey] : List.In y xs /\ N.eqb (gf_horner m cs y) 0 = true.
  by apply/(List.filter_In (fun x => N.eqb (gf_horner m cs x) 0)); rewrite F; left.
set rs := (y :: (roots ++ (x :: nil))%list).
have Hrs z : List.In z rs -> elt z /\ gf_horner m cs z = 0%num.
  case=> [<-|Hz]; first by split; [apply: He; apply: List.in_or_app; right|apply/N.eqb_spec].
  by split; [apply: He; apply: List.in_or_app; left|exact: Hr'].
have NDr : List.NoDup rs.
  constructor.
  - move=> H. have [l1 [l2 E2]] := List.in_split _ _ Hy. rewrite E2 in ND. rewrite List.app_assoc in ND. apply: (List.NoDup_remove_2 _ _ _ ND).
    apply: List.in_or_app. left. apply: List.in_or_app. by left.
  - move: ND. move: (roots ++ (x :: nil))%list => l. elim: l => [|w l IHl] /=; first by constructor.
    move=> H; inversion H; subst. constructor; last by apply: IHl. move=> I. apply: H2. apply: List.in_or_app. by left.
have U : uniq (map phi rs).
  elim: rs NDr Hrs => [//|z l IHl] H Hl /=. inversion H; subst. rewrite IHl // ?andbT; last by move=> w Hw; apply: Hl; right.
  apply/negP => /mapP [w Hw Ew]. apply: H2. have Hw' : List.In w l. { elim: l Hw {IHl H H3 Hl Ew} => //= v l IHl. rewrite in_cons => /orP [/eqP ->|/IHl]; [by left|by right]. }
  have -> // : z = w. apply: phi_inj => //; [by apply: (Hl z _).1; left|by apply: (Hl w _).1; right].
have A : all (root (PL cs)) (map phi rs).
  apply/allP => v /mapP [w Hw ->].
  have Hw' : List.In w rs. { elim: rs Hw {Hrs NDr U} => //= u l IHl. rewrite in_cons => /orP [/eqP ->|/IHl]; [by left|by right]. }
  have [ew zw] := Hrs w Hw'. rewrite -(root_value Hc ew) zw. exact: N.eqb_refl.
have := max_poly_roots (PL_nz Hc Hnz) A U.
have S1 : (size (PL cs) <= size cs)%N by rewrite -(size_map phi); exact: size_Poly.
rewrite size_map. have S2 : size rs = (length (roots ++ (x :: nil))%list).+1 by []. rewrite S2 => lt.
have := leq_trans lt S1. have : size cs = length cs by []. lia.
Qed.

(* ---- conjugates *)
Variable a : N.
Hypothesis ea : elt a.
Definition zc (j : nat) : N := ring_power (gf_mul m) 1%num a (N.pow 2 (N.of_nat j)).
Lemma zc_elt j : elt (zc j). Proof. exact: (rpow_spec _ ea).1. Qed.
Lemma zc_phi j : phi (zc j) = phi a ^+ (2 ^ j).
Proof. by rewrite (rpow_spec _ ea).2 Nto_pow Nat2N.id. Qed.
Lemma zc_k : zc k = zc 0.
Proof. apply: phi_inj; [exact: zc_elt|exact: zc_elt|]. by rewrite !zc_phi frob expr1. Qed.
Lemma existsb_mem (y : N) l : List.existsb (N.eqb y) l = (y \in l).
Proof.
elim: l => [//|x l IH] /=. rewrite in_cons IH. by case: N.eqb_spec => [->|/eqP/negbTE ->]; rewrite ?eqxx.
Qed.
Lemma conj_loop_spec fuel : forall e, (e <= k)%N -> (k < e + fuel)%N -> uniq (map zc (iota 0 e)) ->
  exists n, [/\ conj_loop fuel m a (N.of_nat e) (map zc (iota 0 e)) = Some (map zc (iota 0 n)), uniq (map zc (iota 0 n)), (0 < n)%N & zc n \in map zc (iota 0 n)].
Proof.
elim: fuel => [|f IH] e le lf U; first by move: lf; rewrite addn0 ltnNge le.
cbn [conj_loop]. cbv zeta. rewrite -[ring_power _ _ _ _]/(zc e) existsb_mem. case: ifP => H.
  exists e; split=> //. by case: e H {le lf U}.
have Em : map zc (iota 0 e) ++ [:: zc e] = map zc (iota 0 e.+1) by rewrite -(addn1 e) iotaD map_cat.
have -> : N.add (N.of_nat e) 1 = N.of_nat e.+1 by lia.
have -> : (map zc (iota 0 e) ++ zc e :: nil)%list = map zc (iota 0 e.+1) by rewrite -Em.
apply: IH.
- rewrite ltn_neqAle le andbT. apply: contraFneq H => Ek.
  rewrite Ek zc_k. apply: map_f. by rewrite mem_iota k_gt0.
- by rewrite addSnnS.
- rewrite -Em cat_uniq U /= orbF H. by [].
Qed.
Lemma conj_spec : exists n, [/\ gf_conjugates m (N.of_nat k) a = Some (map zc (iota 0 n)), uniq (map zc (iota 0 n)), (0 < n)%N & zc n \in map zc (iota 0 n)].
Proof. rewrite /gf_conjugates Nat2N.id. apply: (@conj_loop_spec (k.+2) 0) => //. by rewrite add0n. Qed.

Definition j2 : {rmorphism F2 -> L} := [rmorphism of (qf_phi q \o (@polyC [ringType of F2]))].
Lemma charL : 2%N \in [char L].
Proof. exact: (rmorph_char (qf_phi q) char_P2). Qed.
Lemma addLL (x : L) : x + x = 0. Proof. by rewrite addrr_char2 // charL. Qed.
Lemma oppL (x : L) : - x = x. Proof. by rewrite oppr_char2 // charL. Qed.

Lemma conv_spec p y : elts p -> elts (conv_linear m p y) /\ PL (conv_linear m p y) = PL p * ('X - (phi y)%:P).
Proof.
move=> Hp. split.
- move=> c /List.in_map_iff [[|i] [<- _]].
  + by apply: elt_add; [exact: elt_mul|exact: elt0].
  + by apply: elt_add; [exact: elt_mul|exact: elts_nth].
- apply/polyP => i. rewrite coefPL mulrBr coefB coefMX coefMC oppL addrC.
  case: (Nat.ltb_spec i (S (length p))) => li.
  + rewrite /conv_linear (List.nth_indep _ _ ((fun k0 => padd (gf_mul m (List.nth k0 p 0%num) y) match k0 with O => 0%num | S j => List.nth j p 0%num end) 0%N)); last by rewrite List.map_length List.seq_length.
    rewrite List.map_nth List.seq_nth // phi_add phi_mul coefPL. case: i li => [|i] li /=; rewrite ?phi0 ?addr0 ?coefPL //.
  + rewrite List.nth_overflow; last by rewrite /conv_linear List.map_length List.seq_length.
    rewrite phi0 coefPL List.nth_overflow ?phi0 ?mul0r ?add0r; last by lia.
    case: i li => [|i] li /=; first by lia. rewrite coefPL List.nth_overflow ?phi0 //. lia.
Qed.
Lemma fold_conv ys p : elts p -> elts (List.fold_left (conv_linear m) ys p) /\
  PL (List.fold_left (conv_linear m) ys p) = PL p * \prod_(y <- map phi ys) ('X - y%:P).
Proof.
elim: ys p => [|y ys IH] p Hp /=; first by rewrite big_nil mulr1.
have [e1 E1] := conv_spec y Hp. have [e2 E2] := IH _ e1. split=> //. by rewrite E2 E1 big_cons mulrA.
Qed.

Lemma fr_inj : injective (fun z : L => z ^+ 2).
Proof. move=> x y H. apply: (fmorph_inj [rmorphism of Frobenius_aut charL]). by rewrite /= !Frobenius_autE. Qed.
Lemma fixed01 (c : L) : c ^+ 2 = c -> c = 0 \/ c = 1.
Proof.
move/eqP. rewrite -subr_eq0 expr2 -{3}(mulr1 c) -mulrBr mulf_eq0 subr_eq0 => /orP [/eqP|/eqP]; by [left|right].
Qed.
Lemma from_values l : (forall c, List.In c l -> c = 0%num \/ c = 1%num) ->
  map_poly j2 (P (from_coefficient_values l)) = PL l.
Proof.
elim: l => [|c l IH] H; first by rewrite /PL /= rmorph0.
have -> : from_coefficient_values (c :: l) = N.add (N.mul 2 (from_coefficient_values l)) (if N.eqb c 1 then 1%num else 0%num).
  by case: (H c (or_introl erefl)) => ->; cbn [from_coefficient_values List.fold_right N.eqb Pos.eqb]; rewrite -/(from_coefficient_values l); lia.
rewrite P_double_plus rmorphD rmorphM /= map_polyX IH; last by move=> d Hd; apply: H; right.
rewrite /PL /= cons_poly_def. congr (_ + _). rewrite rmorph_nat.
by case: (H c (or_introl erefl)) => ->; rewrite ?phi0 ?phi1 /= ?polyC0 ?polyC1.
Qed.
Lemma bin_PL g : PL (bin_coeffs g) = map_poly j2 (P g).
Proof.
apply/polyP => i. rewrite coefPL coef_map coefP2 /bin_coeffs /pcoefficients.
case: (Nat.ltb_spec i (Nat.max (bit_length g) 1)) => li.
- rewrite List.map_map (List.nth_indep _ _ ((fun i0 => if N.testbit g (N.of_nat i0) then 1%num else 0%num) 0%N)); last by rewrite List.map_length List.seq_length.
  rewrite (List.map_nth (fun i0 => if N.testbit g (N.of_nat i0) then 1%num else 0%num)) List.seq_nth //=.
  by case: (N.testbit g _); rewrite ?phi0 ?phi1 ?rmorph0 ?rmorph1.
- rewrite List.nth_overflow; last by rewrite !List.map_length List.seq_length.
  rewrite phi0. have := coefP2 g i. rewrite nth_default; last by rewrite Psize; lia.
  by case: (N.testbit g _) => // _; exact: (esym (rmorph0 j2)).
Qed.
Lemma root_sq (g : P2) (y : L) : root (map_poly j2 g) y -> root (map_poly j2 g) (y ^+ 2).
Proof.
move=> /rootP R. apply/rootP. have E : map_poly (Frobenius_aut charL) (map_poly j2 g) = map_poly j2 g.
  apply/polyP => i. rewrite (coef_map [rmorphism of Frobenius_aut charL]) coef_map. move: (g`_i) => c.
  transitivity ((j2 c) ^+ 2); first exact: Frobenius_autE.
  have E2 : c ^+ 2 = c := F2_pow c 1. by rewrite -rmorphX E2.
have := horner_map [rmorphism of Frobenius_aut charL] (map_poly j2 g) y. rewrite /= E R rmorph0 Frobenius_autE. by [].
Qed.

Section Min.
Variable n : nat.
Hypothesis Un : uniq (map zc (iota 0 n)).
Hypothesis n0 : (0 < n)%N.
Hypothesis zn : zc n \in map zc (iota 0 n).
Let cs := map phi (map zc (iota 0 n)).
Let fL := \prod_(z <- cs) ('X - z%:P) : {poly L}.
Lemma cs_uniq : uniq cs.
Proof.
rewrite map_inj_in_uniq // => x y /mapP [i _ ->] /mapP [j _ ->]. apply: phi_inj; exact: zc_elt.
Qed.
Lemma cs_sq : perm_eq (map (fun z : L => z ^+ 2) cs) cs.
Proof.
have S : {subset map (fun z : L => z ^+ 2) cs <= cs}.
  move=> y /mapP [z /mapP [w /mapP [i Hi ->] ->] ->]. rewrite zc_phi -exprM -expnSr -zc_phi. apply: map_f.
  move: Hi. rewrite mem_iota add0n => /= Hi. case: (i.+1 =P n) => [->//|ne]. apply: map_f. rewrite mem_iota add0n /=. lia.
have U1 : uniq (map (fun z : L => z ^+ 2) cs) by rewrite (map_inj_uniq fr_inj) cs_uniq.
apply: uniq_perm => //; first exact: cs_uniq.
have Hs : (size cs <= size (map (fun z : L => z ^+ 2) cs))%N by rewrite size_map.
by have [_ H] := uniq_min_size U1 S Hs.
Qed.
Lemma fL_fixed i : fL`_i ^+ 2 = fL`_i.
Proof.
have E : map_poly (Frobenius_aut charL) fL = fL.
  rewrite /fL rmorph_prod /=. rewrite -[RHS](perm_big _ cs_sq) /= [RHS]big_map. apply: eq_bigr => z _.
  by rewrite rmorphB /= map_polyX map_polyC /= Frobenius_autE.
by rewrite -{2}E coef_map /= Frobenius_autE.
Qed.
Lemma fL_dvd (g : P2) : root (map_poly j2 g) (phi a) = (fL %| map_poly j2 g).
Proof.
apply/idP/idP => [R|/dvdpP [h E]].
- apply: uniq_roots_dvdp; last by rewrite uniq_rootsE; exact: cs_uniq.
  apply/allP => y /mapP [w /mapP [i _ ->] ->]. rewrite zc_phi. elim: i => [|i IH]; first by rewrite expn0 expr1.
  rewrite expnSr exprM. exact: root_sq.
- rewrite E rootM /fL. apply/orP; right. rewrite root_prod_XsubC. apply/mapP. exists (zc 0); last by rewrite zc_phi expr1.
  apply: map_f. by rewrite mem_iota.
Qed.
End Min.

Lemma minpoly_spec : exists f, gf_minimal_polynomial m (N.of_nat k) a = Some f /\
  forall g, poly_value m (bin_coeffs g) a = 0%num <-> ndvd f g.
Proof.
have [n [E Un n0 zn]] := conj_spec. rewrite /gf_minimal_polynomial E.
case: n E Un n0 zn => // n E Un n0 zn. cbn [map iota].
have e1 : elts (zc 0 :: 1%num :: nil) by move=> c [<-|[<-|[]]]; [exact: zc_elt|exact: elt1].
have [el El] := fold_conv (map zc (iota 1 n)) e1. set l := List.fold_left _ _ _ in el El *.
have EL : PL l = \prod_(z <- map phi (map zc (iota 0 n.+1))) ('X - z%:P).
  rewrite El /= big_cons. congr (_ * _). rewrite /PL /= cons_poly_def phi1 cons_poly_def mul0r add0r mul1r.
  by rewrite -polyCN oppL.
have l01 : forall c, List.In c l -> c = 0%num \/ c = 1%num.
  move=> c Hc. have [i [li Ei]] := List.In_nth l c 0%num Hc. have ec := el c Hc.
  have := fL_fixed Un n0 zn i. rewrite -EL coefPL Ei => /fixed01 [H|H]; [left|right]; apply: phi_inj; rewrite // ?phi0 ?phi1 //; exact: elt1.
exists (from_coefficient_values l). split=> // g.
have [ev Ev] := value_spec (bin_coeffs g) ea.
have -> : poly_value m (bin_coeffs g) a = 0%num <-> root (map_poly j2 (P g)) (phi a).
  rewrite -bin_PL rootE -Ev phi_eq0 //. by split=> /eqP.
rewrite (fL_dvd Un n0) -EL -(from_values l01) dvdp_map. by rewrite ndvdE.
Qed.
End Field.
