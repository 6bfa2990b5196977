(* The results of BCH_Field, BCH_BM, BCH_Dec restated with the standard library's arithmetic. *)
Set Warnings "-notation-overridden,-ambiguous-paths".
From Coq Require List Permutation.
From Coq Require Import NArith ZArith PeanoNat Lia.
From Verif Require Import BinPoly_Model BinPoly_Proof GF2_Proof Algebra_Spec PrimeFactors_Proof Irreducible_Proof Algebra_Proof.
From Verif Require Import GFField_Proof BCH_Alg BCH_List BCH_BM BCH_Field BCH_Dec.
From Verif Require BCH_Model Bits_Model Linear_Spec PolyVec_Proof Cyclic_Model Cyclic_Proof Vec_Proof Code_Spec BlockCode_Model BlockCode_Proof Props_Algebra.
From mathcomp Require Import all_ssreflect all_algebra zify.
Set Implicit Arguments.
Unset Strict Implicit.
Unset Printing Implicit Defensive.
Import GRing.Theory.
Local Open Scope ring_scope.
Import BCH_Model.

Lemma powE a b : Nat.pow a b = (a ^ b)%N.
Proof. elim: b => [//|b IH]. by rewrite expnS /= IH; lia. Qed.
Lemma modE a b : Nat.modulo a b.+1 = (a %% b.+1)%N.
Proof.
symmetry. apply: (Nat.mod_unique a b.+1 (a %/ b.+1)%N); first by apply/ltP; rewrite ltn_mod.
have E := divn_eq a b.+1. rewrite {1}E mulnC. lia.
Qed.

Section Bridge.
Variables (m : N) (mu : nat).
Hypothesis irrN : nirreducible m.
Hypothesis Hmu : bit_length m = S mu.
Hypothesis mu2 : (2 <= mu)%coq_nat.
Hypothesis pr1 : ndvd m (xe1 (N.of_nat (Nat.pow 2 mu - 1))).
Hypothesis pr2 : forall e, ((0 < e)%coq_nat /\ (e < Nat.pow 2 mu - 1)%coq_nat) -> ~ ndvd m (xe1 (N.of_nat e)).
Let n := (Nat.pow 2 mu - 1)%coq_nat.
Lemma kE : (bit_length m - 1)%N = mu. Proof. rewrite Hmu; lia. Qed.
Lemma nE : (2 ^ (bit_length m - 1) - 1)%N = n. Proof. rewrite kE /n powE. lia. Qed.
Lemma k2 : (1 < bit_length m - 1)%N. Proof. rewrite kE. lia. Qed.
Lemma prim : ndvd m (xe1 (N.of_nat (2 ^ (bit_length m - 1) - 1))) /\ forall e, (0 < e < 2 ^ (bit_length m - 1) - 1)%N -> ~ ndvd m (xe1 (N.of_nat e)).
Proof. rewrite nE. split=> // e He. apply: pr2. rewrite -/n. lia. Qed.
Lemma n_big : (2 < n)%coq_nat.
Proof. have := n_gt0 k2. rewrite nE. lia. Qed.
Lemma mod_n a : Nat.modulo a n = (a %% n)%N.
Proof. have := n_big. case: n => [|n'] H; [lia|exact: modE]. Qed.

Lemma alpha_npow i : alpha_pow m i = gf_npow m 2%num i.
Proof. rewrite /alpha_pow rpow_npow // ?Nat2N.id //. exact: (elt2 k2). Qed.

(* when the minimal polynomial of alpha^d occurs among those of alpha^1 .. alpha^(e-1) *)
Lemma mem_In x l : mem x l = true <-> List.In x l.
Proof. rewrite /mem List.existsb_exists. split; [by move=> [y [Hy /N.eqb_eq ->]]|]. move=> H. exists x. split=> //. exact: N.eqb_refl. Qed.
Lemma mem_set d e : mem (BCH_Model.phi m mu d) (lcm_set m mu e) = true <->
  exists i t, ((1 <= i)%coq_nat /\ (i < e)%coq_nat) /\ Nat.modulo (Nat.mul i (Nat.pow 2 t)) n = Nat.modulo d n.
Proof.
rewrite mem_In. have := in_lcm k2 (BCH_Model.phi m mu d) e. rewrite kE => ->.
have Q i t : A irrN ^+ d = A irrN ^+ (i * 2 ^ t) <-> Nat.modulo (Nat.mul i (Nat.pow 2 t)) n = Nat.modulo d n.
  have := @A_eq m irrN k2 prim (i * 2 ^ t)%N d. rewrite nE => E. rewrite !mod_n powE. have -> : (i * 2 ^ t)%coq_nat = (i * 2 ^ t)%N by lia. split=> [H|H].
  - by apply/eqP; rewrite -E H eqxx.
  - apply/esym/eqP. by rewrite E; apply/eqP.
have M i : BCH_Model.phi m mu i = BCH_Model.phi m mu d <-> exists t, A irrN ^+ d = A irrN ^+ (i * 2 ^ t).
  have := mp_eq irrN k2 i d. by rewrite kE.
split.
- move=> [i Hi E]. have [t Et] := (M i).1 (esym E). exists i, t. split; [lia|exact/Q].
- move=> [i [t [Hi E]]]. exists i; first by lia. apply/esym/M. exists t. exact/Q.
Qed.
Lemma n_last i t : ((1 <= i)%coq_nat /\ (i < n)%coq_nat) -> Nat.modulo (Nat.mul i (Nat.pow 2 t)) n <> Nat.modulo n n.
Proof.
move=> Hi. rewrite !mod_n powE modnn. move=> /eqP. have -> : (i * 2 ^ t)%coq_nat = (i * 2 ^ t)%N by lia. rewrite -/(dvdn _ _).
have := pow2_mod k2 i t. rewrite nE => ->. move=> /dvdn_leq. lia.
Qed.

Section Code.
Variables (delta : nat) (g : N).
Hypothesis d2 : (2 <= delta)%coq_nat.
Hypothesis dn : (delta <= n)%coq_nat.
Hypothesis Eg : reduce_mul (lcm_set m mu delta) = Some g.
Lemma d2' : (1 < delta)%N. Proof. lia. Qed.
Lemma dn' : (delta <= 2 ^ (bit_length m - 1) - 1)%N. Proof. rewrite nE. lia. Qed.
Lemma Eg' : reduce_mul (lcm_set m (bit_length m - 1) delta) = Some g. Proof. by rewrite kE. Qed.

(* multiples of the generator polynomial *)
Lemma gen_multiples f : ndvd g f <-> forall i, ((1 <= i)%coq_nat /\ (i < delta)%coq_nat) -> poly_value m (bin_coeffs f) (gf_npow m 2%num i) = 0%num.
Proof.
rewrite (@g_spec m irrN k2 g delta d2' Eg' f). split=> H i Hi.
- have e := apow_elt irrN k2 i. rewrite -alpha_npow. apply/(ev_value irrN f e). rewrite apow_phi; last exact: k2. apply: H. lia.
- have e := apow_elt irrN k2 i. have := H i ltac:(lia). rewrite -alpha_npow => /(ev_value irrN f e). rewrite apow_phi //. exact: k2.
Qed.
Lemma gen_factor : exists h, pmul g h = xe1 (N.of_nat n).
Proof.
have : ndvd g (xe1 (N.of_nat n)).
  apply/(@g_spec m irrN k2 g delta d2' Eg') => i Hi. rewrite ev_xe1 -exprM mulnC exprM. have := A_n irrN prim. rewrite nE => ->. by rewrite expr1n subrr.
move=> [h E]. exists h. by rewrite E (Algebra_Proof.pmulC g h).
Qed.
Lemma gen_deg : (Cyclic_Model.deg g <= Nat.mul mu (Nat.div delta 2))%coq_nat.
Proof.
have := @gen_degree m irrN k2 delta g d2' Eg'. rewrite kE /Cyclic_Model.deg.
have -> : (delta %/ 2)%N = Nat.div delta 2.
  apply: (Nat.div_unique delta 2 _ (delta %% 2)%N); first by apply/ltP; rewrite ltn_mod.
  have := divn_eq delta 2. rewrite mulnC. lia.
lia.
Qed.
Variable h : N.
Hypothesis gh : pmul g h = xe1 (N.of_nat n).
Lemma gh' : pmul g h = xe1 (N.of_nat (2 ^ (bit_length m - 1) - 1)). Proof. by rewrite nE. Qed.
Lemma deg_nz : Cyclic_Model.deg g <> 0%N /\ Cyclic_Model.deg h <> 0%N.
Proof.
pose B0 := BCH mu delta m g (Cyclic_Model.cyclic_code n g h true). have E : bch_mu B0 = (bit_length m - 1)%N by rewrite kE.
split; [exact: (@deg_g m irrN k2 prim B0 g h delta erefl E erefl d2' dn' Eg' gh')|exact: (@deg_h m irrN k2 prim B0 g h delta erefl E erefl d2' dn' Eg' gh')].
Qed.
Variable B : bch.
Hypothesis Bm : bch_modulus B = m.
Hypothesis Bmu : bch_mu B = mu.
Hypothesis Bd : bch_delta B = delta.
Hypothesis BC : bch_code B = Cyclic_Model.cyclic_code n g h true.
Lemma Bmu' : bch_mu B = (bit_length m - 1)%N. Proof. by rewrite kE. Qed.
Lemma BC' : bch_code B = Cyclic_Model.cyclic_code (2 ^ (bit_length m - 1) - 1) g h true. Proof. by rewrite nE. Qed.
Lemma distance v : Code_Spec.is_codeword (bch_code B) v -> (Linear_Spec.weight v < delta)%coq_nat -> Linear_Spec.weight v = 0%nat.
Proof. move=> H W. apply: (code_distance irrN k2 prim Bm Bmu' Bd d2' dn' Eg' gh' BC' H). lia. Qed.
Lemma total r : length r = n -> exists u, berlekamp_decode B r = Some u /\ length u = BlockCode_Model.bc_k (bch_code B).
Proof. rewrite -nE. exact: (decode_total irrN k2 prim Bm Bmu' Bd d2' dn' Eg' gh' BC'). Qed.
Lemma corrects u e : length u = BlockCode_Model.bc_k (bch_code B) -> length e = n -> (2 * Linear_Spec.weight e <= delta - 1)%coq_nat ->
  berlekamp_decode B (Vec_Model.vxor (BlockCode_Model.bc_encode (bch_code B) u) e) = Some u.
Proof.
rewrite -{1}nE => Lu Le We. apply: (decode_corrects irrN k2 prim Bm Bmu' Bd d2' dn' Eg' gh' BC' Lu Le). lia.
Qed.
Lemma codeword_value v : Code_Spec.is_codeword (bch_code B) v <-> length v = n /\
  forall i, ((1 <= i)%coq_nat /\ (i < delta)%coq_nat) -> poly_value m (bin_coeffs (Cyclic_Model.from_coefficients v)) (gf_npow m 2%num i) = 0%num.
Proof.
rewrite (codeword_ev irrN k2 prim Bm Bmu' Bd d2' dn' Eg' gh' BC') nE -(@g_spec m irrN k2 g delta d2' Eg') -gen_multiples. by [].
Qed.
Lemma syndrome_value p i : ((1 <= i)%coq_nat /\ (i < delta)%coq_nat) -> List.nth (i - 1) (bch_syndrome B p) 0%num = poly_value m (bin_coeffs p) (gf_npow m 2%num i).
Proof.
move=> Hi. rewrite /bch_syndrome Bm Bd. rewrite (List.nth_indep _ _ (binary_horner m (pcoefficients p) (alpha_pow m 0))); last by rewrite List.map_length List.seq_length; lia.
rewrite (List.map_nth (fun i => binary_horner m (pcoefficients p) (alpha_pow m i))) List.seq_nth; last by lia.
have -> : (1 + (i - 1))%coq_nat = i by lia. rewrite -alpha_npow. have e := apow_elt irrN k2 i.
have [e1 E1] := horner_ev irrN p e. have [e2 E2] := value_spec irrN (bin_coeffs p) e.
apply: (phi_inj (irrN := irrN)) => //. by rewrite E1 E2 bin_PL.
Qed.
End Code.
(* the generator does not depend on the order in which the set is traversed *)
Lemma set_order l l' : Permutation.Permutation l l' -> reduce_mul l = reduce_mul l'.
Proof. exact: reduce_perm. Qed.
Lemma reduce_some delta : (2 <= delta)%coq_nat -> exists g, reduce_mul (lcm_set m mu delta) = Some g.
Proof. move=> d2. have [g [E _ _]] := @lcm_reduce _ irrN k2 delta ltac:(lia). exists g. by rewrite -kE. Qed.
(* alpha has the modulus as its minimal polynomial *)
Lemma mp1 : BCH_Model.phi m mu 1 = m.
Proof.
have I := mp_irr irrN k2 1. rewrite kE in I. apply: P_inj. apply: eqp2.
have D : P (BCH_Model.phi m mu 1) %| P m.
  apply/ndvdE. have := mp_dvd irrN k2 1 m. rewrite kE => <-. rewrite expr1 /ev /BCH_Field.A.
  have K : qf_phi (quo_fieldP (proj1 (nirr m) irrN)) (P m) = 0 by apply/eqP; rewrite qf_ker dvdpp.
  rewrite /GFField_Proof.phi PX -[RHS]K. transitivity (qf_phi (quo_fieldP (proj1 (nirr m) irrN)) (P m \Po 'X)); last by rewrite comp_polyXr.
  rewrite /comp_poly -horner_map /=. congr (_.[_]). by rewrite -map_poly_comp.
have [_ Hm] := proj1 (nirr m) irrN. apply: Hm => //. have [S _] := I. by move: S; case: (size _) => [//|[//|x]].
Qed.
Lemma mp2 : BCH_Model.phi m mu 2 = m.
Proof. have := mp_double irrN k2 1. rewrite kE => ->. exact: mp1. Qed.
(* a word of weight three vanishing at alpha and alpha^2 *)
Lemma trinomial : exists v, [/\ length v = n, Linear_Spec.weight v = 3%N &
  forall i, (1 <= i)%coq_nat /\ (i < 3)%coq_nat -> poly_value m (bin_coeffs (Cyclic_Model.from_coefficients v)) (gf_npow m 2%num i) = 0%num].
Proof.
have Anz := @A_nz m irrN k2 prim. have n2 := n_big.
have An1 : 1 + A irrN != 0.
  apply/eqP => Z. have : A irrN ^+ 1 = A irrN ^+ 0.
    rewrite expr1 expr0. apply/eqP. rewrite -subr_eq0 oppL addrC. by apply/eqP.
  move/(@A_inj m irrN k2 prim). rewrite nE. have H : (1 < n)%N by lia. have H' : (0 < n)%N by lia. by move/(_ H H').
have [j Hj Ej] := @A_onto m irrN k2 prim _ An1. rewrite nE in Hj.
have j0 : j != 0%N.
  apply/eqP => Z. move: Ej. rewrite Z expr0 => /eqP. rewrite -subr_eq0 addrC addKr. by rewrite (negbTE Anz).
have j1 : j != 1%N.
  apply/eqP => Z. move: Ej. rewrite Z expr1 => /eqP. rewrite -subr_eq0 addrK. by rewrite oner_eq0.
pose v := List.map (fun i => i \in [:: 0%N; 1%N; j]) (List.seq 0 n).
have Lv : length v = n by rewrite List.map_length List.seq_length.
have Nv i : (i < n)%N -> List.nth i v false = (i \in [:: 0%N; 1%N; j]) by move=> Hi; rewrite Common.nth_map_seq //; lia.
have Pe : perm_eq (supp v) [:: 0%N; 1%N; j].
  apply: uniq_perm; first exact: supp_uniq.
  - rewrite /= !inE negb_or. by rewrite [0%N == j]eq_sym j0 [1%N == j]eq_sym j1.
  - move=> i. rewrite mem_supp. have -> : size v = n by exact: Lv. case: (ltnP i n) => Hi; first by rewrite Nv.
    rewrite /= !inE. apply/esym/negbTE. rewrite !negb_or. apply/and3P; split; apply/eqP; lia.
exists v. split=> //; first by rewrite -size_supp (perm_size Pe).
have V1 : ev (irrN := irrN) (Cyclic_Model.from_coefficients v) (A irrN) = 0.
  rewrite ev_word (perm_big _ Pe) /= !big_cons big_nil addr0 -Ej expr0 expr1 addrA. exact: addLL.
move=> i Hi. have e := apow_elt irrN k2 i. rewrite -alpha_npow. apply/(ev_value irrN _ e). rewrite apow_phi; last exact: k2.
have [->|->] : i = 1%N \/ i = 2%N by lia.
- by rewrite expr1.
- have /eqP := V1. rewrite -/(root _ _) => R. apply/eqP. exact: (root_sq R).
Qed.
End Bridge.
