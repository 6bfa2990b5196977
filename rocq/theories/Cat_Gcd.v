(* The gcd of the maximal minors computed by _minors_gcd. *)
Set Warnings "-notation-overridden,-ambiguous-paths".
From Coq Require Import ZArith NArith PeanoNat Lia List.
From Verif Require Import BinPoly_Model Det_Model ClassicCodes_Model Cat_Model Cat_Lists.
From Verif Require Det_Proof.
From Verif Require Import BinPoly_Proof Algebra_Spec Irreducible_Proof Algebra_Proof Cat_Minors Cat_Smith Cat_Link.
From mathcomp Require Import all_ssreflect all_fingroup all_algebra zify.
Set Implicit Arguments.
Unset Strict Implicit.
Unset Printing Implicit Defensive.
Import GRing.Theory.
Local Open Scope ring_scope.

Lemma det_poly k (m : list (list N)) : (0 < k)%N -> Det_Proof.square k m ->
  exists d, Det_Model.determinant poly_ring m = Some d /\ P d = \det (\matrix_(i < k, j < k) P (List.nth j (List.nth i m nil) 0%num)).
Proof.
move=> k0 S. apply: (@Det_Proof.determinant_square N poly_ring _ P 0%num) => //; [exact: Padd|exact: Pmul|]. move=> x /=. by rewrite oppp.
Qed.

(* polynomial matrices as matrices of fractions *)
Definition integral (M : list (list N)) : list (list pfrac) := List.map (List.map (fun p => (p, 1%num))) M.

Section Gcd.
Variables (k n : nat) (M : list (list N)).
Hypothesis kpos : (0 < k)%N.
Hypothesis kn : (k <= n)%N.
Hypothesis LM : length M = k.
Hypothesis RM : forall i, (i < k)%N -> length (List.nth i M nil) = n.

Lemma gcd_minors : exists g, minors_gcd (integral M) = Some g /\ forall d, minors_dvd d (mx k n M) <-> d %| P g.
Proof.
rewrite /minors_gcd. have -> : List.forallb (List.forallb (fun x : pfrac => N.eqb (snd x) 1)) (integral M) = true.
  apply/List.forallb_forall => r /List.in_map_iff [s [<- _]]. apply/List.forallb_forall => x /List.in_map_iff [y [<- _]]. by [].
have L' : length (integral M) = k by rewrite List.map_length.
have R' i : (i < k)%N -> length (List.nth i (integral M) nil) = n by move=> hi; rewrite (nth_mapE _ nil) ?LM // List.map_length RM.
rewrite L' R' //. set ds := List.map _ _.
have sub js : List.In js (combinations (List.seq 0 n) k) -> length js = k /\ forall b, (b < k)%N -> (List.nth b js 0 < n)%N.
  move=> /in_combination [Lj Sj]. split=> // b hb. have /Sj : List.In (List.nth b js 0%N) js by apply: List.nth_In; rewrite Lj; exact/ltP.
  by move/List.in_seq => [_ /ltP].
pose sel (js : list nat) (b : 'I_k) : 'I_n := if insub (List.nth b js 0%N) is Some o then o else Ordinal (leq_trans kpos kn).
have det1 js : List.In js (combinations (List.seq 0 n) k) ->
  exists d, Det_Model.determinant poly_ring (List.map (fun row => List.map (fun j => fst (List.nth j row (0%num, 1%num))) js) (integral M)) = Some d /\ P d = \det (cols (sel js) (mx k n M)).
  move=> /sub [Lj Sj]. have [|d [-> Ed]] := @det_poly k (List.map (fun row => List.map (fun j => fst (List.nth j row (0%num, 1%num))) js) (integral M)) kpos.
    split; first by rewrite List.map_length. apply/List.Forall_forall => r /List.in_map_iff [s [<- _]]. by rewrite List.map_length.
  exists d. split=> //. rewrite Ed; congr (\det _). apply/matrixP => i b. rewrite !mxE.
  rewrite (nth_mapE _ nil) ?L' // (nth_mapE _ 0%N) ?Lj // (nth_mapE _ nil) ?LM // (nth_mapE _ 0%num) /=; last by rewrite RM // Sj.
  have hb := Sj b (ltn_ord b). by rewrite /sel /pentry insubT.
have [|l' [El [Ll Nl]]] := @all_some_ex _ ds.
  rewrite List.map_length => i hi. rewrite (nth_mapE _ nil); last exact/ltP. have [|d [Ed _]] := det1 (List.nth i (combinations (List.seq 0 n) k) nil); first exact: List.nth_In.
  by exists d.
rewrite El [bind _ _]/=. rewrite List.map_length in Ll Nl.
have ne : l' <> nil. { move=> Z. move: Ll. rewrite Z /=. have := @combinations_nonempty _ (List.seq 0 n) k. rewrite List.seq_length => /(_ (leP kn)). by case: combinations. }
have [g [Eg [g1 g2]]] := gcd_list_spec ne. exists g. split=> //.
have E i : (i < length l')%N -> P (List.nth i l' 0%num) = \det (cols (sel (List.nth i (combinations (List.seq 0 n) k) nil)) (mx k n M)).
  move=> /ltP hi. rewrite Ll in hi. have [|d [Ed <-]] := det1 (List.nth i (combinations (List.seq 0 n) k) nil); first exact: List.nth_In.
  have := Nl i 0%num hi. rewrite (nth_mapE _ nil); last exact/ltP. by rewrite Ed => -[<-].
move=> d. have [c Ec] := P_surj d. rewrite -Ec -ndvdE. split=> H.
- apply: g2 => x hx. have [i [hi <-]] := List.In_nth _ _ 0%num hx. rewrite ndvdE E; last exact/ltP. exact: H.
- move=> J. case: (boolP (injectiveb (finfun J))) => [/injectiveP I|/injectivePn [a [b ne' Eab]]]; last first.
    by rewrite (@cols_noninj _ k n _ J a b ne') ?dvdp0 //; move: Eab; rewrite !ffunE.
  have {}I : injective J by move=> a b Eab; apply: I; rewrite !ffunE.
  (* the increasing list of the columns *)
  pose js := List.filter (fun x => has (fun a => (J a : nat) == x) (enum 'I_k)) (List.seq 0 n).
  have inj x : List.In x js <-> exists a, (J a : nat) = x.
    rewrite List.filter_In List.in_seq. split=> [[_ /hasP [a _ /eqP <-]]|[a <-]]; first by exists a.
    split; first by split; [lia|exact/ltP]. by apply/hasP; exists a; rewrite ?mem_enum.
  have ndj : List.NoDup js by apply: List.NoDup_filter; exact: List.seq_NoDup.
  have Lj : length js = k.
    have e1 : perm_eq js [seq (J a : nat) | a <- enum 'I_k].
      apply: uniq_perm.
      - elim: ndj => //= x l nx _ ->. rewrite andbT. apply/negP => hx. apply: nx. by elim: l hx => //= y l IH; rewrite inE => /orP [/eqP ->|/IH]; [left|right].
      - rewrite map_inj_uniq ?enum_uniq // => a b Eab. exact/I/val_inj.
      - move=> x. have -> : (x \in js) = (x \in [seq (J a : nat) | a <- enum 'I_k]).
          apply/idP/mapP => [hx|[a _ ->]].
            have /inj [a <-] : List.In x js. { elim: (js) hx => //= y l IH; rewrite inE => /orP [/eqP ->|/IH]; [by left|by right]. } by exists a; rewrite ?mem_enum.
          have : List.In (J a : nat) js by apply/inj; exists a. elim: (js) => //= y l IH [->|/IH h]; rewrite inE ?eqxx // h orbT. by [].
        by [].
    by rewrite -[length js]/(size js) (perm_size e1) size_map size_enum_ord.
  have hin : List.In js (combinations (List.seq 0 n) k) by rewrite -{1}Lj; exact: filter_combinations.
  have [d0 [Ed0 Pd0]] := det1 js hin.
  have [i [hi Ei]] := List.In_nth _ _ nil hin. rewrite -Ll in hi.
  have Dj : P c %| \det (cols (sel js) (mx k n M)). { rewrite -Ei -E; last exact/ltP. rewrite -ndvdE.
    have := g1 _ (List.nth_In _ 0%num hi). move: H. rewrite !ndvdE. exact: dvdp_trans. }
  (* J = sel js after a permutation s *)
  have pos a : exists s : 'I_k, sel js s = J a.
    have /(List.In_nth _ _ 0%N) [b [hb Eb]] : List.In (J a : nat) js by apply/inj; exists a.
    rewrite Lj in hb. exists (Ordinal (introT ltP hb)). rewrite /sel /= Eb. by rewrite valK.
  have /fin_all_exists [s Hs] : forall a, exists x : 'I_k, sel js x = J a by exact: pos.
  have -> : cols J (mx k n M) = cols (sel js) (mx k n M) *m (\matrix_(l, a) (l == s a)%:R).
    apply/matrixP => i' a. rewrite !mxE (bigD1 (s a)) //= !mxE eqxx mulr1 big1 ?addr0 => [|l nl]; first by rewrite Hs.
    by rewrite !mxE (negbTE nl) mulr0.
  by rewrite det_mulmx dvdp_mulr.
Qed.
End Gcd.
