(* The results about encoders, from the results about series. *)
Set Warnings "-notation-overridden,-ambiguous-paths".
From Coq Require Import ZArith NArith PeanoNat Lia List.
From Verif Require Import Common BinPoly_Model Conv_Model Cat_Spec Cat_Model Cat_Lists Cat_Bridge Cat_High.
From Verif Require ConvCons_Proof.
From Verif Require Import BinPoly_Proof Algebra_Spec Irreducible_Proof Algebra_Proof Cat_Minors Cat_Smith Cat_Link Cat_Main Cat_Gens Cat_Gcd.
From mathcomp Require Import all_ssreflect all_fingroup all_algebra zify.
Set Implicit Arguments.
Unset Strict Implicit.
Unset Printing Implicit Defensive.
Import GRing.Theory.
Local Open Scope ring_scope.
Local Notation "x %:F" := (@FracField.tofrac _ x).

Section CC.
Variables (rows : list (list N * N)) (c : conv).
Hypothesis E : ConvolutionalCode rows = Some c.
Hypothesis Q : List.Forall (fun r => N.odd (snd r) = true) rows.
Lemma shape : [/\ (0 < length rows)%N, (0 < cv_n c)%N & forall i, (i < length rows)%N -> length (fst (List.nth i rows (nil, 0%num))) = cv_n c].
Proof.
have [NE [Pn [R _]]] := ConvCons_Proof.cc_inv rows c E. split; [by case: (rows) NE|exact/ltP|].
move=> i /ltP hi. move/List.Forall_forall: R => /(_ (List.nth i rows (nil, 0%num))) -> //. exact: List.nth_In.
Qed.
Lemma cc_has_generator : exists G, cc_generator rows = Some G /\ generates rows (cv_n c) G.
Proof.
have [_ _ S] := shape. apply: cc_generates => i hi. split; first exact: S.
apply/eqP. rewrite -P_eq0. exact: coprime_nz (qi_coprime Q hi).
Qed.
Lemma cc_entries : exists G, cc_generator rows = Some G /\ length G = length rows /\
  forall i j, (i < length rows)%coq_nat -> (j < cv_n c)%coq_nat -> length (List.nth i G nil) = cv_n c /\
    reduced_frac (List.nth j (List.nth i G nil) (0%num, 1%num)) /\
    pmul (fst (List.nth j (List.nth i G nil) (0%num, 1%num))) (rowq rows i) = pmul (snd (List.nth j (List.nth i G nil) (0%num, 1%num))) (rowp rows i j).
Proof.
have [G [EG [LG [RG HG]]]] := cc_has_generator. exists G. split=> //. split=> // i j /ltP hi /ltP hj. split; first exact: RG.
have [r Vx] := HG i j hi hj. split=> //. apply: Vcross => //.
apply/eqP. rewrite -P_eq0. exact: coprime_nz (qi_coprime Q hi).
Qed.
Lemma cc_sound G : generates rows (cv_n c) G -> is_catastrophic G = Some true -> catastrophic c.
Proof. have [k0 n0 _] := shape. move=> HG /(sound Q HG k0 n0) S. exact/(catastrophic_series rows c E Q). Qed.
Lemma cc_raises G : generates rows (cv_n c) G -> is_catastrophic G = None <-> loses_input c.
Proof. have [k0 n0 _] := shape. move=> HG. rewrite (raises Q HG k0 n0) (silent_series_iff rows c E Q). by []. Qed.
Lemma cc_rate_one G b : generates rows (cv_n c) G -> length rows = 1%N -> is_catastrophic G = Some b -> (b = true <-> catastrophic c).
Proof.
have [k0 n0 _] := shape. move=> HG k1. case: b => H; split=> //; first by move=> _; exact: cc_sound HG H.
by move=> /(catastrophic_series rows c E Q) /(rate_one Q HG k0 n0 k1 H).
Qed.
End CC.

Lemma low_rate g c : g <> nil -> c = LowRate g -> exists G, lr_generator g = Some G /\
  (forall b, is_catastrophic G = Some b -> (b = true <-> catastrophic c)) /\ (is_catastrophic G = None <-> List.Forall (fun p => p = 0%num) g).
Proof.
move=> gn ->. have E := ConvCons_Proof.low_rate_as_cc g gn. have Q : List.Forall (fun r : list N * N => N.odd (snd r) = true) (cons (g, 1%num) nil) by repeat constructor.
have [G [EG HG]] := low_generates g. exists G. split=> //. split.
  move=> b. exact: (@cc_rate_one _ _ E Q G b HG erefl).
rewrite (cc_raises E Q HG) (silent_series_iff _ _ E Q). set rows := (cons (g, 1%num) nil) in E Q HG *.
have HM i j : (i < length rows)%N -> (j < length g)%N -> 1 * P (rowp rows i j) = P (rowp rows i j) * P (rowq rows i) by case: i => [|i] // _ _; rewrite mul1r P1 mulr1.
rewrite -[cv_n _]/(length g). split.
- move=> /(silent_minors HM) D. apply/List.Forall_forall => p /(List.In_nth _ _ 0%num) [j [/ltP hj Ej]].
  have := D (fun _ => Ordinal hj). rewrite (mx11_scalar (cols _ _)) det_scalar1 !mxE /= Ej dvd0p P_eq0. by move/eqP.
- move=> /List.Forall_forall Z. apply: (minors_silent Q (coprime1p _) HM) => J.
  rewrite (mx11_scalar (cols _ _)) det_scalar1 !mxE /= (Z (List.nth _ g 0%num)) ?P0 ?dvdp0 //. apply: List.nth_In. exact/ltP.
Qed.
Lemma high_rate hs q : hs <> nil -> N.odd q = true -> exists G, hr_generator hs q = Some G /\ is_catastrophic G = Some false.
Proof.
move=> NE Q. have q0 : q <> 0%num by move=> Z; rewrite Z in Q. have [G [EG HG]] := high_generates hs q0. exists G. split=> //.
have Qr := hr_rows_odd hs q Q. have k0 : (0 < length (hr_rows hs q))%N by rewrite hr_rows_length; case: (hs) NE.
have n0 : (0 < S (length hs))%N by []. case C: (is_catastrophic G) => [[]|] //; exfalso.
- exact: hr_not_catastrophic_series (sound Qr HG k0 n0 C).
- by move/(raises Qr HG k0 n0): C; exact: hr_not_silent_series.
Qed.

(* polynomial matrices *)
Section Poly.
Variables (k n : nat) (M : list (list N)).
Hypothesis kpos : (0 < k)%coq_nat.
Hypothesis kn : (k <= n)%coq_nat.
Hypothesis LM : length M = k.
Hypothesis RM : forall r, List.In r M -> length r = n.
Lemma rows_M i : (i < k)%N -> length (List.nth i M nil) = n.
Proof. move=> /ltP h. apply: RM. apply: List.nth_In. by rewrite LM. Qed.
Lemma prod_pmul l : P (List.fold_right pmul 1%num l) = \prod_(f <- l) P f.
Proof. elim: l => [|x l IH] /=; first by rewrite big_nil. by rewrite Pmul big_cons IH. Qed.
Lemma factors_minors : exists fs g, invariant_factors M = Some fs /\ minors_gcd (integral M) = Some g /\ (length fs <= k)%coq_nat /\
  (forall f, List.In f fs -> f <> 0%num) /\ (length fs = k -> List.fold_right pmul 1%num fs = g) /\ ((length fs < k)%coq_nat <-> g = 0%num).
Proof.
have k0 : (0 < k)%N by apply/ltP. have hn : (k <= n)%N by apply/leP.
have [g [Eg Hg]] := gcd_minors k0 hn LM rows_M. have [fs [Efs Sfs Nfs Gfs _]] := inv_factors_spec M hn.
exists fs, g. split; first by rewrite /invariant_factors LM rows_M //; case: Nat.ltb_spec => // h; lia.
split=> //. split; first exact/leP. have inP f : List.In f fs -> f \in fs.
  by elim: (fs) => //= x l IH [->|/IH h]; rewrite inE ?eqxx // h orbT.
split; first by move=> f /inP; exact: Nfs.
have Pg : P g = gcd_of k fs by apply: eqp2; rewrite /eqp; apply/andP; split; [exact/Gfs/Hg|exact/Hg/Gfs].
rewrite -[length fs]/(size fs). split=> [Sk|]; first by apply: P_inj; rewrite prod_pmul Pg /gcd_of Sk eqxx.
split=> [h|g0]; first by apply/eqP; rewrite -P_eq0 Pg /gcd_of (_ : (size fs == k) = false) //; apply/eqP; lia.
move: Pg. rewrite g0 P0 /gcd_of. case: eqP => [_ /esym/eqP|]; last by lia. by rewrite (negbTE (prod_nz Nfs)).
Qed.
End Poly.

(* feedforward encoders *)
Lemma feedforward_generator rows c : ConvolutionalCode rows = Some c -> List.Forall (fun r => snd r = 1%num) rows ->
  cc_generator rows = Some (integral (List.map fst rows)).
Proof.
move=> E F. have [G [EG [LG [RG HG]]]] := cc_has_generator E (ff_odd F). rewrite EG; congr Some. have [k0 n0 S] := shape E.
have LI : length (integral (List.map fst rows)) = length rows by rewrite !List.map_length.
have RI i : (i < length rows)%N -> List.nth i (integral (List.map fst rows)) nil = List.map (fun p => (p, 1%num)) (fst (List.nth i rows (nil, 0%num))).
  move=> hi. by rewrite (nth_mapE _ nil) ?List.map_length // (nth_mapE _ (nil, 0%num)).
apply: (List.nth_ext _ _ nil nil); first by rewrite LG LI. move=> i /ltP hi. rewrite LG in hi. rewrite RI //.
apply: (List.nth_ext _ _ (0%num, 1%num) (0%num, 1%num)); first by rewrite RG // List.map_length S.
move=> j /ltP hj. rewrite RG // in hj. have [r Vx] := HG i j hi hj. rewrite (nth_mapE _ 0%num) ?S //. apply: V_inj => //.
  by apply/reduced_coprime; split=> //; rewrite -[snd _]/1%num P1 coprimep1.
by rewrite -/(gent G i j) Vx ff_one // P1 tofrac1 divr1 V_int.
Qed.
Lemma criterion rows c : ConvolutionalCode rows = Some c -> List.Forall (fun r => snd r = 1%num) rows -> (length rows <= cv_n c)%coq_nat ->
  exists g, minors_gcd (integral (List.map fst rows)) = Some g /\ (catastrophic c <-> forall i, g <> N.shiftl 1 (N.of_nat i)).
Proof.
move=> E F hn. have [k0 n0 S] := shape E.
have RM i : (i < length rows)%N -> length (List.nth i (List.map fst rows) nil) = cv_n c by move=> hi; rewrite (nth_mapE _ (nil, 0%num)) // S.
have [|g [Eg Hg]] := gcd_minors k0 (introT leP hn) _ RM; first by rewrite List.map_length. exists g. split=> //.
rewrite (catastrophic_series rows c E (ff_odd F)) (@massey_sain _ _ F (P g)).
  split=> [H i Ei|H [a Ea]]; first by apply: H; exists i; rewrite Ei PX. apply: (H a). apply: P_inj. by rewrite Ea PX.
move=> d. rewrite -Hg. have -> // : numx (length rows) (cv_n c) (fun i j => P (rowp rows i j)) = mx (length rows) (cv_n c) (List.map fst rows).
apply/matrixP => i j. by rewrite !mxE /pentry (nth_mapE _ (nil, 0%num)).
Qed.
