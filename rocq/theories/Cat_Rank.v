(* Linear algebra behind the criterion of Massey and Sain: dependencies modulo a common divisor of the minors, and polynomial right inverses. *)
Set Warnings "-notation-overridden,-ambiguous-paths".
From Verif Require Import BinPoly_Proof Cat_Minors.
From mathcomp Require Import all_ssreflect all_fingroup all_algebra.
Set Implicit Arguments.
Unset Strict Implicit.
Unset Printing Implicit Defensive.
Import GRing.Theory.
Local Open Scope ring_scope.

(* a linear combination of the family divides every member *)
Lemma bezout_seq (T : eqType) (x : T -> P2) (l : seq T) : uniq l -> exists c : T -> P2, forall i, i \in l -> \sum_(t <- l) c t * x t %| x i.
Proof.
elim: l => [|y l IH] /=; first by exists (fun _ => 0). move=> /andP [ny /IH [c H]].
set g := \sum_(t <- l) c t * x t in H. have [[u v] /= /eqp_dvdl E] := Bezoutp (x y) g.
exists (fun t => if t == y then u else v * c t) => i. rewrite big_cons eqxx.
have -> : \sum_(t <- l) (if t == y then u else v * c t) * x t = v * g.
  rewrite /g mulr_sumr !big_seq. apply: eq_bigr => t ht. case: eqP ny => [<-|_ _]; [by rewrite ht|by rewrite mulrA].
rewrite inE E => /orP [/eqP ->|hi]; first exact: dvdp_gcdl. exact: dvdp_trans (dvdp_gcdr _ _) (H i hi).
Qed.
Lemma bezout_fam (T : finType) (x : T -> P2) : exists c : T -> P2, forall i, \sum_t c t * x t %| x i.
Proof. have [c H] := bezout_seq x (index_enum_uniq T). exists c => i. by apply: H; rewrite mem_index_enum. Qed.

Lemma sum_pick k (i0 : 'I_k) (f : 'I_k -> P2) : \sum_i f i * (i == i0)%:R = f i0.
Proof. rewrite (bigD1 i0) //= eqxx mulr1 big1 ?addr0 // => i /negbTE ->. by rewrite mulr0. Qed.

Section Rank.
Variables (k n : nat) (M : 'M[P2]_(k, n)) (p : P2).
(* an s x s minor that p does not divide *)
Definition big_minor s := [exists I : {ffun 'I_s -> 'I_k}, [exists J : {ffun 'I_s -> 'I_n}, ~~ (p %| \det (\matrix_(a, b) M (I a) (J b)))]].
Lemma big_minor0 : ~~ (p %| 1) -> big_minor 0.
Proof.
move=> h. have I : 'I_0 -> 'I_k by case. have J : 'I_0 -> 'I_n by case.
apply/existsP; exists (finfun I). apply/existsP; exists (finfun J). by rewrite det_mx00.
Qed.
Lemma big_minor_full : minors_dvd p M -> ~~ big_minor k.
Proof.
move=> H. apply/existsPn => I. apply/existsPn => J. rewrite negbK.
have -> : (\matrix_(a, b) M (I a) (J b)) = (\matrix_(a, l) (l == I a)%:R) *m cols J M.
  apply/matrixP => a b. rewrite !mxE. rewrite -(sum_pick (I a) (fun l => M l (J b))). by apply: eq_bigr => l _; rewrite !mxE mulrC.
by rewrite det_mulmx dvdp_mull // H.
Qed.
Lemma last_big_minor m : ~~ (p %| 1) -> ~~ big_minor m -> exists2 s, (s < m)%N & big_minor s && ~~ big_minor s.+1.
Proof.
move=> h. elim: m => [|m IH] nb; first by rewrite big_minor0 in nb. case E: (big_minor m); first by exists m; rewrite ?E.
have [s hs B] := IH (negbT E). exists s => //. exact: ltnW.
Qed.

(* a combination of the rows divisible by p, whose coefficients are not all divisible by p *)
Lemma dependency : ~~ (p %| 1) -> minors_dvd p M -> exists r : 'I_k -> P2,
  (exists i, ~~ (p %| r i)) /\ forall j, p %| \sum_i r i * M i j.
Proof.
move=> h H. have [s hs /andP [/existsP [I /existsP [J nd]] nb]] := last_big_minor h (big_minor_full H).
have Iinj : injective I.
  move=> a b E. apply/eqP. apply/negPn/negP => ne. move/negP: nd; apply.
  by rewrite (@determinant_alternate _ _ _ a b) ?dvdp0 // => l; rewrite !mxE E.
have [i0 hi0] : exists i0, i0 \notin codom I.
  apply/existsP. rewrite -negb_forall. apply/negP => /forallP A.
  have : (#|'I_k| <= #|codom I|)%N by apply: subset_leq_card; apply/subsetP => x _; exact: A.
  rewrite card_ord card_codom // card_ord leqNgt. by rewrite hs.
pose I' (l : 'I_s.+1) : 'I_k := if unlift ord0 l is Some a then I a else i0.
pose N j : 'M[P2]_s.+1 := \matrix_(l, b) M (I' l) (if unlift ord0 b is Some b' then J b' else j).
have cof j j' l : cofactor (N j) l ord0 = cofactor (N j') l ord0.
  rewrite /cofactor; congr (_ * \det _). by apply/matrixP => a b; rewrite !mxE liftK.
have Nd j : p %| \det (N j).
  move/existsPn: nb => /(_ [ffun l => I' l]) /existsPn /(_ [ffun b => if unlift ord0 b is Some b' then J b' else j]). rewrite negbK.
  by congr (_ %| \det _); apply/matrixP => a b; rewrite !mxE !ffunE.
case: (posnP n) => [n0|npos].
  exists (fun i => (i == i0)%:R). split; first by exists i0; rewrite eqxx. move=> j. by have := ltn_ord j; rewrite {2}n0.
pose j0 := Ordinal npos. pose r i := \sum_(l | I' l == i) cofactor (N j0) l ord0.
exists r. split.
  exists i0. rewrite /r (bigD1 ord0) /=; last by rewrite /I' unlift_none.
  rewrite big1 ?addr0 => [|l /andP [/eqP E ne]].
    rewrite /cofactor /= mul1r. move: nd. congr (~~ (_ %| \det _)). apply/matrixP => a b. by rewrite !mxE /I' !liftK.
  case: (unliftP ord0 l) ne => [a El|->]; last by rewrite eqxx.
  by move: hi0; rewrite -E /I' El liftK codom_f.
move=> j. have -> : \sum_i r i * M i j = \det (N j); last exact: Nd.
rewrite (expand_det_col _ ord0) (partition_big I' predT) //=. apply: eq_bigr => i _. rewrite /r mulr_suml.
apply: eq_bigr => l /eqP E. by rewrite (cof j j0) mxE unlift_none E mulrC.
Qed.
End Rank.

(* adjugates and a combination of the maximal minors *)
Lemma minors_inverse k n (M : 'M[P2]_(k, n)) : exists (g : P2) (C : 'M[P2]_(n, k)),
  M *m C = g%:M /\ (minors_dvd g M) /\ forall d, minors_dvd d M -> d %| g.
Proof.
have [c H] := bezout_fam (fun J : {ffun 'I_k -> 'I_n} => \det (cols J M)).
exists (\sum_(J : {ffun 'I_k -> 'I_n}) c J * \det (cols J M)), (\sum_(J : {ffun 'I_k -> 'I_n}) c J *: ((\matrix_(j, a) (j == J a)%:R) *m \adj (cols J M))).
split; last split.
- rewrite mulmx_sumr [RHS]raddf_sum. apply: eq_bigr => J _. rewrite -scalemxAr mulmxA.
  have -> : M *m \matrix_(j, a) (j == J a)%:R = cols J M.
    apply/matrixP => i a. rewrite !mxE -(sum_pick (J a) (fun l => M i l)). by apply: eq_bigr => l _; rewrite !mxE.
  by rewrite mul_mx_adj scale_scalar_mx.
- move=> J. have -> : cols J M = cols (finfun J) M by apply/matrixP => i j; rewrite !mxE ffunE. exact: H.
- move=> d Hd. apply: dvdp_sum => J _. exact: dvdp_mull.
Qed.
