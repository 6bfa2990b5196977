(* The generator matrices of LowRateConvolutionalCode and HighRateConvolutionalCode. *)
Set Warnings "-notation-overridden,-ambiguous-paths".
From Coq Require Import ZArith NArith PeanoNat Lia List.
From Verif Require Import Common BinPoly_Model Cat_Model Cat_Lists Cat_Bridge Cat_High.
From Verif Require Import BinPoly_Proof Algebra_Spec Irreducible_Proof Algebra_Proof Cat_Link.
From mathcomp Require Import all_ssreflect all_fingroup all_algebra zify.
Set Implicit Arguments.
Unset Strict Implicit.
Unset Printing Implicit Defensive.
Import GRing.Theory.
Local Open Scope ring_scope.
Local Notation "x %:F" := (@FracField.tofrac _ x).

Lemma generates_from rows n (L : list (list (option pfrac))) : length L = length rows ->
  (forall i, (i < length rows)%N -> length (List.nth i L nil) = n) ->
  (forall i j, (i < length rows)%N -> (j < n)%N -> exists x, [/\ List.nth j (List.nth i L nil) None = Some x, reduced_frac x & V x = (P (rowp rows i j))%:F / (P (rowq rows i))%:F]) ->
  exists G, all_some2 L = Some G /\ generates rows n G.
Proof.
move=> LL RL ex. have [|i j|G [EG [LG [RG NG]]]] := @all_some2_ex _ n L; rewrite ?LL.
- by move=> i /ltP hi; exact: RL.
- move=> /ltP hi /ltP hj. have [x [E _ _]] := ex i j hi hj. by exists x.
exists G. split=> //. split; first by rewrite LG. split; first by move=> i /ltP hi; apply: RG; rewrite LL.
move=> i j hi hj. have [x [E rx Vx]] := ex i j hi hj. rewrite /gent.
have := NG i j (0%num, 1%num). rewrite LL => /(_ (ltP hi) (ltP hj)). rewrite E => -[<-]. by [].
Qed.
Lemma one_nz : 1%num <> 0%num. Proof. by []. Qed.
Lemma low_generates g : exists G, lr_generator g = Some G /\ generates (cons (g, 1%num) nil) (length g) G.
Proof.
apply: generates_from => //= [[|i] //= _|[|i] //= j _ hj]; first by rewrite List.map_length.
rewrite (nth_mapE _ 0%num) //. have [x [Ex [rx Vx]]] := mk_frac_spec (List.nth j g 0%num) one_nz. by exists x.
Qed.
Lemma high_generates hs q : q <> 0%num -> exists G, hr_generator hs q = Some G /\ generates (hr_rows hs q) (S (length hs)) G.
Proof.
move=> q0. apply: generates_from; rewrite hr_rows_length.
- by rewrite List.map_length List.seq_length.
- move=> i hi. rewrite (nth_mapE _ 0%N) ?List.seq_length // List.app_length List.map_length List.seq_length /=. lia.
- move=> i j hi hj. rewrite (nth_mapE _ 0%N) ?List.seq_length // List.seq_nth; last exact/ltP. rewrite hr_row; last exact/ltP.
  rewrite -[(0 + i)%coq_nat]/i. rewrite -[snd _]/q -[fst _]/(List.map (fun j => if Nat.eqb i j then q else 0%num) (List.seq 0 (length hs)) ++ cons (List.nth i hs 0%num) nil)%list.
  case: (ltnP j (length hs)) => hj'.
  + rewrite List.app_nth1 ?List.map_length ?List.seq_length; last exact/ltP.
    rewrite List.app_nth1 ?List.map_length ?List.seq_length; last exact/ltP.
    rewrite !(nth_mapE _ 0%N) ?List.seq_length // List.seq_nth; last exact/ltP. rewrite -[(0 + j)%coq_nat]/j.
    have [x [Ex [rx Vx]]] := mk_frac_spec (if Nat.eqb i j then 1%num else 0%num) one_nz. exists x. split=> //. rewrite Vx P1 tofrac1 divr1.
    case: (Nat.eqb i j); last by rewrite !P0 tofrac0 mul0r. by rewrite P1 tofrac1 mulfV // F_eq0; apply/eqP.
  + have -> : j = length hs by lia. 
    rewrite List.app_nth2 ?List.map_length ?List.seq_length //. rewrite List.app_nth2 ?List.map_length ?List.seq_length // Nat.sub_diag.
    have [x [Ex [rx Vx]]] := mk_frac_spec (List.nth i hs 0%num) q0. by exists x.
Qed.
