(* Sampling by inverse cdf; simulation. *)
Set Warnings "-notation-overridden,-ambiguous-paths".
From mathcomp Require Import all_ssreflect all_algebra zify.
From Verif Require Import Markov_Model Markov_Spec.
Set Implicit Arguments.
Unset Strict Implicit.
Unset Printing Implicit Defensive.
Import Order.TTheory GRing.Theory Num.Theory.
Local Open Scope ring_scope.

Lemma count_antitone (q : pred nat) m : (forall k, q k.+1 -> q k) ->
  forall k, (k < m)%N -> q k = (k < count q (iota 0 m))%N.
Proof.
move=> H. elim: m => [//|m IH] k.
have E1 : iota 0 m.+1 = iota 0 m ++ [:: m] by rewrite -addn1 iotaD.
rewrite E1 count_cat /= addn0.
have mono : forall a b, (a <= b)%N -> q b -> q a.
  by move=> a; elim=> [|b IHb]; [rewrite leqn0 => /eqP->|rewrite leq_eqVlt => /orP[/eqP-> //|ab /H]; exact: IHb].
case qm: (q m).
  have -> : count q (iota 0 m) = m.
    rewrite -[RHS](size_iota 0 m). apply/eqP. rewrite -all_count. apply/allP => x. rewrite mem_iota add0n /= => xm.
    apply: mono qm. exact: ltnW.
  rewrite addn1 => km. rewrite km. exact: mono qm.
rewrite addn0 ltnS leq_eqVlt => /orP[/eqP->|]; last exact: IH.
rewrite qm. apply/esym/negbTE. rewrite -leqNgt. apply: leq_trans (count_size _ _) _. by rewrite size_iota.
Qed.

Section Choice.
Variable F : realFieldType.
Variable p : seq F.
Hypothesis p0 : all (fun x => 0 <= x) p.
Hypothesis S0 : 0 < \sum_(x <- p) x.
Notation S := (\sum_(x <- p) x).
Notation cum k := (\sum_(x <- take k p) x).

Lemma p_nonempty : (0 < size p)%N.
Proof. case: p S0 => //. by rewrite big_nil ltxx. Qed.

Lemma last_cumsum : last 0 (cumsum p) = S.
Proof.
rewrite /cumsum. have E : size p = (size p).-1.+1 by rewrite prednK // p_nonempty.
have -> : iota 0 (size p) = iota 0 (size p).-1 ++ [:: (size p).-1] by rewrite {1}E -addn1 iotaD.
rewrite map_cat last_cat /= prednK ?p_nonempty // take_size. by [].
Qed.

Lemma cumS k : (k < size p)%N -> cum k.+1 = cum k + nth 0 p k.
Proof. move=> kp. by rewrite (take_nth 0 kp) -cats1 big_cat /= big_seq1. Qed.

Lemma nth_ge k : 0 <= nth 0 p k.
Proof. case: (ltnP k (size p)) => kp; last by rewrite nth_default. exact: (allP p0 _ (mem_nth 0 kp)). Qed.

Lemma cum_mono k : cum k <= cum k.+1.
Proof.
case: (ltnP k (size p)) => kp; first by rewrite cumS // ler_addl nth_ge.
by rewrite !take_oversize // ltnW.
Qed.

Lemma choice_lt u k : (k < size p)%N -> (cum k.+1 / S <= u) = (k < choice p u)%N.
Proof.
move=> kp. rewrite /choice last_cumsum /cumsum count_map.
rewrite -(@count_antitone (fun k => cum k.+1 / S <= u)) // => q. apply: le_trans.
by rewrite ler_pmul2r ?invr_gt0 // cum_mono.
Qed.

Lemma choice_bound u : u < 1 -> (choice p u < size p)%N.
Proof.
move=> u1. have kp : ((size p).-1 < size p)%N by rewrite prednK // p_nonempty.
have := choice_lt u kp. rewrite prednK ?p_nonempty // take_size divff ?gt_eqF //. rewrite leNgt u1 /= => /esym/negbT.
by rewrite -ltnNge.
Qed.

Lemma choice_interval u j : 0 <= u -> u < 1 -> (j < size p)%N ->
  (choice p u == j) = (cum j / S <= u) && (u < cum j.+1 / S).
Proof.
move=> u0 u1 jp. rewrite ltNge choice_lt // -leqNgt eqn_leq andbC. congr (_ && _).
case: j jp => [|j] jp; first by rewrite take0 big_nil mul0r u0.
by rewrite choice_lt // ltnW.
Qed.

Lemma choice_pos u : 0 <= u -> u < 1 -> 0 < nth 0 p (choice p u).
Proof.
move=> u0 u1. have cp := choice_bound u1. have := choice_interval u0 u1 cp. rewrite eqxx => /esym/andP[a b].
have := le_lt_trans a b. by rewrite ltr_pmul2r ?invr_gt0 // cumS // ltr_addl.
Qed.
End Choice.

Section Sim.
Variable F : realFieldType.
Variable P : seq (seq F).
Hypothesis H : forall i, (i < size P)%N -> [/\ size (nth [::] P i) = size P,
  all (fun x => 0 <= x) (nth [::] P i) & 0 < \sum_(x <- nth [::] P i) x].

Lemma next_ok s u : (s < size P)%N -> 0 <= u -> u < 1 ->
  (choice (nth [::] P s) u < size P)%N /\ 0 < entry P s (choice (nth [::] P s) u).
Proof.
move=> sn u0 u1. have [sz p0 S0] := H sn. split; last exact: choice_pos.
by rewrite -[X in (_ < X)%N]sz; exact: choice_bound.
Qed.

Lemma simulate_size s draws : size (simulate P s draws) = size draws.
Proof. by elim: draws s => [|u ds IH] s //=; rewrite IH. Qed.

Lemma simulate_ok s draws : (s < size P)%N -> all (fun u => (0 <= u) && (u < 1)) draws ->
  (forall k, (k < size draws)%N -> (nth 0%N (simulate P s draws) k < size P)%N) /\
  (forall k, (k.+1 < size draws)%N ->
     0 < entry P (nth 0%N (simulate P s draws) k) (nth 0%N (simulate P s draws) k.+1)).
Proof.
elim: draws s => [|u ds IH] s sn //= /andP[/andP[u0 u1] du].
have [c1 c2] := next_ok sn u0 u1. have [A B] := IH _ c1 du. split.
  by case=> //= k kd; exact: A.
case=> [|k] kd /=; last exact: B.
case: ds {IH A B} du kd => //.
Qed.

Lemma until_ok tr s draws out : (s < size P)%N -> all (fun u => (0 <= u) && (u < 1)) draws ->
  until_loop P tr s draws = Some out ->
  [/\ forall k, (k < size (s :: out))%N -> (nth 0%N (s :: out) k < size P)%N,
      forall k, (k < size out)%N -> 0 < entry P (nth 0%N (s :: out) k) (nth 0%N (s :: out) k.+1),
      forall k, (k < size out)%N -> nth 0%N (s :: out) k \in tr &
      last s out \notin tr].
Proof.
elim: draws s out => [|u ds IH] s out sn /=.
  by move=> _; case: ifP => // st [<-]; split=> //=; [case|rewrite st].
move=> /andP[/andP[u0 u1] du]. case: ifP => st; last by move=> [<-]; split=> //=; [case|rewrite st].
have [c1 c2] := next_ok sn u0 u1. set c := choice _ _ in c1 c2 *.
case E: (until_loop P tr c ds) => [out'|] //= [<-].
have [A B C D] := IH c out' c1 du E. split=> //.
- by case=> //= k kd; exact: A.
- by case=> //= k kd; exact: B.
- by case=> //= k kd; exact: C.
Qed.
End Sim.
