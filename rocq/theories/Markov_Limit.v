(* Limits over an Archimedean field: fundamental matrix, absorption
   probabilities, recurrence. *)
Set Warnings "-notation-overridden,-ambiguous-paths".
From mathcomp Require Import all_ssreflect all_algebra zify.
From Verif Require Import Markov_Model Markov_Spec Markov_Proof Markov_Period Markov_Linear Markov_Absorb.
Set Implicit Arguments.
Unset Strict Implicit.
Unset Printing Implicit Defensive.
Import Order.TTheory GRing.Theory Num.Theory.
Local Open Scope ring_scope.

Section AbsorbingStates.
Variable F : realFieldType.
Variable P : seq (seq F).
Hypothesis ST : stochastic P.
Notation n := (size P).
Notation e := (adjacency P).
Notation p := (step_prob P).
Notation en := (entry P).
Notation T := (mem (transient_states n e)).

Lemma absorbingE i : (i \in absorbing_states P) = (i < n)%N && (en i i == 1).
Proof. by rewrite mem_filter mem_iota add0n andbC. Qed.

Lemma abs_row a j : a \in absorbing_states P -> (j < n)%N -> en a j = (a == j)%:R.
Proof.
rewrite absorbingE => /andP[na /eqP E] nj. case: eqP => [<- //|/eqP ne].
have S1 := ST.2 a na. rewrite (bigD1_seq a) ?mem_index_iota ?iota_uniq //= E in S1.
have S0 : \sum_(0 <= i < n | i != a) en a i = 0.
  by apply: (@addrI _ 1); rewrite S1 addr0.
apply/eqP. rewrite eq_le (en_ge ST na nj) andbT -[leRHS]S0.
apply: (sum_mem (T := fun i => i != a)) => //; last by rewrite eq_sym.
by move=> i ni _; exact: en_ge.
Qed.

Lemma abs_p k a j : a \in absorbing_states P -> (j < n)%N -> p k a j = (a == j)%:R.
Proof.
move=> aa nj. have na : (a < n)%N by move: aa; rewrite absorbingE => /andP[].
elim: k => [//|k IH] /=. rewrite -IH -[RHS](sum_delta (fun l => p k l j) na).
apply: sum_ext => l nl _. by rewrite abs_row.
Qed.

Lemma abs_notT a : a \in absorbing_states P -> a \notin T.
Proof.
move=> aa. have na : (a < n)%N by move: aa; rewrite absorbingE => /andP[].
apply/negP => /transientP[_ [j [[k w] ja]]]. have nj : (j < n)%N by exact: walk_lt w.
move: w. rewrite -(step_walk ST.1) // abs_p //. case: eqP => [E _|]; last by rewrite ltxx.
apply: ja. rewrite -E. exact: reaches_refl.
Qed.

Hypothesis AB : is_absorbing P.

Lemma ab_reach i : (i < n)%N -> exists a, a \in absorbing_states P /\ reaches n e i a.
Proof.
move: AB. rewrite /is_absorbing. case E: (absorbing_states P) => [//|a0 l] /allP H ni.
case Ia: (i \in a0 :: l); first by exists i; split=> //; exact: reaches_refl.
have : i \in [seq i <- iota 0 n | i \notin a0 :: l] by rewrite mem_filter Ia mem_iota.
move/H/hasP => [a al ac]. exists a. split=> //. apply/accP: ac => //.
Qed.

Lemma ab_T i : (i < n)%N -> (i \in T) = (i \notin absorbing_states P).
Proof.
move=> ni. case Ia: (i \in absorbing_states P) => /=; first exact: negbTE (abs_notT Ia).
apply/transientP. split=> //. have [a [aa ia]] := ab_reach ni. exists a. split=> //.
have na : (a < n)%N by move: aa; rewrite absorbingE => /andP[].
move=> [k]. rewrite -(step_walk ST.1) // abs_p //. case: eqP => [E|]; last by rewrite ltxx. by rewrite -E aa in Ia.
Qed.

Section Fund.
Variable t ab : seq nat.
Hypothesis ut : uniq t.
Hypothesis tT : forall i, (i \in t) = (i \in T).
Hypothesis uab : uniq ab.
Hypothesis abA : forall i, (i \in ab) = (i \in absorbing_states P).
Notation m := (size t).
Notation tn i := (nth 0%N t i).
Notation an i := (nth 0%N ab i).
Notation Q := (submatrix P t t).
Notation R := (submatrix P t ab).
Notation Nm := (invmx (1%:M - Q)).

Lemma an_abs (j : 'I_(size ab)) : an j \in absorbing_states P.
Proof. by rewrite -abA mem_nth. Qed.

Lemma SkR k (i : 'I_m) (j : 'I_(size ab)) : (Sk P t k *m R) i j = p k (tn i) (an j).
Proof.
have aj := an_abs j. have naj : (an j < n)%N by move: aj; rewrite absorbingE => /andP[].
elim: k i => [|k IH] i.
  rewrite mul0mx mxE /=. case: eqP => // E. have := t_T tT i. rewrite E => Ta. by have := abs_notT aj; rewrite Ta.
rewrite /= mulmxDl mul1mx -mulmxA. rewrite mxE [X in _ + X]mxE.
under eq_bigr => l _ do rewrite IH [submatrix _ _ _ _ _]mxE.
rewrite (sum_t ut tT (fun l => en (tn i) l * p k l (an j))) [RHS](bigID T) /= addrC. congr (_ + _).
rewrite mxE. have := sum_delta (P := P) (fun l => en (tn i) l) naj. rewrite (bigID T) /= => <-.
rewrite big1_seq ?add0r; last first.
  move=> l /andP[Tl _]. case: eqP => [E|]; last by rewrite mul0r. have := abs_notT aj. by rewrite E Tl.
apply: sum_ext => l nl Tl. rewrite mulrC. congr (_ * _). rewrite abs_p ?[_ == l]eq_sym //.
by rewrite -[_ \in _]negbK -ab_T.
Qed.

Lemma NmR_row (i : 'I_m) : \sum_j (Nm *m R) i j = 1.
Proof.
have E : R *m const_mx 1 = (1%:M - Q) *m (const_mx 1 : 'cV[F]_m).
  apply/matrixP => l z. rewrite mulmxBl mul1mx !mxE.
  under eq_bigr => j _ do rewrite !mxE mulr1. under [in RHS]eq_bigr => j _ do rewrite !mxE mulr1.
  apply/eqP. rewrite eq_sym subr_eq. rewrite (sum_t ut tT (fun j => en (tn l) j)).
  rewrite -(ST.2 _ (t_lt tT l)) [X in X == _](bigID T) /= addrC. apply/eqP. congr (_ + _).
  rewrite -(big_mkord xpredT (fun j => en (tn l) (an j))) -(big_nth 0%N xpredT (en (tn l))).
  rewrite -[LHS]big_filter. apply: perm_big. apply: uniq_perm => //; first by rewrite filter_uniq // iota_uniq.
  move=> j. rewrite mem_filter mem_index_iota abA. case nj: (j < n)%N => /=.
    by rewrite ab_T // negbK andbT.
  by rewrite andbF absorbingE nj.
have : (Nm *m R *m const_mx 1 : 'cV_m) i ord0 = 1.
  by rewrite -mulmxA E mulmxA mulVmx ?(unit_IQ ST ut tT) // mul1mx mxE.
rewrite mxE. under eq_bigr => j _ do rewrite [const_mx _ _ _]mxE mulr1. by [].
Qed.
End Fund.
End AbsorbingStates.

Section Limits.
Variable F : archiFieldType.
Variable P : seq (seq F).
Hypothesis ST : stochastic P.
Notation n := (size P).
Notation e := (adjacency P).
Notation p := (step_prob P).
Notation T := (mem (transient_states n e)).

Lemma pow_small (th eps : F) : 0 <= th -> th < 1 -> 0 < eps -> exists q, th ^+ q < eps.
Proof.
move=> t0 t1 e0. have d0 : 0 < 1 - th by rewrite subr_gt0.
pose q := Num.bound (((1 - th) * eps)^-1).
have bq : ((1 - th) * eps)^-1 < q%:R by apply: archi_boundP; rewrite invr_ge0 mulr_ge0 // ltW.
have q0 : 0 < q%:R :> F by apply: le_lt_trans bq; rewrite invr_ge0 mulr_ge0 // ltW.
exists q.
have G := geom_le q t0 t1.
have L : q%:R * th ^+ q <= \sum_(0 <= m < q) th ^+ m.
  have -> : q%:R * th ^+ q = \sum_(0 <= m < q) th ^+ q by rewrite sumr_const_nat subn0 mulr_natl.
  rewrite !big_mkord. apply: ler_sum => i _. apply: ler_wiexpn2l => //; [exact: ltW|exact: ltnW].
have H : (1 - th) * (q%:R * th ^+ q) <= 1 by apply: le_trans G; rewrite ler_pmul2l.
rewrite ltNge. apply/negP => le.
have : (1 - th) * (q%:R * eps) <= 1 by apply: le_trans H; rewrite ler_pmul2l // ler_pmul2l.
move: bq. rewrite -[X in X < _]mul1r ltr_pdivr_mulr ?mulr_gt0 // mulrCA => lt le'.
by have := lt_le_trans lt le'; rewrite ltxx.
Qed.

Lemma rem_small eps : 0 < eps -> exists K, forall k, (K <= k)%N -> forall i, (i < n)%N -> rem P k i < eps.
Proof.
move=> e0. have [N [th [N0 t0 t1 H]]] := decay ST. have [q hq] := pow_small t0 t1 e0.
exists (q * N)%N => k kq i ni. exact: le_lt_trans (rem_pow_le ST H t0 ni kq) hq.
Qed.

Section Fund.
Variable t : seq nat.
Hypothesis ut : uniq t.
Hypothesis tT : forall i, (i \in t) = (i \in T).
Notation m := (size t).
Notation tn i := (nth 0%N t i).
Notation Q := (submatrix P t t).
Notation Nm := (invmx (1%:M - Q)).

Lemma Sk_conv r (B : 'M[F]_(m, r)) (i : 'I_m) (j : 'I_r) :
  converges (fun k => (Sk P t k *m B) i j) ((Nm *m B) i j).
Proof.
move=> eps e0.
pose C := \sum_(l < m) `|Nm i l|. pose D := \sum_(l < m) `|B l j|.
have C0 : 0 <= C by apply: sumr_ge0 => l _; exact: normr_ge0.
have D0 : 0 <= D by apply: sumr_ge0 => l _; exact: normr_ge0.
have z0 : 0 < eps / (C * D + 1) by rewrite divr_gt0 // ltr_paddl // mulr_ge0.
have [K HK] := rem_small z0. exists K => k kK.
have -> : (Sk P t k *m B) i j - (Nm *m B) i j = - (Nm *m (Qk P t k *m B)) i j.
  rewrite (Sk_diff ST ut tT) mulmxBl -mulmxA.
  have sub (A1 A2 : 'M[F]_(m, r)) : (A1 - A2) i j = A1 i j - A2 i j by rewrite !mxE.
  by rewrite sub addrAC subrr add0r.
rewrite normrN mxE.
have X l : `|(Qk P t k *m B) l j| <= eps / (C * D + 1) * D.
  rewrite mxE. apply: le_trans (ler_norm_sum _ _ _) _. rewrite mulr_sumr. apply: ler_sum => q _.
  rewrite normrM. apply: ler_wpmul2r; first exact: normr_ge0.
  rewrite (Qk_entry ST ut tT) ger0_norm ?p_ge ?(t_lt tT) //.
  apply: le_trans (ltW (HK k kK _ (t_lt tT l))). rewrite /rem.
  apply: (sum_mem (T := T)); [|exact: (t_lt tT)|exact: (t_T tT)]. move=> z nz _. apply: p_ge => //. exact: (t_lt tT).
apply: (@le_lt_trans _ _ (C * (eps / (C * D + 1) * D))).
  apply: le_trans (ler_norm_sum _ _ _) _. rewrite mulr_suml. apply: ler_sum => l _. rewrite normrM.
  by apply: ler_wpmul2l; rewrite ?normr_ge0.
have -> : C * (eps / (C * D + 1) * D) = eps * ((C * D) / (C * D + 1)) by rewrite -!mulrA (mulrCA C eps) [_^-1 * D]mulrC.
rewrite -[X in _ < X]mulr1 ltr_pmul2l // ltr_pdivr_mulr ?ltr_paddl ?mulr_ge0 //.
by rewrite mul1r ltr_addl.
Qed.
End Fund.

(* ---------------- recurrence ---------------- *)
Lemma recurrent_visits i : i \in recurrent_states n e -> forall C, exists K, C < \sum_(0 <= k < K) p k i i.
Proof.
case/recurrentP=> ni rec C.
pose R j := (j \in accessible n e i).
have RP j : R j -> (j < n)%N /\ exists k, 0 < p k j i.
  move=> /(accP _ _ ni) ij. have nj : (j < n)%N by case: ij => k; exact: walk_lt.
  split=> //. have [k w] := rec j ij. exists k. by rewrite step_walk //; exact: ST.1.
have [c [M [c0 HM]]] : exists c M, 0 < c /\ forall j, (j < n)%N -> R j -> exists m, (m <= M)%N /\ c <= p m j i.
  have : forall q, (q <= n)%N -> exists c M, 0 < c /\ forall j, (j < q)%N -> R j -> exists m, (m <= M)%N /\ c <= p m j i.
    elim=> [|q IH] qn; first by exists 1, 0%N; rewrite ltr01.
    have [|c [M [c0 H]]] := IH; first by lia.
    case Rq: (R q); last first.
      exists c, M. split=> // j. rewrite ltnS leq_eqVlt => /orP[/eqP-> |]; first by rewrite Rq. exact: H.
    have [_ [k pk]] := RP q Rq. exists (Num.min c (p k q i)), (maxn M k). split; first by rewrite lt_minr c0 pk.
    move=> j. rewrite ltnS leq_eqVlt => /orP[/eqP-> _|jq Rj].
      exists k. by rewrite leq_maxr le_minl lexx orbT.
    have [m [mM cm]] := H j jq Rj. exists m. by rewrite leq_max mM le_minl cm.
  by move/(_ n (leqnn n)).
pose V K j := \sum_(0 <= k < K) p k i j.
have Vmono K L : (K <= L)%N -> V K i <= V L i.
  move=> KL. rewrite /V (big_cat_nat _ (n := K) (p := L)) //= ler_addl. apply: sumr_ge0 => k _. exact: p_ge.
have one K j : (j < n)%N -> c * V K j <= V (K + M)%N i.
  move=> nj. case Rj: (R j); last first.
    have -> : V K j = 0; last by rewrite mulr0; apply: sumr_ge0 => k _; exact: p_ge.
    rewrite /V big1_seq // => k _. apply/eqP. rewrite eq_le p_ge // andbT leNgt (step_walk ST.1) //.
    apply/negP => w. move/negP: Rj. apply. apply/accP => //. by exists k.
  have [m [mM cm]] := HM j nj Rj.
  apply: (@le_trans _ _ (\sum_(0 <= k < K) p (k + m)%N i i)).
    rewrite /V mulr_sumr. apply: ler_sum => k _. rewrite p_add //.
    apply: le_trans (sum_mem (T := xpredT) (f := fun l => p k i l * p m l i) (j := j) _ nj isT).
      by rewrite mulrC; apply: ler_wpmul2l => //; exact: p_ge.
    by move=> l nl _; rewrite mulr_ge0 ?p_ge.
  apply: (@le_trans _ _ (V (K + m)%N i)); last by apply: Vmono; rewrite leq_add2l.
  rewrite /V (big_cat_nat _ (n := m) (p := (K + m)%N)) //=; last by rewrite leq_addl.
  have -> : \sum_(m <= k < K + m) p k i i = \sum_(0 <= k < K) p (k + m)%N i i.
    by rewrite -{1}[m]add0n big_addn addnK.
  rewrite ler_addr. apply: sumr_ge0 => k _. exact: p_ge.
have tot K : c * K%:R <= n%:R * V (K + M)%N i.
  have -> : c * K%:R = \sum_(0 <= j < n) c * V K j.
    rewrite -mulr_sumr. congr (_ * _). rewrite /V exchange_big /=.
    under eq_bigr => k _ do rewrite p_row //. by rewrite sumr_const_nat subn0.
  apply: (@le_trans _ _ (\sum_(0 <= j < n) V (K + M)%N i)).
    apply: sum_le => j nj _. exact: one.
  by rewrite sumr_const_nat subn0 mulr_natl.
have n0 : 0 < n%:R :> F by rewrite ltr0n; case: (n) ni.
pose K := Num.bound (n%:R * `|C| / c).
exists (K + M)%N.
have bK : n%:R * `|C| / c < K%:R by apply: archi_boundP; rewrite divr_ge0 ?mulr_ge0 ?normr_ge0 ?ler0n // ltW.
apply: le_lt_trans (ler_norm C) _.
rewrite -(ltr_pmul2l n0). apply: lt_le_trans (tot K). by rewrite [c * _]mulrC -ltr_pdivr_mulr.
Qed.
End Limits.
