(* Decay of the transient part; absorbing chains; recurrence. *)
Set Warnings "-notation-overridden,-ambiguous-paths".
From mathcomp Require Import all_ssreflect all_algebra zify.
From Verif Require Import Markov_Model Markov_Spec Markov_Proof Markov_Period Markov_Linear.
Set Implicit Arguments.
Unset Strict Implicit.
Unset Printing Implicit Defensive.
Import Order.TTheory GRing.Theory Num.Theory.
Local Open Scope ring_scope.

Section Decay.
Variable F : realFieldType.
Variable P : seq (seq F).
Hypothesis ST : stochastic P.
Notation n := (size P).
Notation e := (adjacency P).
Let NS : nonneg_square P := ST.1.
Notation p := (step_prob P).
Notation en := (entry P).
Notation T := (mem (transient_states n e)).
Notation reaches := (reaches n e).

Lemma T_lt i : i \in T -> (i < n)%N.
Proof. by case/transientP. Qed.

Lemma notT_closed i j : (i < n)%N -> i \notin T -> reaches i j -> j \notin T.
Proof.
move=> ni Ti ij. apply/negP => /transientP [nj [x [jx xj]]].
have : i \in recurrent_states n e by rewrite recurrent_not_transient ni.
case/recurrentP=> _ H. apply: xj. exact: (reaches_trans (H x (reaches_trans ij jx)) ij).
Qed.

Lemma p_zero k i j : (i < n)%N -> i \notin T -> j \in T -> p k i j = 0.
Proof.
move=> ni Ti Tj. have nj := T_lt Tj. apply/eqP. rewrite eq_le p_ge // andbT leNgt.
apply/negP => pk. have := notT_closed ni Ti (ex_intro _ k (etrans (esym (step_walk NS k ni nj)) pk)). by rewrite Tj.
Qed.

Lemma reach_rec i : (i < n)%N -> exists j, [/\ (j < n)%N, reaches i j & j \notin T].
Proof.
have H : forall m i, (i < n)%N -> (size (accessible n e i) <= m)%N -> exists j, [/\ (j < n)%N, reaches i j & j \notin T].
  elim=> [|m IH] {}i ni sz.
    have : i \in accessible n e i by apply/accP => //; exact: reaches_refl.
    by move: sz; rewrite leqn0 size_eq0 => /eqP->.
  case Ti: (i \in T); last by exists i; rewrite ni Ti; split=> //; exact: reaches_refl.
  have [_ [x [ix xi]]] := transientP _ _ _ Ti.
  have xn : (x < n)%N by case: ix => k; exact: walk_lt.
  have lt : (size (accessible n e x) < size (accessible n e i))%N.
    have [_ u _] := accessible_ok e xn.
    apply: (@uniq_leq_size _ (i :: accessible n e x)).
      rewrite /= u andbT. apply/accP => //.
    move=> y. rewrite inE => /orP[/eqP->|/accP xy]; apply/accP => //; first exact: reaches_refl.
    apply: reaches_trans ix _. exact: xy.
  have [|j [nj xj Tj]] := IH x xn; first by lia.
  exists j. split=> //. exact: reaches_trans ix xj.
move=> ni. exact: (H _ i ni (leqnn _)).
Qed.

Definition rem k i : F := \sum_(0 <= j < n | j \in T) p k i j.

Lemma rem_ge k i : (i < n)%N -> 0 <= rem k i.
Proof. move=> ni. apply: sum_ge => j nj _. exact: p_ge. Qed.

Lemma rem_le1 k i : (i < n)%N -> rem k i <= 1.
Proof.
move=> ni. rewrite -(p_row ST k ni) [leRHS](bigID T) /= ler_addl. apply: sum_ge => j nj _. exact: p_ge.
Qed.

Lemma rem_out k i : (i < n)%N -> i \notin T -> rem k i = 0.
Proof. move=> ni Ti. rewrite /rem big1_seq // => j /andP[Tj _]. exact: p_zero. Qed.

Lemma rem_add k m i : (i < n)%N -> rem (k + m) i = \sum_(0 <= l < n | l \in T) p k i l * rem m l.
Proof.
move=> ni. rewrite /rem. under sum_ext => j nj _ do rewrite p_add //.
rewrite exchange_big /= [LHS](bigID T) /= [X in _ + X]big1_seq ?addr0.
  apply: sum_ext => l nl _. by rewrite mulr_sumr.
move=> l /andP[Tl]. rewrite mem_index_iota => /andP[_ nl]. rewrite -mulr_sumr -/(rem m l) rem_out // mulr0. by [].
Qed.

Lemma rem_mono k m i : (i < n)%N -> rem (k + m) i <= rem k i.
Proof.
move=> ni. rewrite rem_add // /rem. apply: sum_le => l nl _. rewrite -[leRHS]mulr1.
by rewrite ler_wpmul2l ?p_ge ?rem_le1.
Qed.

Lemma walk_pad k i j : (i < n)%N -> j \notin T -> walk n e k i j -> rem k i < 1.
Proof.
move=> ni Tj w. have nj : (j < n)%N by exact: walk_lt w.
rewrite -(p_row ST k ni) [ltRHS](bigID T) /= ltr_addl.
apply: lt_le_trans (sum_mem (f := p k i) (T := predC T) (j := j) _ nj _) => //.
  by rewrite step_walk.
move=> l nl _. exact: p_ge.
Qed.

Lemma rem_lt1 : exists N, (0 < N)%N /\ forall i, (i < n)%N -> rem N i < 1.
Proof.
have [|N H] := @uniform_bound n (fun k i => (i < n)%N -> rem k i < 1).
  move=> i ni. have [j [nj [k w] Tj]] := reach_rec ni. exists k => m km _.
  rewrite -(subnKC km). apply: le_lt_trans (rem_mono _ _ ni) _.
  exact: walk_pad ni Tj w.
exists N.+1. split=> // i ni. exact: H.
Qed.

Lemma decay : exists N th, [/\ (0 < N)%N, 0 <= th, th < 1 & forall i, (i < n)%N -> rem N i <= th].
Proof.
have [N [N0 H]] := rem_lt1. exists N.
have [th [t0 t1 tm]] : exists th, [/\ 0 <= th, th < 1 & forall i, (i < n)%N -> rem N i <= th].
  have : forall m, (m <= n)%N -> exists th, [/\ 0 <= th, th < 1 & forall i, (i < m)%N -> rem N i <= th].
    elim=> [|m IH] mn; first by exists 0; rewrite lexx ltr01.
    have [|th [t0 t1 tm]] := IH; first by lia.
    exists (Num.max th (rem N m)). split.
    - by rewrite le_maxr t0.
    - by rewrite lt_maxl t1 H.
    - move=> i. rewrite ltnS leq_eqVlt => /orP[/eqP->|im]; first by rewrite le_maxr lexx orbT.
      by rewrite le_maxr tm.
  by move/(_ n (leqnn n)).
by exists th.
Qed.

Lemma rem_pow N th q i : (forall i, (i < n)%N -> rem N i <= th) -> 0 <= th -> (i < n)%N -> rem (q * N) i <= th ^+ q.
Proof.
move=> H t0. elim: q i => [|q IH] i ni; first by rewrite expr0 rem_le1.
rewrite mulSn rem_add // exprS. apply: (@le_trans _ _ (\sum_(0 <= l < n | l \in T) p N i l * th ^+ q)).
  apply: sum_le => l nl _. by rewrite ler_wpmul2l ?p_ge ?IH.
rewrite -mulr_suml ler_wpmul2r ?exprn_ge0 //. exact: H.
Qed.

Lemma rem_pow_le N th q K i : (forall i, (i < n)%N -> rem N i <= th) -> 0 <= th -> (i < n)%N -> (q * N <= K)%N ->
  rem K i <= th ^+ q.
Proof. move=> H t0 ni qK. rewrite -(subnKC qK). exact: le_trans (rem_mono _ _ ni) (rem_pow _ H t0 ni). Qed.

Lemma geom_le (th : F) q : 0 <= th -> th < 1 -> (1 - th) * (\sum_(0 <= m < q) th ^+ m) <= 1.
Proof.
move=> t0 t1. have E := subrX1 th q. rewrite big_mkord.
have -> : (1 - th) * (\sum_(i < q) th ^+ i) = 1 - th ^+ q by rewrite -[LHS]opprK -mulNr opprB -E opprB.
by rewrite ler_subl_addr ler_addl exprn_ge0.
Qed.

(* the expected number of visits to transient states is bounded *)
Lemma visits_bounded : exists C, forall K i, (i < n)%N -> \sum_(0 <= k < K) rem k i <= C.
Proof.
have [N [th [N0 t0 t1 H]]] := decay. exists (N%:R / (1 - th)) => K i ni.
have d0 : 0 < 1 - th by rewrite subr_gt0.
have B : forall q, \sum_(0 <= k < q * N) rem k i <= N%:R * (\sum_(0 <= m < q) th ^+ m).
  elim=> [|q IH]; first by rewrite mul0n !big_nil mulr0.
  rewrite mulSn addnC (big_cat_nat _ (n := q * N)) //=; last by rewrite leq_addr.
  rewrite [in leRHS]big_nat_recr //= mulrDr ler_add //.
  rewrite -{1}[(q * N)%N]add0n big_addn addKn.
  apply: (@le_trans _ _ (\sum_(0 <= k < N) th ^+ q)).
    apply: ler_sum => k _. apply: rem_pow_le H t0 ni _. exact: leq_addl.
  by rewrite sumr_const_nat subn0 mulr_natl.
apply: (@le_trans _ _ (\sum_(0 <= k < K * N) rem k i)).
  rewrite (big_cat_nat _ (n := K) (p := (K * N)%N)) //=; last by rewrite leq_pmulr.
  rewrite ler_addl. apply: sumr_ge0 => k _. exact: rem_ge.
apply: le_trans (B K) _. rewrite ler_wpmul2l ?ler0n //. rewrite -(ler_pmul2l d0) mulfV ?gt_eqF //. exact: geom_le.
Qed.

(* ---------------- the fundamental matrix ---------------- *)
Section Fund.
Variable t : seq nat.
Hypothesis ut : uniq t.
Hypothesis tT : forall i, (i \in t) = (i \in T).
Notation m := (size t).
Notation tn i := (nth 0%N t i).
Notation Q := (submatrix P t t).

Lemma sum_t (f : nat -> F) : \sum_(l < m) f (tn l) = \sum_(0 <= l < n | l \in T) f l.
Proof.
rewrite -(big_mkord xpredT (fun l => f (tn l))) -(big_nth 0%N xpredT f).
rewrite -[RHS]big_filter. apply: perm_big. apply: uniq_perm => //; first by rewrite filter_uniq // iota_uniq.
move=> i. rewrite mem_filter mem_index_iota tT /=. case Ti: (i \in T) => //=. by rewrite (T_lt Ti).
Qed.

Lemma t_T (i : 'I_m) : tn i \in T. Proof. by rewrite -tT mem_nth. Qed.
Lemma t_lt (i : 'I_m) : (tn i < n)%N. Proof. exact: T_lt (t_T i). Qed.

Definition Qk k : 'M[F]_m := iter k (mulmx Q) 1%:M.
Fixpoint Sk k : 'M[F]_m := if k is k'.+1 then 1%:M + Q *m Sk k' else 0.

Lemma Qk_entry k (i j : 'I_m) : Qk k i j = p k (tn i) (tn j).
Proof.
elim: k i => [|k IH] i /=; first by rewrite !mxE nth_uniq.
rewrite !mxE. under eq_bigr => l _ do rewrite mxE -/(Qk k) IH.
rewrite (sum_t (fun l => en (tn i) l * p k l (tn j))).
rewrite [RHS](bigID T) /= [X in _ + X]big1_seq ?addr0 // => l /andP[Tl]. rewrite mem_index_iota => /andP[_ nl].
by rewrite p_zero ?mulr0 ?t_T.
Qed.

Lemma Sk_sum k : Sk k = \sum_(0 <= l < k) Qk l.
Proof.
elim: k => [|k IH]; first by rewrite big_nil.
rewrite big_nat_recl //= IH mulmx_sumr. by [].
Qed.

Lemma Sk_tele k : (1%:M - Q) *m Sk k = 1%:M - Qk k.
Proof.
elim: k => [|k IH]; first by rewrite /= mulmx0 subrr.
have C : Q *m (1%:M - Q) = (1%:M - Q) *m Q by rewrite mulmxBr mulmxBl mulmx1 mul1mx.
rewrite /= mulmxDr mulmx1 mulmxA -C -mulmxA IH mulmxBr mulmx1. by rewrite addrA subrK.
Qed.

Lemma unit_IQ : 1%:M - Q \in unitmx.
Proof.
have [N [th [N0 t0 t1 H]]] := decay.
rewrite unitmxE unitfE -det_tr. apply/det0P => -[v v0 Hv].
pose x := v^T.
have Hx : Q *m x = x.
  have : (1%:M - Q) *m x = 0 by apply: trmx_inj; rewrite trmx_mul trmxK trmx0.
  rewrite mulmxBl mul1mx => /eqP. by rewrite subr_eq0 => /eqP<-.
have Hk k : Qk k *m x = x by elim: k => [|k IH]; [rewrite mul1mx|rewrite /= -mulmxA -/(Qk k) IH].
have [i0 vi0] : exists i, v ord0 i != 0 by apply/rV0Pn.
have [i _ max] := @arg_maxP _ _ _ i0 xpredT (fun i : 'I_m => `|x i ord0|) isT.
have xi : 0 < `|x i ord0|.
  apply: lt_le_trans (max i0 isT). by rewrite normr_gt0 mxE.
have : `|x i ord0| <= th * `|x i ord0|.
  rewrite -[X in `|X| <= _](congr1 (fun A : 'cV_m => A i ord0) (Hk N)) mxE.
  apply: le_trans (ler_norm_sum _ _ _) _.
  apply: (@le_trans _ _ (\sum_(l < m) p N (tn i) (tn l) * `|x i ord0|)).
    apply: ler_sum => l _. rewrite Qk_entry normrM ger0_norm ?p_ge ?t_lt //.
    apply: ler_wpmul2l; [by rewrite p_ge ?t_lt|exact: max].
  rewrite -mulr_suml ler_wpmul2r ?normr_ge0 // (sum_t (fun l => p N (tn i) l)). exact: H (t_lt i).
rewrite -subr_ge0 -[X in _ - X]mul1r -mulrBl pmulr_lge0 // subr_ge0 leNgt t1. by [].
Qed.

Notation Nm := (invmx (1%:M - Q)).

Lemma Sk_diff k : Sk k = Nm - Nm *m Qk k.
Proof.
transitivity (Nm *m ((1%:M - Q) *m Sk k)); first by rewrite mulmxA mulVmx ?unit_IQ // mul1mx.
by rewrite Sk_tele mulmxBr mulmx1.
Qed.
End Fund.
End Decay.
