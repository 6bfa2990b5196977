(* Step probabilities, stationary distributions, decay of the transient part. *)
Set Warnings "-notation-overridden,-ambiguous-paths".
From mathcomp Require Import all_ssreflect all_algebra zify.
From Verif Require Import Markov_Model Markov_Spec Markov_Proof Markov_Period.
Set Implicit Arguments.
Unset Strict Implicit.
Unset Printing Implicit Defensive.
Import Order.TTheory GRing.Theory Num.Theory.
Local Open Scope ring_scope.

Section Linear.
Variable F : realFieldType.
Variable P : seq (seq F).
Hypothesis ST : stochastic P.
Let n := size P.
Let e := adjacency P.
Let NS : nonneg_square P := ST.1.
Notation p := (step_prob P).
Notation en := (entry P).

Lemma in_iota i : i \in index_iota 0 n -> (i < n)%N.
Proof. by rewrite mem_index_iota. Qed.

Lemma sum_ext (f g : nat -> F) (T : pred nat) : (forall i, (i < n)%N -> T i -> f i = g i) ->
  \sum_(0 <= i < n | T i) f i = \sum_(0 <= i < n | T i) g i.
Proof. move=> H. rewrite big_seq_cond [RHS]big_seq_cond. apply: eq_bigr => i /andP[/in_iota ni Ti]. exact: H. Qed.

Lemma sum_le (f g : nat -> F) (T : pred nat) : (forall i, (i < n)%N -> T i -> f i <= g i) ->
  \sum_(0 <= i < n | T i) f i <= \sum_(0 <= i < n | T i) g i.
Proof. move=> H. rewrite big_seq_cond [leRHS]big_seq_cond. apply: ler_sum => i /andP[/in_iota ni Ti]. exact: H. Qed.

Lemma sum_ge (f : nat -> F) (T : pred nat) : (forall i, (i < n)%N -> T i -> 0 <= f i) ->
  0 <= \sum_(0 <= i < n | T i) f i.
Proof. move=> H. rewrite big_seq_cond. apply: sumr_ge0 => i /andP[/in_iota ni Ti]. exact: H. Qed.

Lemma sum_mem (f : nat -> F) (T : pred nat) j : (forall i, (i < n)%N -> T i -> 0 <= f i) -> (j < n)%N -> T j ->
  f j <= \sum_(0 <= i < n | T i) f i.
Proof.
move=> H nj Tj. rewrite big_mkcond /= (bigD1_seq j) ?mem_index_iota ?iota_uniq //= Tj. rewrite ler_addl.
rewrite big_seq_cond. apply: sumr_ge0 => i /andP[/in_iota ni _]. case: ifP => // Ti. exact: H.
Qed.

Lemma sum_delta (f : nat -> F) j : (j < n)%N -> \sum_(0 <= i < n) (j == i)%:R * f i = f j.
Proof.
move=> nj. rewrite (bigD1_seq j) ?mem_index_iota ?iota_uniq //= eqxx mul1r big1 ?addr0 //.
by move=> i ne; rewrite eq_sym (negbTE ne) mul0r.
Qed.

Lemma p_ge k i j : (i < n)%N -> (j < n)%N -> 0 <= p k i j.
Proof. exact: step_ge. Qed.
Lemma en_ge i j : (i < n)%N -> (j < n)%N -> 0 <= en i j.
Proof. exact: NS.2. Qed.

Lemma p_row k i : (i < n)%N -> \sum_(0 <= j < n) p k i j = 1.
Proof.
elim: k i => [|k IH] i ni.
  rewrite -(sum_delta (fun _ => 1) ni). apply: sum_ext => j _ _ /=. by rewrite mulr1.
rewrite /= exchange_big /=. rewrite -(ST.2 i ni). apply: sum_ext => l nl _. by rewrite -mulr_sumr IH ?mulr1.
Qed.

Lemma p_1 i j : (j < n)%N -> p 1 i j = en i j.
Proof.
move=> nj /=. rewrite -(sum_delta (en i) nj). apply: sum_ext => l nl _. by rewrite mulrC eq_sym.
Qed.

Lemma p_add k m i j : (i < n)%N -> p (k + m) i j = \sum_(0 <= l < n) p k i l * p m l j.
Proof.
elim: k i => [|k IH] i ni; first by rewrite add0n sum_delta.
rewrite addSn /=. under sum_ext => l nl _ do rewrite IH // mulr_sumr.
rewrite exchange_big /=. apply: sum_ext => l nl _. rewrite mulr_suml. apply: sum_ext => q nq _. by rewrite mulrA.
Qed.

(* ---------------- stationary vectors ---------------- *)
Definition stat (w : nat -> F) := forall j, (j < n)%N -> \sum_(0 <= i < n) w i * en i j = w j.

Lemma sum_stat w : \sum_(0 <= j < n) \sum_(0 <= i < n) w i * en i j = \sum_(0 <= i < n) w i.
Proof. rewrite exchange_big /=. apply: sum_ext => i ni _. by rewrite -mulr_sumr ST.2 ?mulr1. Qed.

Lemma stat_abs w : stat w -> stat (fun i => `|w i|).
Proof.
move=> H.
have le j : (j < n)%N -> `|w j| <= \sum_(0 <= i < n) `|w i| * en i j.
  move=> nj. rewrite -[X in `|X|](H j nj). apply: le_trans (ler_norm_sum _ _ _) _. apply: sum_le => i ni _.
  by rewrite normrM (ger0_norm (en_ge ni nj)).
have S0 : \sum_(0 <= j < n) (\sum_(0 <= i < n) `|w i| * en i j - `|w j|) = 0.
  by rewrite sumrB sum_stat subrr.
move=> j nj. apply/eqP. rewrite -subr_eq0. apply/eqP.
apply/le_anti/andP. split; last by rewrite subr_ge0 le.
rewrite -[leRHS]S0. apply: (sum_mem (f := fun j => \sum_(0 <= i < n) `|w i| * en i j - `|w j|)) => // i ni _.
by rewrite subr_ge0 le.
Qed.

Lemma stat_lin a w b v : stat w -> stat v -> stat (fun i => a * w i + b * v i).
Proof.
move=> Hw Hv j nj. rewrite -(Hw j nj) -(Hv j nj) !mulr_sumr -big_split /=. apply: sum_ext => i ni _.
by rewrite mulrDl !mulrA.
Qed.

Lemma stat_step w k j : stat w -> (j < n)%N -> \sum_(0 <= i < n) w i * p k i j = w j.
Proof.
move=> H nj. elim: k => [|k IH].
  rewrite -[RHS](sum_delta w nj). apply: sum_ext => i ni _ /=. by rewrite mulrC eq_sym.
rewrite -IH /=. under sum_ext => i ni _ do rewrite mulr_sumr.
rewrite exchange_big /=. apply: sum_ext => l nl _. rewrite -(H l nl) mulr_suml. apply: sum_ext => i ni _. by rewrite mulrA.
Qed.

Section Irr.
Hypothesis irr : is_irreducible n e.
Let n0 : (0 < n)%N. Proof. by case/irreducibleP: irr. Qed.
Lemma irr_pos i j : (i < n)%N -> (j < n)%N -> exists k, 0 < p k i j.
Proof. move=> ni nj. case/irreducibleP: irr => _ /(_ i j ni nj) [k w]. exists k. by rewrite step_walk. Qed.

Lemma stat_pos w i : stat w -> (forall j, (j < n)%N -> 0 <= w j) -> (i < n)%N -> w i != 0 ->
  forall j, (j < n)%N -> 0 < w j.
Proof.
move=> H w0 ni wi j nj. have [k pk] := irr_pos ni nj. rewrite -(stat_step k H nj).
apply: lt_le_trans (sum_mem (f := fun i => w i * p k i j) (j := i) _ ni _) => //.
  by rewrite mulr_gt0 // lt0r wi w0.
move=> l nl _. by rewrite mulr_ge0 ?w0 ?p_ge.
Qed.

Lemma stat_zero w : stat w -> \sum_(0 <= i < n) w i = 0 -> forall i, (i < n)%N -> w i = 0.
Proof.
move=> H S0 i ni.
have A := stat_abs H.
have pos s : s ^+ 2 = 1 -> \sum_(0 <= i < n) s * w i = 0 -> forall i, (i < n)%N -> s * w i <= 0.
  move=> s2 Ss j nj. rewrite leNgt. apply/negP => sj.
  have norm_s : `|s| = 1.
    have : `|s| ^+ 2 = 1 by rewrite real_normK ?num_real.
    move/eqP. rewrite sqrf_eq1 => /orP[/eqP//|/eqP E]. have := normr_ge0 s. by rewrite E oppr_ge0 ler10.
  have B := stat_lin 1 s A H.
  have B0 l : (l < n)%N -> 0 <= 1 * `|w l| + s * w l.
    move=> nl. rewrite mul1r. have -> : `|w l| = `|s * w l|.
      rewrite normrM. have -> : `|s| = 1; last by rewrite mul1r.
      exact: norm_s.
    have := ler_norm (- (s * w l)). by rewrite normrN -ler_subl_addr sub0r.
  have Bj : 1 * `|w j| + s * w j != 0.
    rewrite mul1r gt_eqF //. by rewrite ltr_paddl ?normr_ge0.
  have C := stat_pos B B0 nj Bj.
  have : 0 < \sum_(0 <= i < n) s * w i; last by rewrite Ss ltxx.
  have D l : (l < n)%N -> 0 < s * w l.
    move=> nl. have := C l nl. rewrite mul1r. case: (lerP (s * w l) 0) => // sl.
    have -> : `|w l| = - (s * w l).
      rewrite -ler0_norm // normrM. have -> : `|s| = 1; last by rewrite mul1r.
      exact: norm_s.
    by rewrite addNr ltxx.
  apply: lt_le_trans (D 0%N n0) _. apply: (sum_mem (f := fun i => s * w i)) => // l nl _. exact/ltW/D.
apply/le_anti/andP. split.
  have := pos 1 _ _ i ni. rewrite mul1r. apply; first by rewrite expr1n. under eq_bigr do rewrite mul1r. exact: S0.
rewrite -oppr_le0 -mulN1r. apply: pos => //; first by rewrite sqrrN expr1n.
by rewrite -mulr_sumr S0 mulr0.
Qed.

Lemma stat_exists : exists w, [/\ stat w, \sum_(0 <= i < n) w i = 1 & forall i, (i < n)%N -> 0 < w i].
Proof.
pose M : 'M[F]_n := \matrix_(i, j) (en i j - (i == j)%:R).
have dM : \det M == 0.
  rewrite -det_tr. apply/det0P. exists (const_mx 1).
    apply/eqP => /matrixP/(_ ord0 (Ordinal n0)). rewrite !mxE. by apply/eqP; rewrite oner_eq0.
  apply/matrixP => i j. rewrite !mxE. under eq_bigr => l _ do rewrite !mxE mul1r.
  rewrite sumrB. rewrite -(big_mkord xpredT (fun l => en j l)) ST.2 ?ltn_ord //.
  rewrite (bigD1 j) //= eqxx big1 ?addr0 ?subrr // => l ne. by rewrite eq_sym (negbTE ne).
case/det0P: dM => v v0 vM.
pose w i := if insub i is Some o then v ord0 o else 0 : F.
have wE (o : 'I_n) : w o = v ord0 o by rewrite /w valK.
have Hw : stat w.
  move=> j nj. have /matrixP/(_ ord0 (Ordinal nj)) := vM. rewrite !mxE.
  under eq_bigr => l _ do rewrite !mxE mulrBr -wE. rewrite sumrB => /eqP. rewrite subr_eq0 => /eqP E.
  rewrite big_mkord E. rewrite (bigD1 (Ordinal nj)) //= eqxx mulr1 big1 ?addr0 // => l ne.
  by rewrite (negbTE ne) mulr0.
have [i wi] : exists o : 'I_n, v ord0 o != 0 by apply/rV0Pn.
have A := stat_abs Hw.
have Ap : forall j, (j < n)%N -> 0 < `|w j|.
  apply: (stat_pos A (i := i)).
  - by move=> j _; exact: normr_ge0.
  - exact: ltn_ord.
  - by rewrite normr_eq0 wE.
pose S := \sum_(0 <= i < n) `|w i|.
have S0 : 0 < S.
  apply: lt_le_trans (Ap 0%N n0) _.
  exact: (@sum_mem (fun i => `|w i|) xpredT 0%N (fun l _ _ => normr_ge0 _) n0 isT).
exists (fun i => S^-1 * `|w i| + 0 * 0). split.
- have : stat (fun i => S^-1 * `|w i| + 0 * `|w i|) by exact: stat_lin.
  move=> H j nj. have := H j nj. rewrite mul0r mulr0 => <-. apply: sum_ext => l nl _. by rewrite mul0r.
- rewrite mulr0. under eq_bigr do rewrite addr0. by rewrite -mulr_sumr mulVf // gt_eqF.
- move=> l nl. by rewrite mulr0 addr0 mulr_gt0 ?invr_gt0 ?Ap.
Qed.
End Irr.
End Linear.
