(* C57, C58, C72-C75: Markov chains.

   F is any ordered field; [accepts tol P] is the constructor's check with the
   tolerance of np.allclose; [stochastic P] is the same with exact row sums.
   [step_prob P k i j] is the probability of going from i to j in k steps. *)
Set Warnings "-notation-overridden,-ambiguous-paths".
From mathcomp Require Import all_ssreflect all_algebra zify.
From Verif Require Import Markov_Model Markov_Spec Markov_Proof Markov_Period Markov_Wielandt Markov_Prim
  Markov_Linear Markov_Absorb Markov_Limit Markov_Sim.
Set Implicit Arguments.
Unset Strict Implicit.
Unset Printing Implicit Defensive.
Import Order.TTheory GRing.Theory Num.Theory.
Local Open Scope ring_scope.

Lemma accepts_nonneg (F : realFieldType) (tol : F) P : accepts tol P -> nonneg_square P.
Proof.
case/and3P=> /allP s /allP g _. split=> [i ni|i j ni nj]; first exact/eqP/s/mem_nth.
have si : size (nth [::] P i) = size P by apply/eqP/s/mem_nth.
by have /allP := g _ (mem_nth [::] ni); apply; apply: mem_nth; rewrite si.
Qed.

Lemma row_sum (F : realFieldType) (P : seq (seq F)) i : (forall i, (i < size P)%N -> size (nth [::] P i) = size P) ->
  (i < size P)%N -> \sum_(x <- nth [::] P i) x = \sum_(0 <= j < size P) entry P i j.
Proof. move=> s ni. by rewrite (big_nth 0) s. Qed.

(* the constructor with exact sums accepts exactly the stochastic matrices *)
Theorem C57_accepts (F : realFieldType) (P : seq (seq F)) : accepts 0 P <-> stochastic P.
Proof.
split=> [A|[[s g] H]].
  have [s g] := accepts_nonneg A. split=> // i ni. rewrite -row_sum //.
  case/and3P: A => _ _ /allP/(_ _ (mem_nth [::] ni)). by rewrite normr_le0 subr_eq0 => /eqP.
have I (row : seq F) : row \in P -> exists i, (i < size P)%N /\ row = nth [::] P i.
  by move=> rP; exists (index row P); rewrite index_mem rP nth_index.
apply/and3P; split; apply/allP => row /I [i [ni ->]].
- by rewrite s.
- apply/(all_nthP 0) => j. rewrite s // => nj. exact: g.
- by rewrite row_sum // H // subrr normr0.
Qed.

(* ------------------------------------------------------------------ *)
Section C57.
Variables (F : realFieldType) (tol : F) (P : seq (seq F)).
Hypothesis ok : accepts tol P.
Notation n := (size P).
Notation e := (adjacency P).
Let NS := accepts_nonneg ok.

Let R i j : (i < n)%N -> (j < n)%N -> leads_to P i j <-> reaches n e i j.
Proof. move=> ni nj. exact: leads_reaches. Qed.

(* accessible_states_from *)
Theorem C57_accessible i : (i < n)%N ->
  uniq (accessible n e i) /\
  forall j, j \in accessible n e i <-> (j < n)%N /\ leads_to P i j.
Proof.
move=> ni. have [_ u H] := accessible_ok e ni. split=> // j. split=> [ja|[nj /(R ni nj)]]; last by move/H.
have nj := acc_lt ni ja. split=> //. by apply/R => //; apply/H.
Qed.

(* communicating_classes: a partition into the classes of mutual accessibility *)
Theorem C57_classes :
  (forall i, (i < n)%N -> count (fun c : seq nat => i \in c) (communicating_classes n e) = 1%N) /\
  (forall c, c \in communicating_classes n e -> exists i, (i < n)%N /\ i \in c) /\
  (forall c i j, c \in communicating_classes n e -> i \in c ->
     (j \in c <-> (j < n)%N /\ leads_to P i j /\ leads_to P j i)).
Proof.
split; [|split].
- move=> i ni. by rewrite -size_filter classes_find.
- move=> c /classes_mem [i [ni ->]]. exists i. by rewrite mem_class ni mutual_refl.
- move=> c i j /classes_mem [k [nk ->]]. rewrite mem_class => /andP[ni ki].
  rewrite (class_eq nk ni ki) mem_class. split=> [/andP[nj /andP[/accP ij /accP ji]]|[nj [/(R ni nj) ij /(R nj ni) ji]]].
    by split=> //; split; apply/R => //; [exact: ij|exact: ji].
  rewrite nj /=. by apply/andP; split; apply/accP.
Qed.

Theorem C57_irreducible :
  is_irreducible n e <-> (0 < n)%N /\ forall i j, (i < n)%N -> (j < n)%N -> leads_to P i j.
Proof.
split=> [/irreducibleP[n0 H]|[n0 H]].
  split=> // i j ni nj. apply/R => //. exact: H.
apply/irreducibleP. split=> // i j ni nj. apply/R => //. exact: H.
Qed.

(* transient_states and recurrent_states *)
Theorem C57_transient i :
  (i \in transient_states n e <->
     (i < n)%N /\ exists j, (j < n)%N /\ leads_to P i j /\ ~ leads_to P j i) /\
  (i \in recurrent_states n e <->
     (i < n)%N /\ forall j, (j < n)%N -> leads_to P i j -> leads_to P j i).
Proof.
split; split.
- case/transientP=> ni [j [ij ji]]. have nj : (j < n)%N by case: ij => k; exact: walk_lt.
  split=> //. exists j. split=> //. split; first by apply/R. by move/(R nj ni).
- move=> [ni [j [nj [/(R ni nj) ij ji]]]]. apply/transientP. split=> //. exists j. split=> //. by move/(R nj ni).
- case/recurrentP=> ni H. split=> // j nj /(R ni nj) ij. apply/R => //. exact: H.
- move=> [ni H]. apply/recurrentP. split=> // j ij. have nj : (j < n)%N by case: ij => k; exact: walk_lt.
  apply/(R nj ni)/H => //. exact/R.
Qed.

(* ---------------------------------------------------------------- *)
(* C58: period(i) is the greatest common divisor of the lengths of the closed
   walks through i (0 when there is none but the empty one) *)
Theorem C58_period i : (i < n)%N -> exists d, period n e i = Some d /\
  forall g, (g %| d)%N <-> forall k, 0 < step_prob P k i i -> (g %| k)%N.
Proof.
move=> ni. have [d [E [H1 H2]]] := period_spec e ni. exists d. split=> // g. split=> [gd k|H].
  rewrite step_walk //. exact: H1.
apply/negPn/negP => /H2 [k [w]]. apply/negP. rewrite negbK. apply: H. by rewrite step_walk.
Qed.

(* communicating states have the same period *)
Theorem C58_class i j : (i < n)%N -> (j < n)%N -> leads_to P i j -> leads_to P j i ->
  period n e i = period n e j.
Proof.
move=> ni nj /(R ni nj) [a wa] /(R nj ni) [b wb].
have half x y c d : (x < n)%N -> (y < n)%N -> walk n e c x y -> walk n e d y x ->
   forall p q, period n e x = Some p -> period n e y = Some q -> (p %| q)%N.
  move=> nx ny w1 w2 p q. have [p' [-> [H1 _]]] := period_spec e nx. have [q' [-> [_ H2]]] := period_spec e ny.
  move=> [<-] [<-]. apply/negPn/negP => /H2 [k [w]]. apply/negP. rewrite negbK.
  have h1 := H1 p' (dvdnn _) _ (walk_cat w1 w2).
  have h2 := H1 p' (dvdnn _) _ (walk_cat w1 (walk_cat w w2)).
  rewrite addnCA in h2. by rewrite -(dvdn_addl k h1).
have [d [Ei _]] := period_spec e ni. have [d' [Ej _]] := period_spec e nj. rewrite Ei Ej. congr Some.
apply/eqP. rewrite eqn_dvd (half i j a b ni nj wa wb d d') //=. exact: (half j i b a nj ni wb wa).
Qed.

(* ---------------------------------------------------------------- *)
(* C72: is_regular and index_of_primitivity *)
Definition positive_power k := forall i j, (i < n)%N -> (j < n)%N -> 0 < step_prob P k i j.

Let PW k : positive_power k <-> all_walks n e k.
Proof.
by split=> H i j ni nj; have := H i j ni nj; rewrite step_walk.
Qed.

Theorem C72_regular : (0 < n)%N ->
  (is_regular n e <-> exists k, (0 < k)%N /\ positive_power k).
Proof.
move=> n0. split=> [/regular_primitive[N H]|[k [k0 /PW A]]]; last exact: primitive_regular A.
exists N.+1. split=> //. apply/PW/H. exact: leqnSn.
Qed.

(* the smallest positive power with positive entries, whenever there is one *)
Theorem C72_index : (0 < n)%N ->
  match index_of_primitivity n e with
  | Some k => (0 < k)%N /\ positive_power k /\ forall m, (0 < m)%N -> positive_power m -> (k <= m)%N
  | None => ~ is_regular n e
  end.
Proof.
move=> n0. have := primitivity_spec e n0. case: (index_of_primitivity n e) => [k [k0 A H]|H].
  split=> //. split; first exact/PW. move=> m m0 /PW Am. rewrite leqNgt. apply/negP => mk. exact: H Am.
move/(C72_regular n0) => [k [k0 /PW]]. exact: H.
Qed.

(* Wielandt's bound: the search limit (n-1)^2+1 of the code loses nothing *)
Theorem C72_wielandt k : (0 < n)%N -> (0 < k)%N -> positive_power k -> positive_power ((n - 1) ^ 2 + 1)%N.
Proof. move=> n0 k0 /PW A. apply/PW. exact: wielandt A. Qed.
End C57.

(* absorbing states: for exact row sums, the states that lead only to themselves *)
Theorem C57_absorbing (F : realFieldType) (P : seq (seq F)) : stochastic P ->
  (forall i, i \in absorbing_states P <->
     (i < size P)%N /\ forall j, (j < size P)%N -> leads_to P i j -> j = i) /\
  (is_absorbing P <-> (0 < size P)%N /\
     forall i, (i < size P)%N -> exists a, a \in absorbing_states P /\ leads_to P i a).
Proof.
move=> ST. split.
  move=> i. split=> [ia|[ni H]].
    have ni : (i < size P)%N by move: ia; rewrite absorbingE => /andP[].
    split=> // j nj [k]. rewrite abs_p //. case: eqP => [//|]; by rewrite ltxx.
  rewrite absorbingE ni /=. have := ST.2 i ni.
  rewrite (bigD1_seq i) ?mem_index_iota ?iota_uniq //= big1_seq ?addr0; first by move=> ->.
  move=> j /andP[ji]. rewrite mem_index_iota => /andP[_ nj]. apply/eqP. rewrite eq_le (en_ge ST ni nj) andbT leNgt.
  apply/negP => pj. case/eqP: ji. apply: H => //. exists 1%N. by rewrite p_1.
split=> [A|[n0 H]].
  split.
    move: A. rewrite /is_absorbing. case E: (absorbing_states P) => [//|a l] _.
    have : a \in absorbing_states P by rewrite E inE eqxx. rewrite absorbingE => /andP[]. by case: (size P).
  move=> i ni. have [a [aa r]] := ab_reach A ni. exists a. split=> //.
  have na : (a < size P)%N by move: aa; rewrite absorbingE => /andP[].
  apply/leads_reaches => //. exact: ST.1.
rewrite /is_absorbing. have [a0 [aa0 _]] := H 0%N n0.
case E: (absorbing_states P) aa0 => [//|b l] _. apply/allP => i. rewrite mem_filter mem_iota add0n => /andP[_ /andP[_ ni]].
have [a [aa l']] := H i ni. have na : (a < size P)%N by move: aa; rewrite absorbingE => /andP[].
apply/hasP. exists a; first by rewrite -E. apply/accP => //. apply/(leads_reaches ST.1) => //.
Qed.

(* With the tolerance of np.allclose this fails: an accepted chain can have an
   "absorbing" state that leads to another state. *)
Theorem C57_absorbing_tolerance_refuted (F : realFieldType) (tol : F) : 0 < tol ->
  exists P i j, [/\ accepts tol P, (j < size P)%N, i \in absorbing_states P, leads_to P i j & j <> i].
Proof.
move=> t0. exists [:: [:: 1; tol]; [:: 0; 1]], 0%N, 1%N. split=> //.
- rewrite /accepts /= !big_cons big_nil !ler01 (ltW t0) lexx /= !addr0 add0r.
  by rewrite addrAC subrr add0r normr0 (ltW t0) ger0_norm ?lexx ?(ltW t0).
- by rewrite absorbingE /= /entry /= eqxx.
- exists 1%N => /=. rewrite /index_iota /= !big_cons big_nil /entry /=. by rewrite mulr0 mulr1 add0r addr0.
Qed.

(* Over an Archimedean field: a state is transient exactly when the expected
   number of visits to it is finite, recurrent exactly when it is infinite. *)
Theorem C57_recurrence (F : archiFieldType) (P : seq (seq F)) i : stochastic P -> (i < size P)%N ->
  let visits K := \sum_(0 <= k < K) step_prob P k i i in
  (i \in transient_states (size P) (adjacency P) <-> exists C, forall K, visits K <= C) /\
  (i \in recurrent_states (size P) (adjacency P) <-> forall C, exists K, C < visits K).
Proof.
move=> ST ni /=.
have A : i \in transient_states (size P) (adjacency P) -> exists C, forall K, \sum_(0 <= k < K) step_prob P k i i <= C.
  move=> Ti. have [C H] := visits_bounded ST. exists C => K. apply: le_trans (H K i ni).
  apply: ler_sum => k _. apply: (sum_mem (T := mem (transient_states (size P) (adjacency P)))) => //.
  by move=> j nj _; exact: p_ge.
have B := @recurrent_visits F P ST i.
split; split=> //.
- move=> [C H]. apply/negPn/negP => nT.
  have [|K lt] := B _ C; first by rewrite recurrent_not_transient ni.
  by have := le_lt_trans (H K) lt; rewrite ltxx.
- move=> H. rewrite recurrent_not_transient ni /=. apply/negP => /A [C HC]. have [K lt] := H C.
  by have := le_lt_trans (HC K) lt; rewrite ltxx.
Qed.

(* ------------------------------------------------------------------ *)
(* C73: stationary_distribution *)
Definition is_stationary (F : realFieldType) (P : seq (seq F)) (pi : 'cV[F]_(size P)) : Prop :=
  [/\ forall i, 0 <= pi i ord0, \sum_i pi i ord0 = 1 &
      forall j : 'I_(size P), \sum_i pi i ord0 * entry P i j = pi j ord0].

Lemma lstsq_zero (F : realFieldType) (P : seq (seq F)) (x : 'cV[F]_(size P)) :
  residual (lstsq_matrix P) (lstsq_rhs P) x = 0 <->
  \sum_i x i ord0 = 1 /\ forall j : 'I_(size P), \sum_i x i ord0 * entry P i j = x j ord0.
Proof.
have top (j : 'I_(size P)) : (lstsq_matrix P *m x - lstsq_rhs P) (lshift 1 j) ord0 = \sum_i x i ord0 * entry P i j - x j ord0.
  rewrite /lstsq_matrix /lstsq_rhs mul_col_mx mxE [X in _ + X]mxE !col_mxEu [X in _ - X]mxE subr0 mxE.
  under eq_bigr => i _ do rewrite mxE mulrBl [entry _ _ _ * _]mulrC. rewrite sumrB. congr (_ - _).
  rewrite (bigD1 j) //= eqxx mul1r big1 ?addr0 // => i ne. by rewrite (negbTE ne) mul0r.
have bot (z : 'I_1) : (lstsq_matrix P *m x - lstsq_rhs P) (rshift (size P) z) ord0 = \sum_i x i ord0 - 1.
  rewrite /lstsq_matrix /lstsq_rhs mul_col_mx mxE [X in _ + X]mxE !col_mxEd [X in _ - X]mxE mxE.
  by under eq_bigr => i _ do rewrite mxE mul1r.
rewrite /residual big_split_ord /= big_ord1 bot. under eq_bigr => j _ do rewrite top.
split=> [/eqP|[S H]].
  rewrite paddr_eq0 ?sqr_ge0 ?sumr_ge0 // => [|i _]; last exact: sqr_ge0.
  rewrite sqrf_eq0 subr_eq0 => /andP[/eqP A /eqP->]. split=> // j.
  have G (i : 'I_(size P)) : true -> 0 <= (\sum_l x l ord0 * entry P l i - x i ord0) ^+ 2 by rewrite sqr_ge0.
  have := psumr_eq0P G A (i := j) isT. move/eqP. by rewrite sqrf_eq0 subr_eq0 => /eqP.
rewrite S subrr expr0n addr0 big1 // => j _. by rewrite H subrr expr0n.
Qed.

Section C73.
Variables (F : realFieldType) (P : seq (seq F)).
Hypothesis ST : stochastic P.

Lemma stat_lift (pi : 'cV[F]_(size P)) : (forall j : 'I_(size P), \sum_i pi i ord0 * entry P i j = pi j ord0) ->
  exists w, [/\ stat P w, forall o : 'I_(size P), w o = pi o ord0 & \sum_(0 <= i < size P) w i = \sum_i pi i ord0].
Proof.
move=> H. pose w i := if insub i is Some o then pi o ord0 else 0 : F.
have wE (o : 'I_(size P)) : w o = pi o ord0 by rewrite /w valK.
exists w. split=> //.
  move=> j nj. have := H (Ordinal nj). rewrite -wE => <-. rewrite big_mkord. apply: eq_bigr => i _. by rewrite wE.
rewrite big_mkord. apply: eq_bigr => i _. by rewrite wE.
Qed.

(* Whatever least-squares solution numpy returns is the stationary
   distribution, and a solution exists; it is unique and positive. *)
Theorem C73_stationary : is_irreducible (size P) (adjacency P) ->
  (exists pi, @stationary_distribution F P pi) /\
  (forall pi, @stationary_distribution F P pi -> is_stationary pi /\ forall i, 0 < pi i ord0) /\
  (forall pi pi', @stationary_distribution F P pi -> is_stationary pi' -> pi = pi').
Proof.
move=> irr. have [w [Sw Tw Pw]] := stat_exists ST irr.
pose pi0 : 'cV[F]_(size P) := \col_i w i.
have z0 : residual (lstsq_matrix P) (lstsq_rhs P) pi0 = 0.
  apply/lstsq_zero. split.
    rewrite -Tw big_mkord. apply: eq_bigr => i _. by rewrite mxE.
  move=> j. rewrite mxE -(Sw j (ltn_ord j)) big_mkord. apply: eq_bigr => i _. by rewrite mxE.
have ge0 x : 0 <= residual (lstsq_matrix P) (lstsq_rhs P) x.
  by apply: sumr_ge0 => i _; exact: sqr_ge0.
have U x : residual (lstsq_matrix P) (lstsq_rhs P) x = 0 -> x = pi0.
  move/lstsq_zero=> [Sx Hx]. have [v [Sv Ev Tv]] := stat_lift Hx.
  have D := stat_lin 1 (-1) Sv Sw.
  have D0 : \sum_(0 <= i < size P) (1 * v i + -1 * w i) = 0.
    rewrite big_split /= -!mulr_sumr Tv Sx Tw. by rewrite mul1r mulN1r subrr.
  apply/matrixP => i z. rewrite (ord1 z) mxE -Ev.
  have := stat_zero ST irr D D0 (ltn_ord i). rewrite mul1r mulN1r => /eqP. by rewrite subr_eq0 => /eqP.
have M pi : @stationary_distribution F P pi -> residual (lstsq_matrix P) (lstsq_rhs P) pi = 0.
  move=> [_ H]. apply/le_anti. rewrite ge0 andbT -z0. exact: H.
split; first by exists pi0; split=> // x; rewrite z0.
split=> [pi /M z|pi pi' /M z [_ S H]].
  have E := U pi z. have [S H] := (lstsq_zero pi).1 z.
  have pos i : 0 < pi i ord0 by rewrite E mxE; exact: Pw.
  split=> //. split=> // i. exact: ltW.
rewrite (U pi z). apply/esym/U. apply/lstsq_zero. by split.
Qed.

(* for chains that are not irreducible the method refuses *)
Theorem C73_refuses pi : @stationary_distribution F P pi -> is_irreducible (size P) (adjacency P).
Proof. by case. Qed.
End C73.

(* ------------------------------------------------------------------ *)
(* C74: absorbing chains.  [t] and [a] are any enumerations of the transient and
   absorbing states. *)
Section C74.
Variables (F : archiFieldType) (P : seq (seq F)) (t a : seq nat).
Hypothesis ST : stochastic P.
Hypothesis AB : is_absorbing P.
Hypothesis Ht : perm_eq t (transient_states (size P) (adjacency P)).
Hypothesis Ha : perm_eq a (absorbing_states P).

Let ut : uniq t. Proof. by rewrite (perm_uniq Ht) filter_uniq // iota_uniq. Qed.
Let tT i : (i \in t) = (i \in transient_states (size P) (adjacency P)). Proof. exact: perm_mem. Qed.
Let ua : uniq a. Proof. by rewrite (perm_uniq Ha) filter_uniq // iota_uniq. Qed.
Let aA i : (i \in a) = (i \in absorbing_states P). Proof. exact: perm_mem. Qed.

(* every state is transient or absorbing, not both *)
Theorem C74_states i : (i < size P)%N -> (i \in t) = (i \notin a).
Proof. move=> ni. by rewrite tT aA (ab_T ST AB ni). Qed.

(* mean_number_of_visits: the matrix is never singular and entry (i, j) is the
   expected number of visits: sum over k of the probability of being in j after
   k steps *)
Theorem C74_visits : exists N, mean_number_of_visits P t = Some N /\
  forall i j : 'I_(size t), converges (fun K => \sum_(0 <= k < K) step_prob P k (nth 0%N t i) (nth 0%N t j)) (N i j).
Proof.
rewrite /mean_number_of_visits AB (unit_IQ ST ut tT). eexists. split; first reflexivity.
move=> i j eps e0. have [K H] := Sk_conv ST ut tT 1%:M i j e0. exists K => k kK. have := H k kK.
rewrite !mulmx1 Sk_sum summxE. by under eq_bigr => l _ do rewrite (Qk_entry ST ut tT).
Qed.

(* mean_time_to_absorption: the expected number of steps spent outside the
   absorbing states, i.e. the sum over k of the probability that absorption has
   not happened after k steps *)
Theorem C74_time : exists T, mean_time_to_absorption P t = Some T /\
  forall i : 'I_(size t), converges (fun K => \sum_(0 <= k < K) \sum_(j <- t) step_prob P k (nth 0%N t i) j) (T i ord0).
Proof.
rewrite /mean_time_to_absorption /mean_number_of_visits AB (unit_IQ ST ut tT) /=. eexists. split; first reflexivity.
move=> i eps e0. rewrite mxE.
have [K H] := Sk_conv ST ut tT (const_mx 1 : 'cV_(size t)) i ord0 e0. exists K => k kK. have := H k kK.
have -> : (invmx (1%:M - submatrix P t t) *m (const_mx 1 : 'cV_(size t))) i ord0 = \sum_j invmx (1%:M - submatrix P t t) i j.
  rewrite [LHS]mxE. apply: eq_bigr => j _. by rewrite [const_mx _ _ _]mxE mulr1.
have -> : (Sk P t k *m (const_mx 1 : 'cV_(size t))) i ord0 = \sum_(0 <= l < k) \sum_(j <- t) step_prob P l (nth 0%N t i) j; last by [].
rewrite mxE Sk_sum. under [in RHS]eq_bigr => l _ do rewrite (big_nth 0%N) big_mkord.
rewrite [RHS]exchange_big /=. apply: eq_bigr => j _. rewrite [const_mx _ _ _]mxE mulr1 summxE. apply: eq_bigr => l _.
by rewrite (Qk_entry ST ut tT).
Qed.

(* absorption_probabilities: the limit of the probability of being in the
   absorbing state; every row sums to one *)
Theorem C74_absorption : exists B, absorption_probabilities P t a = Some B /\
  (forall (i : 'I_(size t)) (j : 'I_(size a)), converges (fun k => step_prob P k (nth 0%N t i) (nth 0%N a j)) (B i j)) /\
  (forall i, \sum_j B i j = 1).
Proof.
rewrite /absorption_probabilities /mean_number_of_visits AB (unit_IQ ST ut tT) /=. eexists. split; first reflexivity.
split=> [i j eps e0|i]; last exact: NmR_row.
have [K H] := Sk_conv ST ut tT (submatrix P t a) i j e0. exists K => k kK. have := H k kK. by rewrite SkR.
Qed.
End C74.

(* without the absorbing property the methods refuse *)
Theorem C74_refuses (F : realFieldType) (P : seq (seq F)) t a : ~~ is_absorbing P ->
  [/\ mean_number_of_visits P t = None, mean_time_to_absorption P t = None &
      absorption_probabilities P t a = None].
Proof.
by move=> H; rewrite /absorption_probabilities /mean_time_to_absorption /mean_number_of_visits (negbTE H).
Qed.

(* ------------------------------------------------------------------ *)
(* C75: sampling.  u is the uniform draw of the generator. *)

(* rng.choice(n, p=p) returns j exactly when u falls in the j-th interval of
   the normalised cumulative sums, an interval of length p_j / sum(p); in
   particular an index of the list whose probability is positive *)
Theorem C75_choice (F : realFieldType) (p : seq F) (u : F) :
  all (fun x => 0 <= x) p -> 0 < \sum_(x <- p) x -> 0 <= u -> u < 1 ->
  [/\ (choice p u < size p)%N, 0 < nth 0 p (choice p u) &
   forall j, (j < size p)%N ->
     (choice p u = j <->
      (\sum_(x <- take j p) x) / (\sum_(x <- p) x) <= u /\ u < (\sum_(x <- take j p) x + nth 0 p j) / (\sum_(x <- p) x))].
Proof.
move=> p0 S0 u0 u1. split; [exact: choice_bound|exact: choice_pos|].
move=> j jp. rewrite -cumS //. have E := choice_interval p0 S0 u0 u1 jp.
split=> [/eqP|[a b]]; first by rewrite E => /andP. by apply/eqP; rewrite E a.
Qed.

Lemma accepts_rows (F : realFieldType) (tol : F) P : tol < 1 -> accepts tol P ->
  forall i, (i < size P)%N -> [/\ size (nth [::] P i) = size P,
    all (fun x => 0 <= x) (nth [::] P i) & 0 < \sum_(x <- nth [::] P i) x].
Proof.
move=> t1 /and3P[/allP s /allP g /allP b] i ni. have rP := mem_nth [::] ni. split.
- exact/eqP/s.
- exact: g.
- have := b _ rP. rewrite ler_norml => /andP[lo _]. have : - 1 < \sum_(x <- nth [::] P i) x - 1.
    apply: lt_le_trans lo. by rewrite ltr_opp2.
  by rewrite ltr_subr_addr addNr.
Qed.

(* simulate: the requested number of states, starting at the initial state,
   every transition having positive probability, for all draws *)
Theorem C75_simulate (F : realFieldType) (tol : F) P s draws :
  tol < 1 -> accepts tol P -> (s < size P)%N -> all (fun u => (0 <= u) && (u < 1)) draws ->
  [/\ size (simulate P s draws) = size draws,
      (0 < size draws)%N -> nth 0%N (simulate P s draws) 0 = s,
      forall k, (k < size draws)%N -> (nth 0%N (simulate P s draws) k < size P)%N &
      forall k, (k.+1 < size draws)%N ->
        0 < entry P (nth 0%N (simulate P s draws) k) (nth 0%N (simulate P s draws) k.+1)].
Proof.
move=> t1 ok sn du. have [A B] := simulate_ok (accepts_rows t1 ok) sn du. split=> //; first exact: simulate_size.
by case: draws {du A B}.
Qed.

(* simulate_until_absorption: when it ends, it ends in the first absorbing
   state met *)
Theorem C75_until (F : realFieldType) (P : seq (seq F)) s draws out :
  stochastic P -> (s < size P)%N -> all (fun u => (0 <= u) && (u < 1)) draws ->
  simulate_until_absorption P s draws = Some (Some out) ->
  exists rest, [/\ out = s :: rest,
    forall k, (k < size rest)%N -> 0 < entry P (nth 0%N out k) (nth 0%N out k.+1),
    forall k, (k < size rest)%N -> nth 0%N out k \notin absorbing_states P &
    last s rest \in absorbing_states P].
Proof.
move=> ST sn du. rewrite /simulate_until_absorption. case AB: (is_absorbing P) => //.
case E: (until_loop _ _ _ _) => [rest|] //= [<-]. exists rest.
have ok := (C57_accepts P).2 ST.
have [A B C D] := until_ok (accepts_rows ltr01 ok) sn du E.
split=> //.
- move=> k kr. have lt := A k (ltnW kr). rewrite -(ab_T ST AB lt). exact: C.
- have lt : (last s rest < size P)%N by rewrite (last_nth 0%N); apply: A.
  move: D. by rewrite (ab_T ST AB lt) negbK.
Qed.

(* it refuses chains that are not absorbing *)
Theorem C75_until_refuses (F : realFieldType) (P : seq (seq F)) s draws :
  ~~ is_absorbing P -> simulate_until_absorption P s draws = None.
Proof. by rewrite /simulate_until_absorption => /negbTE->. Qed.

(* ------------------------------------------------------------------ *)
(* Concrete chains over the rationals *)
Definition drunk : seq (seq rat) :=
  [:: [:: 1; 0; 0; 0]; [:: 1/2%:R; 0; 1/2%:R; 0]; [:: 0; 1/2%:R; 0; 1/2%:R]; [:: 0; 0; 0; 1]].
Definition cycle3 : seq (seq rat) := [:: [:: 0; 1; 0]; [:: 0; 0; 1]; [:: 1; 0; 0]].
Definition wiel : seq (seq rat) := [:: [:: 0; 1; 0]; [:: 0; 0; 1]; [:: 1/2%:R; 1/2%:R; 0]].

Example drunk_stochastic : stochastic drunk.
Proof. apply/C57_accepts. rewrite /accepts /= !big_cons !big_nil. by vm_compute. Qed.
Example drunk_absorbing : is_absorbing drunk /\
  transient_states 4%N (adjacency drunk) = [:: 1; 2]%N /\ absorbing_states drunk = [:: 0; 3]%N.
Proof. by vm_compute. Qed.
Example cycle3_period : stochastic cycle3 /\ is_irreducible 3%N (adjacency cycle3) /\
  period 3%N (adjacency cycle3) 0%N = Some 3%N /\ is_regular 3%N (adjacency cycle3) = false.
Proof.
split; last by vm_compute. apply/C57_accepts. rewrite /accepts /= !big_cons !big_nil. by vm_compute.
Qed.
Example wiel_index : accepts 0 wiel /\ is_regular 3%N (adjacency wiel) /\
  index_of_primitivity 3%N (adjacency wiel) = Some 5%N.
Proof. split; last by vm_compute. rewrite /accepts /= !big_cons !big_nil. by vm_compute. Qed.
Example choice_example : choice [:: 1/2%:R; 0; 1/4%:R; 1/4%:R] (3%:R/5%:R : rat) = 2%N.
Proof. rewrite /choice /cumsum /= !big_cons !big_nil. by vm_compute. Qed.
