(* The BFS of MarkovChain.period and the gcd of closed walk lengths. *)
Set Warnings "-notation-overridden,-ambiguous-paths".
From mathcomp Require Import all_ssreflect all_algebra zify.
From Verif Require Import Markov_Model Markov_Spec Markov_Proof.
Set Implicit Arguments.
Unset Strict Implicit.
Unset Printing Implicit Defensive.
Local Open Scope nat_scope.

Lemma dvd_dist g a b : (g %| maxn a b - minn a b) = (a == b %[mod g]).
Proof.
case: (leqP a b) => ab.
  by rewrite -eqn_mod_dvd // eq_sym.
by rewrite -eqn_mod_dvd // ltnW.
Qed.

Section Period.
Variables (n : nat) (e : rel nat).
Notation walk := (walk n e).
Notation reaches := (reaches n e).

Definition undef (L : nat -> option nat) := count (fun v => ~~ isSome (L v)) (iota 0 n).

Lemma undef_update (L : nat -> option nat) v x : v < n -> L v = None ->
  (undef (fun w => if w == v then Some x else L w)).+1 = undef L.
Proof.
move=> vn Lv. rewrite /undef.
have -> : iota 0 n = iota 0 v ++ v :: iota v.+1 (n - v.+1).
  have -> : n = v + (1 + (n - v.+1)) by lia.
  rewrite iotaD /= !add0n. do 3 f_equal. lia.
rewrite !count_cat /= eqxx Lv /= add0n add1n addnS. congr (_ + _).+1; apply: eq_in_count => w; rewrite mem_iota.
  case: eqP => // -> /andP[_]. by rewrite add0n ltnn.
case: eqP => // -> /andP[]. by rewrite ltnn.
Qed.

Lemma visit_ok cls lu vs (L : nat -> option nat) q : {in vs, forall v, v < n} ->
  let r := foldl (bfs_visit cls lu) (L, q) vs in
  [/\ forall v, isSome (L v) -> r.1 v = L v,
      forall v, r.1 v = L v \/ [/\ v \in vs, v \in cls, r.1 v = Some lu.+1 & v \in r.2],
      {in vs, forall v, v \in cls -> isSome (r.1 v)},
      {subset q <= r.2} /\ (forall v, v \in r.2 -> v \in q \/ isSome (r.1 v)) &
      undef r.1 + size r.2 = undef L + size q].
Proof.
elim: vs L q => [|v vs IH] L q H /=.
  by split=> //; [move=> v; left|split=> // v; left].
have H' : {in vs, forall v, v < n} by move=> w ws; apply: H; rewrite inE ws orbT.
case: ifP => [/andP[vc Lv]|].
  have vn : v < n by apply: H; rewrite inE eqxx.
  have Lv' : L v = None by case: (L v) Lv.
  set L1 := fun w => _.
  have L1v : L1 v = Some lu.+1 by rewrite /L1 eqxx.
  have [A B C [D1 D2] E] := IH L1 (rcons q v) H'.
  set r := foldl _ _ _ in A B C D1 D2 E *.
  split.
  - move=> w Lw. rewrite A /L1; case: eqP => // Ewv; subst; by rewrite Lv' in Lw.
  - move=> w. case: (B w) => [->|[w1 w2 w3 w4]]; last by right; split=> //; rewrite inE w1 orbT.
    rewrite {1}/L1. case: eqP => [->|_]; last by left.
    right. split.
    + by rewrite inE eqxx.
    + exact: vc.
    + by rewrite ?A ?L1v ?eqxx.
    + by apply: D1; rewrite mem_rcons inE eqxx.
  - move=> w. rewrite inE => /orP[/eqP->|ws] wc; last exact: C. by rewrite A L1v.
  - split=> [w wq|w /D2[|->]]; [apply: D1| |by right].
      by rewrite mem_rcons inE wq orbT.
    rewrite mem_rcons inE => /orP[/eqP->|->]; [right|by left]. by rewrite A L1v.
  - rewrite E size_rcons. rewrite -(undef_update lu.+1 vn Lv') -/L1. lia.
move=> nv. have [A B C D E] := IH L q H'. split=> //.
- move=> w. case: (B w) => [->|[w1 w2 w3 w4]]; [by left|by right; split=> //; rewrite inE w1 orbT].
- move=> w. rewrite inE => /orP[/eqP->|ws] wc; last exact: C.
  move: nv. rewrite wc /= => /negbFE Lv. by rewrite A.
Qed.

Section State.
Variable s : nat.
Hypothesis sn : s < n.
Let cls := class_of n e s.

Definition good (L : nat -> option nat) := forall v l, L v = Some l -> v \in cls /\ walk l s v.

Lemma mem_cls v : v \in cls <-> [/\ v < n, reaches s v & reaches v s].
Proof.
rewrite mem_class /mutual. split=> [/and3P[vn /accP a /accP b]|[vn a b]]; first by split=> //; [exact: a|exact: b].
by rewrite vn /=; apply/andP; split; apply/accP.
Qed.

Lemma bfs_ok fuel L q : good L -> L s = Some 0 ->
  {in q, forall v, isSome (L v)} ->
  (forall u v, isSome (L u) -> u \notin q -> v < n -> e u v -> v \in cls -> isSome (L v)) ->
  undef L + size q <= fuel ->
  exists L', [/\ bfs n e cls fuel L q = Some L', good L', L' s = Some 0 &
    forall u v, isSome (L' u) -> v < n -> e u v -> v \in cls -> isSome (L' v)].
Proof.
elim: fuel L q => [|fuel IH] L [|u q] gL Ls qL cl fu /=.
- exists L. split=> // u v Lu. exact: cl.
- move: fu => /=. lia.
- exists L. split=> // u v Lu. exact: cl.
have Lu : isSome (L u) by apply: qL; rewrite inE eqxx.
case Eu: (L u) Lu => [lu|] // _.
have [|A B C [D1 D2] E] := @visit_ok cls lu (flatnonzero n (e u)) L q.
  by move=> v; rewrite mem_flat => /andP[].
case R: (foldl _ _ _) A B C D1 D2 E => [L' q'] /= A B C D1 D2 E.
have [ucls uw] := gL u lu Eu.
apply: IH.
- move=> v l. case: (B v) => [->|[v1 v2 -> v4]]; first exact: gL.
  move=> [<-]. split=> //. apply/walk_rcons. exists u. move: v1. rewrite mem_flat => /andP[vn ev]. by [].
- by rewrite A Ls.
- move=> v /D2 [vq|//]. have Lv : isSome (L v) by apply: qL; rewrite inE vq orbT. by rewrite A.
- move=> x y Lx xq yn exy yc.
  case: (eqVneq x u) => [Ex|nxu].
    subst x. apply: C => //. by rewrite mem_flat yn.
  case: (B x) => [Ex|[_ _ _ xq']]; last by rewrite xq' in xq.
  have Lx' : isSome (L x) by rewrite -Ex.
  have xqn : x \notin u :: q.
    rewrite inE negb_or nxu /=. apply/negP => /D1. by apply/negP.
  have Ly := cl x y Lx' xqn yn exy yc. by rewrite A.
- move: fu E => /=. lia.
Qed.

Lemma bfs_total : exists L, [/\ bfs n e cls n.+1 (fun w => if w == s then Some 0 else None) [:: s] = Some L,
  good L, L s = Some 0 & forall v, v \in cls -> isSome (L v)].
Proof.
have [|||||L [E g Ls cl]] := @bfs_ok n.+1 (fun w => if w == s then Some 0 else None) [:: s].
- move=> v l. case: eqP => // -> [<-]. split; last by rewrite /= eqxx.
  apply/mem_cls. by split=> //; exact: reaches_refl.
- by rewrite eqxx.
- by move=> v; rewrite inE => /eqP->; rewrite eqxx.
- move=> u v. rewrite inE. by case: eqP.
- rewrite /= addn1 ltnS. apply: leq_trans (count_size _ _) _. by rewrite size_iota.
exists L. split=> // v vc.
have [vn [k w] vs] := (mem_cls v).1 vc.
have H : forall k u, u < n -> reaches s u -> isSome (L u) -> walk k u v -> isSome (L v).
  clear k w. elim=> [|k IH] u un su Lu; first by move/eqP=> <-.
  move/walkS=> [l [ln el wl]].
  have sl : reaches s l by apply: reaches_trans su _; exists 1; rewrite walk1.
  have lc : l \in cls; last by apply: (IH l) => //; exact: (cl u).
  apply/mem_cls. split=> //.
  have lv : reaches l v by exists k. exact: reaches_trans lv vs.
apply: H w => //; [exact: reaches_refl|by rewrite Ls].
Qed.

Section Levels.
Variable L : nat -> option nat.
Hypothesis gL : good L.
Hypothesis Ls : L s = Some 0.
Hypothesis tL : forall v, v \in cls -> isSome (L v).
Let lev v := odflt 0 (L v).

Lemma levE v : v \in cls -> L v = Some (lev v).
Proof. rewrite /lev => /tL. by case: (L v). Qed.

Definition edge_ok g u v := (lev u).+1 == lev v %[mod g].

Lemma gcd_inner u vs d : u \in cls -> {in vs, forall v, v < n} ->
  exists d', foldl (gcd_step cls L u) (Some d) vs = Some d' /\
   forall g, g %| d' = (g %| d) && all (fun v => (v \in cls) ==> edge_ok g u v) vs.
Proof.
move=> uc. elim: vs d => [|v vs IH] d H /=; first by exists d; split=> // g; rewrite andbT.
have H' : {in vs, forall v, v < n} by move=> w ws; apply: H; rewrite inE ws orbT.
rewrite {2}/gcd_step. case: ifP => vc /=; last exact: IH.
rewrite (levE uc) (levE vc). have [d' [-> E]] := IH (gcdn d (maxn (lev u).+1 (lev v) - minn (lev u).+1 (lev v))) H'.
exists d'. split=> // g. by rewrite E dvdn_gcd dvd_dist -andbA.
Qed.

Lemma gcd_outer us d : {in us, forall u, u \in cls} ->
  exists d', foldl (fun d u => foldl (gcd_step cls L u) d (flatnonzero n (e u))) (Some d) us = Some d' /\
   forall g, g %| d' = (g %| d) && all (fun u => all (fun v => (v \in cls) ==> edge_ok g u v) (flatnonzero n (e u))) us.
Proof.
elim: us d => [|u us IH] d H /=; first by exists d; split=> // g; rewrite andbT.
have H' : {in us, forall u, u \in cls} by move=> w ws; apply: H; rewrite inE ws orbT.
have [||d1 [-> E1]] := @gcd_inner u (flatnonzero n (e u)) d; first by apply: H; rewrite inE eqxx.
  by move=> v; rewrite mem_flat => /andP[].
have [d2 [-> E2]] := IH d1 H'. exists d2. split=> // g. by rewrite E2 E1 andbA.
Qed.

Definition edges_ok g := all (fun u => all (fun v => (v \in cls) ==> edge_ok g u v) (flatnonzero n (e u))) cls.

Lemma edges_okP g : reflect (forall u v, u \in cls -> v \in cls -> e u v -> edge_ok g u v) (edges_ok g).
Proof.
apply: (iffP allP) => H u.
  move=> v uc vc ev. have /allP/(_ v) := H u uc. rewrite mem_flat ev vc andbT /=. apply.
  by case: ((mem_cls v).1 vc).
move=> uc. apply/allP => v. rewrite mem_flat => /andP[vn ev]. apply/implyP => vc. exact: H.
Qed.

Lemma cls_step u l v k : u \in cls -> v \in cls -> l < n -> e u l -> walk k l v -> l \in cls.
Proof.
move=> /mem_cls[un su us] /mem_cls[vn sv vs] ln el wl. apply/mem_cls. split=> //.
  apply: reaches_trans su _. by exists 1; rewrite walk1.
have lv : reaches l v by exists k. exact: reaches_trans lv vs.
Qed.

Lemma edges_walk g u v k : edges_ok g -> u \in cls -> v \in cls -> walk k u v -> lev u + k == lev v %[mod g].
Proof.
move/edges_okP=> H. elim: k u => [|k IH] u uc vc; first by move/eqP=> <-; rewrite addn0.
move/walkS=> [l [ln el wl]]. have lc := cls_step uc vc ln el wl.
rewrite -(eqP (IH l lc vc wl)). rewrite addnS -addSn -modnDml -(modnDml (lev l)).
by rewrite (eqP (H u l uc lc el)).
Qed.

Lemma s_cls : s \in cls. Proof. apply/mem_cls. by split=> //; exact: reaches_refl. Qed.

Lemma edges_closed g : edges_ok g -> forall k, walk k s s -> g %| k.
Proof.
move=> H k w. have := edges_walk H s_cls s_cls w. rewrite /lev Ls /= add0n mod0n. by [].
Qed.

Lemma closed_edges g : ~~ edges_ok g -> exists k, walk k s s /\ ~~ (g %| k).
Proof.
rewrite /edges_ok -has_predC => /hasP[u uc /=]. rewrite -has_predC => /hasP[v].
rewrite mem_flat => /andP[vn ev] /=. rewrite negb_imply => /andP[vc ne].
have [_ _ [a wa]] := (mem_cls v).1 vc.
have w1 : walk ((lev u).+1 + a) s s.
  apply: walk_cat wa. apply/walk_rcons. exists u. split=> //. by case: (gL (levE uc)).
have w2 : walk (lev v + a) s s by apply: walk_cat wa; case: (gL (levE vc)).
case D1: (g %| (lev u).+1 + a); last by exists ((lev u).+1 + a); rewrite D1.
case D2: (g %| lev v + a); last by exists (lev v + a); rewrite D2.
case/negP: ne. rewrite /edge_ok -(eqn_modDr a). by rewrite (eqP D1) (eqP D2).
Qed.
End Levels.

Lemma period_spec : exists d, period n e s = Some d /\
  (forall g, g %| d -> forall k, walk k s s -> g %| k) /\
  (forall g, ~~ (g %| d) -> exists k, walk k s s /\ ~~ (g %| k)).
Proof.
rewrite /period classes_find //. have [L [-> g Ls tL]] := bfs_total. rewrite /=.
have [d [-> E]] := @gcd_outer L tL cls 0 (fun u uc => uc).
exists d. split=> //. split=> h.
  rewrite E => /andP[_ H]. exact: edges_closed H.
rewrite E dvdn0 /=. exact: closed_edges.
Qed.
End State.

Lemma period_out s : n <= s -> period n e s = None.
Proof.
move=> sn. rewrite /period.
have -> : [seq c <- communicating_classes n e | s \in c] = [::]; last by [].
rewrite -(filter_pred0 (communicating_classes n e)). apply: eq_in_filter => c /classes_mem [i [ni ->]] /=.
by rewrite mem_class ltnNge sn.
Qed.

(* ---------------- numerical semigroup ---------------- *)
Lemma semigroup (S : pred nat) : S 0 -> (forall a b, S a -> S b -> S (a + b)) ->
  (forall g, g != 1 -> exists k, S k /\ ~~ (g %| k)) -> exists N, forall k, N <= k -> S k.
Proof.
move=> S0 Sadd H.
have Smul : forall q x, S x -> S (q * x).
  by elim=> // q IH x Sx; rewrite mulSn; apply: Sadd => //; exact: IH.
have [k0 [Sk0 nk0]] := H 0 isT. rewrite dvd0n in nk0.
have D : forall m d, 0 < d -> d <= m -> (exists x, S x /\ S (x + d)) -> exists x, S x /\ S (x + 1).
  elim=> [|m IH] d d0 dm [x [Sx Sd]]; first by lia.
  case: (eqVneq d 1) => [E|d1]; first by exists x; rewrite -E.
  have [k [Sk nk]] := H d d1.
  have r0 : 0 < k %% d by rewrite lt0n; exact: nk.
  have rd : k %% d < d by rewrite ltn_mod.
  apply: (IH (k %% d)) => //; first by lia.
  exists (k %/ d * (x + d)). split; first exact: Smul.
  have -> : k %/ d * (x + d) + k %% d = k %/ d * x + k by rewrite mulnDr -addnA -divn_eq.
  apply: Sadd => //. exact: Smul.
have [||x [Sx Sx1]] := D k0 k0 _ (leqnn _).
- by rewrite lt0n.
- by exists 0; rewrite add0n.
exists (x * x) => k xk. case: (posnP x) => [x0|x0].
  rewrite x0 add0n in Sx1. rewrite -(muln1 k). exact: Smul.
have -> : k = (k %/ x - k %% x) * x + (k %% x) * (x + 1).
  have q : x <= k %/ x by rewrite leq_divRL.
  have r : k %% x < x by rewrite ltn_mod.
  rewrite {1}(divn_eq k x) mulnBl mulnDr muln1 addnA. congr (_ + _).
  by rewrite subnK // leq_mul2r; apply/orP; right; lia.
apply: Sadd; exact: Smul.
Qed.

Definition all_walks k := forall i j, i < n -> j < n -> walk k i j.

Lemma uniform_bound m (Q : nat -> nat -> Prop) : (forall i, i < m -> exists N, forall k, N <= k -> Q k i) ->
  exists N, forall k i, N <= k -> i < m -> Q k i.
Proof.
elim: m => [|m IH] H; first by exists 0.
have [|N1 H1] := IH; first by move=> i im; apply: H; lia.
have [N2 H2] := H m (ltnSn m). exists (maxn N1 N2) => k i. rewrite geq_max => /andP[k1 k2].
rewrite ltnS leq_eqVlt => /orP[/eqP->|]; [exact: H2|exact: H1].
Qed.

Lemma regular_primitive : is_regular n e -> exists N, forall k, N <= k -> all_walks k.
Proof.
move=> /andP[/irreducibleP[n0 irr] /allP ap].
have p1 i : i < n -> period n e i = Some 1 by move=> ni; apply/eqP; apply: ap; rewrite mem_iota.
have cl i : i < n -> exists N, forall k, N <= k -> walk k i i.
  move=> ni. apply: (@semigroup (fun k => walk k i i)).
  - by rewrite /= eqxx.
  - by move=> a b; exact: walk_cat.
  - have [d [E [_ H]]] := period_spec ni. move: E. rewrite p1 // => -[Ed]. subst d. move=> g g1. apply: H. by rewrite dvdn1.
have [N HN] := cl 0 n0.
suff : exists N, forall k i, N <= k -> i < n -> forall j, j < n -> walk k i j.
  move=> [M H]. exists M => k Mk i j ni nj. exact: H.
apply: uniform_bound => i ni.
suff : exists N, forall k j, N <= k -> j < n -> walk k i j.
  move=> [M H]. exists M => k Mk j. exact: H.
apply: uniform_bound => j nj.
have [a wa] := irr i 0 ni n0. have [b wb] := irr 0 j n0 nj.
exists (a + N + b) => k kN.
have -> : k = a + ((k - a - b) + b) by lia.
apply: (walk_cat wa). apply: walk_cat wb. apply: HN. lia.
Qed.

Lemma primitive_regular k : 0 < n -> 0 < k -> all_walks k -> is_regular n e.
Proof.
move=> n0 k0 A. apply/andP. split.
  apply/irreducibleP. split=> // i j ni nj. exists k. exact: A.
apply/allP => i. rewrite mem_iota add0n /= => ni.
have [d [E [H _]]] := period_spec ni. rewrite E. apply/eqP. congr Some.
have w1 : walk k i i by exact: A.
have w2 : walk k.+1 i i.
  move: (w1). case: (k) k0 A => [//|k'] _ A. move/walkS=> [l [ln el _]]. apply/walkS. exists l. split=> //. exact: A.
have d1 := H d (dvdnn d) k w1. have d2 := H d (dvdnn d) k.+1 w2.
apply/eqP. rewrite -dvdn1. by rewrite -(dvdn_addr 1 d1) addn1.
Qed.
End Period.
