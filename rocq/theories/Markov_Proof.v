(* Reachability, communicating classes. *)
Set Warnings "-notation-overridden,-ambiguous-paths".
From mathcomp Require Import all_ssreflect all_algebra zify.
From Verif Require Import Markov_Model Markov_Spec.
Set Implicit Arguments.
Unset Strict Implicit.
Unset Printing Implicit Defensive.
Import Order.TTheory GRing.Theory Num.Theory.
Local Open Scope nat_scope.

Section Graph.
Variables (n : nat) (e : rel nat).

Fixpoint walk (k i j : nat) : bool :=
  if k is k'.+1 then has (fun l => e i l && walk k' l j) (iota 0 n) else i == j.

Lemma walkS k i j : reflect (exists l, [/\ l < n, e i l & walk k l j]) (walk k.+1 i j).
Proof.
apply: (iffP hasP) => [[l]|[l [ln el wl]]].
  rewrite mem_iota /= add0n => ln /andP[el wl]. by exists l.
exists l; first by rewrite mem_iota. by rewrite el.
Qed.

Lemma walk_lt k i j : i < n -> walk k i j -> j < n.
Proof. elim: k i => [|k IH] i ni /=; first by move/eqP=> <-. move/walkS=> [l [ln _ wl]]. exact: IH wl. Qed.

Lemma walk_cat k1 k2 i j l : walk k1 i j -> walk k2 j l -> walk (k1 + k2) i l.
Proof.
elim: k1 i => [|k1 IH] i; first by move/eqP=> ->.
move/walkS=> [m [mn em wm]] w2. rewrite addSn. apply/walkS. exists m; split=> //. exact: IH.
Qed.

Lemma walk_catP k1 k2 i l : reflect (exists j, walk k1 i j /\ walk k2 j l) (walk (k1 + k2) i l).
Proof.
apply: (iffP idP) => [|[j [w1 w2]]]; last exact: walk_cat w1 w2.
elim: k1 i => [|k1 IH] i; first by exists i; rewrite /= eqxx.
rewrite addSn. move/walkS=> [m [mn em /IH[j [w1 w2]]]]. exists j; split=> //. apply/walkS. by exists m.
Qed.

Lemma walk1 i j : j < n -> walk 1 i j = e i j.
Proof.
move=> nj. apply/walkS/idP => [[l [_ el /eqP <-]] //|el]. by exists j; rewrite nj el /= eqxx.
Qed.

Lemma walk_rcons k i j : reflect (exists l, [/\ walk k i l, e l j & j < n]) (walk k.+1 i j).
Proof.
apply: (iffP idP) => [|[l [w1 el jn]]].
  rewrite -(addn1 k) => /walk_catP[l [w1 /walkS[m [mn em /eqP E]]]]. subst. by exists l.
rewrite -(addn1 k). apply/walk_catP. exists l. split=> //. by rewrite walk1.
Qed.

Definition reaches i j := exists k, walk k i j.

Lemma reaches_refl i : reaches i i. Proof. by exists 0; rewrite /= eqxx. Qed.
Lemma reaches_trans i j l : reaches i j -> reaches j l -> reaches i l.
Proof. move=> [k1 w1] [k2 w2]. exists (k1 + k2). exact: walk_cat w1 w2. Qed.

Lemma mem_flat (row : pred nat) j : (j \in flatnonzero n row) = (j < n) && row j.
Proof. by rewrite mem_filter mem_iota /= add0n andbC. Qed.

Lemma size_flat row : size (flatnonzero n row) <= n.
Proof. rewrite size_filter. apply: leq_trans (count_size _ _) _. by rewrite size_iota. Qed.

(* ---------------- DFS ---------------- *)
Lemma bounded_uniq_size (s : seq nat) m : uniq s -> {in s, forall x, x < m} -> size s <= m.
Proof.
move=> us ls. rewrite -(size_iota 0 m). apply: uniq_leq_size => // x /ls. by rewrite mem_iota.
Qed.

Lemma dfs_ok fuel acc stack s0 :
  uniq acc -> {in acc, forall x, x < n} -> {in stack, forall x, x < n} ->
  n * (n - size acc) + size stack <= fuel ->
  {in acc, forall x, reaches s0 x} -> {in stack, forall x, reaches s0 x} ->
  {in acc, forall x y, y < n -> e x y -> y \in acc ++ stack} ->
  s0 \in acc ++ stack ->
  exists r, [/\ dfs n e fuel acc stack = Some r, uniq r, {in r, forall x, x < n /\ reaches s0 x},
    s0 \in r & {in r, forall x y, y < n -> e x y -> y \in r}].
Proof.
elim: fuel acc stack => [|fuel IH] acc [|s st] ua la ls fu ra rs cl s0in /=.
- exists acc. rewrite cats0 in cl s0in. split=> //. by move=> x xa; split; [exact: la|exact: ra].
- move: fu => /=. by lia.
- exists acc. rewrite cats0 in cl s0in. split=> //. by move=> x xa; split; [exact: la|exact: ra].
case: ifP => sa.
  apply: IH => //.
  - by move=> x xs; apply: ls; rewrite inE xs orbT.
  - move: fu => /=. by lia.
  - by move=> x xs; apply: rs; rewrite inE xs orbT.
  - move=> x xa y yn exy. have := cl x xa y yn exy. rewrite !mem_cat inE => /or3P[->|/eqP->|->] //; rewrite ?sa ?orbT //.
  - move: s0in. rewrite !mem_cat inE => /or3P[->|/eqP->|->] //; rewrite ?sa ?orbT //.
have sn : s < n by apply: ls; rewrite inE eqxx.
have lt : size acc < n.
  have := @bounded_uniq_size (s :: acc) n. apply; first by rewrite /= sa ua.
  move=> x. rewrite inE => /orP[/eqP->//|]. exact: la.
set nb := [seq j <- flatnonzero n (e s) | j \notin s :: acc].
have snb : size nb <= n by rewrite size_filter; apply: leq_trans (count_size _ _) (size_flat _).
have mnb x : x \in rev nb -> x < n /\ e s x.
  by rewrite mem_rev mem_filter mem_flat => /and3P[_ -> ->].
apply: IH.
- by rewrite /= sa ua.
- move=> x. rewrite inE => /orP[/eqP->//|]. exact: la.
- move=> x. rewrite mem_cat => /orP[/mnb[]//|xs]. apply: ls. by rewrite inE xs orbT.
- move: fu. rewrite size_cat size_rev /=.
  have -> : n - size acc = (n - (size acc).+1).+1 by lia.
  rewrite mulnS. set q := (n * _)%N. move: snb. rewrite /nb. move: q. set z := size [seq _ <- _ | _]. clear. lia.
- move=> x. rewrite inE => /orP[/eqP->|]; last exact: ra. apply: rs. by rewrite inE eqxx.
- move=> x. rewrite mem_cat => /orP[/mnb[xn ex]|xs].
    apply: (@reaches_trans _ s); first by apply: rs; rewrite inE eqxx.
    exists 1. by rewrite walk1.
  apply: rs. by rewrite inE xs orbT.
- move=> x xa y yn exy. rewrite inE in xa. case/orP: xa => [/eqP xs|xa].
    subst x. rewrite !mem_cat mem_rev mem_filter mem_flat yn exy andbT. by case: (y \in s :: acc).
  have := cl x xa y yn exy. rewrite !mem_cat !inE. by case/or3P=> ->; rewrite ?orbT.
- move: s0in. rewrite !mem_cat !inE. by case/or3P=> ->; rewrite ?orbT.
Qed.

Lemma accessible_ok s : s < n -> [/\ exists r, dfs n e (n * n).+1 [::] [:: s] = Some r,
  uniq (accessible n e s) & forall j, j \in accessible n e s <-> reaches s j].
Proof.
move=> sn. have [|||||||r [E ur rr s0 cl]] := @dfs_ok (n * n).+1 [::] [:: s] s _ _ _ _ _ _ _ (mem_head _ _) => //.
- by move=> x; rewrite inE => /eqP->.
- by rewrite subn0 addn1.
- by move=> x; rewrite inE => /eqP->; exact: reaches_refl.
rewrite /accessible E /=. split=> //; first by exists r.
move=> j. split=> [/rr[]//|[k]].
have cl' : forall k x, x \in r -> walk k x j -> j \in r.
  clear k. move=> k. elim: k => [|k IH] x xr; first by move/eqP=> <-.
  move/walkS=> [l [ln el wl]]. apply: IH wl. exact: cl el.
exact: cl'.
Qed.

Lemma dfs_total s : s < n -> exists r, dfs n e (n * n).+1 [::] [:: s] = Some r.
Proof. by case/accessible_ok. Qed.

Lemma accP s j : s < n -> reflect (reaches s j) (j \in accessible n e s).
Proof. move=> sn. apply: (iffP idP); by case: (accessible_ok sn) => _ _ H /H. Qed.

Lemma acc_lt s j : s < n -> j \in accessible n e s -> j < n.
Proof. move=> sn /(accP j sn) [k]. exact: walk_lt. Qed.

(* ---------------- classes ---------------- *)
Definition mutual i j := (j \in accessible n e i) && (i \in accessible n e j).

Lemma mutual_refl i : i < n -> mutual i i.
Proof. move=> ni. rewrite /mutual andbb. apply/accP => //. exact: reaches_refl. Qed.
Lemma mutual_sym i j : mutual i j = mutual j i.
Proof. by rewrite /mutual andbC. Qed.
Lemma mutual_trans i j l : i < n -> j < n -> l < n -> mutual i j -> mutual j l -> mutual i l.
Proof.
move=> ni nj nl /andP[/accP ij /accP ji] /andP[/accP jl /accP lj].
apply/andP. split; apply/accP => //.
  exact: reaches_trans (ij ni) (jl nj).
exact: reaches_trans (lj nl) (ji nj).
Qed.

Definition class_of i := [seq j <- iota 0 n | mutual i j].

Lemma mem_class i j : (j \in class_of i) = (j < n) && mutual i j.
Proof. by rewrite mem_filter mem_iota /= add0n andbC. Qed.

Lemma class_eq i j : i < n -> j < n -> mutual i j -> class_of i = class_of j.
Proof.
move=> ni nj ij. apply: eq_in_filter => l. rewrite mem_iota add0n /= => nl.
apply/idP/idP; apply: mutual_trans => //. by rewrite mutual_sym.
Qed.

(* the classes are those of the smallest members, in increasing order *)
Definition leader i := ~~ has (mutual i) (iota 0 i).

Lemma classes_char : communicating_classes n e = [seq class_of i | i <- iota 0 n & leader i].
Proof.
rewrite /communicating_classes.
suff: forall m, m <= n -> exists vis,
   foldl (classes_step n (accessible n e)) ([::], [::]) (iota 0 m) = ([seq class_of i | i <- iota 0 m & leader i], vis) /\
   (forall j, j < n -> (j \in vis) = has (mutual j) (iota 0 m)).
  by move=> /(_ n (leqnn n)) [vis [-> _]].
elim=> [|m IH] mn; first by exists [::].
have [vis [E V]] := IH (ltnW mn).
have E1 : iota 0 m.+1 = iota 0 m ++ [:: m] by rewrite -addn1 iotaD.
rewrite E1. rewrite foldl_cat E /=. rewrite (V m mn) filter_cat map_cat /=.
rewrite [X in if X then [:: m] else _]/leader. case H: (has (mutual m) (iota 0 m)) => /=.
  exists vis. rewrite cats0. split=> // j jn. rewrite (V j jn) has_cat /= orbF.
  case jm: (mutual j m); rewrite ?orbF // orbT.
  case/hasP: H => x. rewrite mem_iota add0n /= => xm mx. apply/hasP. exists x; first by rewrite mem_iota.
  apply: mutual_trans jm mx => //. exact: ltn_trans xm mn.
rewrite cats1. eexists; split; first by reflexivity.
move=> j jn. rewrite mem_cat (V j jn) has_cat /= orbF mem_filter mem_iota /= add0n jn andbT orbC.
congr (_ || _). by rewrite -/(mutual m j) mutual_sym.
Qed.

Lemma leader_exists j : j < n -> exists i, [/\ i < n, leader i, mutual i j & i <= j].
Proof.
move=> jn. have ex : exists i, (i < n) && mutual i j by exists j; rewrite jn mutual_refl.
have := ex_minnP ex. case=> i /andP[ni ij] mini. exists i. split=> //; last by apply: mini; rewrite jn mutual_refl.
apply/hasP => -[x]. rewrite mem_iota add0n /= => xi ix.
have xn : x < n by exact: ltn_trans xi ni.
have := mini x. rewrite xn (@mutual_trans x i j) // 1?mutual_sym // => /(_ isT). by rewrite leqNgt xi.
Qed.

Lemma classes_mem c : c \in communicating_classes n e -> exists i, i < n /\ c = class_of i.
Proof. rewrite classes_char => /mapP[i]. rewrite mem_filter mem_iota add0n /= => /andP[_ ni] ->. by exists i. Qed.

Lemma classes_uniq : uniq (communicating_classes n e).
Proof.
rewrite classes_char map_inj_in_uniq ?filter_uniq ?iota_uniq // => i j.
rewrite !mem_filter !mem_iota !add0n /= => /andP[li ni] /andP[lj nj] E.
have ij : mutual i j.
  have : j \in class_of i by rewrite E mem_class nj mutual_refl. by rewrite mem_class => /andP[].
case: (ltngtP i j) => // lt.
  by case/hasP: lj; exists i; rewrite ?mem_iota // mutual_sym.
by case/hasP: li; exists j; rewrite ?mem_iota.
Qed.

Lemma classes_cover j : j < n -> class_of j \in communicating_classes n e.
Proof.
move=> jn. have [i [ni li ij _]] := leader_exists jn. rewrite classes_char. apply/mapP. exists i.
  by rewrite mem_filter li mem_iota.
by apply: class_eq => //; rewrite mutual_sym.
Qed.

Lemma classes_find j : j < n -> [seq c <- communicating_classes n e | j \in c] = [:: class_of j].
Proof.
move=> jn.
have E : {in communicating_classes n e, (fun c => j \in c) =1 pred1 (class_of j)}.
  move=> c /classes_mem [i [ni ->]] /=. rewrite mem_class jn /=. apply/idP/eqP => [ij|E]; first exact: class_eq.
  have : j \in class_of i by rewrite E mem_class jn mutual_refl. by rewrite mem_class => /andP[].
rewrite (eq_in_filter E) filter_pred1_uniq //; [exact: classes_uniq|exact: classes_cover].
Qed.

Lemma irreducibleP : reflect (0 < n /\ forall i j, i < n -> j < n -> reaches i j) (is_irreducible n e).
Proof.
rewrite /is_irreducible. apply: (iffP eqP) => [E|[n0 H]].
  split.
    move: E. rewrite classes_char size_map. by case: (n).
  move=> i j ni nj. have ci := classes_cover ni. have cj := classes_cover nj.
  move: ci cj E. case: (communicating_classes n e) => [|c [|]] //. rewrite !inE => /eqP ci /eqP cj _.
  have : j \in class_of i by rewrite ci -cj mem_class nj mutual_refl.
  by rewrite mem_class => /andP[_ /andP[/accP ij _]]; exact: ij.
have E : forall i, i < n -> class_of i = iota 0 n.
  move=> i ni. rewrite /class_of. apply/all_filterP/allP => j. rewrite mem_iota add0n /= => nj.
  by apply/andP; split; apply/accP => //; exact: H.
have : size (communicating_classes n e) <= 1.
  apply: (@uniq_leq_size _ _ [:: iota 0 n]); first exact: classes_uniq.
  by move=> c /classes_mem [i [ni ->]]; rewrite inE E.
have := classes_cover n0. by case: (communicating_classes n e) => [|c [|]].
Qed.

Lemma transientP i : reflect (i < n /\ exists j, reaches i j /\ ~ reaches j i) (i \in transient_states n e).
Proof.
rewrite mem_filter mem_iota add0n /=. apply: (iffP andP) => [[/hasP[j ja jb] ni]|[ni [j [ij ji]]]].
  split=> //. exists j. split; first by apply/accP: ja. move=> ji. move/accP: jb. apply => //. exact: acc_lt ja.
split=> //. apply/hasP. exists j; first by apply/accP. apply/accP => //. case: ij => k. exact: walk_lt.
Qed.

Lemma recurrentP i : reflect (i < n /\ forall j, reaches i j -> reaches j i) (i \in recurrent_states n e).
Proof.
rewrite mem_filter mem_iota add0n /=. apply: (iffP andP) => [[ti ni]|[ni H]].
  split=> // j ij. have jn : j < n by case: ij => k; exact: walk_lt.
  apply/(accP _ jn). apply/negPn/negP => ji. case/negP: ti. apply/transientP. split=> //.
  exists j. split=> //. move/(accP _ jn). exact/negP.
split=> //. apply/transientP => -[_ [j [ij]]]. by case; exact: H.
Qed.

Lemma recurrent_not_transient i : (i \in recurrent_states n e) = (i < n) && (i \notin transient_states n e).
Proof. by rewrite mem_filter mem_iota add0n /= andbC. Qed.
End Graph.

(* ---------------- link with step probabilities ---------------- *)
Section Prob.
Variable F : realFieldType.
Variable P : seq (seq F).
Hypothesis NS : nonneg_square P.
Local Open Scope ring_scope.
Let n := size P.
Let e := adjacency P.

Lemma entry_ge i j : (i < n)%N -> (j < n)%N -> 0 <= entry P i j. Proof. exact: NS.2. Qed.

Lemma step_ge k i j : (i < n)%N -> (j < n)%N -> 0 <= step_prob P k i j.
Proof.
elim: k i => [|k IH] i ni nj /=; first by rewrite ler0n.
rewrite big_seq. apply: sumr_ge0 => l. rewrite mem_index_iota => /andP[_ nl]. by rewrite mulr_ge0 ?entry_ge ?IH.
Qed.

Lemma sum_pos (s : seq nat) (f : nat -> F) : {in s, forall x, 0 <= f x} ->
  (0 < \sum_(x <- s) f x) = has (fun x => 0 < f x) s.
Proof.
elim: s => [|x s IH] H; first by rewrite big_nil ltxx.
rewrite big_cons /=. have H' : {in s, forall x, 0 <= f x} by move=> y ys; apply: H; rewrite inE ys orbT.
rewrite -IH //. have fx : 0 <= f x by apply: H; rewrite inE eqxx.
have fs : 0 <= \sum_(x <- s) f x by rewrite big_seq sumr_ge0.
case: (ltrgtP 0 (f x)) fx => //= [fx _|<- _]; last by rewrite add0r.
by rewrite ltr_paddr.
Qed.

Lemma step_walk k i j : (i < n)%N -> (j < n)%N -> (0 < step_prob P k i j) = walk n e k i j.
Proof.
elim: k i => [|k IH] i ni nj /=; first by rewrite ltr0n lt0b.
rewrite sum_pos /index_iota subn0; last first.
  move=> l. rewrite mem_iota add0n => /andP[_ nl]. by rewrite mulr_ge0 ?entry_ge ?step_ge.
apply: eq_in_has => l. rewrite mem_iota add0n => /andP[_ nl]. rewrite -IH // /e /adjacency.
have := entry_ge ni nl. have := step_ge k nl nj. rewrite !le0r.
case/orP => [/eqP->|sl]; first by rewrite mulr0 ltxx andbF.
case/orP => [/eqP->|el]; first by rewrite mul0r ltxx.
by rewrite el sl mulr_gt0.
Qed.

Lemma leads_reaches i j : (i < n)%N -> (j < n)%N -> leads_to P i j <-> reaches n e i j.
Proof. move=> ni nj. split=> -[k H]; exists k; move: H; by rewrite step_walk. Qed.

End Prob.
