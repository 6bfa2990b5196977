(* index_of_primitivity: Wielandt's bound (n-1)^2+1 is always enough. *)
Set Warnings "-notation-overridden,-ambiguous-paths".
From mathcomp Require Import all_ssreflect all_algebra zify.
From Verif Require Import Markov_Model Markov_Spec Markov_Proof Markov_Period.
Set Implicit Arguments.
Unset Strict Implicit.
Unset Printing Implicit Defensive.
Local Open Scope nat_scope.

Section Dist.
Variables (n : nat) (e : rel nat) (T : pred nat).
Notation walk := (walk n e).

Definition W k x := has (fun t => T t && walk k x t) (iota 0 n).
Definition mind k x := W k x && all (fun m => ~~ W m x) (iota 0 k).

Lemma WP k x : reflect (exists t, [/\ t < n, T t & walk k x t]) (W k x).
Proof.
apply: (iffP hasP) => [[t]|[t [tn Tt w]]].
  rewrite mem_iota add0n /= => tn /andP[Tt w]. by exists t.
exists t; by rewrite ?mem_iota // Tt.
Qed.

Lemma mind_lt k x m : mind k x -> W m x -> k <= m.
Proof.
move=> /andP[_ /allP H] w. rewrite leqNgt. apply/negP => mk. have := H m. rewrite mem_iota add0n /= mk => /(_ isT).
by rewrite w.
Qed.

Lemma mind_uniq k m x : mind k x -> mind m x -> k = m.
Proof. move=> a b. apply/eqP. rewrite eqn_leq (mind_lt a) ?(mind_lt b) //; by [case/andP: a|case/andP: b]. Qed.

Lemma mind_ex k x : W k x -> exists m, m <= k /\ mind m x.
Proof.
move=> w. have ex : exists k, W k x by exists k.
case: (ex_minnP ex) => m wm min. exists m. split; first exact: min.
apply/andP; split=> //. apply/allP => q. rewrite mem_iota add0n /= => qm. apply/negP => /min. by rewrite leqNgt qm.
Qed.

Lemma mind0 x : x < n -> W 0 x = T x.
Proof. move=> xn. apply/WP/idP => [[t [_ Tt /eqP->]]//|Tx]. exists x. by rewrite /= eqxx. Qed.

Lemma mind_step k x : mind k.+1 x -> exists y, y < n /\ mind k y.
Proof.
move=> /andP[/WP[t [tn Tt /walkS[l [ln el wl]]]] /allP H]. exists l. split=> //.
apply/andP. split; first by apply/WP; exists t.
apply/allP => q. rewrite mem_iota add0n /= => qk. apply/negP => /WP[t' [t'n Tt' w']].
have := H q.+1. rewrite mem_iota add0n /= ltnS qk => /(_ isT) /negP. apply. apply/WP.
by exists t'; split=> //; apply/walkS; exists l.
Qed.

Lemma mind_list k x : mind k x -> x < n -> exists s, [/\ uniq s, size s = k &
  {in s, forall y, [/\ y < n, ~~ T y & exists m, [/\ m <= k, 0 < m & mind m y]]}].
Proof.
elim: k x => [|k IH] x; first by exists [::].
move=> mx xn. have [y [yn my]] := mind_step mx. have [s [us ss H]] := IH y my yn.
exists (x :: s). split; rewrite /= ?ss //.
  rewrite us andbT. apply/negP => xs. have [_ _ [m [mk m0 mm]]] := H x xs.
  have := mind_uniq mm mx. lia.
move=> z. rewrite inE => /orP[/eqP->|zs].
  split=> //; last by exists k.+1.
  apply/negP => Tx. have := @mind_lt k.+1 x 0 mx. rewrite mind0 // => /(_ Tx). lia.
have [zn zT [m [mk m0 mm]]] := H z zs. split=> //. exists m. split=> //. lia.
Qed.

Lemma mind_bound k x : mind k x -> x < n -> k + count T (iota 0 n) <= n.
Proof.
move=> mk xn. have [s [us <- H]] := mind_list mk xn.
rewrite -size_filter -size_cat. rewrite -[X in _ <= X](size_iota 0 n). apply: uniq_leq_size.
  rewrite cat_uniq us filter_uniq ?iota_uniq // andbT. apply/hasPn => y.
  rewrite mem_filter => /andP[Ty _]. apply/negP => /H[_]. by rewrite Ty.
move=> y. rewrite mem_cat => /orP[/H[yn _ _]|]; first by rewrite mem_iota.
by rewrite mem_filter => /andP[].
Qed.
End Dist.

Section Wielandt.
Variables (n : nat) (e : rel nat).
Notation walk := (walk n e).
Notation all_walks := (all_walks n e).

Lemma all_walks_S k : 0 < k -> all_walks k -> all_walks k.+1.
Proof.
case: k => // k _ A i j ni nj. have /walkS[l [ln el _]] := A i j ni nj. apply/walkS. exists l. split=> //. exact: A.
Qed.

Lemma all_walks_le k m : 0 < k -> k <= m -> all_walks k -> all_walks m.
Proof. move=> k0 km A. rewrite -(subnK km). elim: (m - k) => [//|d IH]. rewrite addSn. apply: all_walks_S => //. by rewrite addn_gt0 k0 orbT. Qed.

Lemma short_walk x y k : x < n -> y < n -> walk k x y -> exists m, m <= n - 1 /\ walk m x y.
Proof.
move=> xn yn w. have wW : W n e (pred1 y) k x by apply/WP; exists y; rewrite /= eqxx.
have [m [mk mm]] := mind_ex wW. exists m. split.
  have := mind_bound mm xn. have -> : count (pred1 y) (iota 0 n) = 1.
    by rewrite count_uniq_mem ?iota_uniq // mem_iota yn.
  lia.
case/andP: mm => /WP[t [tn /eqP-> wt]] _. exact: wt.
Qed.

End Wielandt.

Section Wielandt2.
Variables (n : nat) (e : rel nat).
Notation walk := (walk n e).
Notation all_walks := (all_walks n e).

(* ---- shortest closed walk ---- *)
Section Girth.
Variable s : nat.
Hypothesis s0 : 0 < s.
Hypothesis smin : forall k i, i < n -> 0 < k -> walk k i i -> s <= k.

Lemma cycle_list x : x < n -> walk s x x -> forall m, m <= s -> exists t, [/\ uniq t, size t = m &
  {in t, forall y, y < n /\ exists a, [/\ a < m, walk a x y & walk (s - a) y x]}].
Proof.
move=> xn w. elim=> [|m IH] ms; first by exists [::].
have [|t [ut st H]] := IH; first by lia.
have /walk_catP[y [w1 w2]] : walk (m + (s - m)) x x by rewrite subnKC //; lia.
have yn : y < n by exact: walk_lt w1.
exists (y :: t). split; rewrite /= ?st //.
  rewrite ut andbT. apply/negP => yt. have [_ [a [am wa wb]]] := H y yt.
  have := smin xn _ (walk_cat wa w2). lia.
move=> z. rewrite inE => /orP[/eqP->|zt].
  split=> //. by exists m.
have [zn [a [am wa wb]]] := H z zt. split=> //. exists a. split=> //. lia.
Qed.

Definition onc x := walk s x x.

Lemma onc_count x : x < n -> walk s x x -> s <= count onc (iota 0 n).
Proof.
move=> xn w. have [t [ut st H]] := cycle_list xn w (leqnn s).
rewrite -[X in X <= _]st -size_filter. apply: uniq_leq_size => // y /H [yn [a [am wa wb]]].
rewrite mem_filter mem_iota add0n yn andbT /= andbT /onc.
rewrite -(subnK (ltnW am)). exact: walk_cat wb wa.
Qed.

Lemma onc_next x : x < n -> onc x -> exists y, [/\ y < n, e x y & onc y].
Proof.
move=> xn. rewrite /onc. case: (s) s0 => // s' _. move=> /walkS[l [ln el wl]]. exists l. split=> //.
by apply/walk_rcons; exists x.
Qed.

Lemma onc_walk x k : x < n -> onc x -> exists y, [/\ y < n, walk k x y & onc y].
Proof.
elim: k x => [|k IH] x xn ox; first by exists x; rewrite /= eqxx.
have [y [yn ey oy]] := onc_next xn ox. have [z [zn wz oz]] := IH y yn oy.
exists z. split=> //. apply/walkS. by exists y.
Qed.

(* a shortest closed walk is shorter than n unless n = 1 *)
Lemma girth_lt k : 1 < n -> all_walks k -> s < n.
Proof.
move=> n1 A. rewrite ltnNge. apply/negP => ns.
case B: (has (fun u => has (fun a => has (fun b => [&& a != b, e u a & e u b]) (iota 0 n)) (iota 0 n)) (iota 0 n)); last first.
  have det : forall u a b, u < n -> a < n -> b < n -> e u a -> e u b -> a = b.
    move=> u a b un an bn ea eb. apply/eqP/negPn/negP => ab. move/hasP: B; apply.
    exists u; first by rewrite mem_iota. apply/hasP; exists a; first by rewrite mem_iota.
    apply/hasP; exists b; by rewrite ?mem_iota // ab ea.
  have D : forall k u a b, u < n -> walk k u a -> walk k u b -> a = b.
    elim=> [|q IH] u a b un; first by move=> /eqP<- /eqP<-.
    move=> /walkS[l [ln el wl]] /walkS[l' [ln' el' wl']].
    have E := det u l l' un ln ln' el el'. subst l'. exact: IH wl wl'.
  by have := D k 0 0 1 (ltnW n1) (A 0 0 (ltnW n1) (ltnW n1)) (A 0 1 (ltnW n1) n1).
case/hasP: B => u; rewrite mem_iota add0n /= => un /hasP[a]. rewrite mem_iota add0n /= => an /hasP[b].
rewrite mem_iota add0n /= => bn /and3P[ab ea eb].
have M x : x < n -> e u x -> mind n e (pred1 u) (n - 1) x.
  move=> xn ex. have wx : W n e (pred1 u) k x by apply/WP; exists u; rewrite /= eqxx; split=> //; exact: A.
  have [m [_ mm]] := mind_ex wx.
  have wm : walk m x u by case/andP: (mm) => /WP[t [_ /eqP-> ]].
  have := smin un (ltn0Sn m). have w2 : walk m.+1 u u by apply/walkS; exists x.
  move=> /(_ w2). have := mind_bound mm xn. rewrite count_uniq_mem ?iota_uniq // mem_iota un /= => h1 h2.
  have -> : n - 1 = m by lia. exact: mm.
have Ma := M a an ea. have Mb := M b bn eb.
have E : n - 1 = (n - 2).+1 by lia. rewrite E in Ma.
have [y [yn my]] := mind_step Ma. have [t [ut st H]] := mind_list my yn.
have big : {in t, forall z, forall q, mind n e (pred1 u) q z -> q <= n - 2}.
  move=> z /H[_ _ [m [m1 m2 mm]]] q mq. by rewrite (mind_uniq mq mm).
have at1 : a \notin t by apply/negP => at1; have := big a at1 _ Ma; lia.
have bt : b \notin t by apply/negP => bt; have := big b bt _ Mb; lia.
have m0 x : mind n e (pred1 u) (n-1) x -> x != u.
  move=> mx. apply/eqP => xu. subst x.
  have W0 : W n e (pred1 u) 0 u by apply/WP; exists u; rewrite /= eqxx.
  have := mind_lt mx W0. lia.
rewrite -E in Ma. have au := m0 a Ma. have bu := m0 b Mb.
have : size [:: u, a, b & t] <= n.
  apply: bounded_uniq_size.
    rewrite /= !inE !negb_or ab at1 bt ut (eq_sym u a) au (eq_sym u b) bu /= !andbT.
    by apply/negP => /H[_]; rewrite /= eqxx.
  move=> z. rewrite !inE => /or4P[/eqP->|/eqP->|/eqP->|/H[]] //.
rewrite /= st. lia.
Qed.
End Girth.

Lemma walk_pow s m i j : i < n -> Markov_Proof.walk n (walk s) m i j = walk (m * s) i j.
Proof.
elim: m i => [|m IH] i ni //. rewrite mulSn. apply/walkS/walk_catP.
  by move=> [l [ln wl wm]]; exists l; split=> //; rewrite -IH.
move=> [l [wl wm]]. have ln := walk_lt ni wl. exists l. by rewrite IH.
Qed.

Theorem wielandt k : 0 < n -> 0 < k -> all_walks k -> all_walks ((n - 1) ^ 2 + 1).
Proof.
move=> n0 k0 A.
case: (ltnP 1 n) => n1; last first.
  have E : n = 1 by lia. have -> : (n - 1) ^ 2 + 1 = 1 by rewrite E. move=> i j i0 j0.
  have -> : i = 0 by lia. have -> : j = 0 by lia.
  case: k k0 A => // k _ A. have := A 0 0 n0 n0 => /walkS[l [ln el _]].
  have l0 : l = 0 by lia. rewrite l0 in el. by rewrite walk1.
have ex : exists q, (0 < q) && has (fun i => walk q i i) (iota 0 n).
  exists k. rewrite k0. apply/hasP. exists 0; by rewrite ?mem_iota // A.
case: (ex_minnP ex) => s /andP[s0 /hasP[c]]. rewrite mem_iota add0n /= => cn wc min.
have smin : forall q i, i < n -> 0 < q -> walk q i i -> s <= q.
  move=> q i ni q0 w. apply: min. rewrite q0 /=. apply/hasP. exists i; by rewrite ?mem_iota.
have sn := girth_lt s0 smin n1 A.
have cnt := onc_count s0 smin cn wc.
suff : all_walks ((n - s) + (n - 1) * s).
  apply: all_walks_le; first by rewrite addn_gt0 subn_gt0 sn.
  have [m Em] : exists m, n = m.+2 by exists (n - 2); lia.
  clear -sn Em. rewrite Em in sn *. rewrite subn1 /= -mulnn. have -> : m.+2 - s = m.+1 - s + 1 by lia.
  have [d Ed] : exists d, m.+1 = s + d by exists (m.+1 - s); lia. rewrite Ed addKn. nia.
move=> u v un vn.
(* from u to the cycle *)
have wu : W n e (onc s) k u by apply/WP; exists c; split=> //; exact: A.
have [m [_ mm]] := mind_ex wu. have bm := mind_bound mm un.
case/andP: (mm) => /WP[d [dn od wd]] _.
have [c' [cn' wc' oc']] := @onc_walk s s0 d (n - s - m) dn od.
have w1 : walk (n - s) u c'.
  have -> : n - s = m + (n - s - m) by lia. exact: walk_cat wd wc'.
apply: (walk_cat w1).
(* inside the graph of s-step walks *)
have r : Markov_Proof.walk n (walk s) k c' v.
  rewrite walk_pow //. have ks : k <= k * s by rewrite leq_pmulr. exact: (all_walks_le k0 ks A).
have [q [qn wq]] := @short_walk n (walk s) c' v k cn' vn r.
rewrite -(walk_pow s (n-1) v cn').
rewrite -(subnK qn). elim: (n - 1 - q) => [//|p IH]. rewrite addSn. apply/walkS. by exists c'.
Qed.
End Wielandt2.
