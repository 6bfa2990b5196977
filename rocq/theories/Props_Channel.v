(* C61: discrete channels and sources, for every input and every random draw. *)
Set Warnings "-notation-overridden,-ambiguous-paths".
From mathcomp Require Import all_ssreflect all_algebra zify.
From Verif Require Import Markov_Model Markov_Sim Channel_Model.
Set Implicit Arguments.
Unset Strict Implicit.
Unset Printing Implicit Defensive.
Import Order.TTheory GRing.Theory Num.Theory.
Local Open Scope ring_scope.

Section C61.
Variable F : realFieldType.
Implicit Types (p : F) (draws : seq F) (input : seq nat).

(* a random draw: rng.random() *)
Notation draw u := ((0 <= u) && (u < 1)).

(* [f x u] is the output symbol for input symbol x and draw u.  The channel
   follows the matrix W if, for every input symbol x and output symbol y, the
   draws that give y form an interval whose length is W[x][y]. *)
Definition follows (f : nat -> F -> nat) (W : seq (seq F)) : Prop :=
  forall x : nat, (x < size W)%N ->
    (forall u, draw u -> (f x u < size (nth [::] W x))%N) /\
    (forall y, (y < size (nth [::] W x))%N ->
       exists lo hi, [/\ 0 <= lo, lo <= hi, hi <= 1, hi - lo = nth 0 (nth [::] W x) y &
         forall u, draw u -> (f x u = y <-> (lo <= u) && (u < hi))]).

Lemma map_zip_nth (g : nat -> F -> nat) input draws t : size input = size draws -> (t < size input)%N ->
  nth 0%N [seq g xu.1 xu.2 | xu <- zip input draws] t = g (nth 0%N input t) (nth 0 draws t).
Proof.
move=> sz ti. rewrite (nth_map (0%N, 0)) ?size_zip -?sz ?minnn //. by rewrite nth_zip.
Qed.

(* The output has the length of the input, and output symbol t is obtained
   from input symbol t and draw t alone. *)
Definition symbolwise (g : seq nat -> seq F -> seq nat) (f : nat -> F -> nat) : Prop :=
  forall input draws, size input = size draws ->
    size (g input draws) = size input /\
    forall t, (t < size input)%N -> nth 0%N (g input draws) t = f (nth 0%N input t) (nth 0 draws t).

Lemma symbolwise_map (g : nat -> F -> nat) : symbolwise (fun input draws => [seq g xu.1 xu.2 | xu <- zip input draws]) g.
Proof.
move=> input draws sz. split; first by rewrite size_map size_zip sz minnn.
move=> t ti. exact: map_zip_nth.
Qed.

Lemma two_cases (Q : nat -> Prop) : Q 0%N -> Q 1%N -> forall x, (x < 2)%N -> Q x.
Proof. by move=> q0 q1 [|[|]]. Qed.

(* BSC: the bit is flipped exactly when the draw is below p *)
Theorem C61_bsc p : valid_probability p ->
  exists f, symbolwise (bsc_transmit p) f /\ follows f (bsc_matrix p) /\
    forall x u, (x < 2)%N -> f x u = (if (u < p)%R then 1 - x else x)%N.
Proof.
case/andP=> p0 p1. exists (fun x u => ((x + (u < p)%R) %% 2)%N). split; first exact: symbolwise_map.
split; last by move=> x u; move: x; apply: two_cases; case: (u < p).
apply: two_cases; (split; [by move=> u _; rewrite ltn_mod|]); apply: two_cases.
- exists p, 1. split=> // u /andP[u0 u1]. rewrite u1 andbT leNgt. by case: (u < p).
- exists 0, p. split=> //; [by rewrite subr0|]. move=> u /andP[u0 u1]. rewrite u0 /=. by case: (u < p).
- exists 0, p. split=> //; [by rewrite subr0|]. move=> u /andP[u0 u1]. rewrite u0 /=. by case: (u < p).
- exists p, 1. split=> // u /andP[u0 u1]. rewrite u1 andbT leNgt. by case: (u < p).
Qed.

(* BEC: the symbol is erased (2) exactly when the draw is below eps *)
Theorem C61_bec (eps : F) : valid_probability eps ->
  exists f, symbolwise (bec_transmit eps) f /\ follows f (bec_matrix eps) /\
    forall x u, f x u = x \/ f x u = 2%N.
Proof.
case/andP=> p0 p1. exists (fun x u => if u < eps then 2%N else x). split; first exact: symbolwise_map.
split; last by move=> x u; case: ifP; [right|left].
apply: two_cases; (split; [by move=> u _; case: ifP|]); case=> [|[|[|y]]] //.
- move=> _; exists eps, 1. split=> // u /andP[u0 u1]. rewrite u1 andbT leNgt. by case: (u < eps).
- move=> _; exists 0, 0. split=> //; [by rewrite subrr|]. move=> u /andP[u0 u1]. rewrite [u < 0]ltNge u0 /=. by case: (u < eps).
- move=> _; exists 0, eps. split=> //; [by rewrite subr0|]. move=> u /andP[u0 u1]. rewrite u0 /=. by case: (u < eps).
- move=> _; exists 0, 0. split=> //; [by rewrite subrr|]. move=> u /andP[u0 u1]. rewrite [u < 0]ltNge u0 /=. by case: (u < eps).
- move=> _; exists eps, 1. split=> // u /andP[u0 u1]. rewrite u1 andbT leNgt. by case: (u < eps).
- move=> _; exists 0, eps. split=> //; [by rewrite subr0|]. move=> u /andP[u0 u1]. rewrite u0 /=. by case: (u < eps).
Qed.

(* Z channel: zeros are never changed; a one decays exactly when the draw is below p *)
Theorem C61_z p : valid_probability p ->
  exists f, symbolwise (z_transmit p) f /\ follows f (z_matrix p) /\ forall u, f 0%N u = 0%N.
Proof.
case/andP=> p0 p1. exists (fun x u => (x * (p <= u)%R)%N). split; first exact: symbolwise_map.
split; last by move=> u; rewrite mul0n.
apply: two_cases; (split; [by move=> u _; case: (p <= u)|]); apply: two_cases.
- exists 0, 1. split; rewrite ?subr0 ?lexx ?ler01 //.
- exists 0, 0. split; rewrite ?subr0 ?lexx ?ler01 //. move=> u /andP[u0 u1]. by rewrite ltNge u0 mul0n.
- exists 0, p. split; rewrite ?subr0 ?lexx ?ler01 //. move=> u /andP[u0 u1]. rewrite u0 ltNge mul1n. by case: (p <= u).
- exists p, 1. split=> // u /andP[u0 u1]. rewrite u1 andbT mul1n. by case: (p <= u).
Qed.

(* DMC with exact row sums: the output follows the given matrix *)
Theorem C61_dmc (W : seq (seq F)) : dmc_accepts 0 W ->
  exists f, symbolwise (dmc_transmit W) f /\ follows f W.
Proof.
case/and3P=> /allP sz /allP nn /allP sm. exists (fun x u => choice (nth [::] W x) u).
split; first exact: symbolwise_map.
move=> x xW. have rW := mem_nth [::] xW. set row := nth [::] W x in rW *.
have n0 := nn _ rW. have S1 : \sum_(z <- row) z = 1 by have := sm _ rW; rewrite normr_le0 subr_eq0 => /eqP.
have S0 : 0 < \sum_(z <- row) z by rewrite S1 ltr01.
split; first by move=> u /andP[u0 u1]; exact: choice_bound.
move=> y yr. exists (\sum_(z <- take y row) z), (\sum_(z <- take y.+1 row) z). split.
- rewrite big_seq. apply: sumr_ge0 => z /mem_take zr. exact: (allP n0).
- exact: cum_mono.
- rewrite -S1 -[X in _ <= \sum_(z <- X) z](cat_take_drop y.+1 row) big_cat /= ler_addl big_seq.
  apply: sumr_ge0 => z /mem_drop zr. exact: (allP n0).
- by rewrite (cumS yr) addrAC subrr add0r.
- move=> u /andP[u0 u1]. have := choice_interval n0 S0 u0 u1 yr. rewrite S1 !divr1 => E.
  split=> [/eqP|H]; first by rewrite E. by apply/eqP; rewrite E.
Qed.

(* with numpy's tolerance: still an output symbol of positive probability *)
Theorem C61_dmc_support (tol : F) (W : seq (seq F)) input draws t :
  tol < 1 -> dmc_accepts tol W -> size input = size draws -> (t < size input)%N ->
  all (fun u => draw u) draws -> all (fun x => (x < size W)%N) input ->
  0 < nth 0 (nth [::] W (nth 0%N input t)) (nth 0%N (dmc_transmit W input draws) t).
Proof.
move=> t1 /and3P[_ /allP nn /allP sm] sz ti du iW.
rewrite (map_zip_nth (fun x u => choice (nth [::] W x) u) sz ti).
have xW : (nth 0%N input t < size W)%N by exact: (allP iW _ (mem_nth 0%N ti)).
have rW := mem_nth [::] xW. have /andP[u0 u1] : draw (nth 0 draws t) by apply: (allP du); rewrite mem_nth // -sz.
apply: choice_pos => //; first exact: nn.
have := sm _ rW. rewrite ler_norml => /andP[lo _].
have : - 1 < \sum_(z <- nth [::] W (nth 0%N input t)) z - 1 by apply: lt_le_trans lo; rewrite ltr_opp2.
by rewrite ltr_subr_addr addNr.
Qed.

(* the three named channels' matrices are accepted transition matrices *)
Theorem C61_matrices p : valid_probability p ->
  [/\ dmc_accepts 0 (bsc_matrix p), dmc_accepts 0 (bec_matrix p) & dmc_accepts 0 (z_matrix p)].
Proof.
case/andP=> p0 p1.
have s1 : `|1 - p + p - 1| <= 0 by rewrite subrK subrr normr0.
have s2 : `|p + (1 - p) - 1| <= 0 by rewrite addrC [X in `|-1 + X|]addrC subrK addrC subrr normr0.
split; rewrite /dmc_accepts /= !big_cons !big_nil /= !addr0 ?add0r ?p0 ?subr_ge0 ?p1 ?lexx ?ler01 ?subrr ?normr0 /= ?s1 ?s2 ?lexx //.
Qed.

(* DiscreteMemorylessSource.emit *)
Theorem C61_source (pmf : seq F) draws : source_accepts 0 pmf -> all (fun u => draw u) draws ->
  size (source_emit pmf draws) = size draws /\
  forall t, (t < size draws)%N ->
    (nth 0%N (source_emit pmf draws) t < size pmf)%N /\
    forall y, (y < size pmf)%N ->
      (nth 0%N (source_emit pmf draws) t = y <->
       \sum_(x <- take y pmf) x <= nth 0 draws t /\ nth 0 draws t < \sum_(x <- take y pmf) x + nth 0 pmf y).
Proof.
case/andP=> n0. rewrite normr_le0 subr_eq0 => /eqP S1 du. split; first by rewrite size_map.
have S0 : 0 < \sum_(z <- pmf) z by rewrite S1 ltr01.
move=> t td. have /andP[u0 u1] : draw (nth 0 draws t) by apply: (allP du); rewrite mem_nth.
rewrite (nth_map 0) //. split; first exact: choice_bound.
move=> y yp. have := choice_interval n0 S0 u0 u1 yp. rewrite S1 !divr1 cumS // => E.
split=> [/eqP|[a b]]; first by rewrite E => /andP. by apply/eqP; rewrite E a.
Qed.

(* the uniform source of any cardinality is accepted *)
Theorem C61_uniform m : (1 <= m)%N -> source_accepts 0 (source_uniform F m).
Proof.
move=> m1. rewrite /source_accepts /source_uniform. apply/andP; split.
  apply/allP => x /nseqP[-> _]. by rewrite divr_ge0 ?ler01 ?ler0n.
rewrite big_nseq -Monoid.iteropE /= -[iterop _ _ _ _]/((1 / m%:R) *+ m) -mulr_natr mul1r mulVf ?subrr ?normr0 // pnatr_eq0. by case: m m1.
Qed.
End C61.

Example bsc_example : bsc_transmit (1/4%:R : rat) [:: 0; 1; 1; 0]%N [:: 1/2%:R; 1/8%:R; 3%:R/4%:R; 1/16%:R] = [:: 0; 0; 1; 1]%N.
Proof. by vm_compute. Qed.
Example bec_example : valid_probability (1/4%:R : rat) /\
  bec_transmit (1/4%:R : rat) [:: 0; 1; 1; 0]%N [:: 1/2%:R; 1/8%:R; 3%:R/4%:R; 1/16%:R] = [:: 0; 2; 1; 2]%N.
Proof. by vm_compute. Qed.
Example z_example : z_transmit (1/4%:R : rat) [:: 0; 1; 1; 0]%N [:: 1/2%:R; 1/8%:R; 3%:R/4%:R; 1/16%:R] = [:: 0; 0; 1; 0]%N.
Proof. by vm_compute. Qed.
