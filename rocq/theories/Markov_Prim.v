(* index_of_primitivity: the loop. *)
Set Warnings "-notation-overridden,-ambiguous-paths".
From mathcomp Require Import all_ssreflect all_algebra zify.
From Verif Require Import Markov_Model Markov_Spec Markov_Proof Markov_Period Markov_Wielandt.
Set Implicit Arguments.
Unset Strict Implicit.
Unset Printing Implicit Defensive.
Local Open Scope nat_scope.

Section Prim.
Variables (n : nat) (e : rel nat).
Notation walk := (walk n e).
Notation all_walks := (all_walks n e).

Lemma loop_ok left k (Pn : rel nat) : (forall i j, i < n -> j < n -> Pn i j = walk k i j) ->
  match primitivity_loop n e left k Pn with
  | Some m => [/\ k <= m, all_walks m & forall q, k <= q -> q < m -> ~ all_walks q]
  | None => forall q, k <= q -> q < k + left -> ~ all_walks q
  end.
Proof.
elim: left k Pn => [|left IH] k Pn H /=; first by move=> q; lia.
have AP : reflect (all_walks k) (all (fun i => all (Pn i) (iota 0 n)) (iota 0 n)).
  apply: (iffP allP) => [A i j ni nj|A i].
    rewrite -H //. have ii : i \in iota 0 n by rewrite mem_iota. have jj : j \in iota 0 n by rewrite mem_iota.
    exact: (allP (A i ii) j jj).
  rewrite mem_iota add0n => ni. apply/allP => j. rewrite mem_iota add0n => nj. rewrite H //. exact: A.
case: AP => A; first by split=> // q; lia.
have H' : forall i j, i < n -> j < n ->
    has (fun l => Pn i l && e l j) (iota 0 n) = walk k.+1 i j.
  move=> i j ni nj. apply/hasP/walk_rcons.
    move=> [l]. rewrite mem_iota add0n /= => nl /andP[pl el]. exists l. by rewrite -H.
  move=> [l [wl el _]]. have nl : l < n by exact: walk_lt wl. exists l; by rewrite ?mem_iota // H // wl.
have := IH k.+1 _ H'. case: (primitivity_loop _ _ _ _ _) => [m|] G.
  case: G => km Am B. split=> //; first by lia.
  move=> q kq qm. case: (eqVneq k q) => [<- //|ne]. apply: B => //. lia.
move=> q kq qm. case: (eqVneq k q) => [<- //|ne]. apply: G; lia.
Qed.

Lemma primitivity_spec : 0 < n ->
  match index_of_primitivity n e with
  | Some m => [/\ 0 < m, all_walks m & forall q, 0 < q -> q < m -> ~ all_walks q]
  | None => forall q, 0 < q -> ~ all_walks q
  end.
Proof.
move=> n0. have := @loop_ok ((n - 1) ^ 2 + 1) 1 e. rewrite /index_of_primitivity.
have H : forall i j, i < n -> j < n -> e i j = walk 1 i j by move=> i j ni nj; rewrite walk1.
move=> /(_ H). case: (primitivity_loop _ _ _ _ _) => [m|] //.
move=> G q q0 A. have := wielandt n0 q0 A. apply: G => //; by rewrite addn1.
Qed.
End Prim.
