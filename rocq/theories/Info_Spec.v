(* Textbook definitions used in the statements of C76-C79, independent of the
   model.  ln is the standard library's natural logarithm; products with a zero
   probability vanish, the usual convention 0 log 0 = 0. *)
From Coq Require Import Reals List.
Import ListNotations.
Local Open Scope R_scope.

(* sum over the indices 0 .. n-1 *)
Fixpoint sum_to (n : nat) (f : nat -> R) : R :=
  match n with O => 0 | S m => sum_to m f + f m end.

(* exact pmf over {0, ..., n-1} *)
Definition is_pmf (n : nat) (p : list R) : Prop :=
  length p = n /\ (forall i, (i < n)%nat -> 0 <= nth i p 0) /\ sum_to n (fun i => nth i p 0) = 1.

(* n inputs, m outputs, rows are pmfs *)
Definition is_channel (n m : nat) (W : list (list R)) : Prop :=
  length W = n /\ forall x, (x < n)%nat -> is_pmf m (nth x W []).

(* H(p) in nats *)
Definition H_nats (n : nat) (p : list R) : R := sum_to n (fun i => nth i p 0 * ln (/ nth i p 0)).

(* D(p || q) in nats *)
Definition D_nats (n : nat) (p q : list R) : R := sum_to n (fun i => nth i p 0 * ln (nth i p 0 / nth i q 0)).

(* P(Y = y) *)
Definition out_prob (n : nat) (p : list R) (W : list (list R)) (y : nat) : R :=
  sum_to n (fun x => nth x p 0 * nth y (nth x W []) 0).

(* I(X; Y) in nats: sum over x, y of P(x,y) ln (P(y|x) / P(y)) *)
Definition I_nats (n m : nat) (p : list R) (W : list (list R)) : R :=
  sum_to n (fun x => sum_to m (fun y =>
    nth x p 0 * nth y (nth x W []) 0 * ln (nth y (nth x W []) 0 / out_prob n p W y))).

(* binary entropy in nats *)
Definition h_nats (p : R) : R := p * ln (/ p) + (1 - p) * ln (/ (1 - p)).

(* c nats is the capacity: the largest mutual information, attained *)
Definition is_capacity (n m : nat) (W : list (list R)) (c : R) : Prop :=
  (exists p, is_pmf n p /\ I_nats n m p W = c) /\ forall p, is_pmf n p -> I_nats n m p W <= c.
