(* Specification vocabulary for convolutional codes. *)
From Verif Require Import Common Vec_Model Conv_Model.
Local Open Scope nat_scope.

(* shapes of the state-space matrices *)
Record conv_ok (c : conv) : Prop := {
  co_k : 0 < cv_k c; co_n : 0 < cv_n c;
  co_A : wf (cv_deg c) (cv_A c) /\ length (cv_A c) = cv_deg c;
  co_B : wf (cv_deg c) (cv_B c) /\ length (cv_B c) = cv_k c;
  co_C : wf (cv_n c) (cv_C c) /\ length (cv_C c) = cv_deg c;
  co_D : wf (cv_n c) (cv_D c) /\ length (cv_D c) = cv_k c }.

(* input sequences: blocks of k bits *)
Definition blocks (k : nat) (us : list vec) : Prop := Forall (fun u => length u = k) us.

(* sums modulo 2, and coefficient t of the product of the polynomial p with the power series w *)
Definition xsum (l : list bool) : bool := fold_right xorb false l.
Definition series_mul (p : N) (w : nat -> bool) (t : nat) : bool :=
  xsum (map (fun l => N.testbit p (N.of_nat l) && w (t - l)) (seq 0 (S t))).
(* the i-th input (output) bit at time t *)
Definition bit_of (us : list vec) (i t : nat) : bool := nth i (nth t us []) false.

(* some sequence of [steps] input blocks leads from state 0 to state s *)
Definition reachable (c : conv) (steps : nat) (s : vec) : Prop :=
  exists us, blocks (cv_k c) us /\ length us = steps /\ snd (conv_run c us (zeros (cv_deg c))) = s.

(* x' = x A + u B, y = x C + u D along a whole input sequence, through the states st 0, st 1, ... *)
Definition state_space_run (c : conv) (us : list vec) (s : vec) (vs : list vec) (s' : vec) : Prop :=
  exists st : nat -> vec, st 0 = s /\ st (length us) = s' /\ length vs = length us /\
  forall t, t < length us ->
    st (S t) = vxor (vecmat (cv_deg c) (st t) (cv_A c)) (vecmat (cv_deg c) (nth t us []) (cv_B c)) /\
    nth t vs [] = vxor (vecmat (cv_n c) (st t) (cv_C c)) (vecmat (cv_n c) (nth t us []) (cv_D c)).
