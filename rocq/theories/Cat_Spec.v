(* Catastrophic encoders (Massey and Sain): an input with infinitely many ones whose output has finitely many. *)
From Verif Require Import Common Vec_Model Conv_Model Conv_Spec.
Local Open Scope nat_scope.

(* the first m blocks of an infinite input *)
Definition prefix (u : nat -> vec) (m : nat) : vec := concat (map u (seq 0 m)).

Definition catastrophic (c : conv) : Prop :=
  exists u : nat -> vec, (forall t, length (u t) = cv_k c) /\
    (forall T, exists t, T <= t /\ u t <> zeros (cv_k c)) /\
    exists T, forall m, exists vs, conv_encode c (prefix u m) = Some (concat vs) /\ length vs = m /\ blocks (cv_n c) vs /\
      forall t, T <= t -> t < m -> nth t vs [] = zeros (cv_n c).

(* an input that is not all zero, whose output is *)
Definition loses_input (c : conv) : Prop :=
  exists u : nat -> vec, (forall t, length (u t) = cv_k c) /\ (exists t, u t <> zeros (cv_k c)) /\
    forall m, conv_encode c (prefix u m) = Some (zeros (m * cv_n c)).
