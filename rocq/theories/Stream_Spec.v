(** What stream decoding should do, in terms of the encoder only. *)
From Coq Require Import QArith.
From Verif Require Import Common Vec_Model Linear_Spec Conv_Model Conv_Spec.
Local Open Scope nat_scope.

(** The only loop through reachable states that outputs nothing but zeros is that of the zero input from the zero state. *)
Definition no_silent_loops (c : conv) : Prop :=
  forall j s us, reachable c j s -> blocks (cv_k c) us -> us <> [] ->
  snd (conv_run c us s) = s -> fst (conv_run c us s) = repeat (zeros (cv_n c)) (length us) ->
  s = zeros (cv_deg c) /\ us = repeat (zeros (cv_k c)) (length us).

(** Bits i n, ..., (i + len) n - 1 of a stream: the blocks of n bits with numbers i, ..., i + len - 1. *)
Definition window {A} (n i len : nat) (v : list A) : list A := firstn (len * n) (skipn (i * n) v).
(** No window of W consecutive blocks contains more than E errors. *)
Definition sparse_errors (n W E : nat) (sent received : vec) : Prop :=
  length received = length sent /\ forall i, hdist (window n i W sent) (window n i W received) <= E.
(** The message delayed by tau blocks of k bits, as long as the message, with zeros in front. *)
Definition delayed (k tau : nat) (u : vec) : vec := firstn (length u) (zeros (tau * k) ++ u).

(** Soft values: positive for 0, negative for 1.  A value is doubtful if it does not support the transmitted bit with reliability m. *)
Definition doubtful (m : Q) (sent : vec) (soft : list Q) : vec :=
  map (fun '(b, x) => negb (Qle_bool m (if b : bool then - x else x))) (combine sent soft).
(** All values are at most B in magnitude, and no window of W consecutive blocks contains more than E doubtful ones. *)
Definition sparse_doubts (n W E : nat) (m B : Q) (sent : vec) (soft : list Q) : Prop :=
  length soft = length sent /\ Forall (fun x => - B <= x <= B)%Q soft /\ forall i, weight (window n i W (doubtful m sent soft)) <= E.
