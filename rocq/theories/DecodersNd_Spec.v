(** What C106 says, independently of the model. *)
From Coq Require Import QArith Reals.
From Verif Require Import Common Vec_Model Linear_Spec Array_Model Array_Spec.
Local Open Scope nat_scope.

(** [F] applies the (possibly failing) [f], from blocks of [b] to blocks of [m], to every block of the last
    axis: it succeeds exactly when [f] succeeds on every block, and then block by block it gives what [f] gives. *)
Definition maps_blocks {A B} (dA : A) (dB : B) (f : list A -> option (list B)) (b m : nat) (F : array A -> option (array B)) : Prop :=
  forall pre k a, well_formed a -> shape a = pre ++ [k * b] -> Forall (lt 0) pre -> 0 < k ->
  match F a with
  | Some out => well_formed out /\ shape out = pre ++ [k * m] /\
      forall p, valid_index pre p ->
        map f (blocks b (line dA a (k * b) p [])) = map Some (blocks m (line dB out (k * m) p []))
  | None => exists p r, valid_index pre p /\ In r (blocks b (line dA a (k * b) p [])) /\ f r = None
  end.

(** Sending an array of messages of any shape: [encode] turns it into an array of words of n symbols, and
    whenever every received block is related by [reception] to the block that was sent, [decode] gives the
    messages back. *)
Definition recovers {A} (dA : A) (k n : nat) (reception : vec -> list A -> Prop)
  (encode : array bool -> option (array bool)) (decode : array A -> option (array bool)) : Prop :=
  forall pre m messages, well_formed messages -> shape messages = pre ++ [m * k] -> Forall (lt 0) pre -> 0 < m ->
  exists sent, encode messages = Some sent /\ well_formed sent /\ shape sent = pre ++ [m * n] /\
    forall received, well_formed received -> shape received = pre ++ [m * n] ->
      (forall p, valid_index pre p ->
         Forall2 reception (blocks n (line false sent (m * n) p [])) (blocks n (line dA received (m * n) p []))) ->
      decode received = Some messages.

(** at most t errors in the block *)
Definition few_errors (t : nat) (sent received : vec) : Prop := hdist received sent <= t.
(** no sign error: the received value is positive where a 0 was sent and negative where a 1 was sent *)
Definition right_signs (sent : vec) (received : list Q) : Prop :=
  Forall2 (fun (b : bool) x => if b then (x < 0)%Q else (0 < x)%Q) sent received.
Definition right_signs_R (sent : vec) (received : list R) : Prop :=
  Forall2 (fun (b : bool) x => if b then (x < 0)%R else (0 < x)%R) sent received.
