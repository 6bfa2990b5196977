(** What it means that a method works along the last axis of its argument. *)
From Verif Require Import Common Array_Model Array_Spec.
Local Open Scope nat_scope.

(** [F], a method on arrays, is the one-dimensional method [f] applied to every line along the last axis:
    if it returns, then the leading shape is kept and every line of the result is what [f] returns for the
    corresponding line of the argument; if it raises (None), then [f] raises for one of the lines. *)
Definition lifts {A B} (dA : A) (dB : B) (f : list A -> option (list B)) (F : array A -> option (array B)) : Prop :=
  forall pre n a, well_formed a -> shape a = pre ++ [n] -> Forall (lt 0) pre ->
  match F a with
  | Some out => well_formed out /\ exists m, shape out = pre ++ [m] /\
      forall p, valid_index pre p -> f (line dA a n p []) = Some (line dB out m p [])
  | None => exists p, valid_index pre p /\ f (line dA a n p []) = None
  end.
