(** When does eval(repr(x)) give x back?  [exceptional x] lists the objects of the modelled classes for which it does not. *)
From Coq Require Import String.
From Verif Require Import Common Walsh_Model Repr_Model.

Definition prints_back (o : obj) : Prop := exists s, repr o = Some s /\ evaluate s = Some (VObj o).

Definition exceptional (o : obj) : Prop :=
  match o with
  | OProduct _ => True                                     (* every ProductLabeling *)
  | OLZ _ s _ _ _ buffer => exists x, In x buffer /\ x <> 0%Z   (* a non-zero initial search buffer *)
  | OField k _ => (24 < k)%N                               (* fields of degree above 24 *)
  | OCyclic _ None _ => True                               (* both polynomials were given *)
  | OBinSeq bits polar => polar <> polar_of_bits bits      (* a "polar" sequence with entries other than 1 and -1 *)
  (* numpy arrays without rows *)
  | OBlock _ M _ | OSystematic M _ _ => M = []
  | OConv (CConv ff _) | OTerminated (CConv ff _) _ _ => ff = []
  | OMealy t o _ _ => t = [] \/ o = []
  | OMoore t _ _ => t = []
  | _ => False
  end.

(** the objects that calls of the constructors can produce (arguments may be such objects) *)
Inductive built : obj -> Prop :=
| built_call f a o : (forall n x, In (n, VObj x) a -> built x) -> call f a = Some o -> built o.
