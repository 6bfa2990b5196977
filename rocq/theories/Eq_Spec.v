(** When two algebra objects stand for the same thing: same class and same attributes, or a polynomial and the int of
    its coefficients. *)
From Verif Require Import Common Eq_Model.
Local Open Scope Z_scope.

Inductive same : pv -> pv -> Prop :=
| same_refl x : same x x
| same_poly_int v : same (PPoly v) (PInt v)
| same_int_poly v : same (PInt v) (PPoly v).
Definition hashable (x : pv) : Prop := match x with PInt _ | PPoly _ | PElem _ _ _ => True | _ => False end.
(** the integers on which a polynomial and an int hash differently *)
Definition clash (v : Z) : Prop := 2 ^ 61 - 1 <= Z.abs v /\ - 2 ^ 63 <= v < 2 ^ 63.
