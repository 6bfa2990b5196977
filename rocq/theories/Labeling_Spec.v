(* Specification vocabulary for labelings. *)
From Verif Require Import Common Bits_Model Labeling_Model.
Local Open Scope nat_scope.

(* a bijection from the indices 0 .. 2^m - 1 to the words of m bits, given as a table *)
Definition label_table (m : nat) (rows : list (list bool)) : Prop :=
  length rows = 2 ^ m /\ Forall (fun r => length r = m) rows /\ NoDup rows.

(* the objects obtainable from the constructors *)
Inductive constructed : labeling -> Prop :=
| con_labeling mat l : mk_Labeling mat = Some l -> constructed l
| con_natural m l : mk_Natural m = Some l -> constructed l
| con_reflected m l : mk_Reflected m = Some l -> constructed l
| con_product ls r l : Forall constructed ls -> mk_Product ls r = Some l -> constructed l
| con_rect mi mq l : mk_Rect mi mq = Some l -> constructed l
| con_rect1 n l : mk_Rect1 n = Some l -> constructed l.

(* number of positions in which two labels differ *)
Fixpoint differences (a b : list bool) : nat :=
  match a, b with
  | x :: a, y :: b => (if Bool.eqb x y then 0 else 1) + differences a b
  | _, _ => 0
  end.
