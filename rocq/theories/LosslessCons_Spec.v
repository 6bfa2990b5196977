(* Specification vocabulary for the constructors of the lossless codes (C108). *)
From Verif Require Import Common.
Local Open Scope nat_scope.

(* m is the largest symbol that occurs in the words ws (which contain at least one symbol) *)
Definition largest_symbol (m : N) (ws : list (list N)) : Prop :=
  (exists w, In w ws /\ In m w) /\ (forall w x, In w ws -> In x w -> (x <= m)%N).

(* the value of a block read as a number in base s, first symbol most significant *)
Fixpoint block_value (s : N) (w : list N) : N :=
  match w with [] => 0%N | x :: r => (x * s ^ N.of_nat (length r) + block_value s r)%N end.

