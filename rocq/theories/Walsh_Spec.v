(* Vocabulary for sequences of integers. *)
From Verif Require Import Common.
Local Open Scope Z_scope.

Definition inner (a b : list Z) : Z := fold_right Z.add 0 (map (fun p => fst p * snd p) (combine a b)).
(* number of adjacent positions with different values *)
Fixpoint sign_changes (s : list Z) : nat :=
  match s with
  | x :: ((y :: _) as t) => ((if Z.eqb x y then 0 else 1) + sign_changes t)%nat
  | _ => 0%nat
  end.
