(* Definitions used in the statements of C80 and C81. *)
From Verif Require Import Common Spec_Lossless Info_Spec.
From Coq Require Import QArith Qreals Reals.
Local Open Scope R_scope.

(* exact pmf: non-negative, sum exactly one *)
Definition exact_pmf_q (pmf : list Q) : Prop := Forall (fun p => (0 <= p)%Q) pmf /\ (fold_right Qplus 0 pmf == 1)%Q.

(* entropy of the memoryless source, in nats per symbol *)
Definition source_entropy (pmf : list Q) : R := H_nats (length pmf) (map Q2R pmf).

(* sum of f over the elements of a list *)
Fixpoint sum_q {A} (f : A -> Q) (l : list A) : Q := match l with [] => 0%Q | a :: r => (f a + sum_q f r)%Q end.
Definition len_q (w : list N) : Q := inject_Z (Z.of_nat (length w)).

(* mean number of source symbols consumed per word of a parsing dictionary *)
Definition mean_parse_length (pmf : list Q) (ws : list (list N)) : Q := sum_q (fun w => block_prob pmf w * len_q w)%Q ws.
