(* Specification of LFSR sequences. *)
From Verif Require Import Common.
Local Open Scope nat_scope.

(* sum modulo 2 of p_t * a[j + n - t] over t = 1 .. n *)
Definition tap_sum (f : N) (n : nat) (a : nat -> bool) (j : nat) : bool :=
  fold_right xorb false (map (fun t => (N.testbit f (N.of_nat t) && a (j + n - t))%bool) (seq 1 n)).
(* the n consecutive bits from position j on, cyclically *)
Definition window (s : list bool) (n j : nat) : list bool := map (fun i => nth ((j + i) mod length s) s false) (seq 0 n).
Definition count_ones (s : list bool) : nat := length (filter (fun b => b) s).
