(** Exact costs of paths, for the statements about rounded Viterbi decoding. *)
From Coq Require Import Reals.
From Flocq Require Import Core.
From Verif Require Import Common FSM_Model Float_Model.
Local Open Scope nat_scope.

(** sum of real numbers *)
Definition total (l : list R) : R := fold_right Rplus 0%R l.
(** the exact cost of the run of M on the input word xs from state s when zs is observed *)
Definition exact_cost {Z} (M : mealy) (g : nat -> Z -> R) (s : nat) (xs : list nat) (zs : list Z) : R :=
  total (map (fun '(y, z) => g y z) (combine (fst (process M xs s)) zs)).
(** x is a binary64 number *)
Definition is_binary64 (x : R) : Prop := generic_format radix2 (FLT_exp (-1074) 53) x.
(** correlation of a real word with a binary word, 0 being sent as +1 *)
Definition real_correlation (r : list R) (v : list bool) : R :=
  total (map (fun '(x, b) => if b : bool then (- x)%R else x) (combine r v)).
(** the documented soft metric: sum of the received values at the ones of the output *)
Definition ones_sum (v : list bool) (r : list R) : R := total (map (fun '(b, x) => if b : bool then x else 0%R) (combine v r)).
