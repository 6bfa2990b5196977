(* Model of /repo/src/komm/_util/signal_processing.py: sampling_rate_compress, sampling_rate_expand on a one-dimensional signal
   (the code does the same to every line along the chosen axis). *)
From Verif Require Import Common.
Local Open Scope nat_scope.

(* x[offset : n : factor], n = len(x) *)
Definition strided {A} (d : A) (x : list A) (offset factor : nat) : list A :=
  map (fun k => nth (offset + k * factor) x d) (seq 0 ((length x - offset + factor - 1) / factor)).
(* output[offset : n : factor] = input: numpy raises if the number of slots differs from len(input) *)
Fixpoint set_nth {A} (l : list A) (i : nat) (a : A) : list A :=
  match l, i with [], _ => [] | _ :: l, 0 => a :: l | x :: l, S i => x :: set_nth l i a end.
Fixpoint write_strided {A} (out : list A) (pos factor : nat) (input : list A) : list A :=
  match input with [] => out | a :: input => write_strided (set_nth out pos a) (pos + factor) factor input end.

(* signal_processing.py 57-64 *)
Definition sampling_rate_compress {A} (d : A) (input : list A) (factor offset : Z) : option (list A) :=
  if negb (0 <? factor)%Z then None
  else if negb ((0 <=? offset)%Z && (offset <? factor)%Z) then None
  else Some (strided d input (Z.to_nat offset) (Z.to_nat factor)).
(* signal_processing.py 107-118; [zero] is numpy's zero of the dtype *)
Definition sampling_rate_expand {A} (zero : A) (input : list A) (factor offset : Z) : option (list A) :=
  if negb (0 <? factor)%Z then None
  else if negb ((0 <=? offset)%Z && (offset <? factor)%Z) then None
  else
    let n := length input * Z.to_nat factor in
    let slots := (n - Z.to_nat offset + Z.to_nat factor - 1) / Z.to_nat factor in
    if negb (slots =? length input) then None
    else Some (write_strided (repeat zero n) (Z.to_nat offset) (Z.to_nat factor) input).
