(** What C105 says, independently of the model. *)
From Verif Require Import Common Bits_Model Array_Model Array_Spec.
Local Open Scope nat_scope.

(** The position, in a word of [n] bits, of the bit of weight 2^i. *)
Definition place (o : bit_order) (n i : nat) : nat :=
  match o with LSB_first => i | MSB_first => n - 1 - i end.
(** The number a word stands for: the sum of 2^i over the bits of weight 2^i that are set. *)
Definition value (o : bit_order) (n : nat) (w : list bool) : Z :=
  fold_right Z.add 0%Z (map (fun i => if nth (place o n i) w false then 2 ^ Z.of_nat i else 0)%Z (seq 0 n)).
