(** Received words, for the statements about soft decoding in double precision. *)
From Coq Require Import Reals.
From Verif Require Import Common.
Local Open Scope nat_scope.

(** the value x received for the bit b has the sign of b (positive for 0) and a magnitude of at least lo *)
Definition received_for (lo : R) (x : R) (b : bool) : Prop := (lo <= if b then - x else x)%R.
(** every value of the word r is a value for the bit of v at its place *)
Definition clear_word (lo : R) (r : list R) (v : list bool) : Prop := Forall2 (received_for lo) r v.
(** x has the wrong sign for the bit b *)
Definition wrong_sign (v : list bool) (r : list R) (p : nat) : bool :=
  if Rlt_dec (nth p r 0%R) 0 then negb (nth p v false) else nth p v false.
(** numbers of the form k * 2^e: fixed-point samples *)
Definition fixed_point (e : BinNums.Z) (ks : list BinNums.Z) : list R := map (fun k => (IZR k * powerRZ 2 e)%R) ks.
