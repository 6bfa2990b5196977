(* Specification of correlations: the defining sums. *)
From Coq Require Import Reals.
From Coquelicot Require Import Complex.
From Verif Require Import Common.
Local Open Scope nat_scope.

(* f 0 + f 1 + ... + f (n-1) *)
Fixpoint Csum (n : nat) (f : nat -> C) : C := match n with 0 => RtoC 0 | S n => Cplus (Csum n f) (f n) end.
Fixpoint Zsum (n : nat) (f : nat -> Z) : Z := match n with 0 => 0%Z | S n => (Zsum n f + f n)%Z end.

(* the sequence extended by zeros to all integers, and extended periodically *)
Definition zero_ext (s : list C) (k : Z) : C :=
  if ((0 <=? k) && (k <? Z.of_nat (length s)))%Z then nth (Z.to_nat k) s (RtoC 0) else RtoC 0.
Definition periodic_ext (s : list C) (k : Z) : C := nth (Z.to_nat (k mod Z.of_nat (length s))) s (RtoC 0).
(* sum of squared magnitudes *)
Definition power_sum (s : list C) : R := fold_right Rplus 0%R (map (fun z => (Cmod z ^ 2)%R) s).
(* sum over n of x[n] times the conjugate of y[n - l], both periodic *)
Definition cyclic_crosscorrelation (x y : list C) (l : Z) : C := Csum (length x) (fun i => Cmult (periodic_ext x (Z.of_nat i)) (Cconj (periodic_ext y (Z.of_nat i - l)))).
(* integer sequences as complex ones *)
Definition Z_to_C (s : list Z) : list C := map (fun z => RtoC (IZR z)) s.
