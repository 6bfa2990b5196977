(** Specification of discrete convolution. *)
From Verif Require Import Common Corr_Model SignalNd_Model.
Local Open Scope nat_scope.

(** the arithmetic of the dtype is that of a commutative semiring *)
Record semiring (T : dtype) : Prop := {
  sr_add_comm : forall a b : T, d_add T a b = d_add T b a;
  sr_add_assoc : forall a b c : T, d_add T a (d_add T b c) = d_add T (d_add T a b) c;
  sr_add_0 : forall a : T, d_add T (d_zero T) a = a;
  sr_mul_comm : forall a b : T, d_mul T a b = d_mul T b a;
  sr_mul_assoc : forall a b c : T, d_mul T a (d_mul T b c) = d_mul T (d_mul T a b) c;
  sr_mul_0 : forall a : T, d_mul T (d_zero T) a = d_zero T;
  sr_distr : forall a b c : T, d_mul T a (d_add T b c) = d_add T (d_mul T a b) (d_mul T a c) }.
(** f(0) + ... + f(n-1) *)
Definition total (T : dtype) (n : nat) (f : nat -> T) : T := fold_right (d_add T) (d_zero T) (map f (seq 0 n)).
(** x[i], zero outside the signal *)
Definition sample (T : dtype) (x : list T) (i : nat) : T := nth i x (d_zero T).
(** (x * y)[j] = sum over i of x[i] y[j - i] *)
Definition conv_at (T : dtype) (x y : list T) (j : nat) : T := total T (S j) (fun i => d_mul T (sample T x i) (sample T y (j - i))).
(** which samples of the convolution of signals with [n1] and [n2] elements a mode returns:
    all of them; the central max(n1, n2); those computed without zero padding *)
Definition conv_start (n1 n2 : nat) (mode : conv_mode) : nat :=
  match mode with Full => 0 | Same => (Nat.min n1 n2 - 1) / 2 | Valid => Nat.min n1 n2 - 1 end.
Definition conv_count (n1 n2 : nat) (mode : conv_mode) : nat :=
  match mode with Full => n1 + n2 - 1 | Same => Nat.max n1 n2 | Valid => Nat.max n1 n2 - Nat.min n1 n2 + 1 end.
Definition conv_samples (T : dtype) (x y : list T) (mode : conv_mode) : list T :=
  map (conv_at T x y) (seq (conv_start (length x) (length y) mode) (conv_count (length x) (length y) mode)).
