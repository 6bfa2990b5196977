Set Warnings "-ambiguous-paths".
(** Model of /repo/src/komm/_util/special_functions.py.

    Simplifications: floating point is exact real arithmetic and the array
    arguments are handled entry by entry ([np.vectorize]); [math.erfc] is the
    exact complementary error function; [NormalDist().inv_cdf] is a parameter
    (its exact specification is a hypothesis of the theorems); [math.gamma] of a
    positive integer is a factorial. *)
From Coq Require Import List Arith Reals Lra.
From Coquelicot Require Import Coquelicot.
Import ListNotations.
Local Open Scope R_scope.

(** [math.erfc]. *)
Definition erfc (x : R) : R :=
  2 / sqrt PI * RInt_gen (fun t => exp (- t ^ 2)) (at_point x) (Rbar_locally p_infty).

(** special_functions.py 12-16 ([_gaussian_q]) and 19-43. *)
Definition gaussian_q (x : R) : R := 1/2 * erfc (x / sqrt 2).

(** special_functions.py 46-51 ([_gaussian_q_inv]) and 54-74; [None] is the
    StatisticsError that [NormalDist.inv_cdf] raises unless 0 < y < 1. *)
Definition gaussian_q_inv (inv_cdf : R -> R) (y : R) : option Rbar :=
  if Req_EM_T y 0 then Some p_infty
  else if Req_EM_T y 1 then Some m_infty
  else if Rlt_dec 0 y then
    if Rlt_dec y 1 then Some (Finite (- inv_cdf y + 0)) else None
  else None.

(** Finite sums: [np.sum] of an array indexed by 0, ..., n-1. *)
Definition np_sum (g : nat -> R) (n : nat) : R := fold_right Rplus 0 (map g (seq 0 n)).

(** special_functions.py 82-83. *)
Definition aux_start (m : nat) (b : R) : R :=
  np_sum (fun j => exp (- b) * b ^ j / INR (fact j)) m.
(** special_functions.py 85-87. *)
Definition aux_term (m : nat) (a b : R) (i : nat) : R :=
  let inner_sum := np_sum (fun k => exp (- (INR m * a)) * (INR m * a) ^ k / INR (fact k)) (i - m + 1) in
  exp (- b) * b ^ i / INR (fact i) * (1 - inner_sum).
(** special_functions.py 84-91: [for i in range(m, max_iter)], [count] being the
    number of iterations left. *)
Fixpoint aux_loop (tol : R) (m : nat) (a b : R) (i count : nat) (result : R) : R :=
  match count with
  | O => result
  | S count' =>
      let term := aux_term m a b i in
      let result := result + term in
      if Rlt_dec (Rabs term) tol then result
      else aux_loop tol m a b (S i) count' result
  end.
(** special_functions.py 77-91 ([_auxiliary_p]), max_iter = 100, tol = 1e-16. *)
Definition auxiliary_p (m : nat) (a b : R) : R :=
  aux_loop (1 / 10 ^ 16) m a b m (100 - m) (aux_start m b).

(** special_functions.py 94-126 ([marcum_q]); [None] is a ValueError. *)
Definition marcum_q (m : nat) (a x : R) : option R :=
  if (0 <? m)%nat then
    if Rle_dec 0 a then
      if Rle_dec 0 x then Some (auxiliary_p m (a ^ 2 / (2 * INR m)) (x ^ 2 / 2))
      else None
    else None
  else None.

(** special_functions.py 129-133 ([logcosh]). *)
Definition np_sign (x : R) : R := if Rlt_dec x 0 then -1 else if Rlt_dec 0 x then 1 else 0.
Definition logcosh (x : R) : R :=
  let s := np_sign x * x in
  let p := exp (-2 * s) in
  s + ln (1 + p) - ln 2.
