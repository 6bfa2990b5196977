(** What is assumed of the C library's log, log2 and pow, and the exact quantities. *)
From Coq Require Import Reals.
From Verif Require Import Common Float_Model Info_Model FloatViterbi_Spec.
From Flocq Require Import Core.
Local Open Scope R_scope.

Definition double (x : R) : Prop := generic_format radix2 (FLT_exp (-1074) 53) x.
(** relative error 2^-50 (four units in the last place) for doubles from 1 upwards, log2 exact at powers of two *)
Definition accurate_logs (clog clog2 : R -> R) : Prop :=
  (forall x, double x -> 1 <= x -> Rabs (clog x - ln x) <= / 2 ^ 50 * ln x) /\
  (forall x, double x -> 1 <= x -> Rabs (clog2 x - ln x / ln 2) <= / 2 ^ 50 * (ln x / ln 2)) /\
  (forall l, (l <= 1000)%nat -> clog2 (2 ^ l) = INR l).
(** the negative integer powers of T: a double, at most a relative error of 2^-52 and the smallest double off, exact when
    the power is a double *)
Definition accurate_power (cpow : R -> R -> R) : Prop := forall T l, (2 <= T)%nat ->
  double (cpow (INR T) (- INR l)) /\ 0 <= cpow (INR T) (- INR l) /\
  Rabs (cpow (INR T) (- INR l) - / INR T ^ l) <= / 2 ^ 52 * / INR T ^ l + / 2 ^ 1074 /\
  (double (/ INR T ^ l) -> cpow (INR T) (- INR l) = / INR T ^ l).

(** the entropy of the pmf in nats; 0 log 0 = 0 *)
Definition entropy_nats (pmf : list R) : R := total (map (fun p => if Rlt_dec 0 p then p * ln (1 / p) else 0) pmf).
(** the relative entropy in nats, and the same sum with the absolute values of its terms *)
Definition relative_entropy_nats (pmf qmf : list R) : R := total (map (fun pq => if Rlt_dec 0 (fst pq) then fst pq * ln (fst pq / snd pq) else 0) (combine pmf qmf)).
Definition absolute_divergence_nats (pmf qmf : list R) : R := total (map (fun pq => if Rlt_dec 0 (fst pq) then fst pq * Rabs (ln (fst pq / snd pq)) else 0) (combine pmf qmf)).
(** relative error 2^-50 (four units in the last place) for all positive doubles *)
Definition accurate_logs_everywhere (clog clog2 : R -> R) : Prop :=
  (forall x, double x -> 0 < x -> Rabs (clog x - ln x) <= / 2 ^ 50 * Rabs (ln x)) /\
  (forall x, double x -> 0 < x -> Rabs (clog2 x - ln x / ln 2) <= / 2 ^ 50 * Rabs (ln x / ln 2)).
(** the same for the base-2 logarithm alone *)
Definition accurate_log2 (clog2 : R -> R) : Prop := forall x, double x -> 0 < x -> Rabs (clog2 x - ln x / ln 2) <= / 2 ^ 50 * Rabs (ln x / ln 2).
(** the entropy, in bits, of a Bernoulli variable; 0 log 0 = 0 *)
Definition binary_entropy_bits (p : R) : R :=
  (if Rlt_dec 0 p then p * (ln (1 / p) / ln 2) else 0) + (if Rlt_dec p 1 then (1 - p) * (ln (1 / (1 - p)) / ln 2) else 0).
(** the base of the logarithm *)
Definition base_of (b : log_base) : R := match b with BaseE => exp 1 | Base v => v end.
(** 'e', or a double above 1 *)
Definition log_base_above_1 (b : log_base) : Prop := match b with BaseE => True | Base v => double v /\ 1 < v end.
(** the sum of T^-l over the codeword lengths l *)
Definition kraft (T : nat) (lengths : list nat) : R := total (map (fun l => / INR T ^ l) lengths).
(** the product of the numbers of a list *)
Definition product (l : list R) : R := fold_right Rmult 1 l.
(** the mean of the lengths under the given probabilities *)
Definition mean (lengths : list nat) (probabilities : list R) : R := total (map (fun lp => INR (fst lp) * snd lp) (combine lengths probabilities)).
