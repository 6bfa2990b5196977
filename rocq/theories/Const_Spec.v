(* Specification of constellations: points are vectors of complex numbers (real ones have zero imaginary part). *)
From Coq Require Import Reals.
From Coquelicot Require Import Complex.
From Verif Require Import Common.
Local Open Scope R_scope.

(* squared Euclidean distance of two vectors, sum of |p_i - q_i|^2 *)
Fixpoint dist2 (p q : list C) : R :=
  match p, q with
  | a :: p', b :: q' => Cmod (Cminus a b) ^ 2 + dist2 p' q'
  | _, _ => 0
  end.
Definition energy_of (p : list C) : R := fold_right Rplus 0 (map (fun z => Cmod z ^ 2) p).
(* k is the index of a point at least distance from r *)
Definition nearest (points : list (list C)) (r : list C) (k : nat) : Prop :=
  (k < length points)%nat /\ forall j, (j < length points)%nat -> dist2 r (nth k points []) <= dist2 r (nth j points []).
(* d is the least distance between two points at different positions *)
Definition is_min_distance (points : list (list C)) (d : R) : Prop :=
  0 <= d /\ (exists i j, (i < j < length points)%nat /\ dist2 (nth i points []) (nth j points []) = d ^ 2) /\
  (forall i j, (i < j < length points)%nat -> d ^ 2 <= dist2 (nth i points []) (nth j points [])).
(* arithmetic means over the points: of the energies, and coordinate by coordinate *)
Definition average_energy (points : list (list C)) : R := fold_right Rplus 0 (map energy_of points) / INR (length points).
Definition average_coordinate (points : list (list C)) (c : nat) : C :=
  Cdiv (fold_right Cplus (RtoC 0) (map (fun p => nth c p (RtoC 0)) points)) (RtoC (INR (length points))).
Definition is_average (points : list (list C)) (m : list C) : Prop := forall c, (c < length m)%nat -> nth c m (RtoC 0) = average_coordinate points c.
(* all coordinates real *)
Definition real_vector (r : list C) : Prop := Forall (fun z => snd z = 0) r.
(* any two points at different positions are different *)
Definition separated (points : list (list C)) : Prop := forall i j, (i < j < length points)%nat -> 0 < dist2 (nth i points []) (nth j points []).
(* probability density of N white Gaussian noise samples of power P (complex circular, or real) with squared norm d2 *)
Definition noise_density (complex : bool) (N : nat) (P d2 : R) : R :=
  if complex then (1 / (PI * P)) ^ N * exp (- d2 / P) else (1 / sqrt (2 * PI * P)) ^ N * exp (- d2 / (2 * P)).
(* Bayes' rule: the probability of each point given the received one *)
Definition bayes (complex : bool) (N : nat) (P : R) (points : list (list C)) (priors : list R) (r : list C) (i : nat) : R :=
  nth i priors 0 * noise_density complex N P (dist2 r (nth i points [])) /
  fold_right Rplus 0 (map (fun j => nth j priors 0 * noise_density complex N P (dist2 r (nth j points []))) (seq 0 (length points))).
