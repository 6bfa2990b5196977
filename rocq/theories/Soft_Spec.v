(* Specification for C116: soft decisions: L-values of a constellation, and antipodal signalling. *)
From Coq Require Import QArith Reals.
From Coquelicot Require Import Complex.
From Verif Require Import Common FB_Model Labeling_Model Const_Model Const_Spec.
From Verif Require BCJR_Model.
Local Open Scope nat_scope.

(** the indices i whose label has b as its j-th bit *)
Definition indices_with (l : labeling) (j : nat) (b : bool) : list nat :=
  filter (fun i => match indices_to_bits l [Z.of_nat i] with Some bits => Bool.eqb (nth j bits false) b | None => false end) (seq 0 (2 ^ num_bits l)).
(** the joint density of receiving r and the j-th bit of the transmitted label being b, with Gaussian noise of power P *)
Definition bit_density (l : labeling) (K : constellation) (P : R) (priors : list R) (r : list C) (j : nat) (b : bool) : R :=
  Rsum (map (fun i => (nth i priors 0 * noise_density (is_complex K) (dimension K) P (dist2 r (nth i (Const_Model.matrix K) [])))%R) (indices_with l j b)).
(** L-values = labeling.marginalize(constellation.posteriors(received, noise_power, priors)) *)
Definition soft_demodulate (l : labeling) (K : constellation) (received : list C) (P : R) (priors : option (list R)) : option (list BCJR_Model.lval) :=
  match posteriors K received P priors with None => None | Some p => BCJR_Model.marginalize l p end.

(** Antipodal signalling with amplitude A: 0 is sent as -A and 1 as +A (PAMConstellation(2, 2 A) with NaturalLabeling(1)) *)
Definition antipodal (A : Q) (v : list bool) : list Q := map (fun b : bool => if b then A else (- A)%Q) v.
(** squared Euclidean distance of the received values from a signal *)
Fixpoint euclid2 (r s : list Q) : Q := match r, s with x :: r, y :: s => ((x - y) * (x - y) + euclid2 r s)%Q | _, _ => 0%Q end.
(** L-values of antipodal signalling: the received values times a negative constant (C116_antipodal) *)
Definition scaled (a : Q) (r : list Q) : list Q := map (fun x => (- (a * x))%Q) r.
