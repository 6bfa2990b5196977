(* Specification for C115: sending bits through a labeling and a constellation, and deciding what arrives. *)
From Coq Require Import Reals.
From Coquelicot Require Import Complex.
From Verif Require Import Common Labeling_Model Const_Model Const_Spec.
Local Open Scope nat_scope.

(** symbols = constellation.indices_to_symbols(labeling.bits_to_indices(bits)) *)
Definition modulate (l : labeling) (K : constellation) (bits : list bool) : option (list C) :=
  match bits_to_indices l bits with None => None | Some indices => indices_to_symbols K indices end.
(** bits = labeling.indices_to_bits(constellation.closest_indices(received)) *)
Definition demodulate (l : labeling) (K : constellation) (received : list C) : option (list bool) :=
  match closest_indices K received with None => None | Some indices => indices_to_bits l (map Z.of_nat indices) end.

(** d is not larger than the distance of any two points *)
Definition spaced (points : list (list C)) (d : R) : Prop :=
  forall i j, i < j < length points -> (d ^ 2 <= dist2 (nth i points []) (nth j points []))%R.
(** the number of symbols that the channel moves by d/2 or more *)
Definition hits (d : R) (sent received : list (list C)) : nat :=
  length (filter (fun sr => if Rle_dec (d ^ 2) (4 * dist2 (fst sr) (snd sr)) then true else false) (combine sent received)).
(** how many decision intervals of width d a displacement x reaches into: 0 below d/2, 1 below 3d/2, ... *)
Definition steps (d x : R) : nat := Z.to_nat (Int_part (Rabs x / d + 1 / 2)).
(** the displacement of a received point from the sent one, in the coordinate system turned by phi turns *)
Definition displacement (phi : R) (sent received : C) : C := Cmult (Cminus received sent) (cos (- (2 * PI * phi)), sin (- (2 * PI * phi)))%R.
(** total over a sequence *)
Definition total_steps (f : C -> C -> nat) (sent received : list C) : nat := list_sum (map (fun sr => f (fst sr) (snd sr)) (combine sent received)).
