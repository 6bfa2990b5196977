Set Warnings "-ambiguous-paths".
(** Specification vocabulary for the mean squared quantization error. *)
From Coq Require Import List Reals.
From Coquelicot Require Import Coquelicot.
From Verif Require Import Quant_Model Pulse_Spec.
Local Open Scope R_scope.

(** D is the mean squared error of the quantizer for inputs with density [pdf]:
    the integral of (y - x)^2 pdf(x) over the whole line, where y is the quantized x. *)
Definition is_mse (q : quantizer) (pdf : R -> R) (D : R) : Prop :=
  integral (fun x => (quantize q x - x) ^ 2 * pdf x) D.

(** The thresholds are in increasing order and there is one level more than thresholds. *)
Definition ordered (q : quantizer) : Prop :=
  length (levels q) = S (length (thresholds q)) /\
  forall i j, (i < j < length (thresholds q))%nat -> nth i (thresholds q) 0 <= nth j (thresholds q) 0.

(** [pdf] is continuous on [xmin, xmax] (one-sided at the ends) and zero outside. *)
Definition density_on (pdf : R -> R) (xmin xmax : R) : Prop :=
  (exists g : R -> R, (forall x : R, continuous g x) /\ forall x, xmin <= x <= xmax -> pdf x = g x) /\
  (forall x, x < xmin \/ xmax < x -> pdf x = 0).
