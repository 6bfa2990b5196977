(** Specification vocabulary for multidimensional arrays. *)
From Verif Require Import Common Array_Model.
Local Open Scope nat_scope.

(** the number of elements fits the shape *)
Definition well_formed {A} (a : array A) : Prop := length (data a) = prod (shape a).
(** [idx] is a multi-index into an array of shape [sh] *)
Definition valid_index (sh idx : list nat) : Prop := Forall2 lt idx sh.
(** position of a multi-index in row-major order *)
Fixpoint ravel (sh idx : list nat) : nat :=
  match sh, idx with
  | _ :: sh', i :: idx' => i * prod sh' + ravel sh' idx'
  | _, _ => 0
  end.
(** a[idx] *)
Definition get {A} (d : A) (a : array A) (idx : list nat) : A := nth (ravel (shape a) idx) (data a) d.
(** a[p, :, q], a line of length [n] *)
Definition line {A} (d : A) (a : array A) (n : nat) (p q : list nat) : list A :=
  map (fun k => get d a (p ++ k :: q)) (seq 0 n).
(** the consecutive blocks of [b] elements of a list *)
Definition blocks {A} (b : nat) (l : list A) : list (list A) :=
  map (fun i => firstn b (skipn (i * b) l)) (seq 0 (length l / b)).
(** every block of every line along the last axis satisfies P *)
Definition all_blocks {A} (d : A) (P : list A -> Prop) (b k : nat) (pre : list nat) (a : array A) : Prop :=
  forall p, valid_index pre p -> Forall P (blocks b (line d a (k * b) p [])).
(** [F] applies [f] to each block of [b] elements along the last axis, for
    arrays with any number of leading axes; each block becomes [m] elements.
    Restricted to arrays whose blocks all satisfy [P]. *)
Definition acts_blockwise {A B} (dA : A) (dB : B) (P : list A -> Prop) (f : list A -> list B) (b m : nat)
  (F : array A -> option (array B)) : Prop :=
  forall pre k a, well_formed a -> shape a = pre ++ [k * b] -> Forall (lt 0) pre -> 0 < k -> all_blocks dA P b k pre a ->
  exists out, F a = Some out /\ well_formed out /\ shape out = pre ++ [k * m] /\
    forall p, valid_index pre p -> line dB out (k * m) p [] = concat (map f (blocks b (line dA a (k * b) p []))).
(** [axis] denotes the axis after [pre] and before [post], counted from the front or from the back *)
Definition is_axis (axis : Z) (pre post : list nat) : Prop :=
  axis = Z.of_nat (length pre) \/ axis = (- Z.of_nat (S (length post)))%Z.
