(** Multidimensional numpy arrays (row-major data) and the parts of numpy and of
    /repo/src/komm/_util/decorators.py that act on them. *)
From Verif Require Import Common.
Local Open Scope nat_scope.

(** An array: its shape and its elements in row-major ("C") order. *)
Record array (A : Type) := Arr { shape : list nat; data : list A }.
Arguments Arr {A}. Arguments shape {A}. Arguments data {A}.
Definition prod (sh : list nat) : nat := fold_right Nat.mul 1 sh.

(** numpy's normalisation of an axis argument; None = AxisError / IndexError *)
Definition norm_axis (ndim : nat) (axis : Z) : option nat :=
  if (- Z.of_nat ndim <=? axis)%Z && (axis <? Z.of_nat ndim)%Z
  then Some (Z.to_nat (if (axis <? 0)%Z then axis + Z.of_nat ndim else axis)) else None.

(** The line number (o, i) along an axis of length [n] that has [inner] elements after it. *)
Definition flat_line {A} (d : A) (n inner : nat) (l : list A) (o i : nat) : list A :=
  map (fun k => nth ((o * n + k) * inner + i) l d) (seq 0 n).
Definition outer_of (sh : list nat) (ax : nat) : nat := prod (firstn ax sh).
Definition inner_of (sh : list nat) (ax : nat) : nat := prod (skipn (S ax) sh).

(** A numpy operation that maps every line along axis [ax] to a line of length
    [m]: matmul with a matrix on the right, fancy indexing, slicing, ... *)
Definition along {A B} (dA : A) (dB : B) (f : list A -> list B) (m ax : nat) (a : array A) : array B :=
  let n := nth ax (shape a) 0 in
  let inner := inner_of (shape a) ax in
  Arr (firstn ax (shape a) ++ m :: skipn (S ax) (shape a))
      (flat_map (fun o => flat_map (fun k => map (fun i => nth k (f (flat_line dA n inner (data a) o i)) dB) (seq 0 inner))
                                   (seq 0 m))
                (seq 0 (outer_of (shape a) ax))).

Fixpoint sequence {A} (l : list (option A)) : option (list A) :=
  match l with
  | [] => Some []
  | Some x :: l' => match sequence l' with Some r => Some (x :: r) | None => None end
  | None :: _ => None
  end.
(** assignment of a one-dimensional array to a slot of length [m]: numpy broadcasts length 1 *)
Definition broadcast {A} (m : nat) (r : list A) : list A :=
  match r with [x] => repeat x m | _ => r end.

(** numpy.apply_along_axis(f, axis, a); [f] may raise (None).  "Cannot apply_along_axis
    when any iteration dimensions are 0"; the first result fixes the length. *)
Definition apply_along_axis {A B} (dA : A) (dB : B) (f : list A -> option (list B)) (axis : Z) (a : array A) : option (array B) :=
  match norm_axis (length (shape a)) axis with
  | None => None
  | Some ax =>
      let n := nth ax (shape a) 0 in
      let inner := inner_of (shape a) ax in
      match sequence (flat_map (fun o => map (fun i => f (flat_line dA n inner (data a) o i)) (seq 0 inner)) (seq 0 (outer_of (shape a) ax))) with
      | None => None
      | Some [] => None
      | Some (r0 :: rs) =>
          let m := length r0 in
          if forallb (fun r => (length r =? m) || (length r =? 1)) rs
          then Some (along dA dB (fun l => match f l with Some r => broadcast m r | None => [] end) m ax a)
          else None
      end
  end.

(** a.reshape( *pre, -1, *post ); None = ValueError (numpy also refuses to guess when the known sizes multiply to 0) *)
Definition reshape_auto {A} (pre post : list nat) (a : array A) : option (array A) :=
  let known := prod pre * prod post in
  if known =? 0 then None
  else if negb (length (data a) mod known =? 0) then None
  else Some (Arr (pre ++ (length (data a) / known) :: post) (data a)).

(** decorators.py 16-25 *)
Definition vectorize {A B} (dA : A) (dB : B) (f : list A -> option (list B)) (a : array A) : option (array B) :=
  apply_along_axis dA dB f (-1) a.

(** decorators.py 28-48; shape[-1] of a 0-dimensional array is an IndexError, x % 0 a ZeroDivisionError *)
Definition blockwise {A B} (block_size : nat) (func : array A -> option (array B)) (arr : array A) : option (array B) :=
  match rev (shape arr) with
  | [] => None
  | last :: _ =>
      if block_size =? 0 then None
      else if negb (last mod block_size =? 0) then None
      else match reshape_auto (removelast (shape arr)) [block_size] arr with
           | None => None
           | Some blocks =>
               match func blocks with
               | None => None
               | Some processed => reshape_auto (firstn (length (shape processed) - 2) (shape processed)) [] processed
               end
           end
  end.

(** A function that numpy applies to the last axis of an array with any number of leading axes,
    such as [u @ G % 2] or [v[..., idx]]: rows of length [m] come out, nothing is raised. *)
Definition rowwise {A B} (dA : A) (dB : B) (f : list A -> list B) (m : nat) (a : array A) : option (array B) :=
  Some (along dA dB f m (length (shape a) - 1) a).
