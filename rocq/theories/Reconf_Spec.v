(** What a program has done to an object, read off the list of its statements. *)
From Coq Require Import Reals.
From Verif Require Import Common Reconf_Model.
Local Open Scope nat_scope.

(** the value of the channel's parameter after the statements: the last one assigned *)
Fixpoint parameter (p : R) (os : list cop) : R :=
  match os with [] => p | SetParameter q :: os => parameter q os | _ :: os => parameter p os end.
(** its value when transition_matrix was first read; if it was not, its value at the end *)
Fixpoint parameter_at_first_read (p : R) (os : list cop) : R :=
  match os with [] => p | SetParameter q :: os => parameter_at_first_read q os | TransitionMatrix :: _ => p | _ :: os => parameter_at_first_read p os end.

(** attributes of a quantizer after the statements *)
Definition attributes : Type := nat * R * R.
Fixpoint attrs (a : attributes) (os : list uop) : attributes :=
  match os with
  | [] => a
  | op :: os => let '(L, s, d) := a in
      attrs (match op with SetLevels L' => (L', s, d) | SetStep s' => (L, s', d) | SetOffset d' => (L, s, d') | _ => a end) os
  end.
Definition assigns (op : uop) : bool := match op with SetLevels _ | SetStep _ | SetOffset _ => true | _ => false end.
(** the statements before the first one that needs the levels (every statement but an assignment needs them) *)
Fixpoint before_first_read (os : list uop) : list uop :=
  match os with [] => [] | op :: os => if assigns op then op :: before_first_read os else [] end.
(** the statements before the first one that needs the thresholds *)
Definition needs_thresholds (op : uop) : bool := match op with Thresholds | Digitize _ | Quantize _ => true | _ => false end.
Fixpoint before_thresholds (os : list uop) : list uop :=
  match os with [] => [] | op :: os => if needs_thresholds op then [] else op :: before_thresholds os end.
