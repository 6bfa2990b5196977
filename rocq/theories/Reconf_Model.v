(** Objects whose public attributes are assigned after construction.
    /repo/src/komm/_channels/BinarySymmetricChannel.py 15-117, BinaryErasureChannel.py 15-118, ZChannel.py 15-120:
    plain (not frozen) dataclasses with one numerical attribute; transition_matrix is a cached_property, the other
    methods read the attribute.  /repo/src/komm/_quantization/UniformQuantizer.py 49-56, 116-143, 171-187:
    num_levels, step and offset are plain attributes, levels and thresholds are cached properties.
    functools.cached_property stores the value in the object; nothing ever removes it; an assignment of an attribute
    runs no check (__post_init__ / __init__ run only at construction).
    Simplifications: real numbers for floats; the rng attribute is not reassigned (that is C104); the matrix and the
    arrays that are handed out are not written into (that is C101). *)
From Coq Require Import Reals.
From Verif Require Import Common Quant_Model Array_Model NdMaps_Model Info_Model Rng_Model.
Local Open Scope nat_scope.

Inductive kind := KBSC | KBEC | KZ.
Record channel := Chan { ch_kind : kind; ch_p : R; ch_matrix : option (list (list R)) }.
(** __post_init__: validate_probability (BinarySymmetricChannel.py 31-32, BinaryErasureChannel.py 27-28, ZChannel.py 31-32) *)
Definition new_channel (k : kind) (p : R) : option channel := if validate_probability p then Some (Chan k p None) else None.
(** the bodies of transition_matrix, mutual_information, capacity, transmit *)
Definition matrix_body (k : kind) : R -> list (list R) :=
  match k with KBSC => Info_Model.bsc_matrix | KBEC => Info_Model.bec_matrix | KZ => Info_Model.z_matrix end.
Definition mi_body (k : kind) (tol p : R) (b : log_base) (pmf : list R) : option R :=
  match k with
  | KBSC => bsc_mutual_information tol p b pmf
  | KBEC => bec_mutual_information tol p b pmf
  | KZ => z_mutual_information tol p b pmf
  end.
Definition capacity_body (k : kind) (p : R) (b : log_base) : option R :=
  match k with KBSC => bsc_capacity p b | KBEC => bec_capacity p b | KZ => z_capacity p b end.
Definition transmit_body {G} (k : kind) (r : generator G) (p : R) (a : array Z) (g : G) : option (array Z) * G :=
  match k with KBSC => bsc_transmit r p a g | KBEC => bec_transmit r p a g | KZ => z_transmit r p a g end.

Inductive cop := SetParameter (p : R) | TransitionMatrix | MutualInformation (b : log_base) (pmf : list R) | Capacity (b : log_base) | TransmitArray (a : array Z).
Inductive cres := Assigned | Matrix (m : list (list R)) | Number (x : option R) | Symbols (x : option (array Z)).
(** one statement of the user's program; the state is the object and its generator *)
Definition cstep {G} (r : generator G) (tol : R) (o : cop) (s : channel * G) : cres * (channel * G) :=
  let '(c, g) := s in
  match o with
  | SetParameter p => (Assigned, (Chan (ch_kind c) p (ch_matrix c), g))
  | TransitionMatrix =>
      match ch_matrix c with
      | Some m => (Matrix m, (c, g))
      | None => let m := matrix_body (ch_kind c) (ch_p c) in (Matrix m, (Chan (ch_kind c) (ch_p c) (Some m), g))
      end
  | MutualInformation b pmf => (Number (mi_body (ch_kind c) tol (ch_p c) b pmf), (c, g))
  | Capacity b => (Number (capacity_body (ch_kind c) (ch_p c) b), (c, g))
  | TransmitArray a => let '(y, g') := transmit_body (ch_kind c) r (ch_p c) a g in (Symbols y, (c, g'))
  end.
Fixpoint crun {G} (r : generator G) (tol : R) (os : list cop) (s : channel * G) : channel * G :=
  match os with [] => s | o :: os => crun r tol os (snd (cstep r tol o s)) end.

(** the uniform quantizer *)
Record uobj := UObj { u_L : nat; u_step : R; u_offset : R; u_levels : option (list R); u_thresholds : option (list R) }.
(** UniformQuantizer.py 49-56 *)
Definition new_uniform (L : nat) (step offset : R) : option uobj :=
  if Nat.leb L 1 then None else if Rltb 0 step then Some (UObj L step offset None None) else None.
(** 116-129 *)
Definition read_levels (o : uobj) : list R * uobj :=
  match u_levels o with
  | Some y => (y, o)
  | None => let y := uniform_levels (u_L o) (u_step o) (u_offset o) in (y, UObj (u_L o) (u_step o) (u_offset o) (Some y) (u_thresholds o))
  end.
(** 131-143: (self.levels + self.step / 2)[:-1] *)
Definition read_thresholds (o : uobj) : list R * uobj :=
  match u_thresholds o with
  | Some t => (t, o)
  | None =>
      let '(y, o1) := read_levels o in
      let t := removelast (map (fun v => (v + u_step o1 / 2)%R) y) in
      (t, UObj (u_L o1) (u_step o1) (u_offset o1) (u_levels o1) (Some t))
  end.
Inductive uop := SetLevels (L : nat) | SetStep (s : R) | SetOffset (d : R) | Levels | Thresholds | Digitize (x : R) | Quantize (x : R).
Inductive ures := UAssigned | Values (l : list R) | Index (i : nat) | Value (v : R).
(** 171-187 and base.py 36-52: quantize is self.levels[self.digitize(input)], levels first.  np.digitize counts the
    thresholds <= x when they are non-decreasing, which they are for positive steps; a step assigned later does not
    change their order, because it moves all thresholds by the same amount. *)
Definition ustep (op : uop) (o : uobj) : ures * uobj :=
  match op with
  | SetLevels L => (UAssigned, UObj L (u_step o) (u_offset o) (u_levels o) (u_thresholds o))
  | SetStep s => (UAssigned, UObj (u_L o) s (u_offset o) (u_levels o) (u_thresholds o))
  | SetOffset d => (UAssigned, UObj (u_L o) (u_step o) d (u_levels o) (u_thresholds o))
  | Levels => let '(y, o) := read_levels o in (Values y, o)
  | Thresholds => let '(t, o) := read_thresholds o in (Values t, o)
  | Digitize x => let '(t, o) := read_thresholds o in (Index (length (filter (fun v => Rleb v x) t)), o)
  | Quantize x =>
      let '(y, o) := read_levels o in
      let '(t, o) := read_thresholds o in
      (Value (nth (length (filter (fun v => Rleb v x) t)) y 0%R), o)
  end.
Fixpoint urun (os : list uop) (o : uobj) : uobj := match os with [] => o | op :: os => urun os (snd (ustep op o)) end.
