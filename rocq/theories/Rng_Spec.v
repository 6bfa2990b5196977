(** What transmitting and sampling mean, and what a program that shares generators should answer. *)
From Coq Require Import Reals.
From Coquelicot Require Import Complex.
From Verif Require Import Common Array_Model Array_Spec Rng_Model.
Local Open Scope nat_scope.

Definition unit_interval (u : R) : Prop := (0 <= u < 1)%R.
(** the symbol that the uniform variate u selects from the weights p: u lies in its share of the total weight *)
Definition selected (p : list R) (u : R) (y : nat) : Prop :=
  y < length p /\ (Rsum (firstn y p) <= u * Rsum p < Rsum (firstn (S y) p))%R.

(** the shape that a caller of emit asks for: nothing means a single symbol in a one-dimensional array *)
Definition requested (s : shape_arg) (sh : list nat) : Prop :=
  (s = ShapeNone /\ sh = [1]) \/ (exists n, s = ShapeInt n /\ sh = [n]) \/ s = ShapeTuple sh.

(** A method that draws one uniform variate for every element, in row-major order, and decides every element on its
    own by [rule input variate output]; the shape is kept. *)
Definition symbolwise {G} (next : G -> R * G) (ok : Z -> Prop) (rule : Z -> R -> Z -> Prop) (T : array Z -> G -> option (array Z) * G) : Prop :=
  forall a g, well_formed a -> Forall ok (data a) -> Forall unit_interval (fst (draws next (prod (shape a)) g)) ->
  exists out, T a g = (Some out, snd (draws next (prod (shape a)) g)) /\ well_formed out /\ shape out = shape a /\
    forall idx, valid_index (shape a) idx -> rule (get 0%Z a idx) (nth (ravel (shape a) idx) (fst (draws next (prod (shape a)) g)) 0%R) (get 0%Z out idx).

(** Two transmissions one after the other give the same symbols as one transmission of the joined sequence. *)
Definition streams {G A} (T : array A -> G -> option (array A) * G) : Prop := forall x y g,
  T (Arr [length (x ++ y)] (x ++ y)) g =
  match T (Arr [length x] x) g with
  | (None, g1) => (None, g1)
  | (Some ox, g1) => match T (Arr [length y] y) g1 with
                     | (None, g2) => (None, g2)
                     | (Some oy, g2) => (Some (Arr [length (data ox ++ data oy)] (data ox ++ data oy)), g2)
                     end
  end.

(** Expectations: linear functionals.  [white E z n]: the first n variates have mean 0, variance 1 and are uncorrelated. *)
Definition linear {O : Type} (E : (O -> R) -> R) : Prop :=
  (forall f h, (forall w, f w = h w) -> E f = E h) /\ forall a b f h, E (fun w => (a * f w + b * h w)%R) = (a * E f + b * E h)%R.
Definition white {O : Type} (E : (O -> R) -> R) (z : O -> nat -> R) (n : nat) : Prop :=
  (forall i, i < n -> E (fun w => z w i) = 0%R) /\
  forall i j, i < n -> j < n -> E (fun w => (z w i * z w j)%R) = if i =? j then 1%R else 0%R.
(** the generator whose normal variates are z 0, z 1, ...; its state is the number of variates already drawn *)
Definition playback (u z : nat -> R) : generator nat := {| next_uniform := fun k => (u k, S k); next_normal := fun k => (z k, S k) |}.

(** *** Programs *)
(** For every operation: which generator, device and request it uses, if it is a call.  This only follows the
    references: objects keep the generator that they were built with. *)
Fixpoint requests {G} (os : list (op G)) (global : nat) (objs : list (device * nat)) : list (option (nat * device * request)) :=
  match os with
  | [] => []
  | NewGenerator _ :: os => None :: requests os global objs
  | SetGlobal k :: os => None :: requests os k objs
  | Construct d rng :: os =>
      None :: requests os global (if accepts d then objs ++ [(d, match rng with None => global | Some k => k end)] else objs)
  | Call i q :: os => (match nth_error objs i with Some (d, k) => Some (k, d, q) | None => None end) :: requests os global objs
  end.
Definition uses (k : nat) (x : option (nat * device * request)) : bool := match x with Some (j, _, _) => j =? k | None => false end.
(** the requests that use generator k, in order *)
Definition script {G} (k : nat) (os : list (op G)) (w : world G) : list (device * request) :=
  flat_map (fun x => match x with Some (j, d, q) => if j =? k then [(d, q)] else [] | None => [] end) (requests os (global w) (objects w)).
(** the answers to them *)
Definition answers_of {G} (k : nat) (os : list (op G)) (w : world G) (vs : list (option value)) : list (option value) :=
  map snd (filter (fun xv => uses k (fst xv)) (combine (requests os (global w) (objects w)) vs)).
(** the generators in order of creation, with their initial states *)
Definition seeds {G} (os : list (op G)) : list G := flat_map (fun o => match o with NewGenerator g => [g] | _ => [] end) os.
(** a generator used for nothing else than the given requests *)
Fixpoint alone {G} (r : generator G) (l : list (device * request)) (g : G) : list (option value) * G :=
  match l with
  | [] => ([], g)
  | (d, q) :: l => let '(v, g1) := call r d q g in let '(vs, g2) := alone r l g1 in (v :: vs, g2)
  end.
(** no dangling references *)
Definition sound {G} (w : world G) : Prop := global w < length (gens w) /\ Forall (fun dk => snd dk < length (gens w) /\ accepts (fst dk) = true) (objects w).
