(** Random channels and sources as programs that draw from a generator, and the objects that share generators:
    /repo/src/komm/_channels/*.py (constructors and transmit), /repo/src/komm/_sources/DiscreteMemorylessSource.py,
    /repo/src/komm/_sources/MarkovChain.py (constructor and simulate), /repo/src/komm/_util/global_rng.py,
    /repo/src/komm/_util/validators.py.
    Floating point is exact real arithmetic.  A numpy Generator is a state together with two functions that return the
    next uniform and the next standard normal variate; nothing is assumed about them here.  Arrays of symbols have
    integer elements. *)
From Coq Require Import Reals.
From Coquelicot Require Import Complex.
From Verif Require Import Common Quant_Model Array_Model NdMaps_Model.
Local Open Scope nat_scope.

Definition Rsum (l : list R) : R := fold_right Rplus 0%R l.

(** numpy.random.Generator: random() and standard_normal() *)
Record generator (G : Type) := { next_uniform : G -> R * G; next_normal : G -> R * G }.
Arguments next_uniform {G}. Arguments next_normal {G}.

(** What a public method does: a result or an exception (None), and the new state of the generator. *)
Fixpoint draws {G} (next : G -> R * G) (n : nat) (g : G) : list R * G :=
  match n with
  | 0 => ([], g)
  | S n => let '(x, g1) := next g in let '(l, g2) := draws next n g1 in (x :: l, g2)
  end.

(** *** Validation, validators.py *)
(** np.isclose(x, 1.0): |x - 1| <= atol + rtol * 1, atol = 1e-8, rtol = 1e-5 *)
Definition close_to_one (x : R) : bool := Rleb (Rabs (x - 1)) (1 / 10 ^ 8 + 1 / 10 ^ 5).
(** validate_probability, 18-21 *)
Definition valid_probability (p : R) : bool := Rleb 0 p && Rleb p 1.
(** validate_pmf (joint=False), 24-41, of a one-dimensional array *)
Definition valid_pmf (p : list R) : bool := forallb (Rleb 0) p && close_to_one (Rsum p).
(** validate_transition_matrix, 44-62, of a rectangular array with [cols] columns *)
Definition valid_matrix (square : bool) (W : list (list R)) (cols : nat) : bool :=
  forallb (fun row => length row =? cols) W && forallb (forallb (Rleb 0)) W && forallb (fun row => close_to_one (Rsum row)) W &&
  (negb square || (length W =? cols)).

(** *** numpy's Generator.choice(n, p=p, size): the sum of p is tested with the tolerance sqrt(eps) = 2^-26;
    then cdf = cumsum(p) / sum(p) and cdf.searchsorted(random(size), side="right") *)
Definition choice_accepts (p : list R) : bool := Rleb (Rabs (Rsum p - 1)) (1 / 2 ^ 26).
Definition searchsorted (p : list R) (u : R) : nat :=
  length (filter (fun k => Rleb (Rsum (firstn (S k) p) / Rsum p) u) (seq 0 (length p))).
Definition choice {G} (r : generator G) (p : list R) (g : G) : option nat * G :=
  if choice_accepts p then let '(u, g') := next_uniform r g in (Some (searchsorted p u), g') else (None, g).
Definition choice_nd {G} (r : generator G) (p : list R) (sh : list nat) (g : G) : option (array Z) * G :=
  if choice_accepts p
  then let '(us, g') := draws (next_uniform r) (prod sh) g in (Some (Arr sh (map (fun u => Z.of_nat (searchsorted p u)) us)), g')
  else (None, g).

(** *** Discrete channels *)
Definition zip_nd {A B D} (f : A -> B -> D) (a : array A) (l : list B) : array D := Arr (shape a) (map (fun '(x, y) => f x y) (combine (data a) l)).
Definition b2z (b : bool) : Z := if b then 1%Z else 0%Z.
(** BinarySymmetricChannel.py 114-117 *)
Definition bsc_transmit {G} (r : generator G) (p : R) (a : array Z) (g : G) : option (array Z) * G :=
  let '(us, g') := draws (next_uniform r) (prod (shape a)) g in
  (Some (zip_nd (fun x u => ((x + b2z (Rltb u p)) mod 2)%Z) a us), g').
(** BinaryErasureChannel.py 113-118 *)
Definition bec_transmit {G} (r : generator G) (e : R) (a : array Z) (g : G) : option (array Z) * G :=
  let '(us, g') := draws (next_uniform r) (prod (shape a)) g in
  (Some (zip_nd (fun x u => if Rltb u e then 2%Z else x) a us), g').
(** ZChannel.py 117-120 *)
Definition z_transmit {G} (r : generator G) (p : R) (a : array Z) (g : G) : option (array Z) * G :=
  let '(us, g') := draws (next_uniform r) (prod (shape a)) g in
  (Some (zip_nd (fun x u => (x * b2z (Rleb p u))%Z) a us), g').
(** DiscreteMemorylessChannel.py 108-114: np.ndenumerate goes through the elements in row-major order;
    transition_matrix[symbol] counts negative symbols from the end; an exception leaves the earlier draws spent *)
Fixpoint dmc_loop {G} (r : generator G) (W : list (list R)) (l : list Z) (g : G) : option (list Z) * G :=
  match l with
  | [] => (Some [], g)
  | x :: l =>
      if index_ok (length W) x then
        match choice r (nth (wrap (length W) x) W []) g with
        | (None, g1) => (None, g1)
        | (Some y, g1) => match dmc_loop r W l g1 with
                          | (None, g2) => (None, g2)
                          | (Some ys, g2) => (Some (Z.of_nat y :: ys), g2)
                          end
        end
      else (None, g)
  end.
Definition dmc_transmit {G} (r : generator G) (W : list (list R)) (a : array Z) (g : G) : option (array Z) * G :=
  match dmc_loop r W (data a) g with
  | (None, g') => (None, g')
  | (Some l, g') => (Some (Arr (shape a) l), g')
  end.

(** *** GaussianChannel.py 62-78 *)
Definition gaussian_real {G} (r : generator G) (P : R) (a : array R) (g : G) : option (array R) * G :=
  let '(zs, g') := draws (next_normal r) (prod (shape a)) g in
  (Some (zip_nd (fun x z => (x + (0 + sqrt P * z))%R) a zs), g').
(** noise_ri has the shape ( *input.shape, 2) *)
Definition gaussian_complex {G} (r : generator G) (P : R) (a : array C) (g : G) : option (array C) * G :=
  let '(zs, g') := draws (next_normal r) (prod (shape a ++ [2])) g in
  let noise_ri := map (fun z => (0 + sqrt (P / 2) * z)%R) zs in
  let noise := map (fun i => Cplus (RtoC (nth (2 * i) noise_ri 0%R)) (Cmult Ci (RtoC (nth (2 * i + 1) noise_ri 0%R)))) (seq 0 (prod (shape a))) in
  (Some (zip_nd Cplus a noise), g').

(** *** Sources *)
(** DiscreteMemorylessSource.py 119-123; the argument shape is None, an int or a tuple *)
Inductive shape_arg := ShapeNone | ShapeInt (n : nat) | ShapeTuple (sh : list nat).
Definition emit_shape (s : shape_arg) : list nat := match s with ShapeNone => [1] | ShapeInt n => [n] | ShapeTuple sh => sh end.
Definition emit {G} (r : generator G) (pmf : list R) (s : shape_arg) (g : G) : option (array Z) * G := choice_nd r pmf (emit_shape s) g.
(** MarkovChain.py 656-662: the next state is drawn in every step, also after the last output *)
Fixpoint simulate {G} (r : generator G) (P : list (list R)) (state : Z) (steps : nat) (g : G) : option (list Z) * G :=
  match steps with
  | 0 => (Some [], g)
  | S n =>
      if index_ok (length P) state then
        match choice r (nth (wrap (length P) state) P []) g with
        | (None, g1) => (None, g1)
        | (Some y, g1) => match simulate r P (Z.of_nat y) n g1 with
                          | (None, g2) => (None, g2)
                          | (Some l, g2) => (Some (state :: l), g2)
                          end
        end
      else (None, g)
  end.

(** *** Objects *)
Inductive device :=
| BSC (p : R) | BEC (e : R) | ZChannel (p : R) | DMC (W : list (list R)) | Gaussian (noise_power : R)
| Source (pmf : list R) | Chain (P : list (list R)).
(** the constructors: BinarySymmetricChannel.py 32, BinaryErasureChannel.py 28, ZChannel.py 32, DiscreteMemorylessChannel.py 26,
    GaussianChannel.py 34, DiscreteMemorylessSource.py 33, MarkovChain.py 48-50; false = ValueError *)
Definition accepts (d : device) : bool :=
  match d with
  | BSC p | BEC p | ZChannel p => valid_probability p
  | DMC W => valid_matrix false W (length (nth 0 W []))
  | Gaussian P => Rleb 0 P
  | Source pmf => valid_pmf pmf
  | Chain P => valid_matrix true P (length (nth 0 P []))
  end.
Inductive request := Transmit (a : array Z) | TransmitReal (a : array R) | TransmitComplex (a : array C) | Emit (s : shape_arg) | Simulate (state : Z) (steps : nat).
Inductive value := VInts (a : array Z) | VReals (a : array R) | VComplexes (a : array C).
Definition answer {G} {A} (f : A -> value) (x : option A * G) : option value * G := (option_map f (fst x), snd x).
(** a public method call; a request that does not fit the class is an exception that draws nothing *)
Definition call {G} (r : generator G) (d : device) (q : request) (g : G) : option value * G :=
  match d, q with
  | BSC p, Transmit a => answer VInts (bsc_transmit r p a g)
  | BEC e, Transmit a => answer VInts (bec_transmit r e a g)
  | ZChannel p, Transmit a => answer VInts (z_transmit r p a g)
  | DMC W, Transmit a => answer VInts (dmc_transmit r W a g)
  | Gaussian P, TransmitReal a => answer VReals (gaussian_real r P a g)
  | Gaussian P, TransmitComplex a => answer VComplexes (gaussian_complex r P a g)
  | Source pmf, Emit s => answer VInts (emit r pmf s g)
  | Chain P, Simulate s n => answer (fun l => VInts (Arr [length l] l)) (simulate r P s n g)
  | _, _ => (None, g)
  end.

(** The program state: the generators that were created, the one that global_rng holds (global_rng.py 3, _rng),
    and the objects, each with a reference to its generator. *)
Record world (G : Type) := World { gens : list G; global : nat; objects : list (device * nat) }.
Arguments World {G}. Arguments gens {G}. Arguments global {G}. Arguments objects {G}.
Inductive op (G : Type) :=
| NewGenerator (seed : G)                          (* np.random.default_rng(...) *)
| SetGlobal (k : nat)                              (* komm.global_rng.set(generator number k) *)
| Construct (d : device) (rng : option nat)        (* rng=None: the default, global_rng.get() at construction time *)
| Call (i : nat) (q : request).                    (* a method of object number i *)
Arguments NewGenerator {G}. Arguments SetGlobal {G}. Arguments Construct {G}. Arguments Call {G}.
Definition set_nth {A} (i : nat) (x : A) (l : list A) : list A := firstn i l ++ x :: skipn (S i) l.
(** None: the operation is not possible in this program (a reference that does not exist). Otherwise the answer
    (None = an exception, or nothing to return) and the new program state. *)
Definition run_op {G} (r : generator G) (o : op G) (w : world G) : option (option value * world G) :=
  match o with
  | NewGenerator g => Some (None, World (gens w ++ [g]) (global w) (objects w))
  | SetGlobal k => if k <? length (gens w) then Some (None, World (gens w) k (objects w)) else None
  | Construct d rng =>
      let k := match rng with None => global w | Some k => k end in
      if k <? length (gens w)
      then Some (None, if accepts d then World (gens w) (global w) (objects w ++ [(d, k)]) else w)
      else None
  | Call i q =>
      match nth_error (objects w) i with
      | None => None
      | Some (d, k) =>
          match nth_error (gens w) k with
          | None => None
          | Some g => let '(v, g') := call r d q g in Some (v, World (set_nth k g' (gens w)) (global w) (objects w))
          end
      end
  end.
Fixpoint run {G} (r : generator G) (os : list (op G)) (w : world G) : option (list (option value) * world G) :=
  match os with
  | [] => Some ([], w)
  | o :: os => match run_op r o w with
               | None => None
               | Some (v, w1) => match run r os w1 with None => None | Some (vs, w2) => Some (v :: vs, w2) end
               end
  end.
