(** Labelings and constellations on arrays with any number of axes:
    /repo/src/komm/_labelings/base.py, NaturalLabeling.py, ReflectedLabeling.py and
    /repo/src/komm/_constellations/*.py, on top of the arrays of Array_Model.
    None = an exception.  The one-dimensional methods are in Labeling_Model, BCJR_Model (marginalize)
    and Const_Model; here the shapes and the reshapes of the code are kept. *)
From Coq Require Import Reals.
From Coquelicot Require Import Complex.
From Verif Require Import Common Bits_Model Labeling_Model Conv_Model BCJR_Model Const_Model Array_Model.
Local Open Scope nat_scope.

(** x.reshape( *sh[:-1], -1 ); sh[:-1] of the empty shape is the empty shape *)
Definition reshape_like {A} (sh : list nat) (x : array A) : option (array A) := reshape_auto (removelast sh) [] x.
(** table[indices], numpy integer-array indexing of a two-dimensional array with rows of length n:
    negative indices count from the end, others out of range are an IndexError *)
Definition wrap (len : nat) (i : Z) : nat := Z.to_nat (if (i <? 0)%Z then i + Z.of_nat len else i).
Definition index_ok (len : nat) (i : Z) : bool := (- Z.of_nat len <=? i)%Z && (i <? Z.of_nat len)%Z.
Definition fancy {A} (table : list (list A)) (n : nat) (indices : array Z) : option (array A) :=
  if forallb (index_ok (length table)) (data indices)
  then Some (Arr (shape indices ++ [n]) (flat_map (fun i => nth (wrap (length table) i) table []) (data indices)))
  else None.
(** numpy.apply_along_axis(g, -1, a) for a function g that returns a scalar: the axis disappears *)
Definition apply_scalar {A B} (dA : A) (dB : B) (g : list A -> option B) (a : array A) : option (array B) :=
  match apply_along_axis dA dB (fun l => option_map (fun x => [x]) (g l)) (-1) a with
  | None => None
  | Some r => Some (Arr (removelast (shape r)) (data r))
  end.
(** an element-by-element (ufunc) operation *)
Definition elementwise {A B} (g : A -> B) (a : array A) : array B := Arr (shape a) (map g (data a)).

(** *** Labelings *)
(** bit_operations.py, int_to_bits, bit_order="MSB-first": lines "if np.ndim(input) == 0 ..." (shape (width,)) and
    "bits.reshape(input.shape + (width,))" give the same thing *)
Definition int_to_bits_nd (width : nat) (a : array Z) : array bool :=
  Arr (shape a ++ [width]) (flat_map (fun i => z_to_bits i width) (data a)).
(** _labelings/base.py 56-61 *)
Definition base_i2b_nd (l : labeling) (indices : array Z) : option (array bool) :=
  if negb (forallb (fun i => (0 <=? i)%Z && (i <? Z.of_nat (cardinality l))%Z) (data indices)) then None
  else match fancy (Labeling_Model.matrix l) (num_bits l) indices with
       | None => None
       | Some bits => reshape_like (shape indices) bits
       end.
(** _labelings/base.py 74-88.  The elements are bits: the test of line 81 always passes. *)
Definition base_b2i_nd (l : labeling) (bits : array bool) : option (array nat) :=
  let m := num_bits l in
  match rev (shape bits) with
  | [] => None                                        (* IndexError *)
  | last :: _ =>
      if m =? 0 then None                             (* ZeroDivisionError *)
      else if negb (last mod m =? 0) then None
      else match reshape_auto (removelast (shape bits)) [m] bits with
           | None => None
           | Some arr =>
               match apply_scalar false 0 (dict_get (inverse_mapping (Labeling_Model.matrix l))) arr with
               | None => None
               | Some indices => reshape_like (shape bits) indices
               end
           end
  end.
(** NaturalLabeling.py 84-87 *)
Definition natural_i2b_nd (m : nat) (indices : array Z) : option (array bool) :=
  reshape_like (shape indices) (int_to_bits_nd m indices).
(** bits_to_int of a two-dimensional array, bit_operations.py, last line *)
Definition bits_to_int_rows (a : array bool) : option (array N) :=
  apply_scalar false 0%N (fun l => Some (bits_to_int l MSB_first)) a.
(** NaturalLabeling.py 99-103 *)
Definition natural_b2i_nd (m : nat) (bits : array bool) : option (array nat) :=
  match reshape_auto [] [m] bits with
  | None => None
  | Some arr => match bits_to_int_rows arr with
                | None => None
                | Some indices => reshape_like (shape bits) (elementwise N.to_nat indices)
                end
  end.
(** ReflectedLabeling.py 83-86 *)
Definition reflected_i2b_nd (m : nat) (indices : array Z) : option (array bool) :=
  reshape_like (shape indices) (int_to_bits_nd m (elementwise (fun i => Z.lxor i (Z.shiftr i 1)) indices)).
(** ReflectedLabeling.py 98-104 *)
Definition reflected_b2i_nd (m : nat) (bits : array bool) : option (array nat) :=
  match reshape_auto [] [m] bits with
  | None => None
  | Some arr => match bits_to_int_rows arr with
                | None => None
                | Some nat_indices => reshape_like (shape bits) (elementwise (fun n => N.to_nat (ungray m n)) nat_indices)
                end
  end.
Definition indices_to_bits_nd (l : labeling) : array Z -> option (array bool) :=
  match l with
  | NaturalLabeling m => natural_i2b_nd m
  | ReflectedLabeling m => reflected_i2b_nd m
  | _ => base_i2b_nd l
  end.
Definition bits_to_indices_nd (l : labeling) : array bool -> option (array nat) :=
  match l with
  | NaturalLabeling m => natural_b2i_nd m
  | ReflectedLabeling m => reflected_b2i_nd m
  | _ => base_b2i_nd l
  end.
(** _labelings/base.py 104-116; [m @ mask0] and [m @ mask1] act on the last axis *)
Definition marginalize_nd (l : labeling) (metrics : array R) : option (array lval) :=
  let M := cardinality l in
  match rev (shape metrics) with
  | [] => None
  | last :: _ =>
      if M =? 0 then None
      else if negb (last mod M =? 0) then None
      else match reshape_auto (removelast (shape metrics)) [M] metrics with
           | None => None
           | Some m =>
               match rowwise 0%R NaN (marginalize_row (Labeling_Model.matrix l) (num_bits l)) (num_bits l) m with
               | None => None
               | Some lvalues => reshape_like (shape metrics) lvalues
               end
           end
  end.

(** *** Constellations *)
(** the classes of _constellations, with their constructor arguments *)
Inductive kind :=
| Base (complex : bool) (dim : nat) (m : list (list C))
| PAM (M : nat) (delta : R) | QAM (Mi Mq : nat) (di dq phi : R) | ASK (M : nat) (A phi : R) | PSK (M : nat) (A phi : R)
| APSK (rings : list (nat * R * R)) | CrossQAM (M : nat) (delta phi : R)
| Orthogonal (M : nat) (A : R) | Simplex (M : nat) (A : R) | Biorthogonal (M : nat) (A : R).
Definition build (k : kind) : option constellation :=
  match k with
  | Base c d m => Some (Constellation c d m)
  | PAM M d => Some (PAMConstellation M d)
  | QAM Mi Mq di dq phi => Some (QAMConstellation Mi Mq di dq phi)
  | ASK M A phi => Some (ASKConstellation M A phi)
  | PSK M A phi => Some (PSKConstellation M A phi)
  | APSK rings => Some (APSKConstellation rings)
  | CrossQAM M d phi => CrossQAMConstellation M d phi
  | Orthogonal M A => Some (OrthogonalConstellation M A)
  | Simplex M A => Some (SimplexConstellation M A)
  | Biorthogonal M A => BiorthogonalConstellation M A
  end.

(** _constellations/base.py 119-121 *)
Definition symbols_nd (K : constellation) (indices : array Z) : option (array C) :=
  match fancy (Const_Model.matrix K) (dimension K) indices with
  | None => None
  | Some s => reshape_like (shape indices) s
  end.
(** the same call on a one-dimensional array *)
Definition symbols_1d (K : constellation) (indices : list Z) : option (list C) :=
  if forallb (index_ok (length (Const_Model.matrix K))) indices
  then Some (concat (map (fun i => nth (wrap (length (Const_Model.matrix K)) i) (Const_Model.matrix K) []) indices)) else None.
(** received.reshape(-1, N), as the list of its rows *)
Definition rows_of {A} (N : nat) (a : array A) : option (list (list A)) :=
  match reshape_auto [] [N] a with None => None | Some r => Some (reshape N (data r)) end.
(** base.py 50-58 *)
Definition validate_received (N : nat) (received : array C) : bool :=
  match rev (shape received) with [] => false | last :: _ => negb (N =? 0) && (last mod N =? 0) end.
(** an argmin or argmax over the rows of received.reshape(-1, N), reshaped like the input:
    OrthogonalConstellation.py 156-159, SimplexConstellation.py 154-157, BiorthogonalConstellation.py 167-173 *)
Definition reshaped_closest (K : constellation) (received : array C) : option (array nat) :=
  match rows_of (dimension K) received with
  | None => None
  | Some r => reshape_like (shape received) (Arr [length r] (map (closest K) r))
  end.
(** base.py 138-142, used by Constellation, APSKConstellation and CrossQAMConstellation *)
Definition validated_closest (K : constellation) (received : array C) : option (array nat) :=
  if validate_received (dimension K) received then reshaped_closest K received else None.
(** PAMConstellation.py 153-157, QAMConstellation.py 201-211, ASKConstellation.py 167-171, PSKConstellation.py 163-166 *)
Definition elementwise_closest (K : constellation) (received : array C) : option (array nat) :=
  Some (elementwise (fun z => closest K [z]) received).
Definition closest_indices_nd (k : kind) (K : constellation) : array C -> option (array nat) :=
  match k with
  | PAM _ _ | QAM _ _ _ _ _ | ASK _ _ _ | PSK _ _ _ => elementwise_closest K
  | Orthogonal _ _ | Simplex _ _ | Biorthogonal _ _ => reshaped_closest K
  | Base _ _ _ | APSK _ | CrossQAM _ _ _ => validated_closest K
  end.
(** base.py 155-158 *)
Definition closest_symbols_nd (k : kind) (K : constellation) (received : array C) : option (array C) :=
  match closest_indices_nd k K received with
  | None => None
  | Some indices => match symbols_nd K (elementwise Z.of_nat indices) with
                    | None => None
                    | Some s => reshape_like (shape received) s
                    end
  end.
(** base.py 182-192 *)
Definition posteriors_nd (K : constellation) (received : array C) (noise_power : R) (priors : option (list R)) : option (array R) :=
  let priors := match priors with None => map (fun _ => (1 / INR (order K))%R) (seq 0 (order K)) | Some p => p end in
  if negb (valid_priors K priors) then None
  else if negb (validate_received (dimension K) received) then None
  else match rows_of (dimension K) received with
       | None => None
       | Some r =>
           let p := map (posterior_row K noise_power priors) r in
           reshape_like (shape received) (Arr [length r; order K] (concat p))
       end.
