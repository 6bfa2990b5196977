(* Histories of calls by a caller who does not write into arrays that the library owns, and the
   answers such a caller should get.  Only the public operations are mentioned: [exec] (one call),
   the arrays themselves, and the values of the methods of a code as functions of the code. *)
From Verif Require Import Common Vec_Model LinAlg_Model BlockCode_Model Array_Model Nd_Model History_Model.
Local Open Scope nat_scope.

(* an array has as many elements as its shape says *)
Definition proper (x : array bool) : Prop := length (data x) = prod (shape x).

(* the code defined by a matrix *)
Definition code_from (from_generator : bool) (n : nat) (M : mat) : option block_code :=
  if from_generator then code_of_generator n M else code_of_check n M.

(* what the caller sees of the result of a call: a number, or the content of the array it gets *)
Inductive answer := ANumber (n : nat) | AArray (c : cell).
Definition seen (r : option value * world) : option answer :=
  match fst r with
  | Some (VNat n) => Some (ANumber n)
  | Some (VRef a) => option_map AArray (nth_error (w_heap (snd r)) a)
  | _ => None
  end.

(* the array the caller passes, and the answer a code C should give: the value of the method, as a
   function of C and of that array only *)
Definition input (h : heap) (a : nat) : option (array bool) :=
  match nth_error h a with Some (Bits x) => Some x | _ => None end.
Definition apply_to (h : heap) (a : nat) (f : array bool -> option (array bool)) : option answer :=
  match input h a with
  | Some x => option_map (fun y => AArray (Bits y)) (f x)
  | None => None
  end.
Definition expected (C : block_code) (h : heap) (q : query) : option answer :=
  match q with
  | QLength => Some (ANumber (bc_n C))
  | QDimension => Some (ANumber (bc_k C))
  | QRedundancy => Some (ANumber (bc_m C))
  | QGeneratorMatrix => Some (AArray (Bits (array_of_mat (bc_n C) (bc_G C))))
  | QRightInverse => Some (AArray (Bits (array_of_mat (bc_k C) (bc_Ginv C))))
  | QCheckMatrix => Some (AArray (Bits (array_of_mat (bc_n C) (bc_H C))))
  | QEncode a => apply_to h a (encode_nd false C)
  | QProjectWord a => apply_to h a (project_nd false C)
  | QInverseEncode a => apply_to h a (inverse_encode_nd false C)
  | QCheck a => apply_to h a (check_nd false C)
  | QCodewords => Some (AArray (Bits (array_of_mat (bc_n C) (codewords C))))
  | QCodewordWeightDistribution => Some (AArray (Counts (weight_distribution C false)))
  | QMinimumDistance => option_map ANumber (minimum_distance C false)
  | QCosetLeaders => option_map (fun l => AArray (Bits (array_of_mat (bc_n C) l))) (coset_leaders C)
  | QCosetLeaderWeightDistribution => option_map (fun d => AArray (Counts d)) (coset_leader_weight_distribution C false)
  | QPackingRadius => option_map ANumber (packing_radius C false)
  | QCoveringRadius => option_map ANumber (covering_radius C false)
  end.
Definition expected_decode (C : block_code) (h : heap) (d : decoder_kind) (a : nat) : option answer :=
  match d with
  | Syndrome => match coset_leaders C with Some lds => apply_to h a (syndrome_decode_nd false C lds) | None => None end
  | Exhaustive => apply_to h a (exhaustive_hard_nd false C)
  end.

(* the attributes and methods whose result is kept by the object *)
Definition keeps (q : query) : bool :=
  match q with
  | QGeneratorMatrix | QRightInverse | QCheckMatrix | QCodewords | QCodewordWeightDistribution
  | QCosetLeaders | QCosetLeaderWeightDistribution => true
  | _ => false
  end.
Definition ref_of (r : option value) : list nat := match r with Some (VRef a) => [a] | _ => [] end.

(* [history w codes decs known shared]: w is the state after some sequence of calls, in which the
   caller constructed [codes] and the decoders [decs], got to know the arrays [known], and never wrote
   into those in [shared]: the arrays passed to a constructor and those returned by attributes
   and methods that keep their result. *)
Inductive history : world -> list block_code -> list (decoder_kind * nat) -> list nat -> list nat -> Prop :=
| h_start : history start [] [] [] []
| h_array w cs ds K S c : history w cs ds K S ->
    history (snd (exec (NewArray c) w)) cs ds (length (w_heap w) :: K) S
| h_code w cs ds K S g a x n M C : history w cs ds K S ->
    In a K -> nth_error (w_heap w) a = Some (Bits x) -> proper x -> mat_of_array x = Some (n, M) -> code_from g n M = Some C ->
    history (snd (exec (NewCode g a) w)) (cs ++ [C]) ds K (a :: S)
| h_decoder w cs ds K S d i : history w cs ds K S -> fst (exec (NewDecoder d i) w) <> None ->
    history (snd (exec (NewDecoder d i) w)) cs (ds ++ [(d, i)]) K S
| h_no_decoder w cs ds K S d i : history w cs ds K S -> fst (exec (NewDecoder d i) w) = None ->
    history (snd (exec (NewDecoder d i) w)) cs ds K S
| h_ask w cs ds K S i q r w' : history w cs ds K S -> exec (Ask i q) w = (r, w') ->
    history w' cs ds (ref_of r ++ K) (if keeps q then ref_of r ++ S else S)
| h_decode w cs ds K S j a r w' : history w cs ds K S -> exec (Decode j a) w = (r, w') ->
    history w' cs ds (ref_of r ++ K) S
| h_write w cs ds K S a c : history w cs ds K S -> In a K -> ~ In a S ->
    history (snd (exec (Write a c) w)) cs ds K S.
