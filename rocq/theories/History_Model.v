(** Block code and decoder objects with their caches, on a heap of numpy arrays.

    /repo/src/komm/_error_control_block/BlockCode.py 53-342 and base.py 13-281: an object of class
    BlockCode keeps a reference to the array it was constructed from (np.asarray does not copy an
    array), computes everything else on demand and keeps it (@cached_property, @cache); the arrays it
    returns are the cached ones, not copies.  codeword_weight_distribution and
    coset_leader_weight_distribution take a different path once codewords() / coset_leaders() has been
    called (base.py 152, 162, 221, 233).
    _error_control_decoders/SyndromeTableDecoder.py 26-47, ExhaustiveSearchDecoder.py 28-57: a decoder
    keeps a reference to the table of its code.

    Simplifications: arrays of bits and arrays of counts only; a message or word array is any N-d
    bit array; what the computations themselves do is the pure model of BlockCode_Model / Nd_Model
    (one step each; base.py's batches of 1024 messages read the generator matrix only once here);
    functools.cache is keyed by the identity of the object, so it is a field of the object here, and
    the second cache (on the method of the base class) always agrees with it. *)
From Verif Require Import Common Bits_Model Vec_Model LinAlg_Model BlockCode_Model Array_Model Nd_Model.
Local Open Scope nat_scope.

Notation addr := nat (only parsing).
(** the content of an array: bits with a shape, or a vector of counts *)
Inductive cell := Bits (a : array bool) | Counts (l : list nat).
Definition heap := list cell.

(** a two-dimensional array as a list of rows, and back *)
Definition array_of_mat (n : nat) (M : mat) : array bool := Arr [length M; n] (concat M).
Definition mat_of_array (a : array bool) : option (nat * mat) :=
  match shape a with
  | [k; n] => Some (n, map (fun i => firstn n (skipn (i * n) (data a))) (seq 0 k))
  | _ => None
  end.

(** BlockCode.py 66-75: which argument was given, and the array *)
Inductive arg := Generator (a : addr) | Checker (a : addr).
(** One object: the constructor's fields, then one field per cached property or method (BlockCode.py
    136-172, 243-342), then the attributes _cached_codewords and _cached_coset_leaders (base.py 152, 221). *)
Record code_obj := Code {
  o_arg : arg; o_n : nat; o_k : nat; o_m : nat;
  c_G : option addr; c_Ginv : option addr; c_H : option addr;
  c_words : option addr; c_cwd : option addr; c_dist : option nat;
  c_leaders : option addr; c_clwd : option addr; c_pack : option nat; c_cover : option nat;
  f_words : bool; f_leaders : bool }.

(** A method runs on (object, heap), returns a value or raises (None; also used for the searches that
    do not end), and leaves a new (object, heap) in both cases. *)
Definition method_of (A : Type) := code_obj * heap -> option A * (code_obj * heap).
Definition ret {A} (x : A) : method_of A := fun s => (Some x, s).
Definition lift {A} (x : option A) : method_of A := fun s => (x, s).
Definition bind {A B} (f : method_of A) (g : A -> method_of B) : method_of B :=
  fun s => match f s with
           | (Some x, s') => g x s'
           | (None, s') => (None, s')
           end.
Notation "x <- f ;; g" := (bind f (fun x => g)) (at level 61, f at next level, right associativity).
Definition self {A} (get : code_obj -> A) : method_of A := fun s => (Some (get (fst s)), s).
Definition update (f : code_obj -> code_obj) : method_of unit := fun '(o, h) => (Some tt, (f o, h)).
Definition alloc (c : cell) : method_of addr := fun '(o, h) => (Some (length h), (o, h ++ [c])).
Definition read_bits (a : addr) : method_of (array bool) :=
  fun '(o, h) => (match nth_error h a with Some (Bits x) => Some x | _ => None end, (o, h)).
Definition read_mat (a : addr) : method_of (nat * mat) := x <- read_bits a ;; lift (mat_of_array x).
Definition read_counts (a : addr) : method_of (list nat) :=
  fun '(o, h) => (match nth_error h a with Some (Counts x) => Some x | _ => None end, (o, h)).
(** @cached_property / @cache: return the stored value, or compute and store it; an exception is not stored *)
Definition cached {A} (get : code_obj -> option A) (set : A -> code_obj -> code_obj) (compute : method_of A) : method_of A :=
  r <- self get ;;
  match r with
  | Some x => ret x
  | None => x <- compute ;; _ <- update (set x) ;; ret x
  end.

Definition set_G x o := Code (o_arg o) (o_n o) (o_k o) (o_m o) (Some x) (c_Ginv o) (c_H o) (c_words o) (c_cwd o) (c_dist o) (c_leaders o) (c_clwd o) (c_pack o) (c_cover o) (f_words o) (f_leaders o).
Definition set_Ginv x o := Code (o_arg o) (o_n o) (o_k o) (o_m o) (c_G o) (Some x) (c_H o) (c_words o) (c_cwd o) (c_dist o) (c_leaders o) (c_clwd o) (c_pack o) (c_cover o) (f_words o) (f_leaders o).
Definition set_H x o := Code (o_arg o) (o_n o) (o_k o) (o_m o) (c_G o) (c_Ginv o) (Some x) (c_words o) (c_cwd o) (c_dist o) (c_leaders o) (c_clwd o) (c_pack o) (c_cover o) (f_words o) (f_leaders o).
Definition set_words x o := Code (o_arg o) (o_n o) (o_k o) (o_m o) (c_G o) (c_Ginv o) (c_H o) (Some x) (c_cwd o) (c_dist o) (c_leaders o) (c_clwd o) (c_pack o) (c_cover o) (f_words o) (f_leaders o).
Definition set_cwd x o := Code (o_arg o) (o_n o) (o_k o) (o_m o) (c_G o) (c_Ginv o) (c_H o) (c_words o) (Some x) (c_dist o) (c_leaders o) (c_clwd o) (c_pack o) (c_cover o) (f_words o) (f_leaders o).
Definition set_dist x o := Code (o_arg o) (o_n o) (o_k o) (o_m o) (c_G o) (c_Ginv o) (c_H o) (c_words o) (c_cwd o) (Some x) (c_leaders o) (c_clwd o) (c_pack o) (c_cover o) (f_words o) (f_leaders o).
Definition set_leaders x o := Code (o_arg o) (o_n o) (o_k o) (o_m o) (c_G o) (c_Ginv o) (c_H o) (c_words o) (c_cwd o) (c_dist o) (Some x) (c_clwd o) (c_pack o) (c_cover o) (f_words o) (f_leaders o).
Definition set_clwd x o := Code (o_arg o) (o_n o) (o_k o) (o_m o) (c_G o) (c_Ginv o) (c_H o) (c_words o) (c_cwd o) (c_dist o) (c_leaders o) (Some x) (c_pack o) (c_cover o) (f_words o) (f_leaders o).
Definition set_pack x o := Code (o_arg o) (o_n o) (o_k o) (o_m o) (c_G o) (c_Ginv o) (c_H o) (c_words o) (c_cwd o) (c_dist o) (c_leaders o) (c_clwd o) (Some x) (c_cover o) (f_words o) (f_leaders o).
Definition set_cover x o := Code (o_arg o) (o_n o) (o_k o) (o_m o) (c_G o) (c_Ginv o) (c_H o) (c_words o) (c_cwd o) (c_dist o) (c_leaders o) (c_clwd o) (c_pack o) (Some x) (f_words o) (f_leaders o).
Definition flag_words o := Code (o_arg o) (o_n o) (o_k o) (o_m o) (c_G o) (c_Ginv o) (c_H o) (c_words o) (c_cwd o) (c_dist o) (c_leaders o) (c_clwd o) (c_pack o) (c_cover o) true (f_leaders o).
Definition flag_leaders o := Code (o_arg o) (o_n o) (o_k o) (o_m o) (c_G o) (c_Ginv o) (c_H o) (c_words o) (c_cwd o) (c_dist o) (c_leaders o) (c_clwd o) (c_pack o) (c_cover o) (f_words o) true.

(** BlockCode.py 136-151 (its use of self.check_matrix, line 151, is lines 157-171 for an object with _check_matrix) *)
Definition generator_matrix : method_of addr :=
  cached c_G set_G (
    g <- self o_arg ;;
    match g with
    | Generator a => ret a
    | Checker a =>
        b <- cached c_H set_H (ret a) ;;
        nH <- read_mat b ;;
        N <- lift (null_matrix (fst nH) (snd nH)) ;;
        alloc (Bits (array_of_mat (fst nH) (rref (fst nH) N)))
    end).
(** BlockCode.py 157-172 *)
Definition check_matrix : method_of addr :=
  cached c_H set_H (
    g <- self o_arg ;;
    match g with
    | Checker a => ret a
    | Generator _ =>
        b <- generator_matrix ;;
        nG <- read_mat b ;;
        N <- lift (null_matrix (fst nG) (snd nG)) ;;
        alloc (Bits (array_of_mat (fst nG) N))
    end).
(** BlockCode.py 153-155 *)
Definition generator_matrix_right_inverse : method_of addr :=
  cached c_Ginv set_Ginv (
    b <- generator_matrix ;;
    nG <- read_mat b ;;
    alloc (Bits (array_of_mat (length (snd nG)) (pseudo_inverse (fst nG) (snd nG))))).

(** the current contents of the matrices, as a code; base.py 82, 90, 128 *)
Definition with_G : method_of block_code :=
  n <- self o_n ;; k <- self o_k ;; m <- self o_m ;; b <- generator_matrix ;; x <- read_mat b ;;
  ret (matrix_code n k m (snd x) [] []).
Definition with_Ginv : method_of block_code :=
  n <- self o_n ;; k <- self o_k ;; m <- self o_m ;; b <- generator_matrix_right_inverse ;; x <- read_mat b ;;
  ret (matrix_code n k m [] (snd x) []).
Definition with_H : method_of block_code :=
  n <- self o_n ;; k <- self o_k ;; m <- self o_m ;; b <- check_matrix ;; x <- read_mat b ;;
  ret (matrix_code n k m [] [] (snd x)).

(** base.py 79-84, 88-93, 109-112, 126-131: the values, then the methods (which return a new array) *)
Definition encode_value (x : array bool) : method_of (array bool) := C <- with_G ;; lift (encode_nd false C x).
Definition project_value (x : array bool) : method_of (array bool) := C <- with_Ginv ;; lift (project_nd false C x).
Definition check_value (x : array bool) : method_of (array bool) := C <- with_H ;; lift (check_nd false C x).
Definition encode (a : addr) : method_of addr := x <- read_bits a ;; y <- encode_value x ;; alloc (Bits y).
Definition project_word (a : addr) : method_of addr := x <- read_bits a ;; y <- project_value x ;; alloc (Bits y).
Definition check (a : addr) : method_of addr := x <- read_bits a ;; y <- check_value x ;; alloc (Bits y).
Definition inverse_encode (a : addr) : method_of addr :=
  x <- read_bits a ;;
  s <- check_value x ;;
  if forallb negb (data s) then y <- project_value x ;; alloc (Bits y) else lift None.

(** base.py 139-153 *)
Definition codewords_method : method_of addr :=
  cached c_words set_words (
    C <- with_G ;;
    _ <- update flag_words ;;
    alloc (Bits (array_of_mat (bc_n C) (codewords C)))).
(** base.py 161-178 *)
Definition codeword_weight_distribution : method_of addr :=
  cached c_cwd set_cwd (
    f <- self f_words ;;
    n <- self o_n ;;
    if f then b <- codewords_method ;; x <- read_mat b ;; alloc (Counts (bincount (n + 1) (map vsum (snd x))))
    else C <- with_G ;; alloc (Counts (weight_distribution C false))).
(** base.py 186 *)
Definition minimum_distance_method : method_of nat :=
  cached c_dist set_dist (b <- codeword_weight_distribution ;; d <- read_counts b ;; lift (nth_error (flatnonzero d) 1)).
(** base.py 194-224 *)
Definition coset_leaders_method : method_of addr :=
  cached c_leaders set_leaders (
    C <- with_H ;;
    lds <- lift (coset_leaders C) ;;
    _ <- update flag_leaders ;;
    alloc (Bits (array_of_mat (bc_n C) lds))).
(** base.py 232-265 *)
Definition coset_leader_weight_distribution_method : method_of addr :=
  cached c_clwd set_clwd (
    f <- self f_leaders ;;
    n <- self o_n ;;
    if f then b <- coset_leaders_method ;; x <- read_mat b ;; alloc (Counts (bincount (n + 1) (map vsum (snd x))))
    else C <- with_H ;; d <- lift (coset_leader_weight_distribution C false) ;; alloc (Counts d)).
(** base.py 273, 281 *)
Definition packing_radius_method : method_of nat := cached c_pack set_pack (d <- minimum_distance_method ;; ret ((d - 1) / 2)).
Definition covering_radius_method : method_of nat :=
  cached c_cover set_cover (b <- coset_leader_weight_distribution_method ;; d <- read_counts b ;; lift (hd_error (rev (flatnonzero d)))).

(** The public attributes and methods; an array argument is the address of the caller's array. *)
Inductive query :=
| QLength | QDimension | QRedundancy | QGeneratorMatrix | QRightInverse | QCheckMatrix
| QEncode (a : addr) | QProjectWord (a : addr) | QInverseEncode (a : addr) | QCheck (a : addr)
| QCodewords | QCodewordWeightDistribution | QMinimumDistance | QCosetLeaders
| QCosetLeaderWeightDistribution | QPackingRadius | QCoveringRadius.
(** what a call returns: a number, a reference to an array, or a new object *)
Inductive value := VNat (n : nat) | VRef (a : addr) | VObj (i : nat) | VNone.
Definition ask (q : query) : method_of value :=
  match q with
  | QLength => n <- self o_n ;; ret (VNat n)
  | QDimension => n <- self o_k ;; ret (VNat n)
  | QRedundancy => n <- self o_m ;; ret (VNat n)
  | QGeneratorMatrix => a <- generator_matrix ;; ret (VRef a)
  | QRightInverse => a <- generator_matrix_right_inverse ;; ret (VRef a)
  | QCheckMatrix => a <- check_matrix ;; ret (VRef a)
  | QEncode a => b <- encode a ;; ret (VRef b)
  | QProjectWord a => b <- project_word a ;; ret (VRef b)
  | QInverseEncode a => b <- inverse_encode a ;; ret (VRef b)
  | QCheck a => b <- check a ;; ret (VRef b)
  | QCodewords => a <- codewords_method ;; ret (VRef a)
  | QCodewordWeightDistribution => a <- codeword_weight_distribution ;; ret (VRef a)
  | QMinimumDistance => d <- minimum_distance_method ;; ret (VNat d)
  | QCosetLeaders => a <- coset_leaders_method ;; ret (VRef a)
  | QCosetLeaderWeightDistribution => a <- coset_leader_weight_distribution_method ;; ret (VRef a)
  | QPackingRadius => d <- packing_radius_method ;; ret (VNat d)
  | QCoveringRadius => d <- covering_radius_method ;; ret (VNat d)
  end.

(** A decoder keeps its code and the table (SyndromeTableDecoder.py 26-27, ExhaustiveSearchDecoder.py 28-29). *)
Inductive decoder_kind := Syndrome | Exhaustive.
Record decoder_obj := Decoder { d_kind : decoder_kind; d_code : nat; d_table : addr }.
Definition table_of (d : decoder_kind) : method_of addr :=
  match d with Syndrome => coset_leaders_method | Exhaustive => codewords_method end.
(** SyndromeTableDecoder.py 39-47: check, table look-up, project; the inner methods act on the blocks one by one *)
Definition syndrome_decode_method (t : addr) (a : addr) : method_of addr :=
  x <- read_bits a ;;
  C1 <- with_H ;; C2 <- with_Ginv ;;
  T <- read_mat t ;;
  y <- lift (syndrome_decode_nd false (matrix_code (bc_n C1) (bc_k C1) (bc_m C1) [] (bc_Ginv C2) (bc_H C1)) (snd T) x) ;;
  alloc (Bits y).
(** ExhaustiveSearchDecoder.py 46-57, input_type = "hard" *)
Definition exhaustive_decode_value (C : block_code) (T : list vec) : array bool -> option (array bool) :=
  blockwise (bc_n C) (fun r =>
    match rowwise false false (fun w => nth (argmin_by Nat.leb (map (fun c => vsum (vxor w c)) T)) T []) (bc_n C) r with
    | None => None
    | Some v_hat => project_nd false C v_hat
    end).
Definition exhaustive_decode_method (t : addr) (a : addr) : method_of addr :=
  x <- read_bits a ;; C <- with_Ginv ;; T <- read_mat t ;;
  y <- lift (exhaustive_decode_value C (snd T) x) ;; alloc (Bits y).
Definition decode_method (d : decoder_obj) (a : addr) : method_of addr :=
  match d_kind d with
  | Syndrome => syndrome_decode_method (d_table d) a
  | Exhaustive => exhaustive_decode_method (d_table d) a
  end.

(** The whole program state, and what a caller can do. *)
Record world := World { w_heap : heap; w_codes : list code_obj; w_decoders : list decoder_obj }.
Inductive op :=
| NewArray (c : cell)                    (* np.array(...) by the caller *)
| NewCode (from_generator : bool) (a : addr)   (* BlockCode(generator_matrix=a) / BlockCode(check_matrix=a) *)
| NewDecoder (d : decoder_kind) (i : nat)      (* SyndromeTableDecoder(code i) / ExhaustiveSearchDecoder(code i) *)
| Ask (i : nat) (q : query)              (* an attribute or method of code i *)
| Decode (j : nat) (a : addr)            (* decoder j .decode(a) *)
| Write (a : addr) (c : cell).           (* the caller assigns to the elements of the array a *)

(** BlockCode.py 66-75 *)
Definition new_code (g : bool) (a : addr) (k n : nat) : code_obj :=
  if g then Code (Generator a) n k (n - k) None None None None None None None None None None false false
  else Code (Checker a) n (n - k) k None None None None None None None None None None false false.

Definition run_on {A} (w : world) (i : nat) (f : method_of A) : option A * world :=
  match nth_error (w_codes w) i with
  | None => (None, w)
  | Some o => let '(r, (o', h')) := f (o, w_heap w) in (r, World h' (upd i o' (w_codes w)) (w_decoders w))
  end.
Definition exec (p : op) (w : world) : option value * world :=
  match p with
  | NewArray c => (Some (VRef (length (w_heap w))), World (w_heap w ++ [c]) (w_codes w) (w_decoders w))
  | NewCode g a =>
      match nth_error (w_heap w) a with
      | Some (Bits x) =>
          match mat_of_array x with
          | Some (n, M) => (Some (VObj (length (w_codes w))), World (w_heap w) (w_codes w ++ [new_code g a (length M) n]) (w_decoders w))
          | None => (None, w)
          end
      | _ => (None, w)
      end
  | NewDecoder d i =>
      match run_on w i (table_of d) with
      | (Some t, w') => (Some (VObj (length (w_decoders w'))), World (w_heap w') (w_codes w') (w_decoders w' ++ [Decoder d i t]))
      | (None, w') => (None, w')
      end
  | Ask i q => run_on w i (ask q)
  | Decode j a =>
      match nth_error (w_decoders w) j with
      | None => (None, w)
      | Some d => match run_on w (d_code d) (decode_method d a) with
                  | (Some b, w') => (Some (VRef b), w')
                  | (None, w') => (None, w')
                  end
      end
  | Write a c => (Some VNone, World (upd a c (w_heap w)) (w_codes w) (w_decoders w))
  end.
Definition start : world := World [] [] [].
