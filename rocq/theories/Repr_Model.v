(* Model of the constructors (argument binding, validation, stored attributes) and of the __repr__ methods of the classes of
   /repo/src/komm whose attributes are integers, booleans, strings, integer arrays and mappings of integer tuples.
   Simplifications: integers are unbounded (numpy's int64 limits are not modelled); bool is not accepted where an int is
   expected; arrays passed to constructors hold integers; binary polynomials are non-negative; classes whose attributes are
   floating-point numbers (pmfs, quantizers, channels, constellations, pulses, complex sequences) are not included.
   Texts are those of f-strings: [py_int] for str(int), [py_bin] for bin(), [py_bool], [quoted] for repr(str). *)
From Coq Require Import String Ascii.
From Verif Require Import Common Repr_Spec Repr_Builtin Prefix_Model BinPoly_Model Cyclic_Model BCH_Model LFSR_Model Walsh_Model.
Local Open Scope string_scope.
Local Open Scope nat_scope.

(* the convolutional encoder objects: ConvolutionalCode.py 102-103, LowRateConvolutionalCode.py 50, HighRateConvolutionalCode.py 50 *)
Inductive conv_obj :=
| CConv (ff : list (list N)) (fb : list N)
| CLow (g_row : list N)
| CHigh (h_row : list N).

(* a constructed object: its class and the attributes that its constructor stores *)
Inductive obj :=
| OPoly (p : N)                                              (* BinaryPolynomial.py 52 *)
| OFrac (n d : N)                                            (* BinaryPolynomialFraction.py 28-37 *)
| OInteger (z : Z)                                           (* Integers.py 6 *)
| OField (k m : N)                                           (* FiniteBifield.py 171-175 *)
| OBlock (from_generator : bool) (M : list (list Z)) (cols : nat)  (* BlockCode.py 68-75 *)
| OSystematic (P : list (list Z)) (cols : nat) (info : list Z) (* SystematicBlockCode.py 55-67 *)
| OCyclic (n : Z) (polys : option (bool * N * N)) (systematic : bool)
      (* CyclicCode.py 58-78: (constructed from the generator polynomial?, g, h); None when both were given, see 64 and 71 *)
| OHamming (mu : Z) (extended : bool)                        (* HammingCode.py 80-82 *)
| OSimplex (kappa : Z) (extended : bool)                     (* SimplexCode.py 75-77 *)
| OGolay (extended : bool)                                   (* GolayCode.py 63-64 *)
| ORepetition (n : Z) | OSPC (n : Z) | OCordaro (n : Z)      (* RepetitionCode.py 54, SingleParityCheckCode.py 54, CordaroWagnerCode.py 43 *)
| ORM (rho mu : Z)                                           (* ReedMullerCode.py 63-64 *)
| OLexi (n d : Z)                                            (* Lexicode.py 41-42 *)
| OPolar (mu : Z) (frozen : list Z)                          (* PolarCode.py 51-54 *)
| OBCH (mu delta : Z)                                        (* BCHCode.py 60-87 *)
| OConv (c : conv_obj)
| OTerminated (c : conv_obj) (num_blocks : Z) (mode : string) (* TerminatedConvolutionalCode.py 82-84 *)
| OMealy (transitions outputs : list (list Z)) (tc oc : nat) (* MealyMachine.py 52-53, with the numbers of columns *)
| OMoore (transitions : list (list Z)) (tc : nat) (outputs : list Z) (* MooreMachine.py 59-60 *)
| OLabeling (matrix : list (list Z))                         (* Labeling.py 26 *)
| ONatural (m : Z) | OReflected (m : Z)                      (* NaturalLabeling.py 19, ReflectedLabeling.py 18 *)
| ORect (mi mq : Z)                                          (* ReflectedRectangularLabeling.py 29 *)
| OProduct (labelings : list value)                          (* ProductLabeling.py 67; the arguments are not checked to be labelings *)
| OF2V (c : f2v) | OV2F (c : v2f)                            (* FixedToVariableCode.py 36-39, VariableToFixedCode.py 35-38 *)
| OLZ (is77 : bool) (search lookahead src tgt : Z) (buffer : list Z) (* LempelZiv77Code.py 54-62, LempelZivSSCode.py 55-63 *)
| OLZ78 (src tgt : Z) | OLZW (src tgt : Z)                   (* LempelZiv78Code.py 33-34, LempelZivWelchCode.py 30-31 *)
| OBinSeq (bits polar : list Z)                              (* BinarySequence.py 38-43 *)
| OWalsh (polar : list Z) (ordering : string) (index : Z)    (* WalshHadamardSequence.py 99-101 *)
| OLFSR (f s : N)                                            (* LFSRSequence.py 50-51 *)
| OBarker (bits : list Z)                                    (* BarkerSequence.py 34 *)
(* Python values; arrays given as numpy arrays rather than lists are VArr1, VArr2 (rows, number of columns) *)
with value :=
| VNone
| VInt (z : Z)
| VBool (b : bool)
| VStr (s : string)
| VList (l : list value)
| VTuple (l : list value)
| VDict (l : list (value * value))
| VArr1 (l : list Z)
| VArr2 (rows : list (list Z)) (cols : nat)
| VObj (o : obj).

(* ---------------- argument conversions *)
Fixpoint all_some {A} (l : list (option A)) : option (list A) :=
  match l with
  | [] => Some []
  | None :: _ => None
  | Some a :: l => match all_some l with None => None | Some r => Some (a :: r) end
  end.
Definition obind {A B} (x : option A) (f : A -> option B) : option B := match x with Some a => f a | None => None end.
Definition as_int (v : value) : option Z := match v with VInt z => Some z | _ => None end.
Definition as_bool (v : value) : option bool := match v with VBool b => Some b | _ => None end.
Definition as_str (v : value) : option string := match v with VStr s => Some s | _ => None end.
(* BinaryPolynomial(value): int(value), BinaryPolynomial.py 51-52, 60-61 *)
Definition as_poly (v : value) : option N :=
  match v with VInt z => if (0 <=? z)%Z then Some (Z.to_N z) else None | VObj (OPoly p) => Some p | _ => None end.
(* np.asarray of a one- or two-dimensional array of integers; [[...], ...] has at least one row, and [] is one-dimensional *)
Definition as_arr1 (v : value) : option (list Z) :=
  match v with VArr1 l => Some l | VList l => all_some (map as_int l) | _ => None end.
Definition as_arr2 (v : value) : option (list (list Z) * nat) :=
  match v with
  | VArr2 rows cols => if forallb (fun r => List.length r =? cols) rows then Some (rows, cols) else None
  | VList ((_ :: _) as l) =>
      obind (all_some (map (fun r => match r with VList _ => as_arr1 r | _ => None end) l)) (fun rows =>
      let cols := List.length (hd [] rows) in
      if forallb (fun r => List.length r =? cols) rows then Some (rows, cols) else None)
  | _ => None
  end.
Definition to_poly (z : Z) : option N := if (0 <=? z)%Z then Some (Z.to_N z) else None.
Definition as_word (v : value) : option word :=
  match v with VTuple l => all_some (map (fun x => obind (as_int x) to_poly) l) | _ => None end.
(* a dictionary of words; a dictionary literal keeps the last value of a repeated key *)
Definition as_dict (v : value) : option dict :=
  match v with
  | VDict l => option_map dict_of_pairs (all_some (map (fun '(k, x) =>
                 match as_word k, as_word x with Some a, Some b => Some (a, b) | _, _ => None end) l))
  | _ => None
  end.
Definition or_default {A} (f : value -> option A) (d : A) (v : option value) : option A := match v with None => Some d | Some v => f v end.
(* an argument whose default is None *)
Definition optional {A} (f : value -> option A) (v : option value) : option (option A) :=
  match v with None | Some VNone => Some None | Some v => option_map Some (f v) end.
Definition required {A} (f : value -> option A) (v : option value) : option A := match v with None => None | Some v => f v end.

(* ---------------- calls *)
Definition args_t := list (option string * value).
Fixpoint lookup (p : string) (args : args_t) : option value :=
  match args with
  | (Some n, v) :: r => if String.eqb p n then Some v else lookup p r
  | (None, _) :: r => lookup p r
  | [] => None
  end.
Definition named (n : string) (a : option string * value) : bool := match fst a with Some m => String.eqb n m | None => false end.
(* every argument is a keyword argument, no keyword is repeated and each names a parameter *)
Fixpoint keywords_ok (sig : list string) (args : args_t) : bool :=
  match args with
  | [] => true
  | (Some n, _) :: r => existsb (String.eqb n) sig && negb (existsb (named n) r) && keywords_ok sig r
  | (None, _) :: _ => false
  end.
(* positional arguments in order, then keyword arguments; None is a TypeError.  The result has one entry per parameter. *)
Fixpoint bind (sig : list string) (args : args_t) : option (list (option value)) :=
  match args, sig with
  | (None, v) :: r, _ :: sig' => option_map (cons (Some v)) (bind sig' r)
  | (None, _) :: _, [] => None
  | _, _ => if keywords_ok sig args then Some (map (fun p => lookup p args) sig) else None
  end.
Definition bind1 (p : string) (args : args_t) (f : option value -> option obj) : option obj :=
  match bind [p] args with Some [a] => f a | _ => None end.
Definition bind2 (p q : string) (args : args_t) (f : option value -> option value -> option obj) : option obj :=
  match bind [p; q] args with Some [a; b] => f a b | _ => None end.
Definition bind3 (p q r : string) (args : args_t) (f : option value -> option value -> option value -> option obj) : option obj :=
  match bind [p; q; r] args with Some [a; b; c] => f a b c | _ => None end.
Definition bind4 (p q r s : string) (args : args_t) (f : option value -> option value -> option value -> option value -> option obj) : option obj :=
  match bind [p; q; r; s] args with Some [a; b; c; d] => f a b c d | _ => None end.

Notation "'let?' x := e 'in' f" := (obind e (fun x => f)) (at level 200, x pattern).
Definition guard (b : bool) (o : obj) : option obj := if b then Some o else None.

(* ---------------- constructors *)
(* BinaryPolynomial.py 51-52 *)
Definition new_Poly (a : args_t) := bind1 "value" a (fun v => option_map OPoly (required as_poly v)).
(* BinaryPolynomialFraction.py 27-37 *)
Definition new_Frac (a : args_t) := bind2 "numerator" "denominator" a (fun n d =>
  let? n := required as_poly n in let? d := or_default as_poly 1%N d in
  match mk_frac n d with Some (n', d') => Some (OFrac n' d') | None => None end).
(* Integers.py 5-6 *)
Definition new_Integer (a : args_t) := bind1 "value" a (fun v => option_map OInteger (required as_int v)).
(* FiniteBifield.py 168-179 *)
Definition new_Field (a : args_t) := bind2 "degree" "modulus" a (fun k m =>
  let? k := required as_int k in let? m := optional as_poly m in
  if (k <? 1)%Z then None else option_map (OField (Z.to_N k)) (gf_make (Z.to_N k) m)).
(* BlockCode.py 53-75 *)
Definition new_Block (a : args_t) := bind2 "generator_matrix" "check_matrix" a (fun g h =>
  let? g := optional as_arr2 g in let? h := optional as_arr2 h in
  match g, h with
  | Some (M, c), None => Some (OBlock true M c)
  | None, Some (M, c) => Some (OBlock false M c)
  | _, _ => None
  end).
Definition zrange (a b : Z) : list Z := map (fun i => (a + Z.of_nat i)%Z) (seq 0 (Z.to_nat (b - a))).
(* SystematicBlockCode.py 50-73 *)
Definition new_Systematic (a : args_t) := bind2 "parity_submatrix" "information_set" a (fun P i =>
  let? (P, c) := required as_arr2 P in
  let k := Z.of_nat (List.length P) in let m := Z.of_nat c in let n := (k + m)%Z in
  match i with
  | None => Some (OSystematic P c (zrange 0 k))
  | Some (VStr s) => if String.eqb s "left" then Some (OSystematic P c (zrange 0 k))
                     else if String.eqb s "right" then Some (OSystematic P c (zrange m n)) else None
  | Some v =>
      let? l := as_arr1 v in
      (* min() and max() of an empty array raise ValueError *)
      guard ((Z.of_nat (List.length l) =? k)%Z && (0 <? List.length l) && forallb (fun x => (0 <=? x)%Z && (x <=? n)%Z) l) (OSystematic P c l)
  end).
(* CyclicCode.py 51-78 *)
Definition new_Cyclic (a : args_t) := bind4 "length" "generator_polynomial" "check_polynomial" "systematic" a (fun n g h s =>
  let? n := required as_int n in let? g := optional as_poly g in let? h := optional as_poly h in let? s := or_default as_bool true s in
  if (n <? 0)%Z then None else
  match g, h with
  | None, None => None
  | Some g, None => match cyclic_polys (Z.to_nat n) (Generator g) with Some (g, h) => Some (OCyclic n (Some (true, g, h)) s) | None => None end
  | None, Some h => match cyclic_polys (Z.to_nat n) (Check h) with Some (g, h) => Some (OCyclic n (Some (false, g, h)) s) | None => None end
  | Some _, Some _ => Some (OCyclic n None s)
  end).
(* HammingCode.py 77-82, SimplexCode.py 72-77, GolayCode.py 62-64 *)
Definition new_Hamming (a : args_t) := bind2 "mu" "extended" a (fun m e =>
  let? m := required as_int m in let? e := or_default as_bool false e in guard (2 <=? m)%Z (OHamming m e)).
Definition new_Simplex (a : args_t) := bind2 "kappa" "extended" a (fun m e =>
  let? m := required as_int m in let? e := or_default as_bool false e in guard (2 <=? m)%Z (OSimplex m e)).
Definition new_Golay (a : args_t) := bind1 "extended" a (fun e => option_map OGolay (or_default as_bool false e)).
(* RepetitionCode.py 51-55, SingleParityCheckCode.py 51-55, CordaroWagnerCode.py 40-44 *)
Definition new_Repetition (a : args_t) := bind1 "n" a (fun n => let? n := required as_int n in guard (1 <=? n)%Z (ORepetition n)).
Definition new_SPC (a : args_t) := bind1 "n" a (fun n => let? n := required as_int n in guard (1 <=? n)%Z (OSPC n)).
Definition new_Cordaro (a : args_t) := bind1 "n" a (fun n => let? n := required as_int n in guard (2 <=? n)%Z (OCordaro n)).
(* ReedMullerCode.py 60-65, Lexicode.py 38-43 *)
Definition new_RM (a : args_t) := bind2 "rho" "mu" a (fun r m =>
  let? r := required as_int r in let? m := required as_int m in guard ((0 <=? r)%Z && (r <? m)%Z) (ORM r m)).
Definition new_Lexi (a : args_t) := bind2 "n" "d" a (fun n d =>
  let? n := required as_int n in let? d := required as_int d in guard ((1 <=? d)%Z && (d <=? n)%Z) (OLexi n d)).
(* np.sort *)
Fixpoint insert (x : Z) (l : list Z) : list Z :=
  match l with [] => [x] | y :: r => if (x <=? y)%Z then x :: l else y :: insert x r end.
Definition sort (l : list Z) : list Z := fold_right insert [] l.
Fixpoint distinctz (l : list Z) : bool := match l with [] => true | x :: r => negb (existsb (Z.eqb x) r) && distinctz r end.
(* PolarCode.py 50-63 *)
Definition new_Polar (a : args_t) := bind2 "mu" "frozen" a (fun m f =>
  let? m := required as_int m in let? f := required as_arr1 f in
  let f := sort f in
  guard ((1 <=? m)%Z && forallb (fun x => (0 <=? x)%Z && (x <? 2 ^ m)%Z) f && distinctz f) (OPolar m f)).
(* BCHCode.py 60-87 *)
Definition new_BCH (a : args_t) := bind2 "mu" "delta" a (fun m d =>
  let? m := required as_int m in let? d := required as_int d in
  match BCHCode (Z.to_nat m) (Z.to_nat d) with Built _ => guard ((0 <=? m)%Z && (0 <=? d)%Z) (OBCH m d) | _ => None end).
(* ConvolutionalCode.py 86-103 *)
Definition new_Conv (a : args_t) := bind2 "feedforward_polynomials" "feedback_polynomials" a (fun ff fb =>
  let? (ff, _) := required as_arr2 ff in let? fb := optional as_arr1 fb in
  let? ff := all_some (map (fun r => all_some (map to_poly r)) ff) in
  let? fb := match fb with None => Some (repeat 1%N (List.length ff)) | Some q => all_some (map to_poly q) end in
  guard (List.length fb =? List.length ff) (OConv (CConv ff fb))).
(* LowRateConvolutionalCode.py 46-50, HighRateConvolutionalCode.py 46-50 *)
Definition new_Low (a : args_t) := bind1 "g_row" a (fun g =>
  let? g := required as_arr1 g in let? g := all_some (map to_poly g) in Some (OConv (CLow g))).
Definition new_High (a : args_t) := bind1 "h_row" a (fun g =>
  let? g := required as_arr1 g in let? g := all_some (map to_poly g) in Some (OConv (CHigh g))).
(* TerminatedConvolutionalCode.py 82-96 *)
Definition as_conv (v : value) : option conv_obj := match v with VObj (OConv c) => Some c | _ => None end.
Definition new_Terminated (a : args_t) := bind3 "convolutional_code" "num_blocks" "mode" a (fun c h m =>
  let? c := required as_conv c in let? h := required as_int h in let? m := or_default as_str "zero-termination" m in
  guard (existsb (String.eqb m) ["direct-truncation"; "zero-termination"; "tail-biting"]) (OTerminated c h m)).
(* MealyMachine.py 51-53, MooreMachine.py 58-60 *)
Definition new_Mealy (a : args_t) := bind2 "transitions" "outputs" a (fun t o =>
  let? (t, tc) := required as_arr2 t in let? (o, oc) := required as_arr2 o in Some (OMealy t o tc oc)).
Definition new_Moore (a : args_t) := bind2 "transitions" "outputs" a (fun t o =>
  let? (t, tc) := required as_arr2 t in let? o := required as_arr1 o in Some (OMoore t tc o)).
(* Labeling.py 15-26 *)
Fixpoint distinct_rows (l : list (list Z)) : bool :=
  match l with [] => true | r :: s => negb (existsb (fun q => if list_eq_dec Z.eq_dec r q then true else false) s) && distinct_rows s end.
Definition new_Labeling (a : args_t) := bind1 "matrix" a (fun m =>
  let? (M, c) := required as_arr2 m in
  guard ((List.length M =? 2 ^ c) && forallb (forallb (fun x => (0 <=? x)%Z && (x <=? 1)%Z)) M && distinct_rows M) (OLabeling M)).
(* NaturalLabeling.py 16-21, ReflectedLabeling.py 15-20, ReflectedRectangularLabeling.py 16-31 *)
Definition new_Natural (a : args_t) := bind2 "num_bits" "_pre_cache" a (fun m p =>
  let? m := required as_int m in let? _ := or_default as_bool true p in guard (1 <=? m)%Z (ONatural m)).
Definition new_Reflected (a : args_t) := bind2 "num_bits" "_pre_cache" a (fun m p =>
  let? m := required as_int m in let? _ := or_default as_bool true p in guard (1 <=? m)%Z (OReflected m)).
Definition new_Rect (a : args_t) := bind2 "num_bits" "_pre_cache" a (fun m p =>
  let? _ := or_default as_bool true p in
  match m with
  | Some (VInt n) => if (0 <? n)%Z && (n mod 2 =? 0)%Z then guard ((1 <=? n / 2)%Z) (ORect (n / 2) (n / 2)) else None
  | Some (VTuple [VInt i; VInt q]) => guard ((1 <=? i)%Z && (1 <=? q)%Z) (ORect i q)
  | _ => None
  end).
(* ProductLabeling.py 62-67: def __init__(self, *labelings, repeat=1) *)
Definition is_positional (a : option string * value) : bool := match fst a with None => true | Some _ => false end.
Fixpoint positional (args : args_t) : list value * args_t :=
  match args with (None, v) :: r => let '(l, k) := positional r in (v :: l, k) | _ => ([], args) end.
Definition new_Product (a : args_t) :=
  let '(l, k) := positional a in
  match bind ["repeat"] k with
  | Some [r] => let? r := or_default as_int 1%Z r in
                if (List.length l <? 1) then None else if (r <? 1)%Z then None else Some (OProduct (concat (repeat l (Z.to_nat r))))
  | _ => None
  end.
(* FixedToVariableCode.py 29-55, VariableToFixedCode.py 28-56 *)
Definition new_F2V (a : args_t) := bind4 "source_cardinality" "target_cardinality" "source_block_size" "enc_mapping" a (fun x y k m =>
  let? x := required as_int x in let? y := required as_int y in let? k := required as_int k in let? m := required as_dict m in
  if (x <? 0)%Z || (y <? 0)%Z || (k <? 0)%Z then None else option_map OF2V (f2v_make (Z.to_N x) (Z.to_N y) (Z.to_nat k) m)).
Definition new_V2F (a : args_t) := bind4 "target_cardinality" "source_cardinality" "target_block_size" "dec_mapping" a (fun y x n m =>
  let? y := required as_int y in let? x := required as_int x in let? n := required as_int n in let? m := required as_dict m in
  if (y <? 0)%Z || (x <? 0)%Z || (n <? 0)%Z then None else option_map OV2F (v2f_make (Z.to_N y) (Z.to_N x) (Z.to_nat n) m)).
(* LempelZiv77Code.py 36-67, LempelZivSSCode.py 37-68: keyword-only arguments *)
Definition new_LZ (is77 : bool) (a : args_t) :=
  if existsb is_positional a then None else
  match bind ["search_size"; "lookahead_size"; "source_cardinality"; "target_cardinality"; "search_buffer"] a with
  | Some [s; l; x; y; b] =>
      let? s := required as_int s in let? l := required as_int l in let? x := required as_int x in let? y := or_default as_int 2%Z y in
      let? b := optional as_arr1 b in
      let b := match b with None => repeat 0%Z (Z.to_nat s) | Some b => b end in
      guard ((1 <=? s)%Z && (1 <=? l)%Z && (2 <=? x)%Z && (2 <=? y)%Z && (Z.of_nat (List.length b) =? s)%Z) (OLZ is77 s l x y b)
  | _ => None
  end.
(* LempelZiv78Code.py 33-40, LempelZivWelchCode.py 30-37 *)
Definition new_LZ78 (a : args_t) := bind2 "source_cardinality" "target_cardinality" a (fun x y =>
  let? x := required as_int x in let? y := or_default as_int 2%Z y in guard ((2 <=? x)%Z && (2 <=? y)%Z) (OLZ78 x y)).
Definition new_LZW (a : args_t) := bind2 "source_cardinality" "target_cardinality" a (fun x y =>
  let? x := required as_int x in let? y := or_default as_int 2%Z y in guard ((2 <=? x)%Z && (2 <=? y)%Z) (OLZW x y)).
(* BinarySequence.py 33-45; (-1) ** b raises for a negative exponent *)
Definition new_BinSeq (a : args_t) := bind2 "bit_sequence" "polar_sequence" a (fun b p =>
  let? b := optional as_arr1 b in let? p := optional as_arr1 p in
  match b, p with
  | Some b, None => guard (forallb (fun x => (0 <=? x)%Z) b) (OBinSeq b (polar_of_bits b))
  | None, Some p => Some (OBinSeq (bits_of_polar p) p)
  | _, _ => None
  end).
(* WalshHadamardSequence.py 77-101 *)
Definition new_Walsh (a : args_t) := bind3 "length" "ordering" "index" a (fun n o i =>
  let? n := required as_int n in let? o := or_default as_str "natural" o in let? i := or_default as_int 0%Z i in
  let? ord := (if String.eqb o "natural" then Some Natural else if String.eqb o "sequency" then Some Sequency else None) in
  option_map (fun p => OWalsh p o i) (WalshHadamard n ord i)).
(* LFSRSequence.py 45-56 *)
Definition new_LFSR (a : args_t) := bind2 "feedback_polynomial" "start_state_polynomial" a (fun f s =>
  let? f := required as_poly f in let? s := or_default as_poly 1%N s in
  match LFSRSequence f s with Some _ => Some (OLFSR f s) | None => None end).
(* BarkerSequence.py 30-34 *)
Definition new_Barker (a : args_t) := bind1 "length" a (fun n =>
  let? n := required as_int n in if (n <? 0)%Z then None else option_map OBarker (barker_sequence (Z.to_nat n))).

(* the names exported by the komm package *)
Definition classes : list (string * (args_t -> option obj)) :=
  [ ("BinaryPolynomial", new_Poly); ("BinaryPolynomialFraction", new_Frac); ("Integer", new_Integer); ("FiniteBifield", new_Field);
    ("BlockCode", new_Block); ("SystematicBlockCode", new_Systematic); ("CyclicCode", new_Cyclic); ("HammingCode", new_Hamming);
    ("SimplexCode", new_Simplex); ("GolayCode", new_Golay); ("RepetitionCode", new_Repetition); ("SingleParityCheckCode", new_SPC);
    ("CordaroWagnerCode", new_Cordaro); ("ReedMullerCode", new_RM); ("Lexicode", new_Lexi); ("PolarCode", new_Polar); ("BCHCode", new_BCH);
    ("ConvolutionalCode", new_Conv); ("LowRateConvolutionalCode", new_Low); ("HighRateConvolutionalCode", new_High);
    ("TerminatedConvolutionalCode", new_Terminated); ("MealyMachine", new_Mealy); ("MooreMachine", new_Moore); ("Labeling", new_Labeling);
    ("NaturalLabeling", new_Natural); ("ReflectedLabeling", new_Reflected); ("ReflectedRectangularLabeling", new_Rect);
    ("ProductLabeling", new_Product); ("FixedToVariableCode", new_F2V); ("VariableToFixedCode", new_V2F);
    ("LempelZiv77Code", new_LZ true); ("LempelZivSSCode", new_LZ false); ("LempelZiv78Code", new_LZ78); ("LempelZivWelchCode", new_LZW);
    ("BinarySequence", new_BinSeq); ("WalshHadamardSequence", new_Walsh); ("LFSRSequence", new_LFSR); ("BarkerSequence", new_Barker) ].
Definition call (f : string) (a : args_t) : option obj :=
  match find (fun c => String.eqb f (fst c)) classes with Some (_, new) => new a | None => None end.

(* ---------------- evaluation of an expression *)
Fixpoint eval (e : expr) : option value :=
  match e with
  | EInt z => Some (VInt z)
  | EBin n => Some (VInt (Z.of_N n))
  | EBool b => Some (VBool b)
  | EStr s => Some (VStr s)
  | EList l => option_map VList (all_some (map eval l))
  | ETuple l => option_map VTuple (all_some (map eval l))
  | EDict l => option_map VDict (all_some (map (fun '(k, v) => match eval k, eval v with Some a, Some b => Some (a, b) | _, _ => None end) l))
  | ECall f args => let? a := all_some (map (fun '(p, e) => option_map (pair p) (eval e)) args) in option_map VObj (call f a)
  end.

(* ---------------- __repr__ *)
Definition brackets (l : list string) : string := "[" ++ join l ++ "]".
Definition quoted (s : string) : string := "'" ++ s ++ "'".
Definition zlist (l : list Z) : string := brackets (map py_int l).                        (* array.tolist() *)
Definition zmatrix (M : list (list Z)) : string := brackets (map zlist M).
Definition plist (l : list N) : string := brackets (map py_bin l).                         (* _util/format.py 4-7 on BinaryPolynomials *)
Definition word_str (w : word) : string :=                                                  (* str of a tuple of ints *)
  match w with [x] => "(" ++ py_int (Z.of_N x) ++ ",)" | _ => "(" ++ join (map (fun x => py_int (Z.of_N x)) w) ++ ")" end.
Definition dict_str (d : dict) : string := "{" ++ join (map (fun '(k, v) => word_str k ++ ": " ++ word_str v) d) ++ "}".
Definition mk (cls : string) (args : list string) : string := cls ++ "(" ++ join args ++ ")".
Definition kw (n t : string) : string := n ++ "=" ++ t.

Definition repr_conv (c : conv_obj) : string :=
  match c with
  | CConv ff fb =>                                        (* ConvolutionalCode.py 105-109 *)
      let args := kw "feedforward_polynomials" (brackets (map plist ff)) in
      let args := if forallb (N.eqb 1) fb then args else args ++ ", feedback_polynomials=" ++ plist fb in
      "ConvolutionalCode(" ++ args ++ ")"
  | CLow g => mk "LowRateConvolutionalCode" [plist g]     (* LowRateConvolutionalCode.py 52-53 *)
  | CHigh h => mk "HighRateConvolutionalCode" [plist h]   (* HighRateConvolutionalCode.py 52-53 *)
  end.
(* None = an exception is raised *)
Fixpoint repr (o : obj) : option string :=
  match o with
  | OPoly p => Some (mk "BinaryPolynomial" [py_bin p])                                     (* BinaryPolynomial.py 54-55 *)
  | OFrac n d => Some (mk "BinaryPolynomialFraction" [py_bin n; py_bin d])                 (* BinaryPolynomialFraction.py 39-40 *)
  | OInteger z => Some (mk "Integer" [py_int z])                                           (* Integers.py 8-9 *)
  | OField k m =>                                                                          (* FiniteBifield.py 211-216 *)
      match default_primitive_polynomial k with
      | None => None
      | Some p => Some (mk "FiniteBifield" (if (m =? p)%N then [py_int (Z.of_N k)] else [py_int (Z.of_N k); kw "modulus" (py_bin m)]))
      end
  | OBlock g M _ => Some (mk "BlockCode" [kw (if g then "generator_matrix" else "check_matrix") (zmatrix M)])   (* BlockCode.py 77-82 *)
  | OSystematic P _ l => Some (mk "SystematicBlockCode" [kw "parity_submatrix" (zmatrix P); kw "information_set" (zlist l)]) (* 75-80 *)
  | OCyclic n polys s =>                                                                    (* CyclicCode.py 87-94 *)
      match polys with
      | None => None                                      (* AttributeError: _constructed_from *)
      | Some (from_g, g, h) =>
          Some (mk "CyclicCode" [kw "length" (py_int n);
                                 if from_g then kw "generator_polynomial" (py_bin g) else kw "check_polynomial" (py_bin h);
                                 kw "systematic" (py_bool s)])
      end
  | OHamming m e => Some (mk "HammingCode" [kw "mu" (py_int m); kw "extended" (py_bool e)])     (* HammingCode.py 84-86 *)
  | OSimplex k e => Some (mk "SimplexCode" [kw "kappa" (py_int k); kw "extended" (py_bool e)])  (* SimplexCode.py 79-81 *)
  | OGolay e => Some (mk "GolayCode" [kw "extended" (py_bool e)])                               (* GolayCode.py 66-68 *)
  | ORepetition n => Some (mk "RepetitionCode" [kw "n" (py_int n)])                             (* RepetitionCode.py 57-59 *)
  | OSPC n => Some (mk "SingleParityCheckCode" [kw "n" (py_int n)])                             (* SingleParityCheckCode.py 57-59 *)
  | OCordaro n => Some (mk "CordaroWagnerCode" [kw "n" (py_int n)])                             (* CordaroWagnerCode.py 46-48 *)
  | ORM r m => Some (mk "ReedMullerCode" [kw "rho" (py_int r); kw "mu" (py_int m)])             (* ReedMullerCode.py 67-69 *)
  | OLexi n d => Some (mk "Lexicode" [kw "n" (py_int n); kw "d" (py_int d)])                    (* Lexicode.py 45-47 *)
  | OPolar m f => Some (mk "PolarCode" [kw "mu" (py_int m); kw "frozen" (zlist f)])             (* PolarCode.py 65-67 *)
  | OBCH m d => Some (mk "BCHCode" [kw "mu" (py_int m); kw "delta" (py_int d)])                 (* BCHCode.py 89-91 *)
  | OConv c => Some (repr_conv c)
  | OTerminated c h m =>                                                                        (* TerminatedConvolutionalCode.py 18 (dataclass) *)
      Some (mk "TerminatedConvolutionalCode" [kw "convolutional_code" (repr_conv c); kw "num_blocks" (py_int h); kw "mode" (quoted m)])
  | OMealy t o _ _ => Some (mk "MealyMachine" [kw "transitions" (zmatrix t); kw "outputs" (zmatrix o)])  (* MealyMachine.py 55-60 *)
  | OMoore t _ o => Some (mk "MooreMachine" [kw "transitions" (zmatrix t); kw "outputs" (zlist o)])      (* MooreMachine.py 62-67 *)
  | OLabeling M => Some (mk "Labeling" [zmatrix M])                                             (* Labeling.py 28-29 *)
  | ONatural m => Some (mk "NaturalLabeling" [py_int m])                                        (* NaturalLabeling.py 23-24 *)
  | OReflected m => Some (mk "ReflectedLabeling" [py_int m])                                    (* ReflectedLabeling.py 22-23 *)
  | ORect i q => Some (mk "ReflectedRectangularLabeling" ["(" ++ join [py_int i; py_int q] ++ ")"])  (* ReflectedRectangularLabeling.py 33-34 *)
  | OProduct l =>                                                                                (* ProductLabeling.py 123-124: str of the tuple *)
      let? ts := all_some (map (fun v => match v with VObj o => repr o | _ => None end) l) in
      Some (mk "ProductLabeling" [match ts with [t] => "(" ++ t ++ ",)" | _ => "(" ++ join ts ++ ")" end])
  | OF2V c => Some (mk "FixedToVariableCode"                                                     (* FixedToVariableCode.py 57-64 *)
      [kw "source_cardinality" (py_int (Z.of_N (f2v_src c))); kw "target_cardinality" (py_int (Z.of_N (f2v_tgt c)));
       kw "source_block_size" (py_int (Z.of_nat (f2v_k c))); kw "enc_mapping" (dict_str (f2v_map c))])
  | OV2F c => Some (mk "VariableToFixedCode"                                                     (* VariableToFixedCode.py 58-65 *)
      [kw "target_cardinality" (py_int (Z.of_N (v2f_tgt c))); kw "source_cardinality" (py_int (Z.of_N (v2f_src c)));
       kw "target_block_size" (py_int (Z.of_nat (v2f_n c))); kw "dec_mapping" (dict_str (v2f_map c))])
  | OLZ is77 s l x y _ => Some (mk (if is77 then "LempelZiv77Code" else "LempelZivSSCode")       (* LempelZiv77Code.py 69-76, LempelZivSSCode.py 70-77 *)
      [kw "search_size" (py_int s); kw "lookahead_size" (py_int l); kw "source_cardinality" (py_int x); kw "target_cardinality" (py_int y)])
  | OLZ78 x y => Some (mk "LempelZiv78Code" [kw "source_cardinality" (py_int x); kw "target_cardinality" (py_int y)])   (* 15 (dataclass) *)
  | OLZW x y => Some (mk "LempelZivWelchCode" [kw "source_cardinality" (py_int x); kw "target_cardinality" (py_int y)]) (* 13 (dataclass) *)
  | OBinSeq b _ => Some (mk "BinarySequence" [kw "bit_sequence" (zlist b)])                      (* BinarySequence.py 47-49 *)
  | OWalsh p o i => Some (mk "WalshHadamardSequence"                                             (* WalshHadamardSequence.py 103-105; length is the size, BinarySequence.py 56 *)
      [kw "length" (py_int (Z.of_nat (List.length p))); kw "ordering" (quoted o); kw "index" (py_int i)])
  | OLFSR f s => Some (mk "LFSRSequence" [kw "feedback_polynomial" (py_bin f); kw "start_state_polynomial" (py_bin s)]) (* LFSRSequence.py 79-84 *)
  | OBarker b => Some (mk "BarkerSequence" [kw "length" (py_int (Z.of_nat (List.length b)))])    (* BarkerSequence.py 36-37 *)
  end.

(* eval(repr(x)) with the names of the package in scope *)
Definition evaluate (s : string) : option value := match read_text s with Some e => eval e | None => None end.
