(* Alternative constructors of the lossless codes:
   /repo/src/komm/_lossless_coding/FixedToVariableCode.py, lines 66-103 (from_enc_mapping) and
   /repo/src/komm/_lossless_coding/VariableToFixedCode.py, lines 67-108 (from_dec_mapping).
   The other constructors (__init__, from_codewords, from_lengths, from_sourcewords) are in Prefix_Model.
   Symbols are natural numbers (negative symbols, which both codes reject, are outside the model). *)
From Verif Require Import Common Prefix_Model.

(* FixedToVariableCode.py 99-103.  max() of an empty generator and max() of the empty word raise ValueError;
   next(iter(domain)) is the first key in insertion order. *)
Definition f2v_from_enc_mapping (m : dict) : option f2v :=
  match m with
  | [] => None
  | (key0, _) :: _ =>
      if existsb (fun w => negb (non_empty w)) (map fst m) then None else
      if existsb (fun w => negb (non_empty w)) (map snd m) then None else
      f2v_make (max_symbol (map fst m) + 1) (max_symbol (map snd m) + 1) (length key0) m
  end.

(* VariableToFixedCode.py 104-108, same exceptions *)
Definition v2f_from_dec_mapping (m : dict) : option v2f :=
  match m with
  | [] => None
  | (key0, _) :: _ =>
      if existsb (fun w => negb (non_empty w)) (map fst m) then None else
      if existsb (fun w => negb (non_empty w)) (map snd m) then None else
      v2f_make (max_symbol (map fst m) + 1) (max_symbol (map snd m) + 1) (length key0) m
  end.
