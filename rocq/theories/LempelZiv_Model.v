(* Model of /repo/src/komm/_lossless_coding/LempelZiv78Code.py and LempelZivWelchCode.py.
   [width n] stands for ceil(log(n, calY)), computed in floating point by the code: an oracle about
   which the theorems only assume n <= calY ^ width n.  [ceil_log] is the exact value.
   None = an exception (ValueError of validate_integer_range, KeyError, IndexError), or fuel
   exhausted where fuel is used (shown impossible). *)
From Verif Require Import Common Prefix_Model.
Local Open Scope nat_scope.

(* math.ceil(math.log(n, base)) computed exactly. *)
Definition ceil_log (base n : N) : nat :=
  (fix go (fuel : nat) (k : nat) (pw : N) : nat :=
     match fuel with
     | O => k
     | S f => if (n <=? pw)%N then k else go f (S k) (pw * base)%N
     end) (S (N.size_nat n)) 0 1%N.

(* validate_integer_range(source, high): _util/validators.py 63-72 *)
Definition in_range (high : N) (s : list N) : bool := forallb (fun x => (x <? high)%N) s.

(* dict[Word, int] of the encoders, in insertion order. *)
Definition enc_dict := list (word * N).
Fixpoint ed_get (w : word) (d : enc_dict) : option N :=
  match d with
  | [] => None
  | (k, v) :: r => if word_eqb w k then Some v else ed_get w r
  end.
(* dictionary[w] = len(dictionary); executed only when w is not a key. *)
Definition ed_add (w : word) (d : enc_dict) : enc_dict := d ++ [(w, N.of_nat (length d))].

(* ---------- LZ78 *)
Definition token78 := (N * Z)%type.

(* LempelZiv78Code.py 55-65: [d] and [wd] are the variables dictionary and word. *)
Fixpoint lz78_scan (d : enc_dict) (wd : word) (source : list N) : option (list token78) :=
  match source with
  | [] =>
      match wd with
      | [] => Some []
      | _ :: _ => match ed_get wd d with Some p => Some [(p, (-1)%Z)] | None => None end
      end
  | s :: r =>
      match ed_get (wd ++ [s]) d with
      | Some _ => lz78_scan d (wd ++ [s]) r
      | None =>
          match ed_get wd d with
          | None => None
          | Some p =>
              match lz78_scan (ed_add (wd ++ [s]) d) [] r with
              | Some ts => Some ((p, Z.of_N s) :: ts)
              | None => None
              end
          end
      end
  end.
(* 42-65 *)
Definition lz78_source_to_tokens (calX : N) (source : list N) : option (list token78) :=
  if in_range calX source then lz78_scan [([], 0%N)] [] source else None.

(* 78-84; dictionary[i] for i < len(dictionary) is a list lookup. *)
Fixpoint lz78_unscan (d : list (list Z)) (tokens : list token78) : option (list Z) :=
  match tokens with
  | [] => Some []
  | (p, x) :: r =>
      match nth_error d (N.to_nat p) with
      | None => None
      | Some wd =>
          match lz78_unscan (d ++ [wd ++ [x]]) r with
          | Some out => Some (wd ++ (if (0 <=? x)%Z then [x] else []) ++ out)
          | None => None
          end
      end
  end.
(* 67-84 *)
Definition lz78_tokens_to_source (tokens : list token78) : option (list Z) := lz78_unscan [[]] tokens.

(* 98-102, from token number i on. *)
Fixpoint lz78_pack (width : N -> nat) (calX calY : N) (i : nat) (tokens : list token78) : word :=
  match tokens with
  | [] => []
  | (p, x) :: r =>
      integer_to_symbols p calY (width (N.of_nat i + 1)%N) ++
      (if (0 <=? x)%Z then integer_to_symbols (Z.to_N x) calY (width calX) else []) ++
      lz78_pack width calX calY (S i) r
  end.
(* 86-103 *)
Definition lz78_tokens_to_target (width : N -> nat) (calX calY : N) (tokens : list token78) : word :=
  lz78_pack width calX calY 0 tokens.

(* 118-128: [target] is target[i:], [n] is len(tokens); one iteration per unit of fuel. *)
Fixpoint lz78_unpack (fuel : nat) (width : N -> nat) (calX calY : N) (n : nat) (target : word)
  : option (list token78) :=
  match target with
  | [] => Some []
  | _ :: _ =>
      match fuel with
      | O => None
      | S f =>
          let k := width (N.of_nat n + 1)%N in
          let M := width calX in
          let p := symbols_to_integer (firstn k target) calY in
          let rest := skipn k target in
          let x := match rest with
                   | [] => (-1)%Z
                   | _ :: _ => Z.of_N (symbols_to_integer (firstn M rest) calY)
                   end in
          match lz78_unpack f width calX calY (S n) (skipn M rest) with
          | Some ts => Some ((p, x) :: ts)
          | None => None
          end
      end
  end.
(* 105-129 *)
Definition lz78_target_to_tokens (width : N -> nat) (calX calY : N) (target : word) :=
  lz78_unpack (length target) width calX calY 0 target.

(* 131-152 *)
Definition lz78_encode (width : N -> nat) (calX calY : N) (input : list N) : option word :=
  match lz78_source_to_tokens calX input with
  | Some ts => Some (lz78_tokens_to_target width calX calY ts)
  | None => None
  end.
(* 154-175 *)
Definition lz78_decode (width : N -> nat) (calX calY : N) (input : word) : option (list Z) :=
  match lz78_target_to_tokens width calX calY input with
  | Some ts => lz78_tokens_to_source ts
  | None => None
  end.

(* ---------- LZW *)
(* LempelZivWelchCode.py 60 *)
Definition lzw_init (calX : N) : enc_dict := map (fun s => ([s], s)) (range_N calX).

(* 64-77 *)
Fixpoint lzw_scan (width : N -> nat) (calY : N) (d : enc_dict) (wd : word) (input : list N) : option word :=
  match input with
  | [] =>
      match wd with
      | [] => Some []
      | _ :: _ =>
          match ed_get wd d with
          | Some p => Some (integer_to_symbols p calY (width (N.of_nat (length d))))
          | None => None
          end
      end
  | s :: r =>
      match ed_get (wd ++ [s]) d with
      | Some _ => lzw_scan width calY d (wd ++ [s]) r
      | None =>
          match ed_get wd d with
          | None => None
          | Some p =>
              match lzw_scan width calY (ed_add (wd ++ [s]) d) [s] r with
              | Some out => Some (integer_to_symbols p calY (width (N.of_nat (length d))) ++ out)
              | None => None
              end
          end
      end
  end.
(* 39-79 *)
Definition lzw_encode (width : N -> nat) (calX calY : N) (input : list N) : option word :=
  if in_range calX input then lzw_scan width calY (lzw_init calX) [] input else None.

(* 116-125: [input] is input[i:]; dictionary.get(pointer, old + (old[0],)). *)
Fixpoint lzw_unscan (fuel : nat) (width : N -> nat) (calY : N) (d : list word) (old : word) (input : word)
  : option word :=
  let k := width (N.of_nat (length d) + 1)%N in
  if length input <? k then Some []
  else match fuel with
       | O => None
       | S f =>
           let pointer := symbols_to_integer (firstn k input) calY in
           match old with
           | [] => None
           | o :: _ =>
               match (match nth_error d (N.to_nat pointer) with Some wd => wd | None => old ++ [o] end) with
               | [] => None
               | c :: t =>
                   match lzw_unscan f width calY (d ++ [old ++ [c]]) (c :: t) (skipn k input) with
                   | Some out => Some ((c :: t) ++ out)
                   | None => None
                   end
               end
           end
       end.
(* 81-129 *)
Definition lzw_decode (width : N -> nat) (calX calY : N) (input : word) : option word :=
  match input with
  | [] => Some []
  | _ :: _ =>
      let d := map (fun s => [s]) (range_N calX) in
      let k := width calX in
      match nth_error d (N.to_nat (symbols_to_integer (firstn k input) calY)) with
      | None => None
      | Some old =>
          match lzw_unscan (length input) width calY d old (skipn k input) with
          | Some out => Some (old ++ out)
          | None => None
          end
      end
  end.
