(* Model of /repo/src/komm/_lossless_coding/util.py and of the parts of FixedToVariableCode.py and
   VariableToFixedCode.py that parse, encode and decode.
   Word = tuple[int, ...] is [list N]; dict[Word, Word] is an association list in insertion order;
   None = an exception (ValueError, KeyError, NotImplementedError). *)
From Verif Require Import Common.

Notation word := (list N) (only parsing).
Definition word_eqb (a b : word) : bool := if list_eq_dec N.eq_dec a b then true else false.
Definition mem (w : word) (l : list word) : bool := existsb (word_eqb w) l.

(* util.py 10-11 *)
Definition is_prefix_of (w1 w2 : word) : bool :=
  (length w1 <=? length w2) && word_eqb (firstn (length w1) w2) w1.

Definition non_empty (w : word) : bool := match w with [] => false | _ => true end.

(* sorted(words, key=len), util.py 16: stable insertion sort. *)
Fixpoint insert_by_len (w : word) (l : list word) : list word :=
  match l with
  | [] => [w]
  | x :: r => if length w <=? length x then w :: l else x :: insert_by_len w r
  end.
Definition sort_by_len (l : list word) : list word := fold_right insert_by_len [] l.

(* util.py 17-21: nested loops over i and words[i + 1:]. *)
Fixpoint no_later_extension (l : list word) : bool :=
  match l with
  | [] => true
  | w1 :: r => negb (existsb (is_prefix_of w1) r) && no_later_extension r
  end.

(* util.py 14-21 *)
Definition is_prefix_free (words : list word) : bool :=
  no_later_extension (sort_by_len (filter non_empty words)).

(* Python sets of words: duplicate-free lists; order is irrelevant in the code. *)
Fixpoint dedup (l : list word) : list word :=
  match l with [] => [] | w :: r => if mem w r then dedup r else w :: dedup r end.

(* util.py 32-38: the contribution of one pair (w1, w2). *)
Definition dangling_of (w1 w2 : word) : list word :=
  if word_eqb w1 w2 then []
  else if is_prefix_of w1 w2 then [skipn (length w1) w2]
  else if is_prefix_of w2 w1 then [skipn (length w2) w1]
  else [].

(* util.py 31-38 *)
Definition dangling (words aug : list word) : list word :=
  flat_map (fun w1 => flat_map (fun w2 => dangling_of w1 w2) aug) (dedup words).

(* util.py 30-43: one iteration per unit of fuel; None = fuel exhausted (shown impossible). *)
Fixpoint sp_loop (fuel : nat) (words aug : list word) : option bool :=
  let d := dangling words aug in
  if existsb (fun w => mem w words) d then Some false
  else if forallb (fun w => mem w aug) d then Some true
  else match fuel with
       | O => None
       | S f => sp_loop f words (aug ++ filter (fun w => negb (mem w aug)) (dedup d))
       end.

Definition total_length (l : list word) : nat := fold_right (fun w acc => S (length w) + acc) 0 l.

(* util.py 24-43; the fuel is the number of suffixes of the words. *)
Definition is_uniquely_parsable (words : list word) : option bool :=
  let ws := filter non_empty words in
  if length (dedup ws) <? length ws then Some false
  else sp_loop (total_length ws) ws (dedup ws).

(* util.py 47-50: trie nodes. *)
Inductive trie := Node : bool -> list (N * trie) -> trie.
Definition is_end (t : trie) : bool := match t with Node e _ => e end.
Definition children (t : trie) : list (N * trie) := match t with Node _ c => c end.

Fixpoint find_child (s : N) (c : list (N * trie)) : option trie :=
  match c with
  | [] => None
  | (s', t) :: r => if N.eqb s s' then Some t else find_child s r
  end.

Fixpoint set_child (s : N) (t : trie) (c : list (N * trie)) : list (N * trie) :=
  match c with
  | [] => [(s, t)]
  | (s', t') :: r => if N.eqb s s' then (s, t) :: r else (s', t') :: set_child s t r
  end.

(* util.py 54-60: walking down, creating missing nodes, marking the last one. *)
Fixpoint trie_insert (w : word) (t : trie) : trie :=
  match w with
  | [] => Node true (children t)
  | s :: r =>
      let child := match find_child s (children t) with
                   | Some c => c
                   | None => Node false []
                   end in
      Node (is_end t) (set_child s (trie_insert r child) (children t))
  end.

Definition build_trie (words : list word) : trie :=
  fold_left (fun t w => trie_insert w t) words (Node false []).

Fixpoint trie_size (t : trie) : nat :=
  match t with
  | Node _ c => S ((fix go (c : list (N * trie)) : nat :=
                      match c with [] => 0 | (_, t') :: r => trie_size t' + go r end) c)
  end.

(* util.py 66-72: all symbols in range(cardinality) must have a child; children that are not ends
   are pushed.  The [visited] set is not modelled: in a tree a child is met once. *)
Fixpoint push_children (symbols : list N) (t : trie) (stack : list trie) : option (list trie) :=
  match symbols with
  | [] => Some stack
  | s :: r =>
      match find_child s (children t) with
      | None => None
      | Some c => push_children r t (if is_end c then stack else c :: stack)
      end
  end.

Definition range_N (n : N) : list N := map N.of_nat (seq 0 (N.to_nat n)).

(* util.py 62-74; outer None = fuel exhausted (shown impossible). *)
Fixpoint cover_loop (fuel : nat) (card : N) (stack : list trie) : option bool :=
  match stack with
  | [] => Some true
  | t :: rest =>
      match fuel with
      | O => None
      | S f =>
          match push_children (range_N card) t rest with
          | None => Some false
          | Some stack' => cover_loop f card stack'
          end
      end
  end.

(* util.py 46-74 *)
Definition is_fully_covering (words : list word) (card : N) : option bool :=
  let root := build_trie words in cover_loop (trie_size root) card [root].

(* Python dict operations. *)
Definition dict := list (word * word).
Fixpoint dict_get (k : word) (d : dict) : option word :=
  match d with
  | [] => None
  | (k', v) :: r => if word_eqb k k' then Some v else dict_get k r
  end.
Fixpoint dict_set (k v : word) (d : dict) : dict :=
  match d with
  | [] => [(k, v)]
  | (k', v') :: r => if word_eqb k k' then (k', v) :: r else (k', v') :: dict_set k v r
  end.
Definition dict_of_pairs (l : list (word * word)) : dict :=
  fold_left (fun d kv => dict_set (fst kv) (snd kv) d) l [].
(* FixedToVariableCode.py 305-306, VariableToFixedCode.py 236-237 *)
Definition dict_inverse (d : dict) : dict := dict_of_pairs (map (fun kv => (snd kv, fst kv)) d).

(* util.py 87-95: for i in range(0, len(input), block_size), one iteration per unit of fuel. *)
Fixpoint fixed_loop (fuel : nat) (d : dict) (bs : nat) (input : word) : option word :=
  match input with
  | [] => Some []
  | _ :: _ =>
      match fuel with
      | O => None
      | S f =>
          match dict_get (firstn bs input) d, fixed_loop f d bs (skipn bs input) with
          | Some v, Some out => Some (v ++ out)
          | _, _ => None
          end
      end
  end.
(* util.py 77-95 *)
Definition parse_fixed_length (input : word) (d : dict) (bs : nat) : option word :=
  if negb (length input mod bs =? 0) then None else fixed_loop (length input) d bs input.

(* util.py 103-109: [cur] is input[i : j + 1] before testing symbol j; returns output and input[i:]. *)
Fixpoint prefix_loop (d : dict) (cur : word) (input : word) : word * word :=
  match input with
  | [] => ([], cur)
  | x :: r =>
      let key := cur ++ [x] in
      match dict_get key d with
      | Some v => let '(out, rem) := prefix_loop d [] r in (v ++ out, rem)
      | None => prefix_loop d key r
      end
  end.

(* util.py 117-120 *)
Fixpoint complete (rem : word) (d : dict) : option word :=
  match d with
  | [] => None
  | (k, v) :: r => if is_prefix_of rem k then Some v else complete rem r
  end.

(* util.py 98-122 *)
Definition parse_prefix_free (input : word) (d : dict) (allow_incomplete : bool) : option word :=
  let '(out, rem) := prefix_loop d [] input in
  match rem with
  | [] => Some out
  | _ :: _ =>
      if negb allow_incomplete then None
      else match complete rem d with
           | Some v => Some (out ++ v)
           | None => None
           end
  end.

(* util.py 125-135; the loop multiplies by cardinality >= 2; None = ValueError. *)
Fixpoint infer_loop (fuel : nat) (size card : N) (k : nat) (power : N) : option nat :=
  if (power <? size)%N
  then match fuel with O => None | S f => infer_loop f size card (S k) (power * card) end
  else if (power =? size)%N then Some k else None.
Definition infer_block_size (size card : N) : option nat :=
  infer_loop (N.size_nat size) size card 1 card.

(* itertools.product(range(card), repeat=k) *)
Fixpoint tuples (card : N) (k : nat) : list word :=
  match k with
  | O => [[]]
  | S k' => flat_map (fun s => map (cons s) (tuples card k')) (range_N card)
  end.

(* util.py 180-185: divmod, least significant first, then reversed. *)
Fixpoint to_symbols_lsb (n base : N) (width : nat) : word :=
  match width with
  | O => []
  | S w => (n mod base)%N :: to_symbols_lsb (n / base) base w
  end.
Definition integer_to_symbols (n base : N) (width : nat) : word := rev (to_symbols_lsb n base width).

(* util.py 188-195 *)
Definition symbols_to_integer (s : word) (base : N) : N :=
  fold_left (fun acc x => (acc * base + x)%N) s 0%N.

(* util.py 161: Counter(l for l in lengths if l > 0)[l] *)
Definition count_len (lengths : list nat) (l : nat) : N :=
  N.of_nat (count_occ Nat.eq_dec (filter (fun x => 0 <? x) lengths) l).

(* util.py 162-164: integers[l] before the codewords are assigned. *)
Fixpoint start_int (base : N) (lengths : list nat) (l : nat) : N :=
  match l with
  | O => 0%N
  | S m => ((start_int base lengths m + count_len lengths m) * base)%N
  end.

Fixpoint incr (l : nat) (ints : list N) : list N :=
  match ints, l with
  | [], _ => []
  | x :: r, O => (x + 1)%N :: r
  | x :: r, S l' => x :: incr l' r
  end.

(* util.py 172-175 *)
Fixpoint assign_words (base : N) (ints : list N) (lengths : list nat) : list word :=
  match lengths with
  | [] => []
  | l :: r => integer_to_symbols (nth l ints 0%N) base l :: assign_words base (incr l ints) r
  end.

(* util.py 138-177; lengths are naturals (the check at 154 is the typing). *)
Definition canonical_code (lengths : list nat) (base : N) : option (list word) :=
  match lengths with
  | [] => None
  | _ :: _ =>
      if (base <? 2)%N then None else
      let lmax := list_max lengths in
      let ints := map (start_int base lengths) (seq 0 (S lmax)) in
      if (base ^ N.of_nat lmax <? nth lmax ints 0 + count_len lengths lmax)%N then None
      else Some (assign_words base ints lengths)
  end.

(* ----------------------------------------------------- FixedToVariableCode *)
Record f2v := { f2v_src : N; f2v_tgt : N; f2v_k : nat; f2v_map : dict }.

Definition incl_b (a b : list word) : bool := forallb (fun w => mem w b) a.

(* FixedToVariableCode.py 42-55 *)
Definition f2v_make (src tgt : N) (k : nat) (m : dict) : option f2v :=
  if (src <? 2)%N then None else
  if (tgt <? 2)%N then None else
  if k <? 1 then None else
  if negb (incl_b (map fst m) (tuples src k) && incl_b (tuples src k) (map fst m)) then None else
  if negb (forallb (forallb (fun x => (x <? tgt)%N)) (map snd m)) then None else
  Some {| f2v_src := src; f2v_tgt := tgt; f2v_k := k; f2v_map := m |}.

(* FixedToVariableCode.py 308-322 *)
Definition f2v_codewords (c : f2v) : list word := map snd (f2v_map c).

Definition max_symbol (ws : list word) : N := fold_right N.max 0%N (concat ws).

(* FixedToVariableCode.py 105-162; source_cardinality is given explicitly (None = len(codewords)). *)
Definition f2v_from_codewords (codewords : list word) (src : option N) : option f2v :=
  if existsb (fun w => negb (non_empty w)) codewords then None else
  let src := match src with Some s => s | None => N.of_nat (length codewords) end in
  if (src <? 2)%N then None else
  match codewords with
  | [] => None
  | _ =>
    match infer_block_size (N.of_nat (length codewords)) src with
    | None => None
    | Some k => f2v_make src (max_symbol codewords + 1) k (combine (tuples src k) codewords)
    end
  end.

(* FixedToVariableCode.py 164-240 *)
Definition f2v_from_lengths (lengths : list nat) (src : option N) (tgt : N) : option f2v :=
  let src := match src with Some s => s | None => N.of_nat (length lengths) end in
  if (src <? 2)%N then None else
  if (tgt <? 2)%N then None else
  match infer_block_size (N.of_nat (length lengths)) src with
  | None => None
  | Some k =>
    match canonical_code lengths tgt with
    | None => None
    | Some codewords =>
        if existsb (fun w => negb (non_empty w)) codewords then None
        else f2v_make src tgt k (combine (tuples src k) codewords)
    end
  end.

(* FixedToVariableCode.py 340-358, 360-378 *)
Definition f2v_is_uniquely_decodable (c : f2v) : option bool := is_uniquely_parsable (f2v_codewords c).
Definition f2v_is_prefix_free (c : f2v) : bool := is_prefix_free (f2v_codewords c).

(* FixedToVariableCode.py 478-481 *)
Definition f2v_encode (c : f2v) (input : word) : option word :=
  match f2v_is_uniquely_decodable c with
  | Some true => parse_fixed_length input (f2v_map c) (f2v_k c)
  | _ => None
  end.

(* FixedToVariableCode.py 518-525 *)
Definition f2v_decode (c : f2v) (input : word) : option word :=
  match f2v_is_uniquely_decodable c with
  | Some true =>
      if negb (f2v_is_prefix_free c) then None
      else parse_prefix_free input (dict_inverse (f2v_map c)) false
  | _ => None
  end.

(* ----------------------------------------------------- VariableToFixedCode *)
Record v2f := { v2f_tgt : N; v2f_src : N; v2f_n : nat; v2f_map : dict }.

(* VariableToFixedCode.py 41-56 *)
Definition v2f_make (tgt src : N) (n : nat) (m : dict) : option v2f :=
  if (tgt <? 2)%N then None else
  if (src <? 2)%N then None else
  if n <? 1 then None else
  if negb (incl_b (map fst m) (tuples tgt n)) then None else
  if negb (forallb (fun w => forallb (fun x => (x <? src)%N) w && (0 <? length w)) (map snd m)) then None else
  Some {| v2f_tgt := tgt; v2f_src := src; v2f_n := n; v2f_map := m |}.

Definition v2f_sourcewords (c : v2f) : list word := map snd (v2f_map c).

(* VariableToFixedCode.py 171: least n >= 1 with tgt ** n >= size. *)
Fixpoint least_block (fuel : nat) (tgt size : N) (n : nat) : option nat :=
  if (size <=? tgt ^ N.of_nat n)%N then Some n
  else match fuel with O => None | S f => least_block f tgt size (S n) end.

(* VariableToFixedCode.py 110-173 *)
Definition v2f_from_sourcewords (ws : list word) (tgt : N) : option v2f :=
  if existsb (fun w => negb (non_empty w)) ws then None else
  if (tgt <? 2)%N then None else
  match ws with
  | [] => None
  | _ =>
    match least_block (N.size_nat (N.of_nat (length ws))) tgt (N.of_nat (length ws)) 1 with
    | None => None
    | Some n => v2f_make tgt (max_symbol ws + 1) n (combine (tuples tgt n) ws)
    end
  end.

Definition v2f_is_fully_covering (c : v2f) : option bool := is_fully_covering (v2f_sourcewords c) (v2f_src c).
Definition v2f_is_uniquely_encodable (c : v2f) : option bool := is_uniquely_parsable (v2f_sourcewords c).
Definition v2f_is_prefix_free (c : v2f) : bool := is_prefix_free (v2f_sourcewords c).

(* VariableToFixedCode.py 409-418 *)
Definition v2f_encode (c : v2f) (input : word) : option word :=
  match v2f_is_fully_covering c, v2f_is_uniquely_encodable c with
  | Some true, Some true =>
      if negb (v2f_is_prefix_free c) then None
      else parse_prefix_free input (dict_inverse (v2f_map c)) true
  | _, _ => None
  end.

(* VariableToFixedCode.py 461-466 *)
Definition v2f_decode (c : v2f) (input : word) : option word :=
  match v2f_is_fully_covering c, v2f_is_uniquely_encodable c with
  | Some true, Some true => parse_fixed_length input (v2f_map c) (v2f_n c)
  | _, _ => None
  end.
