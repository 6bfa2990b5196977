(* Model of /repo/src/komm/_lossless_coding/LempelZiv77Code.py and LempelZivSSCode.py.
   [width n] stands for ceil(log(n, calY)) as in LempelZiv_Model.
   bytes(...) raises for values outside range(256): modelled by [in_range 256]. *)
From Verif Require Import Common Prefix_Model LempelZiv_Model.
Local Open Scope nat_scope.

(* buffer[a:b] for 0 <= a *)
Definition slice (a b : nat) (l : word) : word := firstn (b - a) (skipn a l).

(* bytes.rfind: the last position at which [needle] occurs in [hay] (positions k, k-1, ..., 0). *)
Fixpoint rfind_from (k : nat) (hay needle : word) : option nat :=
  if word_eqb (firstn (length needle) (skipn k hay)) needle then Some k
  else match k with O => None | S k' => rfind_from k' hay needle end.
Definition rfind (hay needle : word) : option nat :=
  if length hay <? length needle then None else rfind_from (length hay - length needle) hay needle.

(* LempelZiv77Code.py 115-119, LempelZivSSCode.py 131-135: inner loop decreasing l;
   None = l would become negative (shown impossible). *)
Fixpoint longest_match (buffer : word) (ss i l : nat) : option (nat * nat) :=
  match rfind (slice (i - ss) (i + l - 1) buffer) (slice i (i + l) buffer) with
  | Some p => Some (p, l)
  | None => match l with O => None | S l' => longest_match buffer ss i l' end
  end.

Record lz_params := { ss : nat; ls : nat; calX : N; calY : N; search_buffer : list N }.
(* constructors, LempelZiv77Code.py 45-67, LempelZivSSCode.py 46-68 *)
Definition lz_valid (c : lz_params) : bool :=
  (1 <=? ss c) && (1 <=? ls c) && (2 <=? calX c)%N && (2 <=? calY c)%N && (length (search_buffer c) =? ss c).

(* ---------- LZ77 *)
Definition token77 := (N * N * N)%type.

(* 113-122: one iteration per unit of fuel. *)
Fixpoint lz77_scan (fuel : nat) (c : lz_params) (buffer : word) (i : nat) : option (list token77) :=
  if i <? length buffer then
    match fuel with
    | O => None
    | S f =>
        match longest_match buffer (ss c) i (Nat.min (ls c) (length buffer - i) - 1) with
        | None => None
        | Some (p, l) =>
            match nth_error buffer (i + l), lz77_scan f c buffer (i + (l + 1)) with
            | Some x, Some ts => Some ((N.of_nat p, N.of_nat l, x) :: ts)
            | _, _ => None
            end
        end
    end
  else Some [].
(* 92-124 *)
Definition lz77_source_to_tokens (c : lz_params) (source : list N) : option (list token77) :=
  let buffer := search_buffer c ++ source in
  if in_range (calX c) source && in_range 256 buffer
  then lz77_scan (length buffer) c buffer (ss c) else None.

(* 144-145 *)
Fixpoint lz77_copy (l start : nat) (buffer : word) : option word :=
  match l with
  | O => Some buffer
  | S l' => match nth_error buffer start with
            | Some b => lz77_copy l' (S start) (buffer ++ [b])
            | None => None
            end
  end.
(* 142-146 *)
Fixpoint lz77_unscan (s : nat) (buffer : word) (tokens : list token77) : option word :=
  match tokens with
  | [] => Some buffer
  | (p, l, x) :: r =>
      match lz77_copy (N.to_nat l) (length buffer - s + N.to_nat p) buffer with
      | Some b => lz77_unscan s (b ++ [x]) r
      | None => None
      end
  end.
(* 126-148 *)
Definition lz77_tokens_to_source (c : lz_params) (tokens : list token77) : option word :=
  match lz77_unscan (ss c) (search_buffer c) tokens with
  | Some b => Some (skipn (ss c) b)
  | None => None
  end.

(* 85-90 *)
Definition p_width (width : N -> nat) (c : lz_params) := width (N.of_nat (ss c)).
Definition l_width (width : N -> nat) (c : lz_params) := width (N.of_nat (ls c)).
Definition x_width (width : N -> nat) (c : lz_params) := width (calX c).

(* 150-171 *)
Fixpoint lz77_tokens_to_target (width : N -> nat) (c : lz_params) (tokens : list token77) : word :=
  match tokens with
  | [] => []
  | (p, l, x) :: r =>
      integer_to_symbols p (calY c) (p_width width c) ++ integer_to_symbols l (calY c) (l_width width c) ++
      integer_to_symbols x (calY c) (x_width width c) ++ lz77_tokens_to_target width c r
  end.
(* 191-199: [target] is target[i:]. *)
Fixpoint lz77_unpack (fuel : nat) (width : N -> nat) (c : lz_params) (target : word) : option (list token77) :=
  let pw := p_width width c in let lw := l_width width c in let xw := x_width width c in
  if pw + lw + xw <=? length target then
    match fuel with
    | O => None
    | S f =>
        let p := symbols_to_integer (firstn pw target) (calY c) in
        let t1 := skipn pw target in
        let l := symbols_to_integer (firstn lw t1) (calY c) in
        let t2 := skipn lw t1 in
        let x := symbols_to_integer (firstn xw t2) (calY c) in
        match lz77_unpack f width c (skipn xw t2) with
        | Some ts => Some ((p, l, x) :: ts)
        | None => None
        end
    end
  else Some [].
(* 173-200 *)
Definition lz77_target_to_tokens width c target := lz77_unpack (length target) width c target.
(* 202-224 *)
Definition lz77_encode width c input :=
  match lz77_source_to_tokens c input with
  | Some ts => Some (lz77_tokens_to_target width c ts)
  | None => None
  end.
(* 226-248 *)
Definition lz77_decode width c input :=
  match lz77_target_to_tokens width c input with
  | Some ts => lz77_tokens_to_source c ts
  | None => None
  end.

(* ---------- LZSS *)
Inductive tokenSS := Lit (x : N) | Ref (p l : N).   (* (0, x) and (1, p, l) *)

(* LempelZivSSCode.py 94-106; the quotient is exact here. *)
Definition break_even width c : nat :=
  let num := 1 + p_width width c + l_width width c in
  let den := 1 + x_width width c in (num + den - 1) / den.

(* 129-143 *)
Fixpoint lzss_scan (fuel : nat) (be : nat) (c : lz_params) (buffer : word) (i : nat) : option (list tokenSS) :=
  if i <? length buffer then
    match fuel with
    | O => None
    | S f =>
        match longest_match buffer (ss c) i (Nat.min (ls c) (length buffer - i)) with
        | None => None
        | Some (p, l) =>
            if be <=? l then
              match lzss_scan f be c buffer (i + l) with
              | Some ts => Some (Ref (N.of_nat (ss c - p)) (N.of_nat l) :: ts)
              | None => None
              end
            else
              match nth_error buffer i, lzss_scan f be c buffer (i + 1) with
              | Some x, Some ts => Some (Lit x :: ts)
              | _, _ => None
              end
        end
    end
  else Some [].
(* 108-146 *)
Definition lzss_source_to_tokens width (c : lz_params) (source : list N) : option (list tokenSS) :=
  let buffer := search_buffer c ++ source in
  if in_range (calX c) source && in_range 256 buffer
  then lzss_scan (length buffer) (break_even width c) c buffer (ss c) else None.

(* buffer[-p]; note buffer[-0] is buffer[0]. *)
Definition from_end (p : nat) (buffer : word) : option N :=
  if p =? 0 then nth_error buffer 0
  else if length buffer <? p then None else nth_error buffer (length buffer - p).
(* 167-168 *)
Fixpoint lzss_copy (l p : nat) (buffer : word) : option word :=
  match l with
  | O => Some buffer
  | S l' => match from_end p buffer with
            | Some b => lzss_copy l' p (buffer ++ [b])
            | None => None
            end
  end.
(* 164-172 *)
Fixpoint lzss_unscan (buffer : word) (tokens : list tokenSS) : option word :=
  match tokens with
  | [] => Some buffer
  | Lit x :: r => lzss_unscan (buffer ++ [x]) r
  | Ref p l :: r =>
      match lzss_copy (N.to_nat l) (N.to_nat p) buffer with
      | Some b => lzss_unscan b r
      | None => None
      end
  end.
(* 148-175 *)
Definition lzss_tokens_to_source (c : lz_params) (tokens : list tokenSS) : option word :=
  match lzss_unscan (search_buffer c) tokens with
  | Some b => Some (skipn (ss c) b)
  | None => None
  end.

(* 177-206; p - 1 and l - 1 are truncated subtractions (p, l >= 1 in every token the encoder makes). *)
Fixpoint lzss_tokens_to_target (width : N -> nat) (c : lz_params) (tokens : list tokenSS) : word :=
  match tokens with
  | [] => []
  | Ref p l :: r =>
      1%N :: integer_to_symbols (p - 1) (calY c) (p_width width c) ++
      integer_to_symbols (l - 1) (calY c) (l_width width c) ++ lzss_tokens_to_target width c r
  | Lit x :: r => 0%N :: integer_to_symbols x (calY c) (x_width width c) ++ lzss_tokens_to_target width c r
  end.
(* 227-241: [target] is target[i:]; a flag without enough symbols after it is skipped. *)
Fixpoint lzss_unpack (fuel : nat) (width : N -> nat) (c : lz_params) (target : word) : option (list tokenSS) :=
  let pw := p_width width c in let lw := l_width width c in let xw := x_width width c in
  match target with
  | [] => Some []
  | flag :: t =>
      match fuel with
      | O => None
      | S f =>
          if (flag =? 1)%N then
            if pw + lw <=? length t then
              let p := (symbols_to_integer (firstn pw t) (calY c) + 1)%N in
              let t1 := skipn pw t in
              let l := (symbols_to_integer (firstn lw t1) (calY c) + 1)%N in
              match lzss_unpack f width c (skipn lw t1) with
              | Some ts => Some (Ref p l :: ts)
              | None => None
              end
            else lzss_unpack f width c t
          else
            if xw <=? length t then
              let x := symbols_to_integer (firstn xw t) (calY c) in
              match lzss_unpack f width c (skipn xw t) with
              | Some ts => Some (Lit x :: ts)
              | None => None
              end
            else lzss_unpack f width c t
      end
  end.
(* 208-243 *)
Definition lzss_target_to_tokens width c target := lzss_unpack (length target) width c target.
(* 245-266 *)
Definition lzss_encode width c input :=
  match lzss_source_to_tokens width c input with
  | Some ts => Some (lzss_tokens_to_target width c ts)
  | None => None
  end.
(* 268-289 *)
Definition lzss_decode width c input :=
  match lzss_target_to_tokens width c input with
  | Some ts => lzss_tokens_to_source c ts
  | None => None
  end.
