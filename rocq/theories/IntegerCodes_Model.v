(* Model of /repo/src/komm/_integer_coding/{UnaryCode,FibonacciCode}.py.
   Bits are [bool]; None = ValueError.  Input validation (lines 22, 34 / 24, 36) is the typing
   of the arguments, plus the explicit [low=1] check of FibonacciCode.encode. *)
From Verif Require Import Common.

(* ---------------------------------------------------------------- UnaryCode *)
(* UnaryCode.py 48-49 *)
Definition unary_encode (i : nat) : list bool := repeat true i ++ [false].

(* UnaryCode.py 52-53 *)
Definition unary_decode_word (bits : list bool) : nat := length bits - 1.

(* UnaryCode.py 13-25 *)
Definition unary_code_encode (input : list nat) : list bool := flat_map unary_encode input.

(* UnaryCode.py 38-44: the inner while loop and the slice input[i : j + 1]; None when j runs off
   the end (line 41).  Indices into the array are modelled by the remaining suffix. *)
Fixpoint unary_next (bits : list bool) : option (list bool * list bool) :=
  match bits with
  | [] => None
  | false :: rest => Some ([false], rest)
  | true :: rest =>
      match unary_next rest with
      | None => None
      | Some (w, r) => Some (true :: w, r)
      end
  end.

(* UnaryCode.py 35-45: outer while loop; fuel bounds the number of iterations (out of fuel = None). *)
Fixpoint unary_decode_loop (fuel : nat) (bits : list bool) : option (list nat) :=
  match bits with
  | [] => Some []
  | _ :: _ =>
      match fuel with
      | O => None
      | S f =>
          match unary_next bits with
          | None => None
          | Some (w, rest) =>
              match unary_decode_loop f rest with
              | None => None
              | Some out => Some (unary_decode_word w :: out)
              end
          end
      end
  end.

(* UnaryCode.py 27-45 *)
Definition unary_code_decode (bits : list bool) : option (list nat) :=
  unary_decode_loop (length bits) bits.

(* ------------------------------------------------------------ FibonacciCode *)
(* FibonacciCode.py 50-54 *)
Fixpoint fibonacci (n : nat) : N :=
  match n with
  | O => 0%N
  | S m => match m with
           | O => 1%N
           | S k => (fibonacci m + fibonacci k)%N
           end
  end.

(* FibonacciCode.py 60-62: i = 0; while fibonacci(i + 1) <= integer: i += 1.
   Out of fuel = None. *)
Fixpoint fib_search (fuel : nat) (i : nat) (n : N) : option nat :=
  if (fibonacci (i + 1) <=? n)%N
  then match fuel with O => None | S f => fib_search f (i + 1) n end
  else Some i.

(* FibonacciCode.py 58-64: list of positions in the order they are appended. *)
Fixpoint fib_positions (fuel : nat) (n : N) : option (list nat) :=
  if (n =? 0)%N then Some [] else
  match fuel with
  | O => None
  | S f =>
      match fib_search (2 * N.size_nat n + 2) 0 n with
      | None => None
      | Some i =>
          match fib_positions f (n - fibonacci i)%N with
          | None => None
          | Some ps => Some ((i - 2) :: ps)
          end
      end
  end.

(* FibonacciCode.py 57-66; max() of an empty list raises, hence None for 0. *)
Definition fibonacci_encode (n : N) : option (list bool) :=
  match fib_positions (N.size_nat n) n with
  | None => None
  | Some [] => None
  | Some ps =>
      let last := list_max ps + 1 in
      Some (map (fun i => existsb (Nat.eqb i) ps) (seq 0 last) ++ [true])
  end.

(* FibonacciCode.py 69-70: sum(fibonacci(i + 2) for i, bit in enumerate(bits[:-1]) if bit) *)
Fixpoint fib_sum (i : nat) (bits : list bool) : N :=
  match bits with
  | [] => 0%N
  | b :: rest => ((if b then fibonacci (i + 2) else 0) + fib_sum (i + 1) rest)%N
  end.
Definition fibonacci_decode (bits : list bool) : N := fib_sum 0 (removelast bits).

(* FibonacciCode.py 15-27; None = ValueError of validate_integer_min(low=1). *)
Fixpoint fib_code_encode (input : list N) : option (list bool) :=
  match input with
  | [] => Some []
  | n :: rest =>
      if (n <? 1)%N then None else
      match fibonacci_encode n, fib_code_encode rest with
      | Some w, Some ws => Some (w ++ ws)
      | _, _ => None
      end
  end.

(* FibonacciCode.py 40-46: inner loop, slice input[i : j + 2]; None when j + 1 runs off the end. *)
Fixpoint fib_next (bits : list bool) : option (list bool * list bool) :=
  match bits with
  | b1 :: rest =>
      match rest with
      | [] => None
      | b2 :: rest' =>
          if b1 && b2 then Some ([b1; b2], rest')
          else match fib_next rest with
               | None => None
               | Some (w, r) => Some (b1 :: w, r)
               end
      end
  | [] => None
  end.

(* FibonacciCode.py 37-47 *)
Fixpoint fib_decode_loop (fuel : nat) (bits : list bool) : option (list N) :=
  match bits with
  | [] => Some []
  | _ :: _ =>
      match fuel with
      | O => None
      | S f =>
          match fib_next bits with
          | None => None
          | Some (w, rest) =>
              match fib_decode_loop f rest with
              | None => None
              | Some out => Some (fibonacci_decode w :: out)
              end
          end
      end
  end.

(* FibonacciCode.py 29-47 *)
Definition fib_code_decode (bits : list bool) : option (list N) := fib_decode_loop (length bits) bits.
