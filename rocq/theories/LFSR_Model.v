(* Model of /repo/src/komm/_sequences_binary/sequences.py 29-42 (lfsr_sequence) and LFSRSequence.py. *)
From Verif Require Import Common Bits_Model BinPoly_Model.
Local Open Scope nat_scope.

(* BinaryPolynomial.py 187-199 exponents: np.flatnonzero(self.coefficients()) *)
Definition exponents (a : N) : list nat := filter (fun i => N.testbit a (N.of_nat i)) (seq 0 (Nat.max (BinPoly_Model.bit_length a) 1)).
(* state[t - 1]; for t = 0 this is state[-1], the last entry *)
Definition tapped (state : list bool) (t : nat) : bool := match t with O => last state false | S i => nth i state false end.
(* sequences.py 40: np.count_nonzero(state[taps - 1]) % 2 *)
Definition feedback_bit (taps : list nat) (state : list bool) : bool := Nat.odd (length (filter (fun b => b) (map (tapped state) taps))).
(* 40-41: the last entry is replaced by the feedback bit and the array rolled by one *)
Definition lfsr_step (taps : list nat) (state : list bool) : list bool := feedback_bit taps state :: removelast state.
(* 38-41 *)
Fixpoint lfsr_loop (taps : list nat) (length : nat) (state : list bool) : list bool :=
  match length with O => [] | S n => last state false :: lfsr_loop taps n (lfsr_step taps state) end.
(* 33-42; None is the IndexError of taps[-1] for an empty array *)
Definition lfsr_sequence (f start : N) : option (list bool) :=
  let taps := exponents (padd f 1) in
  match rev taps with
  | [] => None
  | top :: _ => Some (lfsr_loop taps (2 ^ top - 1) (int_to_bits start (BinPoly_Model.bit_length f - 1) LSB_first))
  end.
(* LFSRSequence.py 45-56 *)
Definition LFSRSequence (f start : N) : option (list bool) := lfsr_sequence f start.
(* 58-77; the option also covers the ValueError of default_primitive_polynomial *)
Definition maximum_length_sequence (degree start : N) : option (list bool) :=
  match default_primitive_polynomial degree with None => None | Some p => LFSRSequence p start end.
(* BinarySequence: the bit sequence as an integer array (0/1) *)
Definition bit_values (s : list bool) : list Z := map (fun b : bool => if b then 1%Z else 0%Z) s.
