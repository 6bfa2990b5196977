(* Model of /repo/src/komm/_sequences_binary: BinarySequence, WalshHadamardSequence, Barker sequences. *)
From Verif Require Import Common Bits_Model.
Local Open Scope nat_scope.

(* numpy.kron of two matrices *)
Definition kron (h g : list (list Z)) : list (list Z) :=
  flat_map (fun r => map (fun s => flat_map (fun a => map (Z.mul a) s) r) g) h.
(* sequences.py 21-26 hadamard_matrix; [iters] is length.bit_length() - 1 *)
Fixpoint hadamard_iter (iters : nat) : list (list Z) :=
  match iters with 0 => [[1]]%Z | S i => kron (hadamard_iter i) [[1; 1]; [1; -1]]%Z end.
Definition bit_length (n : N) : nat := N.to_nat (N.size n).
Definition hadamard_matrix (length : N) : list (list Z) := hadamard_iter (bit_length length - 1).

(* BinarySequence.py 33-45: polar from bits, bits from polar *)
Definition polar_of_bits (b : list Z) : list Z := map (fun x => ((-1) ^ x)%Z) b.
Definition bits_of_polar (p : list Z) : list Z := map (fun x => if (x <? 0)%Z then 1%Z else 0%Z) p.

Inductive ordering := Natural | Sequency.
(* WalshHadamardSequence.py 77-101: the polar sequence; "dyadic" is NotImplemented and not modelled *)
Definition WalshHadamard (length : Z) (o : ordering) (index : Z) : option (list Z) :=
  if negb (Z.land length (length - 1) =? 0)%Z then None
  else if negb ((0 <=? index)%Z && (index <? length)%Z) then None
  else
    let i := Z.to_N index in
    let natural_index :=
      match o with
      | Natural => i
      | Sequency =>
          let index_gray := N.lxor i (N.shiftr i 1) in
          let width := bit_length (Z.to_N length - 1) in
          bits_to_int (int_to_bits index_gray width MSB_first) LSB_first
      end in
    Some (nth (N.to_nat natural_index) (hadamard_matrix (Z.to_N length)) []).

(* sequences.py 7-18 barker_sequence, BarkerSequence.py 30-34 *)
Definition barker_sequence (length : nat) : option (list Z) :=
  match length with
  | 2 => Some [0; 1]%Z
  | 3 => Some [0; 0; 1]%Z
  | 4 => Some [0; 0; 1; 0]%Z
  | 5 => Some [0; 0; 0; 1; 0]%Z
  | 7 => Some [0; 0; 0; 1; 1; 0; 1]%Z
  | 11 => Some [0; 0; 0; 1; 1; 1; 0; 1; 1; 0; 1]%Z
  | 13 => Some [0; 0; 0; 0; 0; 1; 1; 0; 0; 1; 0; 1; 0]%Z
  | _ => None
  end.
