(* Model of /repo/src/komm/_error_control_block/ReedMullerCode.py and _error_control_decoders/ReedDecoder.py *)
From Coq Require Import QArith Qabs Qminmax.
From Verif Require Import Common Bits_Model Vec_Model LinAlg_Model BlockCode_Model ClassicCodes_Model.
Local Open Scope nat_scope.

(* ReedMullerCode.py:113-119: v[mu - i - 1] = np.tile(hstack(zeros, ones), 2**i); here j = mu - i - 1 *)
Definition rm_v (mu j : nat) : vec :=
  let i := mu - 1 - j in
  let block := zeros (2 ^ (mu - i - 1)) ++ ones (2 ^ (mu - i - 1)) in
  concat (repeat block (2 ^ i)).

(* np.multiply of two binary rows *)
Fixpoint vand (u v : vec) : vec :=
  match u, v with x :: u', y :: v' => (x && y) :: vand u' v' | _, _ => [] end.

(* ReedMullerCode.py:124: reduce(np.multiply, v[indices, :]) for a non-empty tuple of indices *)
Definition rm_row (mu : nat) (indices : list nat) : vec :=
  match map (rm_v mu) indices with
  | [] => []
  | r :: rs => fold_left vand rs r
  end.

(* ReedMullerCode.py:111-129; range(rho, 0, -1) = rev [1..rho] *)
Definition reed_muller_generator_matrix (rho mu : nat) : mat :=
  flat_map (fun ell => map (rm_row mu) (combinations (seq 0 mu) ell)) (rev (seq 1 rho)) ++ [ones (2 ^ mu)].

(* ReedMullerCode.py:60-65 *)
Definition ReedMullerCode (rho mu : nat) : option block_code :=
  if rho <? mu then code_of_generator (2 ^ mu) (reed_muller_generator_matrix rho mu) else None.

(* ReedMullerCode.py:71-73 *)
Definition rm_minimum_distance (rho mu : nat) : nat := 2 ^ (mu - rho).

(* int_to_bits(range(2**ell), width=ell)   (ReedMullerCode.py:100) *)
Definition bin_vectors (ell : nat) : list vec := map (fun a => int_to_bits (N.of_nat a) ell LSB_first) (seq 0 (2 ^ ell)).

(* one entry of np.dot(bits, 2**set) *)
Fixpoint dot_pow (bits : vec) (set : list nat) : nat :=
  match bits, set with
  | b :: bits', i :: set' => (if b then 2 ^ i else 0) + dot_pow bits' set'
  | _, _ => 0
  end.

(* ReedMullerCode.py:103-107 for one tuple of indices *)
Definition reed_partition (mu : nat) (indices : list nat) : list (list nat) :=
  let ell := length indices in
  let setE := not_pivots mu indices in
  let setS := map (fun b => dot_pow b indices) (bin_vectors ell) in
  let setQ := map (fun b => dot_pow b setE) (bin_vectors (mu - ell)) in
  map (fun q => map (fun s => s + q) setS) setQ.

(* ReedMullerCode.py:98-108; range(rho, -1, -1) *)
Definition reed_partitions (rho mu : nat) : list (list (list nat)) :=
  flat_map (fun ell => map (reed_partition mu) (combinations (seq 0 mu) ell)) (rev (seq 0 (rho + 1))).

(* ReedDecoder.py:53: np.count_nonzero(bx[partition], axis=1) % 2 *)
Definition checksums (bx : vec) (partition : list (list nat)) : list bool :=
  map (fun row => Nat.odd (vsum (map (fun p => nth p bx false) row))) partition.

(* ReedDecoder.py:54-55, one iteration of the loop *)
Definition reed_step_hard (st : vec * vec) (pg : list (list nat) * vec) : vec * vec :=
  let (u_hat, bx) := st in
  let (partition, g) := pg in
  let cs := checksums bx partition in
  let u := length cs / 2 <? vsum cs in
  (u_hat ++ [u], if u then vxor bx g else bx).
(* ReedDecoder.py:47-56 *)
Definition reed_decode_hard (rho mu : nat) (r : vec) : vec :=
  fst (fold_left reed_step_hard (combine (reed_partitions rho mu) (reed_muller_generator_matrix rho mu)) ([], r)).

(* np.min(np.abs(r[row])); 0 for the empty list (rows are never empty) *)
Fixpoint min_abs (l : list Q) : Q :=
  match l with
  | [] => 0%Q
  | x :: l' => match l' with [] => Qabs x | _ => Qmin (Qabs x) (min_abs l') end
  end.
(* ReedDecoder.py:66: (1 - 2 * checksums) @ min_reliability *)
Fixpoint decision_var (cs : list bool) (rel : list Q) : Q :=
  match cs, rel with
  | c :: cs', x :: rel' => ((if c then - x else x) + decision_var cs' rel')%Q
  | _, _ => 0%Q
  end.
(* x < 0 *)
Definition Qneg (x : Q) : bool := negb (Qle_bool 0 x).
(* ReedDecoder.py:63-68, one iteration; floating point is idealised to exact rationals *)
Definition reed_step_soft (r : list Q) (st : vec * vec) (pg : list (list nat) * vec) : vec * vec :=
  let (u_hat, bx) := st in
  let (partition, g) := pg in
  let cs := checksums bx partition in
  let rel := map (fun row => min_abs (map (fun p => nth p r 0%Q) row)) partition in
  let u := Qneg (decision_var cs rel) in
  (u_hat ++ [u], if u then vxor bx g else bx).
(* ReedDecoder.py:58-69 *)
Definition reed_decode_soft (rho mu : nat) (r : list Q) : vec :=
  fst (fold_left (reed_step_soft r) (combine (reed_partitions rho mu) (reed_muller_generator_matrix rho mu)) ([], map Qneg r)).
