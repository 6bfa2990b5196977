(* Model of the named block codes in /repo/src/komm/_error_control_block: HammingCode, SimplexCode,
   RepetitionCode, SingleParityCheckCode, CordaroWagnerCode, GolayCode, Lexicode, util.
   Each class is its base-class constructor applied to a specific matrix, plus overridden closed forms. *)
From Verif Require Import Common Bits_Model Vec_Model LinAlg_Model BlockCode_Model.
Local Open Scope nat_scope.

(* itertools.combinations(l, w), in its documented (lexicographic) order *)
Fixpoint combinations {A} (l : list A) (w : nat) : list (list A) :=
  match w, l with
  | 0, _ => [[]]
  | S _, [] => []
  | S w', x :: l' => map (cons x) (combinations l' w') ++ combinations l' w
  end.

(* math.comb(n, w) *)
Fixpoint comb (n w : nat) : nat :=
  match w, n with
  | 0, _ => 1
  | S _, 0 => 0
  | S w', S n' => comb n' w' + comb n' w
  end.

(* row = zeros(m); row[list(idx)] = 1   (HammingCode.py:94,98) *)
Definition indicator (m : nat) (idx : list nat) : vec := map (fun j => existsb (Nat.eqb j) idx) (seq 0 m).

(* (1 + np.sum(row)) % 2   (util.py:8) *)
Definition odd_parity_bit (r : vec) : bool := Nat.odd (1 + vsum r).

(* util.py:5-10 extended_parity_submatrix *)
Definition extended_parity_submatrix (P : mat) : mat := map (fun r => r ++ [odd_parity_bit r]) P.

(* HammingCode.py:93-102 hamming_parity_submatrix.  The Python code writes the rows into a preallocated
   array of 2**m - m - 1 rows; here they are listed (their number is a theorem). *)
Definition hamming_parity_submatrix (m : nat) (extended : bool) : mat :=
  let P := flat_map (fun w => map (indicator m) (combinations (seq 0 m) w)) (seq 2 (m - 1)) in
  if extended then extended_parity_submatrix P else P.

(* number of columns of hamming_parity_submatrix *)
Definition hamming_width (m : nat) (extended : bool) : nat := if extended then m + 1 else m.

(* HammingCode.py:77-82; None = ValueError *)
Definition HammingCode (mu : nat) (extended : bool) : option block_code :=
  if 2 <=? mu then SystematicBlockCode (hamming_width mu extended) (hamming_parity_submatrix mu extended) Left else None.
(* HammingCode.py:88-90 *)
Definition hamming_minimum_distance (extended : bool) : nat := if extended then 4 else 3.

(* SimplexCode.py:72-77 *)
Definition SimplexCode (kappa : nat) (extended : bool) : option block_code :=
  if 2 <=? kappa then
    let P := hamming_parity_submatrix kappa extended in
    SystematicBlockCode (length P) (transpose (hamming_width kappa extended) P) Left
  else None.
(* SimplexCode.py:83-85 *)
Definition simplex_minimum_distance (kappa : nat) : nat := 2 ^ (kappa - 1).

(* np.ones(n) *)
Definition ones (n : nat) : vec := repeat true n.

(* RepetitionCode.py:51-55 *)
Definition RepetitionCode (n : nat) : option block_code :=
  if 1 <=? n then code_of_generator n [ones n] else None.
(* RepetitionCode.py:66-73 *)
Definition repetition_coset_leader_weight_distribution (n : nat) : list nat :=
  let d := fold_left (fun d w => upd w (comb n w) d) (seq 0 ((n + 1) / 2)) (repeat 0 (n + 1)) in
  if n mod 2 =? 0 then upd (n / 2) (comb n (n / 2) / 2) d else d.

(* SingleParityCheckCode.py:51-55 *)
Definition SingleParityCheckCode (n : nat) : option block_code :=
  if 1 <=? n then code_of_check n [ones n] else None.
(* SingleParityCheckCode.py:66-71: range(0, n + 1, 2) *)
Definition spc_codeword_weight_distribution (n : nat) : list nat :=
  fold_left (fun d i => upd (2 * i) (comb n (2 * i)) d) (seq 0 (n / 2 + 1)) (repeat 0 (n + 1)).

(* CordaroWagnerCode.py:52,57: int(np.ceil(2 * n / 3)) - 1, with exact instead of floating-point division *)
Definition cw_distance (n : nat) : nat := (2 * n + 2) / 3 - 1.
(* CordaroWagnerCode.py:55-63 *)
Definition cordaro_wagner_generator_matrix (n : nat) : mat :=
  let d := cw_distance n in
  let q := (n + 1) / 3 in
  [ones (d - q) ++ zeros q ++ ones (n - d); zeros (d - q) ++ ones q ++ ones (n - d)].
(* CordaroWagnerCode.py:40-44 *)
Definition CordaroWagnerCode (n : nat) : option block_code :=
  if 2 <=? n then code_of_generator n (cordaro_wagner_generator_matrix n) else None.

(* GolayCode.py:75-90 *)
Definition golay_rows : list (list nat) := [
  [1; 1; 1; 1; 1; 1; 1; 1; 1; 1; 0];
  [0; 0; 0; 0; 1; 1; 1; 1; 1; 1; 1];
  [0; 1; 1; 1; 0; 0; 0; 1; 1; 1; 1];
  [1; 0; 1; 1; 0; 1; 1; 0; 0; 1; 1];
  [1; 1; 0; 1; 1; 0; 1; 0; 1; 0; 1];
  [1; 1; 1; 0; 1; 1; 0; 1; 0; 0; 1];
  [0; 0; 1; 1; 1; 1; 0; 0; 1; 0; 1];
  [0; 1; 0; 1; 0; 1; 1; 1; 0; 0; 1];
  [0; 1; 1; 0; 1; 0; 1; 0; 0; 1; 1];
  [1; 0; 0; 1; 1; 0; 0; 1; 0; 1; 1];
  [1; 0; 1; 0; 0; 0; 1; 1; 1; 0; 1];
  [1; 1; 0; 0; 0; 1; 0; 0; 1; 1; 1] ].
Definition golay_parity_submatrix (extended : bool) : mat :=
  let P := map (map (Nat.eqb 1)) golay_rows in
  if extended then extended_parity_submatrix P else P.
(* GolayCode.py:62-64 *)
Definition GolayCode (extended : bool) : option block_code :=
  SystematicBlockCode (if extended then 12 else 11) (golay_parity_submatrix extended) Left.
(* GolayCode.py:70-72 *)
Definition golay_minimum_distance (extended : bool) : nat := if extended then 8 else 7.

(* int.bit_count() *)
Fixpoint pos_count (p : positive) : nat :=
  match p with xH => 1 | xO p' => pos_count p' | xI p' => S (pos_count p') end.
Definition bit_count (n : N) : nat := match n with N0 => 0 | Npos p => pos_count p end.

(* Lexicode.py:57-62, one iteration for i *)
Definition lexicode_step (d : nat) (st : list N * list N) (i : N) : list N * list N :=
  let (codewords, basis) := st in
  if forallb (fun c => d <=? bit_count (N.lxor c i)) (rev codewords) then
    (codewords ++ [i], if bit_count (N.of_nat (length codewords)) =? 1 then basis ++ [i] else basis)
  else st.
(* Lexicode.py:55-62: the loop over range(1, 2**n) *)
Definition lexicode_loop (n d : nat) : list N * list N :=
  fold_left (lexicode_step d) (map N.of_nat (seq 1 (2 ^ n - 1))) ([0%N], []).
(* Lexicode.py:63-64 *)
Definition lexicode_generator_matrix (n d : nat) : mat :=
  map (fun b => int_to_bits b n MSB_first) (snd (lexicode_loop n d)).
(* Lexicode.py:38-43 *)
Definition Lexicode (n d : nat) : option block_code :=
  if (1 <=? d) && (d <=? n) then code_of_generator n (lexicode_generator_matrix n d) else None.
