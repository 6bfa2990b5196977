(* Model of src/komm/_error_control_convolutional/: base.py, ConvolutionalCode.py, LowRateConvolutionalCode.py,
   HighRateConvolutionalCode.py, TerminatedConvolutionalCode.py, and of _error_control_decoders/ViterbiDecoder.py. *)
From Coq Require Import QArith.
From Verif Require Import Common Bits_Model Vec_Model LinAlg_Model BinPoly_Model BlockCode_Model FSM_Model FSM_Spec.
Local Open Scope nat_scope.

(* The part of the abstract class base.py:18-125 the methods use: num_output_bits, num_input_bits, degree,
   memory_order and the state-space matrices (A: deg x deg, B: k x deg, C: deg x n, D: k x n). *)
Record conv := { cv_n : nat; cv_k : nat; cv_deg : nat; cv_mem : nat;
                 cv_A : mat; cv_B : mat; cv_C : mat; cv_D : mat }.

(* base.py:250 and 251 *)
Definition conv_output (c : conv) (s u : vec) : vec := vxor (vecmat (cv_n c) s (cv_C c)) (vecmat (cv_n c) u (cv_D c)).
Definition conv_next (c : conv) (s u : vec) : vec := vxor (vecmat (cv_deg c) s (cv_A c)) (vecmat (cv_deg c) u (cv_B c)).

(* base.py:249-253, on the blocks of the input; the output blocks are concatenated by the callers *)
Fixpoint conv_run (c : conv) (us : list vec) (s : vec) : list vec * vec :=
  match us with
  | [] => ([], s)
  | u :: us' => let v := conv_output c s u in
                let '(vs, s') := conv_run c us' (conv_next c s u) in (v :: vs, s')
  end.

(* np.reshape((-1, k)): consecutive blocks of k entries *)
Fixpoint reshape_rows {A} (rows k : nat) (l : list A) : list (list A) :=
  match rows with 0 => [] | S r => firstn k l :: reshape_rows r k (skipn k l) end.
Definition reshape {A} (k : nat) (l : list A) : list (list A) := reshape_rows (length l / k) k l.

(* base.py:234-253; None = ValueError (wrong state size, or input not a multiple of k) *)
Definition encode_with_state (c : conv) (input state : vec) : option (vec * vec) :=
  if (length state =? cv_deg c) && (length input mod cv_k c =? 0) then
    let '(vs, s) := conv_run c (reshape (cv_k c) input) state in Some (concat vs, s)
  else None.
(* base.py:213-215 *)
Definition conv_encode (c : conv) (input : vec) : option vec :=
  option_map fst (encode_with_state c input (zeros (cv_deg c))).

(* int_to_bits / bits_to_int with the default bit order, on indices *)
Definition nbits (w i : nat) : vec := int_to_bits (N.of_nat i) w LSB_first.
Definition bitsn (v : vec) : nat := N.to_nat (bits_to_int v LSB_first).

(* base.py:133-142: each entry encodes a single block u from the state s *)
Definition conv_fsm (c : conv) : mealy :=
  let table (f : list vec * vec -> nat) :=
    map (fun s => map (fun x => f (conv_run c [nbits (cv_k c) x] (nbits (cv_deg c) s))) (seq 0 (2 ^ cv_k c))) (seq 0 (2 ^ cv_deg c)) in
  {| fsm_transitions := table (fun r => bitsn (snd r)); fsm_outputs := table (fun r => bitsn (concat (fst r))) |}.

(* ---- free distance, base.py:180-200 ---- *)
(* heapq on pairs (weight, state): heappop removes the least pair in lexicographic order *)
Definition pair_leb (a b : nat * nat) : bool := (fst a <? fst b) || ((fst a =? fst b) && (snd a <=? snd b)).
Fixpoint heap_min (a : nat * nat) (h : list (nat * nat)) : nat * nat :=
  match h with [] => a | b :: h' => if pair_leb a b then heap_min a h' else heap_min b h' end.
Fixpoint heap_remove (a : nat * nat) (h : list (nat * nat)) : list (nat * nat) :=
  match h with
  | [] => []
  | b :: h' => if (fst a =? fst b) && (snd a =? snd b) then h' else b :: heap_remove a h'
  end.
(* Python's int.bit_count *)
Definition bit_count (y : nat) : nat := length (filter (fun i => N.testbit (N.of_nat y) (N.of_nat i)) (seq 0 (N.size_nat (N.of_nat y)))).

(* base.py:192-199, one input symbol; None in best = inf *)
Definition fd_relax (M : mealy) (w s : nat) (acc : list (nat * nat) * list (option nat)) (x : nat) : list (nat * nat) * list (option nat) :=
  let '(heap, best) := acc in
  let s1 := fsm_next M s x in
  let w1 := w + bit_count (fsm_out M s x) in
  if match nth s1 best None with None => true | Some b => w1 <? b end then ((w1, s1) :: heap, upd s1 (Some w1) best)
  else if (s1 =? 0) && (0 <? w1) then ((w1, 0) :: heap, best) else (heap, best).
(* base.py:188-200: the while loop, with fuel; Some None = RuntimeError, None = out of fuel *)
Fixpoint fd_loop (M : mealy) (fuel : nat) (heap : list (nat * nat)) (best : list (option nat)) : option (option nat) :=
  match heap with
  | [] => Some None
  | a :: h =>
      match fuel with
      | 0 => None
      | S fuel' =>
          let '(w, s) := heap_min a h in
          if (s =? 0) && (0 <? w) then Some (Some w)
          else let '(heap', best') := fold_left (fd_relax M w s) (seq 0 (num_input_symbols M)) (heap_remove (w, s) heap, best) in
               fd_loop M fuel' heap' best'
      end
  end.
Definition free_distance_fsm (M : mealy) (fuel : nat) : option (option nat) :=
  fd_loop M fuel [(0, 0)] (repeat None (num_states M)).
Definition free_distance (c : conv) (fuel : nat) : option (option nat) := free_distance_fsm (conv_fsm c) fuel.

(* ---- constructions ---- *)
(* degree, with 0 instead of -1 for the zero polynomial (it only enters a maximum with the degree of a
   non-zero polynomial) *)
Definition deg (p : N) : nat := N.size_nat p - 1.
Definition max_deg (ps : list N) : nat := fold_right Nat.max 0 (map deg ps).

(* _util/matrices.py:176-187, on blocks given with their number of columns.  Written as a recursion instead of
   assignments to slices of a zero matrix. *)
Definition total_cols (bs : list (nat * mat)) : nat := fold_right Nat.add 0 (map fst bs).
Fixpoint block_diagonal (bs : list (nat * mat)) : mat :=
  match bs with
  | [] => []
  | (c, M) :: bs' => map (fun r => r ++ zeros (total_cols bs')) M ++ map (fun r => zeros c ++ r) (block_diagonal bs')
  end.

(* ConvolutionalCode.py:221-226 *)
Definition row_nu (pq : list N * N) : nat := Nat.max (max_deg (fst pq)) (deg (snd pq)).
(* ConvolutionalCode.py:302: row l of beta; entry (l, j) is coefficient l of polynomial j
   (BinaryPolynomial.coefficients(width) lists the bits of the value) *)
Definition beta_row (ps : list N) (l : nat) : vec := map (fun p => N.testbit p (N.of_nat l)) ps.
Definition alpha_at (q : N) (l : nat) : bool := N.testbit q (N.of_nat l).
(* ConvolutionalCode.py:318-324 *)
Definition A_block (pq : list N * N) : mat :=
  let nu := row_nu pq in map (fun l => alpha_at (snd pq) (S l) :: unit_vec (nu - 1) l) (seq 0 nu).
Definition B_block (pq : list N * N) : mat := [unit_vec (row_nu pq) 0].
Definition C_block (pq : list N * N) : mat :=
  map (fun l => vxor (beta_row (fst pq) (S l)) (map (andb (alpha_at (snd pq) (S l))) (beta_row (fst pq) 0))) (seq 0 (row_nu pq)).
Definition D_block (pq : list N * N) : mat := [beta_row (fst pq) 0].

(* ConvolutionalCode.py:86-103 and 119-331.  The input pairs row i of the feedforward polynomials with feedback
   polynomial i; None = ValueError for rows of unequal length or no rows. *)
Definition ConvolutionalCode (rows : list (list N * N)) : option conv :=
  match rows with
  | [] => None
  | pq :: _ =>
      let n := length (fst pq) in
      if forallb (fun pq' => length (fst pq') =? n) rows && (0 <? n) then
        let nus := map row_nu rows in
        Some {| cv_n := n; cv_k := length rows; cv_deg := fold_right Nat.add 0 nus; cv_mem := fold_right Nat.max 0 nus;
                cv_A := block_diagonal (map (fun r => (row_nu r, A_block r)) rows);
                cv_B := block_diagonal (map (fun r => (row_nu r, B_block r)) rows);
                cv_C := concat (map C_block rows); cv_D := concat (map D_block rows) |}
      else None
  end.

(* LowRateConvolutionalCode.py:85, 116, 170-176 *)
Definition LowRate (g : list N) : conv :=
  let d := max_deg g in
  {| cv_n := length g; cv_k := 1; cv_deg := d; cv_mem := d;
     cv_A := map (fun l => unit_vec d (S l)) (seq 0 d); cv_B := [unit_vec d 0];
     cv_C := map (fun l => beta_row g (S l)) (seq 0 d); cv_D := [beta_row g 0] |}.

(* HighRateConvolutionalCode.py:63, 73, 85, 151, 203-215 (degree >= 1: np.eye(-1, ...) raises otherwise);
   h_row is given as its first n - 1 entries and the last one *)
Definition HighRate (hs : list N) (q : N) : conv :=
  let d := Nat.max (max_deg hs) (deg q) in
  let k := length hs in
  {| cv_n := S k; cv_k := k; cv_deg := d; cv_mem := fold_right Nat.max 0 (map (fun h => Nat.max (deg h) (deg q)) hs);
     cv_A := map (fun l => unit_vec d (S l)) (seq 0 (d - 1)) ++ [map (fun j => alpha_at q (d - j)) (seq 0 d)];
     cv_B := map (fun h => map (fun j => xorb (alpha_at h (d - j)) (alpha_at q (d - j) && alpha_at h 0)) (seq 0 d)) hs;
     cv_C := repeat (zeros (S k)) (d - 1) ++ [unit_vec (S k) k];
     cv_D := map (fun '(i, h) => unit_vec k i ++ [alpha_at h 0]) (combine (seq 0 k) hs) |}.

(* ---- termination ---- *)
Inductive term_mode := DirectTruncation | ZeroTermination | TailBiting.

(* powers of A modulo 2: TerminatedConvolutionalCode.py:247-249, and np.linalg.matrix_power followed by % 2 (297) *)
Fixpoint mat_pow (d : nat) (A : mat) (j : nat) : mat := match j with 0 => eye d | S j' => matmul d (mat_pow d A j') A end.
(* TerminatedConvolutionalCode.py:250 and 251: np.vstack of B @ A^j for j = hi-1, ..., lo *)
Definition reach_stack (c : conv) (lo count : nat) : mat :=
  concat (map (fun j => matmul (cv_deg c) (cv_B c) (mat_pow (cv_deg c) (cv_A c) j)) (rev (seq lo count))).
(* TerminatedConvolutionalCode.py:241-252; None: np.vstack of an empty list raises ValueError *)
Definition tail_projector (c : conv) (h : nat) : option mat :=
  if (0 <? h) && (0 <? cv_mem c) then
    let M_info := reach_stack c (cv_mem c) h in
    let M_tail := reach_stack c 0 (cv_mem c) in
    Some (matmul (length M_tail) M_info (pseudo_inverse (cv_deg c) M_tail))
  else None.
(* TerminatedConvolutionalCode.py:207, 254-257, 299 *)
Definition pre_process_input (c : conv) (h : nat) (m : term_mode) (u : vec) : option vec :=
  match m with
  | ZeroTermination => match tail_projector c h with
                       | Some P => Some (u ++ vecmat (cv_mem c * cv_k c) u P)
                       | None => None
                       end
  | _ => Some u
  end.
(* TerminatedConvolutionalCode.py:292-297, 302-306 *)
Definition zs_multiplier (c : conv) (h : nat) : mat :=
  let d := cv_deg c in
  pseudo_inverse d (map (fun '(r, e) => vxor r e) (combine (mat_pow d (cv_A c) h) (eye d))).
Definition initial_state (c : conv) (h : nat) (m : term_mode) (u : vec) : option vec :=
  match m with
  | TailBiting => match encode_with_state c u (zeros (cv_deg c)) with
                  | Some (_, s) => Some (vecmat (cv_deg c) s (zs_multiplier c h))
                  | None => None
                  end
  | _ => Some (zeros (cv_deg c))
  end.
(* TerminatedConvolutionalCode.py:126-136: the run of the encoder on one message: codeword and final state *)
Definition terminated_run (c : conv) (h : nat) (m : term_mode) (u : vec) : option (vec * vec) :=
  match pre_process_input c h m u, initial_state c h m u with
  | Some x, Some s => encode_with_state c x s
  | _, _ => None
  end.
Definition terminated_encode (c : conv) (h : nat) (m : term_mode) (u : vec) : vec :=
  match terminated_run c h m u with Some (v, _) => v | None => [] end.
(* TerminatedConvolutionalCode.py:100, 104: length and dimension *)
Definition terminated_length (c : conv) (h : nat) (m : term_mode) : nat :=
  match m with ZeroTermination => (h + cv_mem c) * cv_n c | _ => h * cv_n c end.
(* TerminatedConvolutionalCode.py:98-145; None when computing the check matrix raises (dependent rows) or encode raises *)
Definition terminated_code (c : conv) (h : nat) (m : term_mode) : option block_code :=
  let k := h * cv_k c in
  match terminated_run c h m (zeros k) with
  | None => None
  | Some _ =>
      let G := map (terminated_encode c h m) (eye k) in
      match code_of_generator (terminated_length c h m) G with
      | Some C => Some {| bc_n := terminated_length c h m; bc_k := k; bc_m := terminated_length c h m - k; bc_G := G;
                          bc_Ginv := bc_Ginv C; bc_H := bc_H C; bc_encode := terminated_encode c h m;
                          bc_project := bc_project C; bc_check := bc_check C |}
      | None => None
      end
  end.

(* ---- Viterbi decoding of terminated codes ---- *)
(* ViterbiDecoder.py:51-52: number of positions where the output bits of symbol y differ from the block z *)
Definition metric_hard (n : nat) (y : nat) (z : vec) : xQ :=
  Some (inject_Z (Z.of_nat (length (filter (fun b => b) (vxor (nbits n y) z))))).
(* ViterbiDecoder.py:54-55: np.dot(bits, z) on soft values *)
Definition metric_soft (n : nat) (y : nat) (z : list Q) : xQ :=
  Some (fold_right Qplus 0%Q (map (fun '(b, x) => if b : bool then x else 0%Q) (combine (nbits n y) z))).

Definition viterbi_decode_metric {Z} (c : conv) (metric : nat -> Z -> xQ) (m : term_mode) (zs : list Z) : option vec :=
  let M := conv_fsm c in
  (* ViterbiDecoder.py:48-49 *)
  let init := upd 0 (Some 0%Q : xQ) (repeat (None : xQ) (num_states M)) in
  let '(xs_hat, final) := viterbi xQ M metric zs init in
  let bits (xs : list BinNums.Z) := concat (map (fun x => nbits (cv_k c) (Z.to_nat x)) xs) in
  match m with
  | DirectTruncation => Some (bits (nth (argmin_by (mle xQ) final) xs_hat []))       (* :219-224 *)
  | ZeroTermination =>                                                                (* :269-274, x[:-mu]; x[:-0] is empty *)
      let x := nth 0 xs_hat [] in
      Some (bits (if cv_mem c =? 0 then [] else firstn (length x - cv_mem c) x))
  | TailBiting => None                                                                (* NotImplementedError *)
  end.
(* ViterbiDecoder.py:80-88 for one block r, hard input *)
Definition viterbi_decode_hard (c : conv) (m : term_mode) (r : vec) : option vec :=
  viterbi_decode_metric c (metric_hard (cv_n c)) m (reshape (cv_n c) r).
Definition viterbi_decode_soft (c : conv) (m : term_mode) (r : list Q) : option vec :=
  viterbi_decode_metric c (metric_soft (cv_n c)) m (reshape (cv_n c) r).
