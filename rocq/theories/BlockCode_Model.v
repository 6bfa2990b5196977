(* Model of /repo/src/komm/_error_control_block/{base,BlockCode,SystematicBlockCode,SlepianArray}.py and of
   _error_control_decoders/{SyndromeTableDecoder,ExhaustiveSearchDecoder}.py.
   One word is processed at a time; the blockwise/batch reshaping of _util/decorators.py is modelled
   separately (Array_Model.v, Nd_Model.v).  Caching decorators are not modelled. *)
From Coq Require Import QArith.
From Verif Require Import Common Bits_Model Vec_Model LinAlg_Model.
Local Open Scope nat_scope.

(* base.py:13-131: what a concrete subclass provides. *)
Record block_code := BC {
  bc_n : nat;                       (* length *)
  bc_k : nat;                       (* dimension *)
  bc_m : nat;                       (* redundancy *)
  bc_G : mat;                       (* generator_matrix *)
  bc_Ginv : mat;                    (* generator_matrix_right_inverse *)
  bc_H : mat;                       (* check_matrix *)
  bc_encode : vec -> vec;
  bc_project : vec -> vec;          (* project_word *)
  bc_check : vec -> vec }.

(* base.py:96-112 inverse_encode; None = ValueError *)
Definition bc_inverse_encode (C : block_code) (v : vec) : option vec :=
  if forallb negb (bc_check C v) then Some (bc_project C v) else None.

(* base.py:79-131 default encode, project_word, check *)
Definition matrix_code (n k m : nat) (G Ginv H : mat) : block_code :=
  {| bc_n := n; bc_k := k; bc_m := m; bc_G := G; bc_Ginv := Ginv; bc_H := H;
     bc_encode := fun u => vecmat n u G;
     bc_project := fun v => vecmat k v Ginv;
     bc_check := fun r => matvec H r |}.

(* BlockCode.py:58-75,149-151,155,170-172: constructor with generator_matrix; None = null_matrix raises *)
Definition code_of_generator (n : nat) (G : mat) : option block_code :=
  match null_matrix n G with
  | Some H => Some (matrix_code n (length G) (n - length G) G (pseudo_inverse n G) H)
  | None => None
  end.

(* BlockCode.py:58-75,149-151,155,170-172: constructor with check_matrix *)
Definition code_of_check (n : nat) (H : mat) : option block_code :=
  match null_matrix n H with
  | Some N => let G := rref n N in
              Some (matrix_code n (n - length H) (length H) G (pseudo_inverse n G) H)
  | None => None
  end.

(* int_to_bits(j, k) / np.unpackbits(js, count=k, bitorder="little") (base.py:149-150) *)
Definition message (k : nat) (j : nat) : vec := int_to_bits (N.of_nat j) k LSB_first.

(* base.py:139-153 codewords *)
Definition codewords (C : block_code) : list vec :=
  map (fun j => bc_encode C (message (bc_k C) j)) (seq 0 (2 ^ bc_k C)).

(* np.sum(v) of a binary vector *)
Definition vsum (v : vec) : nat := fold_right (fun (b : bool) acc => (if b then 1 else 0) + acc) 0 v.

(* np.bincount(l, minlength) *)
Definition bincount (minlength : nat) (l : list nat) : list nat :=
  map (fun w => count_occ Nat.eq_dec l w) (seq 0 (Nat.max minlength (match l with [] => 0 | _ => S (list_max l) end))).

(* elementwise + of two arrays *)
Fixpoint nadd (a b : list nat) : list nat :=
  match a, b with x :: a', y :: b' => (x + y) :: nadd a' b' | _, _ => [] end.

(* base.py:166-177 the loop over batches [i, min(i + size, 2^k)); fuel bounds the number of batches *)
Fixpoint batch_loop (C : block_code) (size fuel i : nat) (dist : list nat) : list nat :=
  match fuel with
  | 0 => dist
  | S f => if 2 ^ bc_k C <=? i then dist
           else let batch_end := Nat.min (i + size) (2 ^ bc_k C) in
                let ws := map (fun j => vsum (bc_encode C (message (bc_k C) j))) (seq i (batch_end - i)) in
                batch_loop C size f (i + size) (nadd dist (bincount (bc_n C + 1) ws))
  end.

(* base.py:161-178 codeword_weight_distribution; [cached] = hasattr(self, "_cached_codewords") *)
Definition weight_distribution (C : block_code) (cached : bool) : list nat :=
  if cached then bincount (bc_n C + 1) (map vsum (codewords C))
  else batch_loop C 1024 (2 ^ bc_k C) 0 (repeat 0 (bc_n C + 1)).

(* np.flatnonzero *)
Definition flatnonzero (l : list nat) : list nat :=
  filter (fun i => negb (nth i l 0 =? 0)) (seq 0 (length l)).

(* base.py:186 minimum_distance; None = IndexError *)
Definition minimum_distance (C : block_code) (cached : bool) : option nat :=
  nth_error (flatnonzero (weight_distribution C cached)) 1.

(* base.py:273 packing_radius: (d - 1) // 2 in integers *)
Definition packing_radius (C : block_code) (cached : bool) : option nat :=
  option_map (fun d => (d - 1) / 2) (minimum_distance C cached).

(* ---- coset leaders ---- *)
(* bits_to_int(check_matrix.T): the columns as integers, first row = least significant (base.py:195) *)
Definition H_cols (C : block_code) : list N :=
  map (fun c => bits_to_int c LSB_first) (transpose (bc_n C) (bc_H C)).

(* local variables of the search, base.py:196-208 *)
Record bfs := BFS { visited : list bool; leaders : list vec; next : list N; count : nat }.

(* base.py:211-218, one column j with value h, for current syndrome s *)
Definition visit (s : N) (j : nat) (h : N) (b : bfs) : bfs :=
  let s0 := N.lxor s h in
  if nth (N.to_nat s0) (visited b) true then b
  else let ld := nth (N.to_nat s) (leaders b) [] in
       {| visited := upd (N.to_nat s0) true (visited b);
          leaders := upd (N.to_nat s0) (upd j (negb (nth j ld false)) ld) (leaders b);
          next := next b ++ [s0];
          count := S (count b) |}.

(* base.py:210-223: loop over the columns; inr = returned because count == 2**m.
   The test sits after the insertion; when nothing was inserted the count is unchanged. *)
Fixpoint visit_cols (m : nat) (s : N) (j : nat) (cols : list N) (b : bfs) : bfs + bfs :=
  match cols with
  | [] => inl b
  | h :: cols' =>
      let b' := visit s j h b in
      if negb (count b' =? count b) && (count b' =? 2 ^ m) then inr b'
      else visit_cols m s (S j) cols' b'
  end.

(* base.py:209-223: loop over the syndromes of the current level *)
Fixpoint visit_all (m : nat) (cols : list N) (syns : list N) (b : bfs) : bfs + bfs :=
  match syns with
  | [] => inl b
  | s :: syns' => match visit_cols m s 0 cols b with
                  | inl b' => visit_all m cols syns' b'
                  | inr b' => inr b'
                  end
  end.

(* base.py:207-224: while True; None = more than [fuel] levels *)
Fixpoint bfs_loop (m : nat) (cols : list N) (fuel : nat) (syns : list N) (b : bfs) : option (list vec) :=
  match fuel with
  | 0 => None
  | S f => match visit_all m cols syns {| visited := visited b; leaders := leaders b; next := []; count := count b |} with
           | inr b' => Some (leaders b')
           | inl b' => bfs_loop m cols f (next b') b'
           end
  end.

(* base.py:196-200 initial state *)
Definition bfs_init (m n : nat) : bfs :=
  {| visited := upd 0 true (repeat false (2 ^ m)); leaders := repeat (zeros n) (2 ^ m); next := []; count := 1 |}.

(* base.py:194-224 coset_leaders; None = the loop does not stop within [fuel] levels *)
Definition coset_leaders_fuel (C : block_code) (fuel : nat) : option (list vec) :=
  bfs_loop (bc_m C) (H_cols C) fuel [0%N] (bfs_init (bc_m C) (bc_n C)).

Definition coset_leaders (C : block_code) : option (list vec) := coset_leaders_fuel C (bc_n C).

(* base.py:248-265: the loop of coset_leader_weight_distribution (no leaders are kept; the [leaders]
   component of the state is left untouched by [visit_d]) ; None = IndexError or no return within fuel *)
Definition visit_d (s h : N) (b : bfs) : bfs :=
  let s0 := N.lxor s h in
  if nth (N.to_nat s0) (visited b) true then b
  else {| visited := upd (N.to_nat s0) true (visited b); leaders := leaders b;
          next := next b ++ [s0]; count := S (count b) |}.

Fixpoint visit_cols_d (m : nat) (s : N) (cols : list N) (b : bfs) : bfs + bfs :=
  match cols with
  | [] => inl b
  | h :: cols' =>
      let b' := visit_d s h b in
      if negb (count b' =? count b) && (count b' =? 2 ^ m) then inr b'
      else visit_cols_d m s cols' b'
  end.

Fixpoint visit_all_d (m : nat) (cols : list N) (syns : list N) (b : bfs) : bfs + bfs :=
  match syns with
  | [] => inl b
  | s :: syns' => match visit_cols_d m s cols b with
                  | inl b' => visit_all_d m cols syns' b'
                  | inr b' => inr b'
                  end
  end.

Fixpoint bfs_loop_d (m : nat) (cols : list N) (fuel : nat) (syns : list N) (weight : nat) (dist : list nat) (b : bfs)
  : option (list nat) :=
  match fuel with
  | 0 => None
  | S f =>
      if length dist <=? weight then None else
      let dist1 := upd weight (length syns) dist in
      match visit_all_d m cols syns {| visited := visited b; leaders := leaders b; next := []; count := count b |} with
      | inr b' => if length dist <=? weight + 1 then None else Some (upd (weight + 1) (length (next b')) dist1)
      | inl b' => bfs_loop_d m cols f (next b') (S weight) dist1 b'
      end
  end.

(* base.py:232-265 coset_leader_weight_distribution; [cached] = hasattr(self, "_cached_coset_leaders") *)
Definition coset_leader_weight_distribution (C : block_code) (cached : bool) : option (list nat) :=
  if cached then option_map (fun ls => bincount (bc_n C + 1) (map vsum ls)) (coset_leaders C)
  else bfs_loop_d (bc_m C) (H_cols C) (bc_n C) [0%N] 0 (repeat 0 (bc_n C + 1)) (bfs_init (bc_m C) (bc_n C)).

(* base.py:281 covering_radius: last non-zero index *)
Definition covering_radius (C : block_code) (cached : bool) : option nat :=
  match coset_leader_weight_distribution C cached with
  | None => None
  | Some d => match rev (flatnonzero d) with [] => None | r :: _ => Some r end
  end.

(* ---- SystematicBlockCode ---- *)
(* v[idx] = vals *)
Definition put {A} (idx : list nat) (vals : list A) (v : list A) : list A :=
  fold_left (fun v '(i, x) => upd i x v) (combine idx vals) v.

(* v[idx] *)
Definition gather (idx : list nat) (v : vec) : vec := map (fun i => nth i v false) idx.

(* SystematicBlockCode.py:55-73 constructor: "left", "right" or an index array; the code checks the
   size and max() > n (so the out-of-range index n is accepted) and does not check duplicates *)
Inductive info_set := Left | Right | Idx (l : list nat).

Definition information_set (k m : nat) (i : info_set) : option (list nat) :=
  match i with
  | Left => Some (seq 0 k)
  | Right => Some (seq m k)
  | Idx l => if negb (length l =? k) || (k + m <? list_max l) then None else Some l
  end.

(* SystematicBlockCode.py:83-213; m = parity_submatrix.shape[1]; Idx is the information set *)
Definition systematic_code (m : nat) (P : mat) (I : list nat) : block_code :=
  let k := length P in
  let n := k + m in
  let par := not_pivots n I in                                   (* line 84 *)
  {| bc_n := n; bc_k := k; bc_m := m;
     (* lines 135-139 *)
     bc_G := map (fun '(e, p) => put par p (put I e (zeros n))) (combine (eye k) P);
     (* lines 143-146 *)
     bc_Ginv := put I (eye k) (repeat (zeros k) n);
     (* lines 158-162 *)
     bc_H := map (fun '(c, e) => put par e (put I c (zeros n))) (combine (transpose m P) (eye m));
     (* lines 172-177 *)
     bc_encode := fun u => put par (vecmat m u P) (put I u (zeros n));
     (* lines 183-185 *)
     bc_project := fun v => gather I v;
     (* lines 206-211 *)
     bc_check := fun r => vxor (vecmat m (gather I r) P) (gather par r) |}.

Definition SystematicBlockCode (m : nat) (P : mat) (i : info_set) : option block_code :=
  option_map (systematic_code m P) (information_set (length P) m i).

(* ---- SlepianArray.py:62-66 entry, 88-89 row, 111-112 col ---- *)
Definition slepian_entry (C : block_code) (lds : list vec) (i j : nat) : vec :=
  vxor (nth i lds []) (bc_encode C (message (bc_k C) j)).
Definition slepian_row (C : block_code) (lds : list vec) (i : nat) : list vec :=
  map (slepian_entry C lds i) (seq 0 (2 ^ bc_k C)).
Definition slepian_col (C : block_code) (lds : list vec) (j : nat) : list vec :=
  map (fun i => slepian_entry C lds i j) (seq 0 (2 ^ bc_m C)).

(* ---- decoders ---- *)
(* SyndromeTableDecoder.py:39-47 *)
Definition syndrome_decode (C : block_code) (lds : list vec) (r : vec) : vec :=
  let s := bc_check C r in
  let e_hat := nth (N.to_nat (bits_to_int s LSB_first)) lds [] in
  bc_project C (vxor r e_hat).

(* np.argmin over any comparison: first index whose value is <= all others *)
Fixpoint argmin_by {A} (le : A -> A -> bool) (l : list A) : nat :=
  match l with
  | [] => 0
  | x :: l' => match l' with
               | [] => 0
               | y :: _ => if le x (nth (argmin_by le l') l' y) then 0 else S (argmin_by le l')
               end
  end.

(* ExhaustiveSearchDecoder.py:46-57, hard input *)
Definition exhaustive_hard (C : block_code) (r : vec) : vec :=
  let cs := codewords C in
  let metrics := map (fun c => vsum (vxor r c)) cs in
  bc_project C (nth (argmin_by Nat.leb metrics) cs []).

(* (-1) ** bit *)
Definition sign (b : bool) : Q := if b then (-1)%Q else 1%Q.

(* lines 51-52: sum of -r * (-1)**codeword; floating point is idealised to exact rationals *)
Fixpoint soft_metric (r : list Q) (c : vec) : Q :=
  match r, c with
  | x :: r', b :: c' => ((- x * sign b) + soft_metric r' c')%Q
  | _, _ => 0%Q
  end.

Definition exhaustive_soft (C : block_code) (r : list Q) : vec :=
  let cs := codewords C in
  let metrics := map (soft_metric r) cs in
  bc_project C (nth (argmin_by Qle_bool metrics) cs []).
