(* Model of invariant_factors in src/komm/_util/matrices.py (lines 190-269), of generator_matrix in the three convolutional
   classes, and of _minors_gcd and is_catastrophic in src/komm/_error_control_convolutional/base.py (lines 144-177). *)
From Verif Require Import Common BinPoly_Model Det_Model ClassicCodes_Model.
Local Open Scope N_scope.

(* matrix[i, j] *)
Definition pentry (M : list (list N)) (i j : nat) : N := nth j (nth i M []) 0.
(* a k x n matrix from its entries.  The assignments to rows and columns below rebuild the whole matrix. *)
Definition pbuild (k n : nat) (f : nat -> nat -> N) : list (list N) := map (fun i => map (f i) (seq 0 n)) (seq 0 k).
(* matrices.py:222 and 223, 238, 254: the two rows (columns) are exchanged *)
Definition transpose_index (a i : nat) : nat := if (i =? 0)%nat then a else if (i =? a)%nat then 0%nat else i.
Definition pswap_rows (k n : nat) (a : nat) (M : list (list N)) := pbuild k n (fun i j => pentry M (transpose_index a i) j).
Definition pswap_cols (k n : nat) (a : nat) (M : list (list N)) := pbuild k n (fun i j => pentry M i (transpose_index a j)).
(* matrices.py:236-237 and 261-262: column c minus q times column 0 *)
Definition pcol_sub (k n : nat) (c : nat) (q : N) (M : list (list N)) :=
  pbuild k n (fun i j => if (j =? c)%nat then psub (pentry M i j) (pmul q (pentry M i 0)) else pentry M i j).
(* matrices.py:252-253 and 266-267: row r minus q times row 0 *)
Definition prow_sub (k n : nat) (r : nat) (q : N) (M : list (list N)) :=
  pbuild k n (fun i j => if (i =? r)%nat then psub (pentry M i j) (pmul q (pentry M 0 j)) else pentry M i j).

(* matrices.py:214-221 (E1): the first non-zero entry of least degree in row-major order; None while d0 is inf *)
Definition e1_step (M : list (list N)) (best : option (nat * nat * N)) (ij : nat * nat) : option (nat * nat * N) :=
  let a := pentry M (fst ij) (snd ij) in
  if a =? 0 then best
  else match best with
       | Some (_, _, a0) => if (pdegree a <? pdegree a0)%Z then Some (fst ij, snd ij, a) else best
       | None => Some (fst ij, snd ij, a)
       end.
Definition e1 (k n : nat) (M : list (list N)) : option (nat * nat * N) :=
  fold_left (e1_step M) (list_prod (seq 0 k) (seq 0 n)) None.

(* the inner for loop of E2: the first index whose entry is not a multiple of a0, with quotient and remainder *)
Fixpoint e2_find (f : nat -> N) (a0 : N) (js : list nat) : option (nat * N * N) :=
  match js with
  | [] => None
  | j :: js' => let a := f j in
                if a =? 0 then e2_find f a0 js'
                else if pmod a a0 =? 0 then e2_find f a0 js' else Some (j, pquo a a0, pmod a a0)
  end.
(* matrices.py:226-240 (E2a) and 242-256 (E2b): the while loops, with fuel; None = out of fuel *)
Fixpoint e2a (fuel k n : nat) (M : list (list N)) (a0 : N) : option (list (list N) * N) :=
  match e2_find (pentry M 0) a0 (seq 1 (n - 1)) with
  | None => Some (M, a0)
  | Some (j, q, r) => match fuel with O => None | S fuel' => e2a fuel' k n (pswap_cols k n j (pcol_sub k n j q M)) r end
  end.
Fixpoint e2b (fuel k n : nat) (M : list (list N)) (a0 : N) : option (list (list N) * N) :=
  match e2_find (fun i => pentry M i 0) a0 (seq 1 (k - 1)) with
  | None => Some (M, a0)
  | Some (i, q, r) => match fuel with O => None | S fuel' => e2b fuel' k n (pswap_rows k n i (prow_sub k n i q M)) r end
  end.
(* matrices.py:259-262 (E3a) and 264-267 (E3b) *)
Definition e3a (k n : nat) (a0 : N) (M : list (list N)) : list (list N) :=
  fold_left (fun M j => pcol_sub k n j (pquo (pentry M 0 j) a0) M) (seq 1 (n - 1)) M.
Definition e3b (k n : nat) (a0 : N) (M : list (list N)) : list (list N) :=
  fold_left (fun M i => prow_sub k n i (pquo (pentry M i 0) a0) M) (seq 1 (k - 1)) M.

(* matrices.py:204-269, for a k x n matrix; e1 = None iff the matrix is zero (line 210).  None = out of fuel. *)
Fixpoint inv_factors (k n : nat) (M : list (list N)) : option (list N) :=
  match k with
  | O => Some []
  | S k' =>
      match e1 k n M with
      | None => Some []
      | Some (i0, j0, a0) =>
          let M := pswap_cols k n j0 (pswap_rows k n i0 M) in
          match e2a (bit_length a0) k n M a0 with
          | None => None
          | Some (M, a0) =>
              match e2b (bit_length a0) k n M a0 with
              | None => None
              | Some (M, a0) =>
                  let M := e3b k n a0 (e3a k n a0 M) in
                  option_map (cons a0) (inv_factors k' (n - 1) (map (@tl N) (tl M)))
              end
          end
      end
  end.
(* matrices.py:207-211: the shape is read off the array; None = ValueError when there are more rows than columns *)
Definition invariant_factors (M : list (list N)) : option (list N) :=
  let k := length M in
  let n := length (nth 0 M []) in
  if (n <? k)%nat then None else inv_factors k n M.

Fixpoint all_some {A} (l : list (option A)) : option (list A) :=
  match l with
  | [] => Some []
  | x :: r => match x, all_some r with Some a, Some b => Some (a :: b) | _, _ => None end
  end.
Definition all_some2 {A} (l : list (list (option A))) : option (list (list A)) := all_some (map all_some l).
Definition bind {A B} (x : option A) (f : A -> option B) : option B := match x with Some a => f a | None => None end.

(* ConvolutionalCode.py:205-211; None = ZeroDivisionError (a zero feedback polynomial) *)
Definition cc_generator (rows : list (list N * N)) : option (list (list pfrac)) :=
  all_some2 (map (fun r => map (fun p => bind (mk_frac p 1) (fun x => bind (mk_frac (snd r) 1) (frac_div x))) (fst r)) rows).
(* LowRateConvolutionalCode.py:101-106 *)
Definition lr_generator (g : list N) : option (list (list pfrac)) := all_some2 [map (fun p => mk_frac p 1) g].
(* HighRateConvolutionalCode.py:133-139 *)
Definition hr_generator (hs : list N) (q : N) : option (list (list pfrac)) :=
  all_some2 (map (fun i => map (fun j => mk_frac (if (i =? j)%nat then 1 else 0) 1) (seq 0 (length hs)) ++ [mk_frac (nth i hs 0) q]) (seq 0 (length hs))).

(* base.py:147-158; None = ValueError (not a polynomial matrix), TypeError (reduce of an empty sequence) or a determinant that raises.
   [ClassicCodes_Model.combinations] models itertools.combinations. *)
Definition minors_gcd (G : list (list pfrac)) : option N :=
  if forallb (forallb (fun x => snd x =? 1)) G then
    let k := length G in
    let n := length (nth 0 G []) in
    bind (all_some (map (fun js => determinant poly_ring (map (fun row => map (fun j => fst (nth j row (0, 1))) js) G)) (combinations (seq 0 n) k)))
         (reduce pgcd)
  else None.

(* BinaryPolynomial.exponents (BinaryPolynomial.py:187-206): the positions of the ones *)
Definition exponents (p : N) : list nat := filter (fun i => N.testbit p (N.of_nat i)) (seq 0 (bit_length p)).
(* base.py:167-177; None = an exception (zero columns, more inputs than outputs, "not full rank") *)
Definition is_catastrophic (G : list (list pfrac)) : option bool :=
  bind (reduce domain_lcm (map snd (concat G))) (fun q =>
  bind (mk_frac q 1) (fun fq =>
  bind (all_some2 (map (map (fun x => option_map fst (frac_mul fq x))) G)) (fun G' =>
  bind (invariant_factors G') (fun factors =>
  if (length factors <? length G)%nat then None
  else bind (mk_frac (last factors 0) q) (fun a => Some (negb (length (exponents (fst a)) =? 1)%nat)))))).
