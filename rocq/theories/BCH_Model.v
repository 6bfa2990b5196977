(* src/komm/_error_control_block/BCHCode.py and src/komm/_error_control_decoders/BerlekampDecoder.py.
   Field elements are natural numbers below 2^mu (the gf_ functions of BinPoly_Model), binary polynomials are natural numbers. *)
From Verif Require Import Common Bits_Model BinPoly_Model Vec_Model LinAlg_Model BlockCode_Model Cyclic_Model.
Local Open Scope nat_scope.

(* BCHCode.py:68 alpha = field(0b10) *)
Definition alpha : N := 2%N.
(* FiniteBifield.py:68-69 alpha ** i for a non-negative exponent *)
Definition alpha_pow (m : N) (i : nat) : N := ring_power (gf_mul m) 1%N alpha (N.of_nat i).
(* BCHCode.py:70-71 phi(i). minimal_polynomial() always returns (C26_minimal_polynomial); the default 0 is never used. *)
Definition phi (m : N) (mu i : nat) : N :=
  match gf_minimal_polynomial m (N.of_nat mu) (alpha_pow m i) with Some f => f | None => 0%N end.
(* BCHCode.py:73 the set comprehension: a duplicate-free list. The iteration order of a Python set is unspecified;
   C43_set_order shows that it does not matter. *)
Definition lcm_set (m : N) (mu delta : nat) : list N := nodup N.eq_dec (map (phi m mu) (seq 1 (delta - 1))).
(* x in lcm_set *)
Definition mem (x : N) (l : list N) : bool := existsb (N.eqb x) l.
(* BCHCode.py:86 reduce(operator.mul, lcm_set); None = TypeError on an empty set *)
Definition reduce_mul (l : list N) : option N := match l with [] => None | x :: r => Some (fold_left pmul r x) end.

Record bch := BCH { bch_mu : nat; bch_delta : nat; bch_modulus : N; bch_generator : N; bch_code : block_code }.
(* the outcomes of the constructor *)
Inductive bch_result :=
| Built (B : bch)
| NotBose (next : nat)                                (* ValueError: 'delta' must be a Bose distance (next one is ...) *)
| Raises.                                             (* any other exception *)

(* BCHCode.py:60-87 *)
Definition BCHCode (mu delta : nat) : bch_result :=
  if negb (2 <=? mu) then Raises
  else if negb ((2 <=? delta) && (delta <=? 2 ^ mu - 1)) then Raises
  else match gf_make (N.of_nat mu) None with
       | None => Raises
       | Some m =>
           let set := lcm_set m mu delta in
           if mem (phi m mu delta) set then
             match find (fun d => negb (mem (phi m mu d) set)) (seq (delta + 1) (2 ^ mu - (delta + 1))) with
             | Some bose => NotBose bose
             | None => Raises                                         (* StopIteration *)
             end
           else match reduce_mul set with
                | None => Raises
                | Some g =>
                    match CyclicCode (2 ^ mu - 1) (Generator g) true with
                    | None => Raises
                    | Some C => Built {| bch_mu := mu; bch_delta := delta; bch_modulus := m; bch_generator := g; bch_code := C |}
                    end
                end
       end.

(* _algebra/ring.py:61-73 binary_horner *)
Definition binary_horner (m : N) (coefs : list bool) (x : N) : N :=
  fold_left (fun result (coefficient : bool) =>
    let result := gf_mul m result x in if coefficient then gf_add result 1 else result) (rev coefs) 0%N.
(* BCHCode.py:93-97; BinaryPolynomial.py:215-230 evaluate *)
Definition bch_syndrome (B : bch) (r_poly : N) : list N :=
  map (fun i => binary_horner (bch_modulus B) (pcoefficients r_poly) (alpha_pow (bch_modulus B) i)) (seq 1 (bch_delta B - 1)).

(* BerlekampDecoder.py:65-67 the three dictionaries sigma, discrepancy, degree, kept as one table;
   key i (from -1 on) is at position i + 1. *)
Record bm_row := Row { bm_sigma : list N; bm_disc : N; bm_deg : nat }.
Definition bm_empty : bm_row := Row [] 0%N 0.
Definition key (t : list bm_row) (i : nat) : bm_row := nth i t bm_empty.

(* BerlekampDecoder.py:75-78; the position k + 1 of the selected row *)
Definition bm_select (t : list bm_row) (j : nat) : nat * Z :=
  fold_left (fun (acc : nat * Z) p =>
      let row := key t p in
      let v := (Z.of_nat p - 1 - Z.of_nat (bm_deg row))%Z in
      if negb (bm_disc row =? 0)%N && (snd acc <? v)%Z then (p, v) else acc)
    (seq 0 (j + 1)) (0, (-1)%Z).
(* l[a : b] = x *)
Definition slice_assign (l : list N) (a b : nat) (x : list N) : list N := firstn a l ++ x ++ skipn b l.
(* BerlekampDecoder.py:79-88. The inverse of discrepancy[k] is computed once instead of once per coefficient
   (there is always at least one coefficient); None = ZeroDivisionError. Here p = k + 1, so j - k = j + 1 - p. *)
Definition bm_update (m : N) (t : list bm_row) (j : nat) : option (list N * nat) :=
  let p := fst (bm_select t j) in
  let rj := key t (j + 1) in
  let rk := key t p in
  let shift := j + 1 - p in
  let degree := Nat.max (bm_deg rj) (bm_deg rk + shift) in
  let zeros := repeat 0%N (degree + 1) in
  let fst_ := slice_assign zeros 0 (bm_deg rj + 1) (bm_sigma rj) in
  let snd_ := slice_assign zeros shift (bm_deg rk + shift + 1) (bm_sigma rk) in
  match gf_inv m (bm_disc rk) with
  | None => None
  | Some inv =>
      Some (map (fun i => gf_add (nth i fst_ 0%N) (gf_mul m (gf_mul m (nth i snd_ 0%N) (bm_disc rj)) inv)) (seq 0 (degree + 1)), degree)
  end.
(* BerlekampDecoder.py:90-92. The index j - i is never negative, because degree[j + 1] <= j + 1. *)
Definition bm_discrepancy (m : N) (syndrome sigma : list N) (degree j : nat) : N :=
  fold_left (fun d i => gf_add d (gf_mul m (nth (i + 1) sigma 0%N) (nth (j - i) syndrome 0%N))) (seq 0 degree) (nth (j + 1) syndrome 0%N).
(* BerlekampDecoder.py:70-92 one iteration. In the last one discrepancy[j + 1] stays undefined: 0 here, never read. *)
Definition bm_step (m : N) (delta : nat) (syndrome : list N) (t : option (list bm_row)) (j : nat) : option (list bm_row) :=
  match t with
  | None => None
  | Some t =>
      let rj := key t (j + 1) in
      match (if (bm_disc rj =? 0)%N then Some (bm_sigma rj, bm_deg rj) else bm_update m t j) with
      | None => None
      | Some (sigma, degree) =>
          let disc := if j <? delta - 2 then bm_discrepancy m syndrome sigma degree j else 0%N in
          Some (t ++ [Row sigma disc degree])
      end
  end.
(* BerlekampDecoder.py:58-94 *)
Definition berlekamp_algorithm (B : bch) (syndrome : list N) : option (list N) :=
  let init := [Row [1%N] 1%N 0; Row [1%N] (nth 0 syndrome 0%N) 0] in
  match fold_left (bm_step (bch_modulus B) (bch_delta B) syndrome) (seq 0 (bch_delta B - 1)) (Some init) with
  | None => None
  | Some t => Some (bm_sigma (key t (bch_delta B)))
  end.

Fixpoint all_some {A} (l : list (option A)) : option (list A) :=
  match l with
  | [] => Some []
  | None :: _ => None
  | Some a :: l => match all_some l with None => None | Some r => Some (a :: r) end
  end.
(* BerlekampDecoder.py:49 e.inverse().logarithm(alpha); None = ZeroDivisionError or ValueError *)
Definition error_location (B : bch) (root : N) : option nat :=
  match gf_inv (bch_modulus B) root with
  | None => None
  | Some x => option_map N.to_nat (gf_log (bch_modulus B) (N.of_nat (bch_mu B)) alpha x)
  end.
(* BerlekampDecoder.py:51 (r + e_hat) % 2; None = arrays of different lengths *)
Definition add_mod2 (r : vec) (e : list nat) : option vec :=
  if length r =? length e then Some (map (fun '(b, x) => Nat.odd ((if b : bool then 1 else 0) + x)) (combine r e)) else None.
(* BerlekampDecoder.py:42-53: one block; None = an exception *)
Definition berlekamp_decode (B : bch) (r : vec) : option vec :=
  let r_poly := from_coefficients r in
  let syndrome := bch_syndrome B r_poly in
  if forallb (fun x => (x =? 0)%N) syndrome then Some (bc_project (bch_code B) r)
  else match berlekamp_algorithm B syndrome with
       | None => None
       | Some sigma_poly =>
           let roots := gf_find_roots (bch_modulus B) (N.of_nat (bch_mu B)) sigma_poly in
           match all_some (map (error_location B) roots) with
           | None => None
           | Some e_loc =>
               let e_hat := bincount (bc_n (bch_code B)) e_loc in
               option_map (bc_project (bch_code B)) (add_mod2 r e_hat)
           end
       end.
