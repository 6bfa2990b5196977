(* Model of /repo/src/komm/_error_control_block/CyclicCode.py and of the conversions
   BinaryPolynomial.from_coefficients, from_exponents, coefficients, reciprocal. *)
From Verif Require Import Common Bits_Model BinPoly_Model Vec_Model LinAlg_Model BlockCode_Model.
Local Open Scope nat_scope.

(* BinaryPolynomial.py:82 *)
Definition from_coefficients (v : vec) : N := bits_to_int v LSB_first.
(* BinaryPolynomial.py:96; np.packbits treats every non-zero count as 1 *)
Definition from_exponents (exponents : list nat) : N :=
  bits_to_int (map (fun c => negb (c =? 0)) (bincount 0 exponents)) LSB_first.
(* BinaryPolynomial.py:185 coefficients(width): "width or max(degree + 1, 1)", so width 0 means the default *)
Definition coefficients (a : N) (width : nat) : vec :=
  int_to_bits a (if width =? 0 then Nat.max (bit_length a) 1 else width) LSB_first.
(* BinaryPolynomial.py:213 with width = None *)
Definition reciprocal (a : N) : N := bits_to_int (rev (coefficients a 0)) LSB_first.

(* degree as a nat (only used for non-zero polynomials) *)
Definition deg (a : N) : nat := bit_length a - 1.

(* CyclicCode.py:53-55,59-77: which polynomial the caller passed *)
Inductive cyclic_arg := Generator (g : N) | Check (h : N).

(* CyclicCode.py:63-77: (generator_polynomial, check_polynomial); None = ValueError or ZeroDivisionError *)
Definition cyclic_polys (n : nat) (arg : cyclic_arg) : option (N * N) :=
  let modulus := from_exponents [0; n] in
  match arg with
  | Generator g => match pdivmod modulus g with
                   | Some (q, r) => if (r =? 0)%N then Some (g, q) else None
                   | None => None
                   end
  | Check h => match pdivmod modulus h with
               | Some (q, r) => if (r =? 0)%N then Some (q, h) else None
               | None => None
               end
  end.

(* X ** e *)
Definition Xpow (e : nat) : N := ppow 2 (N.of_nat e).

(* CyclicCode.py:333-340 *)
Definition sys_generator_matrix (n k m : nat) (g : N) : mat :=
  map (fun i => coefficients (padd (Xpow (m + i)) (pmod (Xpow (m + i)) g)) n) (seq 0 k).
(* CyclicCode.py:342-349: the columns are written one by one *)
Definition sys_check_matrix (n m : nat) (g : N) : mat :=
  transpose m (map (fun j => coefficients (pmod (Xpow j) g) m) (seq 0 n)).
(* CyclicCode.py:351-355 *)
Definition sys_encode (m : nat) (g u : N) : N :=
  let u_shifted := N.shiftl u (N.of_nat m) in padd u_shifted (pmod u_shifted g).
(* CyclicCode.py:357-359 *)
Definition sys_project (m : nat) (v : N) : N := N.shiftr v (N.of_nat m).

(* CyclicCode.py:364-371 *)
Definition nonsys_generator_matrix (n k : nat) (g : N) : mat :=
  map (fun i => coefficients (pmul (Xpow i) g) n) (seq 0 k).
(* CyclicCode.py:373-380 *)
Definition nonsys_check_matrix (n m : nat) (h : N) : mat :=
  map (fun i => coefficients (pmul (Xpow i) (reciprocal h)) n) (seq 0 m).

(* CyclicCode.py:107-219; generator_matrix_right_inverse raises NotImplementedError (150-151), the field
   bc_Ginv is left empty *)
Definition cyclic_code (n : nat) (g h : N) (systematic : bool) : block_code :=
  let k := deg h in
  let m := deg g in
  {| bc_n := n; bc_k := k; bc_m := m;
     bc_G := if systematic then sys_generator_matrix n k m g else nonsys_generator_matrix n k g;
     bc_Ginv := [];
     bc_H := if systematic then sys_check_matrix n m g else nonsys_check_matrix n m h;
     (* lines 173-179, 382-384 *)
     bc_encode := fun u => let u_poly := from_coefficients u in
                           coefficients (if systematic then sys_encode m g u_poly else pmul u_poly g) n;
     (* lines 184-190, 386-388 *)
     bc_project := fun v => let v_poly := from_coefficients v in
                            coefficients (if systematic then sys_project m v_poly else pquo v_poly g) k;
     (* lines 211-217 *)
     bc_check := fun r => coefficients (pmod (from_coefficients r) g) m |}.

(* CyclicCode.py:51-78 *)
Definition CyclicCode (n : nat) (arg : cyclic_arg) (systematic : bool) : option block_code :=
  option_map (fun '(g, h) => cyclic_code n g h systematic) (cyclic_polys n arg).
