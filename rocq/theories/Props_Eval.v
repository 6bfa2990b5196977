(* C98: evaluation of polynomials in any ring; C99: conversions of binary polynomials; C100: the integers as a Euclidean domain;
   and the remaining element methods of finite fields (C25, C26).  Statements use Eval_Model and the specification Eval_Spec
   (ring axioms, powers, sums of powers). *)
From Coq Require Import Sorted.
From Verif Require Import Common Bits_Model BinPoly_Model Algebra_Spec Eval_Model Eval_Spec.
From Verif Require Eval_Proof Eval_Proof2 Eval_Proof3 GFConj_Proof GFField_Proof Algebra_Proof PolyVec_Proof Props_Algebra.
Local Open Scope nat_scope.

Ltac conjs := lazymatch goal with |- _ /\ _ => split; [|conjs] | _ => idtac end.

(* "the elements of R satisfying E form a ring" *)
Definition lawful {A} (E : A -> Prop) (R : ring_desc A) : Prop := is_ring E (r_zero R) (r_one R) (r_add R) (r_mul R) (r_int R).
(* sum of c_i x^i in R *)
Definition value_at {A} (R : ring_desc A) (cs : list Z) (x : A) : A := power_sum (r_zero R) (r_one R) (r_add R) (r_mul R) (r_int R) cs x.

(* The four rings of the package: integers, binary polynomials, the finite field with an irreducible modulus of degree k
   (elements below 2^k), and fractions of binary polynomials in lowest terms. *)
Theorem C98_rings :
  lawful (fun _ => True) Integers /\ lawful (fun _ => True) BinaryPolynomials /\
  (forall m k, nirreducible m -> bit_length m = S k -> lawful (fun a => (a < 2 ^ N.of_nat k)%N) (Bifield m)) /\
  lawful reduced_frac Fractions.
Proof.
  conjs.
  - exact Eval_Proof.integers_ring.
  - exact Eval_Proof.polynomials_ring.
  - intros m k Hm Hk. exact (Eval_Proof.bifield_ring m Hm k Hk).
  - exact Eval_Proof.fractions_ring.
Qed.

(* horner and binary_horner compute sum_i c_i x^i, for every list of integer coefficients (also the empty one) *)
Theorem C98_horner : forall A (E : A -> Prop) (R : ring_desc A), lawful E R -> forall cs x, E x ->
  horner R cs x = value_at R cs x /\ binary_horner R cs x = value_at R cs x.
Proof. intros A E R L cs x Hx. split; [exact (Eval_Proof.horner_spec E R L cs x Hx)|exact (Eval_Proof.binary_horner_spec E R L cs x Hx)]. Qed.

Theorem C98_power : forall A (E : A -> Prop) (R : ring_desc A), lawful E R -> forall x, E x ->
  (forall n : nat, power R x (Z.of_nat n) = Some (npower (r_one R) (r_mul R) x n)) /\ (forall z, (z < 0)%Z -> power R x z = None).
Proof.
  intros A E R L x Hx. split.
  - intros n. rewrite (Eval_Proof.power_spec E R L) by auto. destruct (Z.ltb_spec (Z.of_nat n) 0); [lia|]. now rewrite Nat2Z.id.
  - intros z Hz. rewrite (Eval_Proof.power_spec E R L) by auto. destruct (Z.ltb_spec z 0); [reflexivity|lia].
Qed.

(* evaluate: the sum of x^i over the terms X^i of p *)
Theorem C98_evaluate : forall A (E : A -> Prop) (R : ring_desc A), lawful E R -> forall p n x, E x -> bit_length p <= n ->
  evaluate R p x = value_at R (bit_coeffs p n) x.
Proof. intros A E R L p n x Hx Hn. exact (Eval_Proof.evaluate_any E R L p n x Hx Hn). Qed.

(* In characteristic 2, p -> p(x) is a ring homomorphism sending X to x, and evaluation of a composition is the composition of
   evaluations. *)
Theorem C98_homomorphism : forall A (E : A -> Prop) (R : ring_desc A), lawful E R -> r_int R 2%Z (r_one R) = r_zero R ->
  forall x, E x ->
  (forall p q, evaluate R (padd p q) x = r_add R (evaluate R p x) (evaluate R q x)) /\
  (forall p q, evaluate R (pmul p q) x = r_mul R (evaluate R p x) (evaluate R q x)) /\
  evaluate R 0%N x = r_zero R /\ evaluate R 1%N x = r_one R /\ evaluate R 2%N x = x /\
  (forall p q, evaluate R (evaluate BinaryPolynomials p q) x = evaluate R p (evaluate R q x)).
Proof.
  intros A E R L C2 x Hx. pose proof Eval_Proof.polynomials_ring as LP.
  conjs.
  - intros p q. exact (Eval_Proof.evaluate_add E R L C2 p q x Hx).
  - intros p q. exact (Eval_Proof.evaluate_mul E R L C2 p q x Hx).
  - exact (Eval_Proof.evaluate_0 E R L x Hx).
  - exact (Eval_Proof.evaluate_1 E R L x Hx).
  - exact (Eval_Proof.evaluate_X E R L x Hx).
  - intros p q. assert (Eq : E (evaluate R q x)) by exact (Eval_Proof.evaluate_elt E R L q x Hx).
    remember (bit_length p) as n eqn:Hn. assert (Hp : bit_length p <= n) by lia. clear Hn. revert p Hp.
    induction n as [|n IH]; intros p Hp.
    + assert (p = 0%N) as -> by (unfold bit_length in *; destruct p as [|[]]; cbn in *; [reflexivity|lia|lia|lia]).
      rewrite (Eval_Proof.evaluate_0 (fun _ => True) BinaryPolynomials LP q Logic.I). cbn [r_zero BinaryPolynomials]. rewrite !(Eval_Proof.evaluate_0 E R L); auto.
    + rewrite (Eval_Proof.evaluate_step (fun _ => True) BinaryPolynomials LP p q Logic.I). rewrite (Eval_Proof.evaluate_step E R L p _ Eq).
      cbn [r_add r_mul r_zero r_one BinaryPolynomials]. rewrite (Eval_Proof.evaluate_add E R L C2) by auto. rewrite (Eval_Proof.evaluate_mul E R L C2) by auto.
      rewrite IH by now apply Eval_Proof.size_div2. f_equal.
      destruct (N.odd p); [apply (Eval_Proof.evaluate_1 E R L)|apply (Eval_Proof.evaluate_0 E R L)]; auto.
Qed.

(* the three rings of characteristic 2 *)
Theorem C98_characteristic : r_int BinaryPolynomials 2%Z (r_one BinaryPolynomials) = r_zero BinaryPolynomials /\
  (forall m, r_int (Bifield m) 2%Z (r_one (Bifield m)) = r_zero (Bifield m)) /\
  r_int Fractions 2%Z (r_one Fractions) = r_zero Fractions.
Proof. repeat split. Qed.

(* evaluating at the polynomial X gives the polynomial back *)
Theorem C98_evaluate_at_X : forall p, evaluate BinaryPolynomials p 2%N = p.
Proof.
  intros p. remember (bit_length p) as n eqn:Hn. assert (Hp : bit_length p <= n) by lia. clear Hn. revert p Hp.
  induction n as [|n IH]; intros p Hp.
  - assert (p = 0%N) as -> by (unfold bit_length in *; destruct p as [|[]]; cbn in *; [reflexivity|lia|lia|lia]). reflexivity.
  - rewrite (Eval_Proof.evaluate_step (fun _ => True) BinaryPolynomials Eval_Proof.polynomials_ring p 2%N Logic.I).
    rewrite IH by now apply Eval_Proof.size_div2. cbn [r_add r_mul r_zero r_one BinaryPolynomials].
    rewrite Eval_Proof.pmul_step. change (N.odd 2) with false. change (N.div2 2) with 1%N. cbv iota.
    rewrite Algebra_Proof.pmulC, Algebra_Proof.pmul1. unfold padd. rewrite N.lxor_0_l. destruct p as [|[q|q|]]; reflexivity.
Qed.

(* over the integers, evaluation is plain evaluation of a 0/1 polynomial, and so not multiplicative: (X+1)(X+1) = X^2+1 *)
Theorem C98_integers_not_homomorphism :
  evaluate Integers (pmul 3 3) 1%Z = 2%Z /\ (evaluate Integers 3 1 * evaluate Integers 3 1)%Z = 4%Z.
Proof. split; reflexivity. Qed.

(* In a finite field, the roots of a binary polynomial p are exactly the elements whose minimal polynomial divides p. *)
Theorem C98_root_iff_minimal_polynomial_divides : forall m k a, nirreducible m -> bit_length m = S k -> (a < 2 ^ N.of_nat k)%N ->
  exists f, gf_minimal_polynomial m (N.of_nat k) a = Some f /\ forall p, evaluate (Bifield m) p a = 0%N <-> ndvd f p.
Proof.
  intros m k a Hm Hk Ha. destruct (Props_Algebra.C26_minimal_polynomial m k Hm Hk a Ha) as (f & E & D). exists f. split; auto.
  intros p. rewrite <- D. pose proof (Eval_Proof.bifield_ring m Hm k Hk) as L.
  rewrite (Eval_Proof.evaluate_any _ (Bifield m) L p (Nat.max (bit_length p) 1)) by (auto; lia).
  assert (Q : Eval_Proof.ev (Bifield m) (Nat.max (bit_length p) 1) p a = poly_value m (bin_coeffs p) a); [|now rewrite Q].
  unfold Eval_Proof.ev, power_sum, poly_value, bit_coeffs, bin_coeffs, pcoefficients. rewrite !map_length, seq_length.
  set (n := Nat.max (bit_length p) 1). cbn [r_add r_mul r_zero r_one r_int Bifield]. change (r_add (Bifield m)) with N.lxor. f_equal.
  apply map_ext_in. intros i Hi. apply in_seq in Hi.
  assert (PW : forall j, npower 1%N (gf_mul m) a j = gf_npow m a j) by (induction j as [|j IH]; cbn; [reflexivity|now rewrite IH]).
  assert (PE : GFField_Proof.elt m (gf_npow m a i)).
  { apply (GFField_Proof.npow_spec Hm). apply (Props_Algebra.F_elt m k Hk). exact Ha. }
  rewrite PW.
  rewrite (nth_indep _ 0%Z (if N.testbit p (N.of_nat 0) then 1%Z else 0%Z)) by (rewrite map_length, seq_length; lia).
  rewrite (map_nth (fun i => if N.testbit p (N.of_nat i) then 1%Z else 0%Z) (seq 0 n) 0), seq_nth by lia.
  rewrite map_map. rewrite (nth_indep _ 0%N (if N.testbit p (N.of_nat 0) then 1%N else 0%N)) by (rewrite map_length, seq_length; lia).
  rewrite (map_nth (fun i => if N.testbit p (N.of_nat i) then 1%N else 0%N) (seq 0 n) 0), seq_nth by lia. cbn [Nat.add].
  destruct (N.testbit p (N.of_nat i)); cbn [Z.modulo Z.eqb].
  - destruct (@GFField_Proof.gf_ring m Hm (gf_npow m a i) 0%N 0%N PE (GFField_Proof.elt0 m) (GFField_Proof.elt0 m)) as (_ & _ & _ & _ & _ & _ & O & _).
    rewrite O. reflexivity.
  - unfold gf_mul. rewrite Algebra_Proof.pmul0. unfold pmod, pdivmod. destruct (N.eqb_spec m 0) as [e|_]; [reflexivity|].
    change (bit_length 0) with 0%nat. cbn [div_loop]. rewrite Hk. reflexivity.
Qed.

(* Powers of fractions, with negative exponents *)
Theorem C98_fraction_power : forall x, reduced_frac x ->
  (forall n : nat, frac_pow x (Z.of_nat n) = Some (npower (1, 1)%N (r_mul Fractions) x n)) /\
  (forall n : nat, x <> (0, 1)%N -> exists y, frac_inv x = Some y /\ reduced_frac y /\ r_mul Fractions x y = (1, 1)%N /\
     frac_pow x (- Z.of_nat (S n)) = Some (npower (1, 1)%N (r_mul Fractions) y (S n))) /\
  (forall n : nat, frac_pow (0, 1)%N (- Z.of_nat (S n)) = None).
Proof.
  intros x Hx. pose proof Eval_Proof.fractions_ring as L. conjs.
  - intros n. unfold frac_pow. destruct (Z.ltb_spec (Z.of_nat n) 0); [lia|]. rewrite (Eval_Proof.power_spec _ Fractions L) by auto.
    destruct (Z.ltb_spec (Z.of_nat n) 0); [lia|]. now rewrite Nat2Z.id.
  - intros n Nx. destruct (Props_Algebra.C24_closed x x Hx Hx) as (_ & _ & _ & _ & I). 
    assert (fst x <> 0%N). { intros e. apply Nx. apply Props_Algebra.C24_canonical; auto. apply Algebra_Proof.red0. cbn [fst snd]. rewrite e. now rewrite !Algebra_Proof.pmul0. }
    destruct (I H) as (y & Ey & Ry). exists y. split; auto. split; auto. split.
    + pose proof (Props_Algebra.C24_field_laws x x x Hx Hx Hx) as FL. cbv zeta in FL. destruct FL as (_ & _ & _ & _ & _ & _ & _ & _ & _ & Q & _).
      specialize (Q Nx). rewrite Ey in Q. cbn [Props_Algebra.bind2] in Q. cbn [r_mul Fractions]. now rewrite Q.
    + unfold frac_pow. destruct (Z.ltb_spec (- Z.of_nat (S n)) 0); [|lia]. rewrite Ey, Z.opp_involutive.
      rewrite (Eval_Proof.power_spec _ Fractions L) by auto. destruct (Z.ltb_spec (Z.of_nat (S n)) 0); [lia|]. now rewrite Nat2Z.id.
  - intros n. unfold frac_pow. destruct (Z.ltb_spec (- Z.of_nat (S n)) 0); [|lia]. reflexivity.
Qed.

Example C98_example : evaluate Integers 26 7%Z = 2751%Z /\ evaluate (Bifield 19) 25 11%N = 0%N /\ horner Integers [5; -3; 0; 2]%Z 10%Z = 1975%Z /\
  evaluate BinaryPolynomials 11 6%N = 127%N /\ evaluate Fractions 11 (1, 2)%N = (13, 8)%N /\ frac_pow (2, 3)%N (-2) = Some (5, 4)%N.
Proof. vm_compute. repeat split. Qed.

(* ---- C99 *)

(* coefficients(width): the requested number of coefficients of p, lowest first; by default as many as needed, at least one *)
Theorem C99_coefficients : forall p width,
  length (poly_coefficients p width) =
    match width with Some w => if (w =? 0)%Z then Nat.max (bit_length p) 1 else Z.to_nat w | None => Nat.max (bit_length p) 1 end /\
  forall i, i < length (poly_coefficients p width) -> nth i (poly_coefficients p width) false = N.testbit p (N.of_nat i).
Proof.
  intros p w. unfold poly_coefficients. rewrite Bits_Proof.int_to_bits_length. split; [reflexivity|]. intros i Hi.
  rewrite Eval_Proof3.nth_int_to_bits. apply Nat.ltb_lt in Hi. cbv zeta. now rewrite Hi.
Qed.
Definition ints (v : list bool) : list Z := map (fun b : bool => if b then 1%Z else 0%Z) v.
(* from_coefficients: bit i of the result is entry i of the array (entries in the range of uint8) *)
Theorem C99_from_coefficients : forall cs i, Forall (fun c => (0 <= c < 256)%Z) cs ->
  (N.testbit (poly_from_coefficients cs) (N.of_nat i) = true <-> nth i cs 0%Z <> 0%Z).
Proof.
  intros cs i H. rewrite Eval_Proof3.from_coefficients_bit. assert (B : (0 <= nth i cs 0 < 256)%Z).
  { destruct (Nat.lt_ge_cases i (length cs)); [|rewrite nth_overflow by auto; lia]. rewrite Forall_forall in H. apply H. now apply nth_In. }
  rewrite Z.mod_small by lia. destruct (Z.eqb_spec (nth i cs 0) 0)%Z; cbn; split; congruence.
Qed.
Lemma from_ints v : poly_from_coefficients (ints v) = bits_to_int v LSB_first.
Proof. unfold poly_from_coefficients, ints. rewrite map_map. f_equal. rewrite <- map_id. apply map_ext. now intros []. Qed.
Theorem C99_coefficients_round_trip : forall p width, bit_length p <= length (poly_coefficients p width) ->
  poly_from_coefficients (ints (poly_coefficients p width)) = p.
Proof.
  intros p w H. rewrite from_ints. unfold poly_coefficients in *. rewrite Bits_Proof.int_to_bits_length in H. rewrite Eval_Proof3.bits_round.
  apply N.mod_small. now apply PolyVec_Proof.bit_length_bound.
Qed.
Theorem C99_truncation : forall p w, (0 < w)%Z -> poly_from_coefficients (ints (poly_coefficients p (Some w))) = (p mod 2 ^ Z.to_N w)%N.
Proof.
  intros p w H. rewrite from_ints. unfold poly_coefficients. destruct (Z.eqb_spec w 0); [lia|]. rewrite Eval_Proof3.bits_round. do 2 f_equal. lia.
Qed.
Theorem C99_round_trip_array : forall v, v <> [] -> poly_coefficients (poly_from_coefficients (ints v)) (Some (Z.of_nat (length v))) = v.
Proof.
  intros v H. rewrite from_ints. unfold poly_coefficients. destruct (Z.eqb_spec (Z.of_nat (length v)) 0) as [e|_]; [destruct v; [congruence|discriminate]|].
  rewrite Nat2Z.id. apply Bits_Proof.int_bits_round_trip.
Qed.

(* exponents: the positions of the non-zero coefficients, ascending; from_exponents is the inverse and ignores order *)
Theorem C99_exponents : forall p, StronglySorted lt (poly_exponents p) /\ (forall i, In i (poly_exponents p) <-> N.testbit p (N.of_nat i) = true) /\
  poly_from_exponents (map Z.of_nat (poly_exponents p)) = Some p.
Proof. intros p. conjs; [apply Eval_Proof3.exponents_sorted|apply Eval_Proof3.exponents_in|apply Eval_Proof3.exponents_round]. Qed.
Theorem C99_from_exponents : forall es, (forall e, In e es -> (0 <= e)%Z) -> (forall e, count_occ Z.eq_dec es e < 256) ->
  exists p, poly_from_exponents es = Some p /\ forall i, N.testbit p (N.of_nat i) = true <-> In (Z.of_nat i) es.
Proof. intros es H C. apply Eval_Proof3.from_exponents_in; auto. now apply Forall_forall. Qed.
Theorem C99_from_exponents_raises : forall es, poly_from_exponents es = None <-> exists e, In e es /\ (e < 0)%Z.
Proof. exact Eval_Proof3.from_exponents_neg. Qed.

(* reciprocal: the coefficient of X^i becomes that of X^(d-i) *)
Theorem C99_reciprocal : forall p i, p <> 0%N ->
  N.testbit (poly_reciprocal p None) (N.of_nat i) = if i <=? bit_length p - 1 then N.testbit p (N.of_nat (bit_length p - 1 - i)) else false.
Proof.
  intros p i H. rewrite Eval_Proof3.reciprocal_rv, Eval_Proof3.rv_bit. pose proof (Eval_Proof3.bl_pos p H). rewrite Nat.max_l by lia.
  destruct (Nat.ltb_spec i (bit_length p)), (Nat.leb_spec i (bit_length p - 1)); auto; lia.
Qed.
Theorem C99_reciprocal_width : forall p w i, (0 < w)%Z ->
  N.testbit (poly_reciprocal p (Some w)) (N.of_nat i) = if (Z.of_nat i <? w)%Z then N.testbit p (N.of_nat (Z.to_nat w - 1 - i)) else false.
Proof.
  intros p w i H. unfold poly_reciprocal, poly_coefficients. destruct (Z.eqb_spec w 0); [lia|]. rewrite Bits_Proof.bits_to_int_testbit, Eval_Proof3.nth_rev_bits.
  destruct (Nat.ltb_spec i (Z.to_nat w)), (Z.ltb_spec (Z.of_nat i) w); auto; lia.
Qed.
(* it is an involution exactly on the polynomials with a constant term (and 0), and it is multiplicative *)
Theorem C99_reciprocal_involution : forall p, poly_reciprocal (poly_reciprocal p None) None = p <-> p = 0%N \/ N.testbit p 0 = true.
Proof. intros p. rewrite N.bit0_odd. apply Eval_Proof3.reciprocal_involutive. Qed.
Theorem C99_reciprocal_multiplicative : forall p q, poly_reciprocal (pmul p q) None = pmul (poly_reciprocal p None) (poly_reciprocal q None).
Proof. exact Eval_Proof3.reciprocal_mul. Qed.
(* p << n is p X^n, p >> n is the quotient by X^n *)
Theorem C99_shifts : forall p n, (0 <= n)%Z ->
  poly_shl p n = Some (pmul p (N.shiftl 1 (Z.to_N n))) /\ poly_shr p n = Some (pquo p (N.shiftl 1 (Z.to_N n))).
Proof. intros p n H. split; [now apply Eval_Proof3.shl_spec|now apply Eval_Proof3.shr_spec]. Qed.
Theorem C99_shifts_raise : forall p n, (n < 0)%Z -> poly_shl p n = None /\ poly_shr p n = None.
Proof. intros p n H. unfold poly_shl, poly_shr. destruct (Z.ltb_spec n 0); [auto|lia]. Qed.
Example C99_example : poly_coefficients 26 None = [false; true; false; true; true] /\ length (poly_coefficients 26 (Some 8%Z)) = 8 /\
  poly_exponents 26 = [1; 3; 4] /\ poly_from_exponents [4; 1; 3]%Z = Some 26%N /\ poly_from_exponents [2; -1]%Z = None /\
  poly_reciprocal 26 None = 11%N /\ poly_reciprocal 11 None = 13%N /\ poly_coefficients 0 None = [false] /\
  poly_from_coefficients [0; 1; 0; 1; 1]%Z = 26%N /\ poly_shl 5 2 = Some 20%N /\ poly_shr 26 2 = Some 6%N.
Proof. vm_compute. repeat split. Qed.

(* ---- C100 *)

(* Integer division is floor division: the remainder has the sign of the divisor *)
Theorem C100_divmod : forall a b, b <> 0%Z -> exists q r, int_divmod a b = Some (q, r) /\ (a = q * b + r)%Z /\
  ((0 < b)%Z -> (0 <= r < b)%Z) /\ ((b < 0)%Z -> (b < r <= 0)%Z).
Proof.
  intros a b H. unfold int_divmod. destruct (Z.eqb_spec b 0); [contradiction|]. exists (a / b)%Z, (a mod b)%Z. split; auto.
  pose proof (Z.div_mod a b H). split; [lia|]. split; intros; [apply Z.mod_pos_bound|apply Z.mod_neg_bound]; lia.
Qed.
Theorem C100_by_zero_raises : forall a, int_divmod a 0 = None.
Proof. reflexivity. Qed.
(* gcd returns, for all integers of either sign, a greatest common divisor; it carries the sign of the last non-zero remainder,
   that is of the second argument when that is not zero *)
Theorem C100_gcd : forall x y, exists g, int_gcd x y = Some g /\
  (g | x)%Z /\ (g | y)%Z /\ (forall c, (c | x)%Z -> (c | y)%Z -> (c | g)%Z) /\ (y <> 0 -> 0 < g * y)%Z /\ (y = 0 -> g = x)%Z.
Proof.
  intros x y. destruct (Eval_Proof2.int_gcd_ok x y) as (g & E & A). exists g. split; auto. conjs.
  - apply Z.divide_abs_l. rewrite A. apply Z.gcd_divide_l.
  - apply Z.divide_abs_l. rewrite A. apply Z.gcd_divide_r.
  - intros c cx cy. apply Z.divide_abs_r. rewrite A. now apply Z.gcd_greatest.
  - now apply Eval_Proof2.int_gcd_sign with (x := x).
  - intros ->. cbn in E. congruence.
Qed.
Theorem C100_xgcd : forall x y, exists d s t, int_xgcd x y = Some (d, s, t) /\ (s * x + t * y = d)%Z /\ (d | x)%Z /\ (d | y)%Z.
Proof.
  intros x y. destruct (Eval_Proof2.int_xgcd_ok x y) as (d & s & t & E & A & B). exists d, s, t. conjs; auto.
  - apply Z.divide_abs_l. rewrite A. apply Z.gcd_divide_l.
  - apply Z.divide_abs_l. rewrite A. apply Z.gcd_divide_r.
Qed.
Theorem C100_lcm : forall x y, exists m, int_lcm x y = Some m /\ (x | m)%Z /\ (y | m)%Z /\ (forall c, (x | c)%Z -> (y | c)%Z -> (m | c)%Z).
Proof.
  intros x y. destruct (Eval_Proof2.int_lcm_ok x y) as (m & E & A). exists m. conjs; auto.
  - apply Z.divide_abs_r. rewrite A. apply Z.divide_lcm_l.
  - apply Z.divide_abs_r. rewrite A. apply Z.divide_lcm_r.
  - intros c xc yc. apply Z.divide_abs_l. rewrite A. now apply Z.lcm_least.
Qed.
Example C100_example : int_gcd 6 (-4) = Some (-2)%Z /\ int_gcd (-4) 6 = Some 2%Z /\ int_xgcd 12 (-18) = Some (6, 2, 1)%Z /\ int_lcm 4 (-6) = Some 12%Z /\
  int_divmod (-7) 2 = Some (-4, 1)%Z.
Proof. vm_compute. repeat split. Qed.

(* ---- C25, C26: logarithm, conjugates *)
Section Field.
Variables (m : N) (k : nat).
Hypothesis Hm : nirreducible m.                  (* FiniteBifield(k, m) was constructed *)
Hypothesis Hk : bit_length m = S k.
Notation F a := (a < 2 ^ N.of_nat k)%N.
Let km : (ssrnat.subn (bit_length m) 1) = k.
Proof. rewrite Hk. unfold ssrnat.subn, ssrnat.subn_rec; cbn; lia. Qed.

Lemma log_loop_ok base a : GFField_Proof.elt m base -> forall n i,
  match gf_log_loop m base a n (N.of_nat i) with
  | Some j => exists j', j = N.of_nat j' /\ i <= j' < i + n /\ gf_npow m base j' = a /\ forall l, i <= l < j' -> gf_npow m base l <> a
  | None => forall l, i <= l < i + n -> gf_npow m base l <> a
  end.
Proof.
  intros Hb n. induction n as [|n IH]; intros i; cbn [gf_log_loop]; [intros l Hl; lia|].
  rewrite (GFField_Proof.rpow_npow Hm) by auto. rewrite Nnat.Nat2N.id. destruct (N.eqb_spec (gf_npow m base i) a) as [e|e].
  - exists i. split; [reflexivity|]. split; [lia|]. split; [exact e|]. intros l Hl. lia.
  - replace (N.of_nat i + 1)%N with (N.of_nat (S i)) by lia. specialize (IH (S i)). destruct (gf_log_loop m base a n (N.of_nat (S i))) as [j|].
    + destruct IH as (j' & -> & Hj & P & Q). exists j'. split; [reflexivity|]. split; [lia|]. split; [exact P|]. intros l Hl. destruct (Nat.eq_dec l i) as [->|d]; auto. apply Q. lia.
    + intros l Hl. destruct (Nat.eq_dec l i) as [->|d]; auto. apply IH. lia.
Qed.
(* logarithm(base) is the least n with base^n = a; it raises exactly when a is no power of the base *)
Theorem C25_logarithm : forall a base, F a -> F base ->
  match gf_log m (N.of_nat k) base a with
  | Some n => gf_npow m base (N.to_nat n) = a /\ forall l, l < N.to_nat n -> gf_npow m base l <> a
  | None => forall l, gf_npow m base l <> a
  end.
Proof.
  intros a base Ha Hb. apply (Props_Algebra.F_elt m k Hk) in Hb. pose proof (log_loop_ok base a Hb (N.to_nat (2 ^ N.of_nat k)) 0) as L.
  unfold gf_log. change 0%N with (N.of_nat 0). destruct (gf_log_loop m base a _ (N.of_nat 0)) as [j|].
  - destruct L as (j' & -> & Hj & P & Q). rewrite Nnat.Nat2N.id. split; auto. intros l Hl. apply Q. lia.
  - intros l E. destruct (@GFConj_Proof.np_small m Hm base Hb l) as (i & Hi & Ei). rewrite km in Hi. apply (L i); [|congruence].
    split; [lia|]. assert (Q : N.to_nat (2 ^ N.of_nat k) = ssrnat.expn 2 k) by (rewrite Irreducible_Proof.Nto_pow, Nnat.Nat2N.id; reflexivity).
    rewrite Q. apply (ssrbool.elimT ssrnat.leP) in Hi. lia.
Qed.

(* conjugates() lists a, a^2, a^4, ... without repetition until it comes back to a; their number divides k and is the degree of
   the minimal polynomial *)
Theorem C26_conjugates : forall a, F a -> exists n f,
  gf_conjugates m (N.of_nat k) a = Some (map (fun i => gf_npow m a (2 ^ i)) (seq 0 n)) /\
  NoDup (map (fun i => gf_npow m a (2 ^ i)) (seq 0 n)) /\ gf_npow m a (2 ^ n) = a /\ 1 <= n /\ Nat.divide n k /\
  gf_minimal_polynomial m (N.of_nat k) a = Some f /\ pdegree f = Z.of_nat n.
Proof.
  intros a Ha. apply (Props_Algebra.F_elt m k Hk) in Ha. destruct (@GFConj_Proof.conjugates_spec m Hm a Ha) as (n & [E U n0 P D]).
  destruct (@GFConj_Proof.minpoly_degree m Hm a Ha n E) as (f & Ef & Bf). rewrite km in *. exists n, f.
  assert (Z : forall i, GFField_Proof.zc m a i = gf_npow m a (2 ^ i)).
  { intros i. unfold GFField_Proof.zc. rewrite (GFField_Proof.rpow_npow Hm) by auto. f_equal. rewrite Nnat.N2Nat.inj_pow, Nnat.Nat2N.id. reflexivity. }
  assert (M : seq.map (GFField_Proof.zc m a) (seq.iota 0 n) = map (fun i => gf_npow m a (2 ^ i)) (seq 0 n)).
  { assert (G : forall n s, seq.map (GFField_Proof.zc m a) (seq.iota s n) = map (fun i => gf_npow m a (2 ^ i)) (seq s n)); [|apply G].
    clear -Z. induction n as [|n IH]; intros s; [reflexivity|]. cbn [seq.iota seq.map List.seq List.map]. rewrite Z. f_equal. apply IH. }
  rewrite M in E, U. conjs; auto.
  - now apply GFConj_Proof.uniq_NoDup.
  - rewrite <- Z, P, Z. cbn. destruct (@GFField_Proof.gf_ring m Hm a 1%N 0%N Ha (@GFField_Proof.elt1 m Hm) (GFField_Proof.elt0 m)) as (_ & _ & _ & _ & C & _ & O & _).
    now rewrite C.
  - now apply (ssrbool.elimT ssrnat.leP) in n0.
  - apply (ssrbool.elimT div.dvdnP) in D. destruct D as [q D]. exists q. exact D.
  - unfold pdegree. rewrite Bf. lia.
Qed.

(* Values that are not reduced: FiniteBifield.__call__ accepts any polynomial and does not reduce it.  Products are reduced and
   depend only on the residues, but 1 * x = x, and comparison with ==, fail for every value of degree k or more. *)
Theorem C25_products_reduced : forall a b, F (gf_mul m a b) /\ gf_mul m (pmod a m) b = gf_mul m a b /\ gf_mul m a (pmod b m) = gf_mul m a b.
Proof.
  intros a b.
  assert (Nz : m <> 0%N) by apply Hm.
  assert (Q : forall x y, gf_mul m (pmod x m) y = gf_mul m x y).
  { intros x y. destruct (@Algebra_Proof.divmod_unique x m Nz) as (q & r & E & X & S & _).
    destruct (@Algebra_Proof.divmod_unique (pmul r y) m Nz) as (q1 & r1 & E1 & X1 & S1 & _).
    destruct (@Algebra_Proof.divmod_unique (pmul x y) m Nz) as (q2 & r2 & E2 & X2 & S2 & U2).
    unfold gf_mul. unfold pmod at 2. rewrite E. unfold pmod. rewrite E1, E2.
    destruct (U2 (padd (pmul q y) q1) r1) as [_ W]; auto. rewrite X.
    assert (DD : forall u v w, pmul (padd u v) w = padd (pmul u w) (pmul v w)).
    { intros u v w. rewrite (Algebra_Proof.pmulC (padd u v) w), Algebra_Proof.pmulD, (Algebra_Proof.pmulC w u), (Algebra_Proof.pmulC w v). reflexivity. }
    rewrite !DD, X1. unfold padd. rewrite N.lxor_assoc. f_equal.
    rewrite <- !Algebra_Proof.pmulA. now rewrite (Algebra_Proof.pmulC m y). }
  split; [apply (Props_Algebra.F_elt m k Hk); apply (GFField_Proof.elt_mul Hm)|]. split; [apply Q|].
  unfold gf_mul in *. rewrite (Algebra_Proof.pmulC a (pmod b m)), (Algebra_Proof.pmulC a b). apply Q.
Qed.
Theorem C25_one_neutral_iff_reduced : forall a, gf_mul m 1 a = a <-> F a.
Proof.
  intros a. split; [intros <-; apply C25_products_reduced|]. intros Ha. apply (Props_Algebra.F_elt m k Hk) in Ha.
  now apply (@GFField_Proof.gf_ring m Hm a 0%N 0%N Ha (GFField_Proof.elt0 m) (GFField_Proof.elt0 m)).
Qed.
End Field.

(* In GF(16), field(0b10000) denotes the same element as field(0b0011), but compares different from it, and it gets five conjugates *)
Theorem C25_unreduced_refuted : gf_make 4 None = Some 19%N /\ gf_mul 19 1 16 = 3%N /\ 16%N <> 3%N /\
  gf_conjugates 19 4 16 = Some [16; 5; 2; 4; 3]%N /\ gf_conjugates 19 4 3 = Some [3; 5; 2; 4]%N /\ gf_log 19 4 2 16 = None /\ gf_log 19 4 2 3 = Some 4%N.
Proof. vm_compute. repeat split. discriminate. Qed.
Example C26_conjugates_example : gf_conjugates 19 4 11 = Some [11; 9; 13; 14]%N /\ gf_log 19 4 2 11 = Some 7%N /\ gf_conjugates 19 4 6 = Some [6; 7]%N.
Proof. vm_compute. repeat split. Qed.

Print Assumptions C98_homomorphism.
Print Assumptions C99_reciprocal_multiplicative.
Print Assumptions C100_gcd.
Print Assumptions C26_conjugates.
