(* C35: cyclic codes.  Statements use Cyclic_Model and the specifications Code_Spec, Algebra_Spec
   (ndvd = divisibility of binary polynomials, xe1 n = X^n + 1). *)
From Verif Require Import Common Bits_Model BinPoly_Model Algebra_Spec Vec_Model LinAlg_Model Linear_Spec BlockCode_Model Code_Spec Cyclic_Model.
From Verif Require Cyclic_Proof PolyVec_Proof PolyN_Proof BlockCode_Proof Decoders_Proof Algebra_Proof.
Local Open Scope nat_scope.

Ltac conjs := lazymatch goal with |- _ /\ _ => split; [|conjs] | _ => idtac end.

(* the polynomial with coefficient vector v *)
Definition poly_of (v : vec) : N := bits_to_int v LSB_first.

(* The constructor accepts exactly the factors of X^n + 1, and the two polynomials multiply to X^n + 1. *)
Theorem C35_constructor : forall n arg s, 1 <= n ->
  (forall C, CyclicCode n arg s = Some C ->
     exists g h, pmul g h = xe1 (N.of_nat n) /\ (arg = Generator g \/ arg = Check h) /\ C = cyclic_code n g h s) /\
  (CyclicCode n arg s = None <-> ~ ndvd (match arg with Generator p => p | Check p => p end) (xe1 (N.of_nat n))).
Proof.
  intros n arg s Hn. pose proof (fun g h => Cyclic_Proof.cyclic_polys_spec n arg g h ltac:(lia)) as S. unfold CyclicCode. split.
  - intros C E. destruct (cyclic_polys n arg) as [[g h]|] eqn:P; [|discriminate]. injection E as <-. destruct (proj1 (S g h) eq_refl) as [A B]. exists g, h. auto.
  - destruct (cyclic_polys n arg) as [[g h]|] eqn:P; cbn [option_map].
    + destruct (proj1 (S g h) eq_refl) as [A B]. split; [discriminate|]. intros Nd. exfalso. apply Nd. destruct B as [-> | ->].
      * exists h. rewrite Algebra_Proof.pmulC. auto.
      * exists g. auto.
    + split; auto. intros _ [c Ec]. destruct arg as [p|p].
      * assert (Q : None = Some (p, c)) by (apply S; split; auto; rewrite Algebra_Proof.pmulC; auto). discriminate.
      * assert (Q : None = Some (c, p)) by (apply S; split; auto). discriminate.
Qed.

(* For both strategies, with 0 < deg g < n. *)
Theorem C35_cyclic : forall n g h s, pmul g h = xe1 (N.of_nat n) -> deg g <> 0 -> deg h <> 0 ->
  let C := cyclic_code n g h s in
  bc_n C = n /\ bc_k C = deg h /\ bc_m C = deg g /\ n = deg h + deg g /\
  (* encode is linear, injective, given by the generator matrix; project_word inverts it *)
  encoder_ok C /\
  (* the codewords are the multiples of g of degree < n *)
  (forall v, is_codeword C v <-> length v = n /\ ndvd g (poly_of v)) /\
  (* cyclic shifts *)
  (forall v b, is_codeword C (v ++ [b]) -> is_codeword C (b :: v)) /\
  (* check vanishes exactly on the codewords; so does multiplication by the check matrix *)
  (forall r, length r = n -> (bc_check C r = zeros (deg g) <-> is_codeword C r)) /\
  (forall r, length r = n -> (matvec (bc_H C) r = zeros (deg g) <-> is_codeword C r)) /\
  (forall u, length u = deg h -> bc_inverse_encode C (bc_encode C u) = Some u).
Proof.
  intros n g h s E Hm Hk C. pose proof (Cyclic_Proof.cyclic_encoder n g h s E Hk Hm) as OE.
  conjs; try reflexivity.
  - apply (Cyclic_Proof.n_eq n g h E Hk Hm).
  - exact OE.
  - apply (Cyclic_Proof.cyc_codeword n g h s E Hk Hm).
  - apply (Cyclic_Proof.cyclic_shift n g h s E Hk Hm).
  - apply (Cyclic_Proof.check_zero n g h s E Hk Hm).
  - apply (Cyclic_Proof.H_zero n g h s E Hk Hm).
  - intros u Lu. unfold bc_inverse_encode. fold C in OE. rewrite (ok_project C OE u Lu).
    assert (Z : bc_check C (bc_encode C u) = zeros (deg g)).
    { apply (Cyclic_Proof.check_zero n g h s E Hk Hm); [apply (ok_encode_length _ OE u Lu)|]. exists u. auto. }
    rewrite Z. assert (F : forall j, forallb negb (zeros j) = true) by (unfold zeros; induction j; auto). rewrite F. auto.
Qed.

(* The default (systematic) form is a fully consistent block code, so all of C29-C33 and C64 apply,
   and the message occupies the last k positions. *)
Theorem C35_systematic : forall n g h, pmul g h = xe1 (N.of_nat n) -> deg g <> 0 -> deg h <> 0 ->
  let C := cyclic_code n g h true in
  valid_code C /\
  (forall u, length u = deg h -> skipn (deg g) (bc_encode C u) = u) /\
  (forall u, length u = deg h -> poly_of (bc_encode C u) =
     N.lxor (N.shiftl (poly_of u) (N.of_nat (deg g))) (pmod (N.shiftl (poly_of u) (N.of_nat (deg g))) g)).
Proof.
  intros n g h E Hm Hk C. conjs.
  - apply Cyclic_Proof.cyclic_valid; auto.
  - intros u Lu. apply (Cyclic_Proof.cyclic_systematic n g h true E Hk Hm); auto.
  - intros u Lu. apply (Cyclic_Proof.pol_encode n g h true E Hk Hm); auto.
Qed.
Theorem C35_nonsystematic : forall n g h, pmul g h = xe1 (N.of_nat n) -> deg g <> 0 -> deg h <> 0 ->
  forall u, length u = deg h -> poly_of (bc_encode (cyclic_code n g h false) u) = pmul (poly_of u) g.
Proof. intros n g h E Hm Hk u Lu. apply (Cyclic_Proof.pol_encode n g h false E Hk Hm); auto. Qed.

(* Finding: in the non-systematic form check(r) is not r * check_matrix^T (it is still r mod g), but
   coset_leaders() is indexed by the latter.  Hence SyndromeTableDecoder on the (7,4) Hamming code in
   non-systematic cyclic form returns a wrong message for a single error. *)
Theorem C35_nonsystematic_syndrome_refuted : exists C lds, CyclicCode 7 (Generator 11) false = Some C /\ coset_leaders C = Some lds /\
  minimum_distance C false = Some 3 /\
  (exists r, length r = 7 /\ bc_check C r <> matvec (bc_H C) r) /\
  (exists u e, length u = 4 /\ length e = 7 /\ weight e = 1 /\ syndrome_decode C lds (vxor (bc_encode C u) e) <> u).
Proof.
  eexists. eexists. split; [vm_compute; reflexivity|]. split; [vm_compute; reflexivity|]. split; [vm_compute; reflexivity|]. split.
  - exists (unit_vec 7 2). split; auto. vm_compute. discriminate.
  - exists (zeros 4), (unit_vec 7 2). split; auto. split; auto. split; auto. vm_compute. discriminate.
Qed.

(* Finding: with generator_polynomial = 1 (redundancy 0) check returns a vector of length 1, because
   coefficients(width=0) falls back to the default width. *)
Theorem C35_no_redundancy_refuted : exists C, CyclicCode 3 (Generator 1) true = Some C /\ bc_m C = 0 /\
  forall r, length r = 3 -> length (bc_check C r) = 1.
Proof.
  eexists. split; [vm_compute; reflexivity|]. split; [reflexivity|]. intros [|a [|b [|c [|]]]] L; cbn in L; try lia.
  destruct a, b, c; vm_compute; auto.
Qed.

Example C35_example : exists C, CyclicCode 7 (Generator 11) true = Some C /\
  CyclicCode 7 (Check 23) true = Some C /\ pmul 11 23 = xe1 7 /\
  bc_encode C [true;false;false;true] = [false;true;true;true;false;false;true].
Proof. eexists. split; [vm_compute; reflexivity|]. split; [vm_compute; reflexivity|]. split; vm_compute; auto. Qed.
