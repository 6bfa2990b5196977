(* C18-C26: the algebra package. Statements use only BinPoly_Model (the code) and Algebra_Spec (elementary notions). *)
From Coq Require Import Sorted.
From Verif Require Import Common BinPoly_Model Algebra_Spec.
From Verif Require Algebra_Proof Irreducible_Proof GFField_Proof PrimeFactors_Proof.
Local Open Scope N_scope.

(* ================= C18: GF(2)[X] *)
Theorem C18_ring_laws :
  (forall a b, padd a b = padd b a) /\ (forall a b c, padd a (padd b c) = padd (padd a b) c) /\
  (forall a, padd 0 a = a) /\ (forall a, padd a a = 0) /\ (forall a b, psub a b = padd a b) /\
  (forall a b, pmul a b = pmul b a) /\ (forall a b c, pmul a (pmul b c) = pmul (pmul a b) c) /\
  (forall a, pmul 1 a = a) /\ (forall a b c, pmul a (padd b c) = padd (pmul a b) (pmul a c)) /\
  (forall a b, pmul a b = 0 -> a = 0 \/ b = 0).
Proof.
  repeat apply conj; intros.
  - apply N.lxor_comm.
  - symmetry. apply N.lxor_assoc.
  - apply N.lxor_0_l.
  - apply N.lxor_nilpotent.
  - reflexivity.
  - apply Algebra_Proof.pmulC.
  - apply Algebra_Proof.pmulA.
  - apply Algebra_Proof.pmul1.
  - apply Algebra_Proof.pmulD.
  - now apply Algebra_Proof.pmul_eq0.
Qed.
Theorem C18_addition_coefficients : forall a b i, N.testbit (padd a b) i = xorb (N.testbit a i) (N.testbit b i).
Proof. intros. apply N.lxor_spec. Qed.
Theorem C18_convolution : forall a b k, N.testbit (pmul a b) (N.of_nat k) = conv_coeff a b k.
Proof. exact Algebra_Proof.conv_spec. Qed.
Theorem C18_degree : forall a b, a <> 0 -> b <> 0 -> pdegree (pmul a b) = (pdegree a + pdegree b)%Z.
Proof.
  intros a b Ha Hb. unfold pdegree. rewrite (@Algebra_Proof.bit_length_pmul a b Ha Hb).
  assert (bit_length a <> O) by (destruct a as [|[]]; cbn; congruence).
  assert (bit_length b <> O) by (destruct b as [|[]]; cbn; congruence). lia.
Qed.
Theorem C18_power : (forall a, ppow a 0 = 1) /\ (forall a n, ppow a (N.succ n) = pmul a (ppow a n)).
Proof. split; [exact Algebra_Proof.ppow0|exact Algebra_Proof.ppowS]. Qed.
Example C18_example : pmul 13 7 = 35 /\ pdegree 13 = 3%Z /\ conv_coeff 13 7 5 = true /\ ppow 3 4 = 17.
Proof. vm_compute. auto. Qed.

(* ================= C19: division *)
Theorem C19_divmod : forall a d, d <> 0 -> exists q r, pdivmod a d = Some (q, r) /\
  a = padd (pmul q d) r /\ (pdegree r < pdegree d)%Z /\
  forall q' r', a = padd (pmul q' d) r' -> (pdegree r' < pdegree d)%Z -> q' = q /\ r' = r.
Proof.
  intros a d Hd. destruct (@Algebra_Proof.divmod_unique a d Hd) as (q & r & E & Q & S & U). exists q, r.
  split; [exact E|]. split; [exact Q|]. unfold pdegree. split; [lia|]. intros q' r' Q' S'. apply U; [exact Q'|lia].
Qed.
Theorem C19_by_zero_raises : forall a, pdivmod a 0 = None.
Proof. reflexivity. Qed.
Example C19_example : exists q r, pdivmod 437 13 = Some (q, r) /\ q <> 0 /\ r <> 0.
Proof. vm_compute. eexists _, _. repeat split; discriminate. Qed.

(* ================= C20: gcd *)
Theorem C20_gcd : forall a b, exists g, pgcd a b = Some g /\ ndvd g a /\ ndvd g b /\ forall c, ndvd c a -> ndvd c b -> ndvd c g.
Proof. exact Algebra_Proof.gcd_spec. Qed.
Theorem C20_gcd_list : forall l, l <> [] -> exists g, gcd_list l = Some g /\ (forall x, In x l -> ndvd g x) /\
  forall c, (forall x, In x l -> ndvd c x) -> ndvd c g.
Proof. exact Algebra_Proof.gcd_list_spec. Qed.
Theorem C20_xgcd : forall a b, exists d s t, pxgcd a b = Some (d, s, t) /\ pgcd a b = Some d /\ padd (pmul s a) (pmul t b) = d.
Proof. exact Algebra_Proof.xgcd_spec. Qed.
Example C20_example : pgcd (pmul 11 7) (pmul 11 3) = Some 11 /\ gcd_list [pmul 11 7; pmul 11 3; pmul 3 7] = Some 1.
Proof. vm_compute. auto. Qed.

(* ================= C21: lcm *)
(* domain.lcm, and BinaryPolynomial.lcm with exactly two arguments, are least common multiples *)
Theorem C21_domain_lcm : forall a b, exists m, domain_lcm a b = Some m /\ ndvd a m /\ ndvd b m /\
  forall c, ndvd a c -> ndvd b c -> ndvd m c.
Proof. exact Algebra_Proof.domain_lcm_spec. Qed.
Theorem C21_lcm_two : forall a b, a <> 0 \/ b <> 0 -> exists m, lcm_list [a; b] = Some m /\ ndvd a m /\ ndvd b m /\
  forall c, ndvd a c -> ndvd b c -> ndvd m c.
Proof. intros a b H. rewrite (@Algebra_Proof.lcm_list2 a b H). apply Algebra_Proof.domain_lcm_spec. Qed.
(* two or more arguments: a common multiple, though not the least one *)
Theorem C21_lcm_common_multiple : forall l, (2 <= length l)%nat -> (exists x, In x l /\ x <> 0) ->
  exists m, lcm_list l = Some m /\ forall x, In x l -> ndvd x m.
Proof. exact Algebra_Proof.lcm_common. Qed.
(* The claimed property fails for one argument and for three *)
Theorem C21_lcm_one_refuted : lcm_list [2] = Some 1 /\ ~ ndvd 2 1.
Proof.
  split; [reflexivity|]. intros [c Hc]. destruct (N.eq_dec c 0) as [->|n]; [vm_compute in Hc; discriminate|].
  pose proof (C18_degree c 2 n ltac:(discriminate)) as H. rewrite <- Hc in H. unfold pdegree in H. cbn in H.
  assert (bit_length c <> O) by (destruct c as [|[]]; cbn; congruence). lia.
Qed.
Theorem C21_lcm_three_refuted : exists m, lcm_list [2; 2; 1] = Some m /\ (forall x, In x [2; 2; 1] -> ndvd x 2) /\ ~ ndvd m 2.
Proof.
  exists 4. split; [reflexivity|]. split.
  - intros x [<-|[<-|[<-|[]]]]; [exists 1|exists 1|exists 2]; reflexivity.
  - intros [c Hc]. destruct (N.eq_dec c 0) as [->|n]; [vm_compute in Hc; discriminate|].
    pose proof (C18_degree c 4 n ltac:(discriminate)) as H. rewrite <- Hc in H. unfold pdegree in H. cbn in H.
    assert (bit_length c <> O) by (destruct c as [|[]]; cbn; congruence). lia.
Qed.

(* ================= C22: irreducibility and primitivity *)
Theorem C22_is_irreducible : forall p, is_irreducible p = true <-> nirreducible p.
Proof. exact Irreducible_Proof.is_irreducible_spec. Qed.
(* X has multiplicative order exactly 2^deg - 1 modulo p *)
Theorem C22_is_primitive : forall p, is_primitive p = true <->
  nirreducible p /\ (let order := 2 ^ N.of_nat (bit_length p - 1) - 1 in
    ndvd p (xe1 order) /\ forall e, 0 < e < order -> ~ ndvd p (xe1 e)).
Proof. exact Irreducible_Proof.is_primitive_spec. Qed.
(* prime_factors, on which both rest *)
Theorem C22_prime_factors : forall n, 1 <= n -> exists l, prime_factors n = Some l /\ Forall nprime l /\ nprod l = n /\ Sorted N.le l.
Proof. exact PrimeFactors_Proof.prime_factors_spec. Qed.
Example C22_example : is_irreducible 31 = true /\ is_primitive 31 = false /\ is_primitive 19 = true /\ is_irreducible 21 = false
  /\ is_irreducible 2 = true /\ is_primitive 2 = false /\ is_irreducible 1 = false.
Proof. vm_compute. repeat split. Qed.

(* ================= C23: the table *)
Lemma table_check : forallb (fun d => match default_primitive_polynomial d with
    | Some p => ((pdegree p =? Z.of_N d)%Z && is_primitive p)%bool | None => false end) (map N.of_nat (seq 1 24)) = true.
Proof. vm_compute. reflexivity. Qed.
Theorem C23_default_primitive : forall d, 1 <= d <= 24 -> exists p, default_primitive_polynomial d = Some p /\
  pdegree p = Z.of_N d /\ nirreducible p /\ ndvd p (xe1 (2 ^ d - 1)) /\ forall e, 0 < e < 2 ^ d - 1 -> ~ ndvd p (xe1 e).
Proof.
  intros d Hd. pose proof table_check as T. rewrite forallb_forall in T.
  assert (Hin : In d (map N.of_nat (seq 1 24))).
  { apply in_map_iff. exists (N.to_nat d). split; [apply N2Nat.id|]. apply in_seq. lia. }
  specialize (T d Hin). destruct (default_primitive_polynomial d) as [p|]; [|discriminate].
  apply andb_true_iff in T. destruct T as [T1 T2]. apply Z.eqb_eq in T1. exists p.
  split; [reflexivity|]. split; [exact T1|]. apply C22_is_primitive in T2. destruct T2 as [I H].
  assert (E : N.of_nat (bit_length p - 1) = d) by (unfold pdegree in T1; lia). cbv zeta in H. rewrite E in H. tauto.
Qed.
Theorem C23_outside_raises : forall d, d = 0 \/ 24 < d -> default_primitive_polynomial d = None.
Proof.
  intros d H. unfold default_primitive_polynomial. destruct (N.ltb_spec d 1); [reflexivity|]. destruct (N.ltb_spec 24 d); [reflexivity|]. lia.
Qed.

(* ================= C24: rational functions *)
Definition bind2 (f : pfrac -> pfrac -> option pfrac) (x y : option pfrac) : option pfrac :=
  match x, y with Some a, Some b => f a b | _, _ => None end.
Theorem C24_construct : forall n d, d <> 0 -> exists x, mk_frac n d = Some x /\ reduced_frac x /\ pmul n (snd x) = pmul (fst x) d.
Proof. exact Algebra_Proof.mk_frac_cross. Qed.
Theorem C24_zero_denominator_raises : forall n, mk_frac n 0 = None.
Proof. reflexivity. Qed.
(* results of all operations are in lowest terms, and equal fractions have equal representations *)
Theorem C24_closed : forall x y, reduced_frac x -> reduced_frac y ->
  (exists z, frac_add x y = Some z /\ reduced_frac z) /\ (exists z, frac_sub x y = Some z /\ reduced_frac z) /\
  (exists z, frac_mul x y = Some z /\ reduced_frac z) /\
  (fst y <> 0 -> exists z, frac_div x y = Some z /\ reduced_frac z) /\ (fst y <> 0 -> exists z, frac_inv y = Some z /\ reduced_frac z).
Proof. exact Algebra_Proof.frac_closed. Qed.
Theorem C24_canonical : forall x y, reduced_frac x -> reduced_frac y -> pmul (fst x) (snd y) = pmul (fst y) (snd x) -> x = y.
Proof. exact Algebra_Proof.frac_canonical. Qed.
(* meaning: the result of an operation is the reduced representative of the usual formula *)
Theorem C24_value : forall x y, reduced_frac x -> reduced_frac y ->
  (forall z, frac_add x y = Some z -> pmul (fst z) (pmul (snd x) (snd y)) = pmul (snd z) (padd (pmul (fst x) (snd y)) (pmul (fst y) (snd x)))) /\
  (forall z, frac_mul x y = Some z -> pmul (fst z) (pmul (snd x) (snd y)) = pmul (snd z) (pmul (fst x) (fst y))) /\
  (forall z, frac_div x y = Some z -> pmul (fst z) (pmul (snd x) (fst y)) = pmul (snd z) (pmul (fst x) (snd y))).
Proof. exact Algebra_Proof.frac_value. Qed.
Theorem C24_field_laws : forall x y z, reduced_frac x -> reduced_frac y -> reduced_frac z ->
  let add := bind2 frac_add in let mul := bind2 frac_mul in
  let X := Some x in let Y := Some y in let Z := Some z in
  frac_add x y = frac_add y x /\ add X (add Y Z) = add (add X Y) Z /\ frac_add (0, 1) x = Some x /\
  frac_add x (frac_neg x) = Some (0, 1) /\ frac_sub x y = frac_add x (frac_neg y) /\
  frac_mul x y = frac_mul y x /\ mul X (mul Y Z) = mul (mul X Y) Z /\ frac_mul (1, 1) x = Some x /\
  mul X (add Y Z) = add (mul X Y) (mul X Z) /\
  (x <> (0, 1) -> bind2 frac_mul X (frac_inv x) = Some (1, 1)) /\
  (y <> (0, 1) -> frac_div x y = bind2 frac_mul X (frac_inv y)) /\
  frac_inv (0, 1) = None /\ frac_div x (0, 1) = None.
Proof. exact Algebra_Proof.frac_field. Qed.
Example C24_example : exists x y, reduced_frac x /\ reduced_frac y /\ mk_frac 6 10 = Some x /\ frac_add x y = Some (0, 1) /\ x = y /\ x <> (0, 1).
Proof.
  destruct (C24_construct 6 10 ltac:(discriminate)) as (x & E & R & _). exists x, x.
  assert (Ex : x = (1, 3)) by (vm_compute in E; congruence). rewrite Ex in *. repeat split; auto; try apply R; try reflexivity. discriminate.
Qed.

(* ================= C25: finite fields *)
Section Field.
Variables (m : N) (k : nat).
Hypothesis Hm : nirreducible m.                  (* what the constructor checks, see C25_constructor *)
Hypothesis Hk : bit_length m = S k.
Notation F a := (a < 2 ^ N.of_nat k).
Lemma F_elt a : F a <-> GFField_Proof.elt m a.
Proof. rewrite (GFField_Proof.elt_lt m a). replace (ssrnat.subn (bit_length m) 1) with k; [reflexivity|]. rewrite Hk. cbn. unfold ssrnat.subn, ssrnat.subn_rec. cbn. lia. Qed.
Theorem C25_closed : forall a b, F a -> F b -> F (gf_add a b) /\ F (gf_mul m a b).
Proof. intros a b Ha Hb. rewrite !F_elt in *. split; [now apply GFField_Proof.elt_add|now apply GFField_Proof.elt_mul]. Qed.
Theorem C25_ring_laws : forall a b c, F a -> F b -> F c ->
  gf_add a b = gf_add b a /\ gf_add a (gf_add b c) = gf_add (gf_add a b) c /\ gf_add 0 a = a /\ gf_add a a = 0 /\
  gf_mul m a b = gf_mul m b a /\ gf_mul m a (gf_mul m b c) = gf_mul m (gf_mul m a b) c /\ gf_mul m 1 a = a /\
  gf_mul m a (gf_add b c) = gf_add (gf_mul m a b) (gf_mul m a c).
Proof. intros a b c. rewrite !F_elt. now apply GFField_Proof.gf_ring. Qed.
Theorem C25_inverse : forall a, F a -> a <> 0 -> exists b, gf_inv m a = Some b /\ F b /\ gf_mul m a b = 1.
Proof. intros a Ha Na. rewrite F_elt in Ha. destruct (@GFField_Proof.inv_spec m Hm a Ha Na) as (b & E & eb & M). exists b. rewrite F_elt. auto. Qed.
Theorem C25_zero_inverse_raises : gf_inv m 0 = None.
Proof. exact (@GFField_Proof.inv_zero m Hm). Qed.
Theorem C25_division : forall a b, F a -> F b -> b <> 0 -> exists c, gf_div m a b = Some c /\ F c /\ gf_mul m c b = a.
Proof. intros a b. rewrite !F_elt. intros Ha Hb Nb. destruct (@GFField_Proof.div_spec m Hm a b Ha Hb Nb) as (c & E & ec & M). exists c. rewrite F_elt. auto. Qed.
(* powers: iterated multiplication, of the inverse for negative exponents *)
Theorem C25_power : forall a n, F a -> gf_pow m a (Z.of_nat n) = Some (gf_npow m a n).
Proof. intros a n. rewrite F_elt. now apply GFField_Proof.pow_pos. Qed.
Theorem C25_power_negative : forall a b n, F a -> a <> 0 -> gf_inv m a = Some b -> gf_pow m a (- Z.of_nat (S n)) = Some (gf_npow m b (S n)).
Proof. intros a b n. rewrite F_elt. now apply GFField_Proof.pow_neg. Qed.
Theorem C25_fermat : forall a, F a -> gf_pow m a (2 ^ Z.of_nat k) = Some a.
Proof.
  intros a Ha. rewrite F_elt in Ha. pose proof (@GFField_Proof.fermat m Hm a Ha) as H. unfold gf_pow.
  replace (2 ^ Z.of_nat k <? 0)%Z with false by (symmetry; apply Z.ltb_ge; apply Z.pow_nonneg; lia).
  replace (Z.to_N (2 ^ Z.of_nat k)) with (2 ^ N.of_nat (ssrnat.subn (bit_length m) 1)); [now rewrite H|].
  rewrite Hk. replace (ssrnat.subn (S k) 1) with k by (unfold ssrnat.subn, ssrnat.subn_rec; cbn; lia). rewrite Z2N.inj_pow; [|lia|lia]. f_equal. lia.
Qed.

(* ================= C26: roots and minimal polynomials *)
Theorem C26_find_roots : forall cs, (forall c, In c cs -> F c) -> (exists c, In c cs /\ c <> 0) ->
  NoDup (gf_find_roots m (N.of_nat k) cs) /\ StronglySorted N.lt (gf_find_roots m (N.of_nat k) cs) /\
  forall x, In x (gf_find_roots m (N.of_nat k) cs) <-> F x /\ poly_value m cs x = 0.
Proof.
  intros cs Hc Hnz. assert (Hc' : forall c, In c cs -> GFField_Proof.elt m c) by (intros; apply F_elt; auto).
  set (xs := map N.of_nat (seq 0 (N.to_nat (2 ^ N.of_nat k)))).
  assert (Sx : StronglySorted N.lt xs).
  { unfold xs. generalize (N.to_nat (2 ^ N.of_nat k)) 0%nat. induction n as [|n IH]; intros s; cbn; constructor; [apply IH|].
    apply Forall_forall. intros y Hy. apply in_map_iff in Hy. destruct Hy as (i & <- & Hi). apply in_seq in Hi. lia. }
  assert (Hx : forall x, In x xs <-> F x).
  { intros x. unfold xs. rewrite in_map_iff. split.
    - intros (i & <- & Hi). apply in_seq in Hi. lia.
    - intros H. exists (N.to_nat x). split; [apply N2Nat.id|]. apply in_seq. lia. }
  assert (ND : forall l, StronglySorted N.lt l -> NoDup l).
  { induction 1 as [|a l S IH Fl]; constructor; auto. intros Hin. rewrite Forall_forall in Fl. specialize (Fl a Hin). lia. }
  assert (E : gf_find_roots m (N.of_nat k) cs = filter (fun x => gf_horner m cs x =? 0) xs).
  { unfold gf_find_roots. fold xs. rewrite (@GFField_Proof.roots_loop_spec m Hm cs Hc' Hnz xs []); [reflexivity| |now apply ND|intros ? []].
    intros x H. apply F_elt. now apply Hx. }
  assert (SF : forall (f : N -> bool) l, StronglySorted N.lt l -> StronglySorted N.lt (filter f l)).
  { intros f. induction 1 as [|a l S IH Fl]; cbn; [constructor|]. destruct (f a); [|exact IH]. constructor; [exact IH|].
    apply Forall_forall. intros y Hy. apply filter_In in Hy. rewrite Forall_forall in Fl. now apply Fl. }
  rewrite E. split; [now apply ND, SF|]. split; [now apply SF|]. intros x. rewrite filter_In, Hx.
  split; intros [H1 H2]; split; auto.
  - apply N.eqb_eq in H2. rewrite <- (@GFField_Proof.horner_value m Hm cs x Hc'); [exact H2|now apply F_elt].
  - apply N.eqb_eq. rewrite (@GFField_Proof.horner_value m Hm cs x Hc'); [exact H2|now apply F_elt].
Qed.
(* a is a root of the binary polynomial g exactly when g is a multiple of the minimal polynomial *)
Theorem C26_minimal_polynomial : forall a, F a -> exists f, gf_minimal_polynomial m (N.of_nat k) a = Some f /\
  forall g, poly_value m (bin_coeffs g) a = 0 <-> ndvd f g.
Proof.
  intros a Ha. rewrite F_elt in Ha. pose proof (@GFField_Proof.minpoly_spec m Hm a Ha) as H.
  replace (ssrnat.subn (bit_length m) 1) with k in H; [exact H|]. rewrite Hk. unfold ssrnat.subn, ssrnat.subn_rec; cbn; lia.
Qed.
End Field.
Theorem C25_constructor : forall degree modulus m, gf_make degree modulus = Some m ->
  nirreducible m /\ bit_length m = S (N.to_nat degree) /\ 1 <= degree.
Proof.
  intros degree modulus m H. unfold gf_make in H. destruct (N.ltb_spec degree 1); [discriminate|].
  destruct (match modulus with None => _ | Some _ => _ end) as [m'|]; [|discriminate].
  destruct (pdegree m' =? Z.of_N degree)%Z eqn:D; [|discriminate]. destruct (is_irreducible m') eqn:I; [|discriminate]. cbn in H.
  injection H as <-. apply C22_is_irreducible in I. apply Z.eqb_eq in D. unfold pdegree in D. repeat split; try apply I; lia.
Qed.
Theorem C25_constructor_default : forall degree, 1 <= degree <= 24 -> exists m, gf_make degree None = Some m.
Proof.
  intros d Hd. destruct (C23_default_primitive d Hd) as (p & E & D & I & _). unfold gf_make.
  destruct (N.ltb_spec d 1); [lia|]. rewrite E, D, Z.eqb_refl. apply C22_is_irreducible in I. rewrite I. now exists p.
Qed.
Example C25_example : gf_make 4 None = Some 19 /\ gf_mul 19 9 2 = 1 /\ gf_inv 19 9 = Some 2 /\ gf_find_roots 19 4 [2; 3; 1] = [1; 2]
  /\ gf_minimal_polynomial 19 4 6 = Some 7.
Proof. vm_compute. repeat split. Qed.

Print Assumptions C22_is_primitive.
Print Assumptions C23_default_primitive.
Print Assumptions C24_field_laws.
Print Assumptions C26_minimal_polynomial.
