From Coq Require Import NArith ZArith Lia List Bool.
From Verif Require Import Common Bits_Model BinPoly_Model BlockCode_Model Eval_Model Eval_Spec.
From Verif Require Import Algebra_Spec.
From Verif Require GFField_Proof Bits_Proof Algebra_Proof PolyVec_Proof.
Import ListNotations.
Local Open Scope nat_scope.

Lemma double_bits_0 a : N.testbit (N.double a) 0 = false.
Proof. rewrite N.double_spec. apply N.testbit_even_0. Qed.
Lemma double_bits_succ a i : N.testbit (N.double a) (N.succ i) = N.testbit a i.
Proof. rewrite N.double_spec. apply N.testbit_even_succ. lia. Qed.

Lemma pmul_step p q : pmul p q = padd (if N.odd q then p else 0%N) (N.double (pmul p (N.div2 q))).
Proof.
  assert (D : forall a, N.double a = pmul 2 a).
  { intros a. apply N.bits_inj. intros i. rewrite (Algebra_Proof.pmulC 2 a). rewrite <- (N2Nat.id i). rewrite Algebra_Proof.conv_spec. unfold Algebra_Spec.conv_coeff.
    rewrite N2Nat.id. destruct (N.to_nat i) as [|j] eqn:Ei.
    - assert (i = 0%N) as -> by lia. rewrite double_bits_0. cbn. now rewrite andb_false_r.
    - assert (i = N.succ (N.of_nat j)) as -> by lia. rewrite double_bits_succ. rewrite seq_S, map_app, fold_right_app.
      rewrite seq_S, map_app, fold_right_app. cbn [seq map fold_right Nat.add].
      replace (S j - S j) with 0%nat by lia. replace (S j - j) with 1%nat by lia.
      change (N.testbit 2 (N.of_nat 0)) with false. change (N.testbit 2 (N.of_nat 1)) with true. rewrite andb_false_r, andb_true_r, !xorb_false_r.
      assert (Z : forall l b, (forall k, In k l -> k < j) -> fold_right xorb b (map (fun i => N.testbit a (N.of_nat i) && N.testbit 2 (N.of_nat (S j - i))) l) = b).
      { induction l as [|k l IH]; intros b Hl; cbn [map fold_right]; [reflexivity|]. rewrite IH; [|intros; apply Hl; now right].
        specialize (Hl k (or_introl eq_refl)). replace (N.testbit 2 (N.of_nat (S j - k))) with false; [rewrite andb_false_r; now destruct b|].
        symmetry. change 2%N with (2 ^ 1)%N. apply N.pow2_bits_false. lia. }
      rewrite Z; [reflexivity|]. intros k Hk. apply in_seq in Hk. lia. }
  rewrite D. rewrite (Algebra_Proof.pmulA 2 p), (Algebra_Proof.pmulC 2 p), <- Algebra_Proof.pmulA, <- D.
  assert (B : (if N.odd q then p else 0%N) = pmul p (N.b2n (N.odd q))).
  { destruct (N.odd q); [change (N.b2n true) with 1%N|change (N.b2n false) with 0%N].
    - now rewrite Algebra_Proof.pmulC, Algebra_Proof.pmul1.
    - now rewrite Algebra_Proof.pmulC, Algebra_Proof.pmul0. }
  rewrite B, <- Algebra_Proof.pmulD. f_equal. apply N.bits_inj. intros i. unfold padd. rewrite N.lxor_spec.
  destruct (N.zero_or_succ i) as [->|[j ->]].
  - rewrite double_bits_0, xorb_false_r, N.bit0_odd. destruct (N.odd q); reflexivity.
  - rewrite double_bits_succ, N.div2_spec, N.shiftr_spec'. replace (N.testbit (N.b2n (N.odd q)) (N.succ j)) with false.
    + rewrite xorb_false_l. now replace (N.succ j) with (j + 1)%N by lia.
    + symmetry. destruct (N.odd q); [cbn; destruct j; reflexivity|apply N.bits_0].
Qed.

Section Ring.
Context {A : Type} (E : A -> Prop) (R : ring_desc A).
Hypothesis L : is_ring E (r_zero R) (r_one R) (r_add R) (r_mul R) (r_int R).
Notation "0" := (r_zero R). Notation "1" := (r_one R). Infix "+" := (r_add R). Infix "*" := (r_mul R).
Notation pw := (npower (r_one R) (r_mul R)).

Let E0 : E 0 := ring_zero _ _ _ _ _ _ L.
Let E1 : E 1 := ring_one _ _ _ _ _ _ L.
Let EA x y : E x -> E y -> E (x + y) := ring_add _ _ _ _ _ _ L x y.
Let EM x y : E x -> E y -> E (x * y) := ring_mul _ _ _ _ _ _ L x y.
Let EI z x : E x -> E (r_int R z x) := ring_int _ _ _ _ _ _ L z x.

Lemma add0r x : E x -> x + 0 = x.
Proof. intros H. rewrite (ring_addC _ _ _ _ _ _ L); auto. now apply (ring_add0 _ _ _ _ _ _ L). Qed.
Lemma add_cancel x y a : E x -> E y -> E a -> x + a = y + a -> x = y.
Proof.
  intros Hx Hy Ha H. destruct (ring_opp _ _ _ _ _ _ L a Ha) as (b & Hb & Q).
  assert (T : forall u, E u -> (u + a) + b = u).
  { intros u Hu. rewrite <- (ring_addA _ _ _ _ _ _ L); auto. rewrite Q. now apply add0r. }
  rewrite <- (T x Hx), <- (T y Hy). now rewrite H.
Qed.
Lemma mul0l x : E x -> 0 * x = 0.
Proof.
  intros H. apply (add_cancel _ _ (0 * x)); auto. rewrite <- (ring_mulDl _ _ _ _ _ _ L); auto.
  rewrite (ring_add0 _ _ _ _ _ _ L 0 E0). symmetry. apply (ring_add0 _ _ _ _ _ _ L); auto.
Qed.
Lemma mul0r x : E x -> x * 0 = 0.
Proof.
  intros H. apply (add_cancel _ _ (x * 0)); auto. rewrite <- (ring_mulDr _ _ _ _ _ _ L); auto.
  rewrite (ring_add0 _ _ _ _ _ _ L 0 E0). symmetry. apply (ring_add0 _ _ _ _ _ _ L); auto.
Qed.
Lemma npower_elt x n : E x -> E (pw x n).
Proof. intros H. induction n; cbn; auto. Qed.
Hint Resolve npower_elt : core.
Lemma npower_comm x n : E x -> pw x n * x = x * pw x n.
Proof.
  intros H. induction n as [|n IH]; cbn [npower].
  - rewrite (ring_mul1l _ _ _ _ _ _ L), (ring_mul1r _ _ _ _ _ _ L); auto.
  - rewrite <- (ring_mulA _ _ _ _ _ _ L), IH; auto.
Qed.
Lemma npower_add x m n : E x -> pw x (m + n)%nat = pw x m * pw x n.
Proof.
  intros H. induction m as [|m IH]; cbn [npower Nat.add].
  - now rewrite (ring_mul1l _ _ _ _ _ _ L); auto.
  - rewrite IH. rewrite (ring_mulA _ _ _ _ _ _ L); auto.
Qed.

(* two functions of an integer with the same recursion agree *)
Lemma int_unique (f g : Z -> A) a : (forall z, E (f z)) -> (forall z, E (g z)) -> E a -> f 0%Z = g 0%Z ->
  (forall z, f (z + 1)%Z = f z + a) -> (forall z, g (z + 1)%Z = g z + a) -> forall z, f z = g z.
Proof.
  intros Hf Hg Ha H0 Sf Sg z. destruct (Z_le_gt_dec 0 z) as [Hz|Hz].
  - revert z Hz. apply natlike_ind; [exact H0|]. intros z _ IH. unfold Z.succ. rewrite Sf, Sg, IH. reflexivity.
  - assert (T : forall n, f (- Z.of_nat n)%Z = g (- Z.of_nat n)%Z).
    { induction n as [|n IH]; [exact H0|]. apply (add_cancel _ _ a); auto. rewrite <- Sf, <- Sg.
      replace (- Z.of_nat (S n) + 1)%Z with (- Z.of_nat n)%Z by lia. exact IH. }
    specialize (T (Z.to_nat (- z))). replace (- Z.of_nat (Z.to_nat (- z)))%Z with z in T by lia. exact T.
Qed.
Lemma int_mul z x y : E x -> E y -> r_int R z x * y = r_int R z (x * y).
Proof.
  intros Hx Hy. apply (int_unique (fun z => r_int R z x * y) (fun z => r_int R z (x * y)) (x * y)); auto.
  - rewrite !(ring_int0 _ _ _ _ _ _ L); auto. now apply mul0l.
  - intros w. rewrite (ring_intS _ _ _ _ _ _ L); auto. rewrite (ring_mulDl _ _ _ _ _ _ L); auto.
  - intros w. rewrite (ring_intS _ _ _ _ _ _ L); auto.
Qed.
Lemma int_1 x : E x -> r_int R 1%Z x = x.
Proof.
  intros H. change 1%Z with (0 + 1)%Z. rewrite (ring_intS _ _ _ _ _ _ L); auto. rewrite (ring_int0 _ _ _ _ _ _ L); auto.
  now apply (ring_add0 _ _ _ _ _ _ L).
Qed.
Lemma int_2 x : E x -> r_int R 2%Z x = x + x.
Proof. intros H. change 2%Z with (1 + 1)%Z. rewrite (ring_intS _ _ _ _ _ _ L); auto. now rewrite int_1. Qed.

Definition S_ (l : list A) : A := fold_right (r_add R) 0 l.
Lemma S_elt l : Forall E l -> E (S_ l).
Proof. induction 1; cbn; auto. Qed.
Lemma S_mulr l x : Forall E l -> E x -> S_ l * x = S_ (map (fun y => y * x) l).
Proof.
  intros H Hx. induction H as [|y l Hy Hl IH]; cbn; [now apply mul0l|].
  rewrite (ring_mulDl _ _ _ _ _ _ L); auto; [|now apply S_elt]. unfold S_ in IH. now rewrite IH.
Qed.

Lemma power_sum_elt cs x : E x -> E (power_sum 0 1 (r_add R) (r_mul R) (r_int R) cs x).
Proof. intros H. apply S_elt. apply Forall_forall. intros y Hy. apply in_map_iff in Hy. destruct Hy as (i & <- & _). auto. Qed.
Lemma power_sum_cons c cs x : E x ->
  power_sum 0 1 (r_add R) (r_mul R) (r_int R) (c :: cs) x =
  power_sum 0 1 (r_add R) (r_mul R) (r_int R) cs x * x + r_int R c 1.
Proof.
  intros H. unfold power_sum at 1. cbn [length seq map fold_right nth npower].
  rewrite (ring_addC _ _ _ _ _ _ L); auto.
  2:{ apply S_elt. apply Forall_forall. intros y Hy. apply in_map_iff in Hy. destruct Hy as (i & <- & _). auto. }
  f_equal. rewrite <- seq_shift, map_map. unfold power_sum. symmetry. rewrite S_mulr; auto.
  - unfold S_. f_equal. rewrite map_map. apply map_ext_in. intros i Hi. cbn [nth npower].
    rewrite int_mul; auto. now rewrite npower_comm.
  - apply Forall_forall. intros y Hy. apply in_map_iff in Hy. destruct Hy as (i & <- & _). auto.
Qed.

Lemma horner_cons c cs x : horner R (c :: cs) x = horner R cs x * x + r_int R c 1.
Proof. unfold horner. cbn [rev]. now rewrite fold_left_app. Qed.
Lemma horner_spec cs x : E x -> horner R cs x = power_sum 0 1 (r_add R) (r_mul R) (r_int R) cs x.
Proof.
  intros H. induction cs as [|c cs IH]; [reflexivity|]. rewrite horner_cons, power_sum_cons, IH; auto.
Qed.
Lemma binary_horner_spec cs x : E x -> binary_horner R cs x = power_sum 0 1 (r_add R) (r_mul R) (r_int R) cs x.
Proof.
  intros H. induction cs as [|c cs IH]; [reflexivity|]. rewrite power_sum_cons by auto.
  unfold binary_horner in *. cbn [rev]. rewrite fold_left_app. cbn [fold_left]. rewrite IH.
  destruct (Z.eqb_spec c 0%Z) as [->|n]; [|reflexivity]. rewrite (ring_int0 _ _ _ _ _ _ L); auto. rewrite add0r; auto.
  apply EM; auto. now apply power_sum_elt.
Qed.

(* ring_power *)
Lemma power_loop_spec fuel : forall x n, E x -> N.size_nat n <= fuel -> power_loop (r_mul R) (r_one R) fuel x n = pw x (N.to_nat n).
Proof.
  induction fuel as [|f IH]; intros x n H Hn; cbn [power_loop].
  - assert (n = 0%N) as -> by (destruct n as [|[]]; cbn in Hn; [reflexivity|lia|lia|lia]). reflexivity.
  - destruct (N.eqb_spec n 0%N) as [->|n0]; [reflexivity|]. destruct (N.eqb_spec n 1%N) as [->|n1].
    + change (N.to_nat 1) with (Datatypes.S O). cbn [npower]. symmetry. now apply (ring_mul1r _ _ _ _ _ _ L).
    + cbv zeta. assert (Hd : N.size_nat (n / 2) <= f).
      { assert (Q : (n / 2 = N.div2 n)%N) by (symmetry; apply N.div2_div). rewrite Q. destruct n as [|[p|p|]]; cbn in *; lia. }
      rewrite IH; auto. rewrite <- npower_add; auto.
      pose proof (N.div_mod n 2 ltac:(lia)) as D. pose proof (N.mod_lt n 2 ltac:(lia)) as M.
      destruct (N.eqb_spec (n mod 2) 1%N) as [e|e].
      * change (x * pw x (N.to_nat (n / 2) + N.to_nat (n / 2))%nat) with (pw x (Datatypes.S (N.to_nat (n / 2) + N.to_nat (n / 2)))).
        f_equal. lia.
      * f_equal. lia.
Qed.
Lemma power_spec x n : E x -> power R x n = if (n <? 0)%Z then None else Some (pw x (Z.to_nat n)).
Proof.
  intros H. unfold power. destruct (n <? 0)%Z; [reflexivity|]. unfold ring_power. rewrite power_loop_spec; auto.
  do 2 f_equal. lia.
Qed.

(* evaluation of a binary polynomial *)
Lemma bits_coeffs p n : map Z.b2z (int_to_bits p n LSB_first) = bit_coeffs p n.
Proof.
  unfold int_to_bits, bit_coeffs. rewrite map_map. apply map_ext. intros i. unfold bit_at. rewrite <- N.bit0_odd, N.shiftr_spec'. cbn [N.add].
  destruct (N.testbit p (N.of_nat i)); reflexivity.
Qed.
Definition ev (n : nat) (p : N) (x : A) := power_sum 0 1 (r_add R) (r_mul R) (r_int R) (bit_coeffs p n) x.
Lemma evaluate_ev p x : E x -> evaluate R p x = ev (Nat.max (bit_length p) 1) p x.
Proof. intros H. unfold evaluate, ev. rewrite bits_coeffs. now apply binary_horner_spec. Qed.
Lemma bit_coeffs_S p n : bit_coeffs p (S n) = (if N.odd p then 1%Z else 0%Z) :: bit_coeffs (N.div2 p) n.
Proof.
  unfold bit_coeffs. cbn [seq map]. f_equal; [now rewrite N.bit0_odd|]. rewrite <- seq_shift, map_map. apply map_ext. intros i.
  rewrite N.div2_spec, N.shiftr_spec'. now replace (N.of_nat i + 1)%N with (N.of_nat (S i)) by lia.
Qed.
Lemma ev_S n p x : E x -> ev (S n) p x = ev n (N.div2 p) x * x + (if N.odd p then 1 else 0).
Proof.
  intros H. unfold ev. rewrite bit_coeffs_S, power_sum_cons by auto. f_equal.
  destruct (N.odd p); [now apply int_1|now apply (ring_int0 _ _ _ _ _ _ L)].
Qed.
Lemma ev_elt n p x : E x -> E (ev n p x).
Proof. apply power_sum_elt. Qed.
Hint Resolve ev_elt : core.
Lemma ev_0 n x : E x -> ev n 0 x = 0.
Proof.
  intros H. induction n as [|n IH]; [reflexivity|]. rewrite ev_S; auto. cbn [N.div2 N.odd]. rewrite IH, add0r; [now apply mul0l|]. now apply EM.
Qed.
Lemma size_div2 p n : bit_length p <= S n -> bit_length (N.div2 p) <= n.
Proof. unfold bit_length. destruct p as [|[q|q|]]; cbn; lia. Qed.
Lemma ev_indep : forall n m p x, E x -> bit_length p <= n -> bit_length p <= m -> ev n p x = ev m p x.
Proof.
  induction n as [|n IH]; intros m p x H Hn Hm.
  - assert (p = 0%N) as -> by (unfold bit_length in *; destruct p as [|[]]; cbn in *; [reflexivity|lia|lia|lia]). rewrite !ev_0; auto.
  - destruct m as [|m].
    + assert (p = 0%N) as -> by (unfold bit_length in *; destruct p as [|[]]; cbn in *; [reflexivity|lia|lia|lia]). rewrite !ev_0; auto.
    + rewrite !ev_S by auto. f_equal. f_equal. apply IH; auto using size_div2.
Qed.
Lemma evaluate_any p n x : E x -> bit_length p <= n -> evaluate R p x = ev n p x.
Proof. intros H Hn. rewrite evaluate_ev by auto. apply ev_indep; auto. lia. Qed.
Lemma ev_comm n p x : E x -> ev n p x * x = x * ev n p x.
Proof.
  intros H. revert p. induction n as [|n IH]; intros p.
  - cbn. rewrite mul0l, mul0r; auto.
  - rewrite ev_S by auto. assert (Eb : E (if N.odd p then 1 else 0)) by (destruct (N.odd p); auto).
    rewrite (ring_mulDl _ _ _ _ _ _ L), (ring_mulDr _ _ _ _ _ _ L); auto. f_equal.
    + rewrite (ring_mulA _ _ _ _ _ _ L x); auto. now rewrite <- IH.
    + destruct (N.odd p); [rewrite (ring_mul1l _ _ _ _ _ _ L), (ring_mul1r _ _ _ _ _ _ L)|rewrite mul0l, mul0r]; auto.
Qed.

Section Char2.
Hypothesis C2 : r_int R 2%Z 1 = 0.
Lemma add_self x : E x -> x + x = 0.
Proof.
  intros H. rewrite <- (int_2 x H). rewrite <- (ring_mul1l _ _ _ _ _ _ L x H) at 1. rewrite <- int_mul; auto. rewrite C2. now apply mul0l.
Qed.
Lemma add4 a b c d : E a -> E b -> E c -> E d -> (a + b) + (c + d) = (a + c) + (b + d).
Proof.
  intros. rewrite <- !(ring_addA _ _ _ _ _ _ L); auto. f_equal. rewrite !(ring_addA _ _ _ _ _ _ L); auto. f_equal.
  apply (ring_addC _ _ _ _ _ _ L); auto.
Qed.
Lemma bit_if_elt (b : bool) : E (if b then 1 else 0). Proof. destruct b; auto. Qed.
Hint Resolve bit_if_elt : core.
Lemma ev_add n : forall p q x, E x -> ev n (N.lxor p q) x = ev n p x + ev n q x.
Proof.
  induction n as [|n IH]; intros p q x H.
  - cbn. symmetry. now apply (ring_add0 _ _ _ _ _ _ L).
  - rewrite !ev_S by auto. replace (N.div2 (N.lxor p q)) with (N.lxor (N.div2 p) (N.div2 q)) by (rewrite !N.div2_spec; symmetry; apply N.shiftr_lxor).
    rewrite IH by auto. rewrite (ring_mulDl _ _ _ _ _ _ L); auto. rewrite <- (add4 _ _ _ _); auto. rewrite add4; auto. rewrite add4; auto.
    f_equal. rewrite <- !N.bit0_odd, N.lxor_spec. destruct (N.testbit p 0), (N.testbit q 0); cbn [xorb].
    + symmetry. now apply add_self.
    + symmetry. now apply add0r.
    + symmetry. now apply (ring_add0 _ _ _ _ _ _ L).
    + symmetry. now apply (ring_add0 _ _ _ _ _ _ L).
Qed.
Lemma evaluate_add p q x : E x -> evaluate R (padd p q) x = evaluate R p x + evaluate R q x.
Proof.
  intros H. set (n := Nat.max (bit_length (padd p q)) (Nat.max (bit_length p) (bit_length q))).
  rewrite !(evaluate_any _ n x); auto; try (unfold n; lia). now apply ev_add.
Qed.
Lemma evaluate_step p x : E x -> evaluate R p x = evaluate R (N.div2 p) x * x + (if N.odd p then 1 else 0).
Proof.
  intros H. rewrite (evaluate_any p (S (bit_length p))), (evaluate_any (N.div2 p) (bit_length p)); auto.
  - now apply ev_S.
  - apply size_div2. lia.
Qed.
Lemma evaluate_elt p x : E x -> E (evaluate R p x).
Proof. intros H. rewrite evaluate_ev; auto. Qed.
Hint Resolve evaluate_elt : core.
Lemma evaluate_0 x : E x -> evaluate R 0%N x = 0.
Proof. intros H. rewrite evaluate_ev; auto. now apply ev_0. Qed.
Lemma evaluate_double p x : E x -> evaluate R (N.double p) x = evaluate R p x * x.
Proof.
  intros H. rewrite evaluate_step by auto. replace (N.odd (N.double p)) with false by (destruct p; reflexivity).
  rewrite N.div2_double, add0r; auto.
Qed.
Lemma evaluate_comm p x : E x -> evaluate R p x * x = x * evaluate R p x.
Proof. intros H. rewrite evaluate_ev; auto. now apply ev_comm. Qed.
Lemma evaluate_mul p q x : E x -> evaluate R (pmul p q) x = evaluate R p x * evaluate R q x.
Proof.
  intros H. remember (bit_length q) as n eqn:Hn. assert (Hq : bit_length q <= n) by lia. clear Hn. revert q Hq.
  induction n as [|n IH]; intros q Hq.
  - assert (q = 0%N) as -> by (unfold bit_length in *; destruct q as [|[]]; cbn in *; [reflexivity|lia|lia|lia]).
    rewrite Algebra_Proof.pmulC, Algebra_Proof.pmul0, evaluate_0, mul0r; auto.
  - rewrite pmul_step, evaluate_add, evaluate_double, IH; auto using size_div2.
    rewrite (evaluate_step q) by auto. rewrite (ring_mulDr _ _ _ _ _ _ L); auto.
    rewrite (ring_addC _ _ _ _ _ _ L); auto.
    f_equal.
    + now rewrite (ring_mulA _ _ _ _ _ _ L); auto.
    + destruct (N.odd q); [now rewrite (ring_mul1r _ _ _ _ _ _ L); auto|now rewrite evaluate_0, mul0r; auto].
Qed.
Lemma evaluate_1 x : E x -> evaluate R 1%N x = 1.
Proof.
  intros H. rewrite evaluate_step by auto. change (N.div2 1) with 0%N. cbn [N.odd]. rewrite evaluate_0, mul0l; auto. now apply (ring_add0 _ _ _ _ _ _ L).
Qed.
Lemma evaluate_X x : E x -> evaluate R 2%N x = x.
Proof.
  intros H. rewrite evaluate_step by auto. change (N.div2 2) with 1%N. change (N.odd 2) with false. cbv iota. rewrite evaluate_1, add0r, (ring_mul1l _ _ _ _ _ _ L); auto.
Qed.
End Char2.
End Ring.

Lemma integers_ring : is_ring (fun _ => True) 0%Z 1%Z (r_add Integers) (r_mul Integers) (r_int Integers).
Proof. split; cbn [r_add r_mul r_int Integers]; auto; intros; try ring. exists (- x)%Z. split; auto; ring. Qed.

Lemma parity_step z (a : N) : (if (((z + 1) mod 2) =? 0)%Z then 0%N else a) = N.lxor (if ((z mod 2) =? 0)%Z then 0%N else a) a.
Proof.
  pose proof (Z.mod_pos_bound z 2 ltac:(lia)). pose proof (Z.mod_pos_bound (z + 1) 2 ltac:(lia)).
  pose proof (Z.div_mod z 2 ltac:(lia)). pose proof (Z.div_mod (z + 1) 2 ltac:(lia)).
  destruct (Z.eqb_spec (z mod 2) 0), (Z.eqb_spec ((z + 1) mod 2) 0); try lia.
  - now rewrite N.lxor_0_l.
  - now rewrite N.lxor_nilpotent.
Qed.

Lemma polynomials_ring : is_ring (fun _ => True) 0%N 1%N (r_add BinaryPolynomials) (r_mul BinaryPolynomials) (r_int BinaryPolynomials).
Proof.
  assert (D : forall a b c, pmul (padd a b) c = padd (pmul a c) (pmul b c)).
  { intros. now rewrite Algebra_Proof.pmulC, Algebra_Proof.pmulD, !(Algebra_Proof.pmulC c). }
  split; cbn [r_add r_mul r_int BinaryPolynomials]; auto; intros.
  - apply N.lxor_comm.
  - symmetry. apply N.lxor_assoc.
  - exists x. split; auto. apply N.lxor_nilpotent.
  - apply Algebra_Proof.pmulA.
  - apply Algebra_Proof.pmul1.
  - apply Algebra_Proof.pmulD.
  - apply parity_step.
Qed.

Lemma mul_left (E : N -> Prop) (mul : N -> N -> N) x y z : mul x y = mul y x -> mul y x = z -> mul x y = z.
Proof. congruence. Qed.

Section Bifield.
Variable (m : N).
Hypothesis Hm : nirreducible m.
Lemma bifield_ring_elt : is_ring (GFField_Proof.elt m) 0%N 1%N (r_add (Bifield m)) (r_mul (Bifield m)) (r_int (Bifield m)).
Proof.
  assert (Q := fun a b c ha hb hc => @GFField_Proof.gf_ring m Hm a b c ha hb hc). pose proof (GFField_Proof.elt0 m) as e0.
  pose proof (@GFField_Proof.elt1 m Hm) as e1.
  assert (eM := fun a b => @GFField_Proof.elt_mul m Hm a b). assert (eA := fun a b => @GFField_Proof.elt_add m Hm a b).
  split; cbn [r_add r_mul r_int Bifield]; auto; intros.
  - destruct (_ =? _)%Z; auto.
  - now apply (Q x y 0%N).
  - now apply (Q x y z).
  - exists x. split; auto. now apply (Q x 0%N 0%N).
  - now apply (Q x y z).
  - now apply (Q x 0%N 0%N).
  - destruct (Q x 1%N 0%N) as (_ & _ & _ & _ & C & _); auto. rewrite C. now apply (Q x 0%N 0%N).
  - assert (C : forall u v, GFField_Proof.elt m u -> GFField_Proof.elt m v -> gf_mul m u v = gf_mul m v u) by (intros u v hu hv; now apply (Q u v 0%N)).
    rewrite C, (C x), (C y) by auto. now apply (Q z x y).
  - now apply (Q x y z).
  - apply parity_step.
Qed.
Lemma bifield_ring k : bit_length m = S k ->
  is_ring (fun a => (a < 2 ^ N.of_nat k)%N) 0%N 1%N (r_add (Bifield m)) (r_mul (Bifield m)) (r_int (Bifield m)).
Proof.
  intros Hk. pose proof bifield_ring_elt as B.
  assert (F : forall a, GFField_Proof.elt m a <-> (a < 2 ^ N.of_nat k)%N).
  { intros a. rewrite (GFField_Proof.elt_lt m a). replace (ssrnat.subn (bit_length m) 1) with k; [reflexivity|]. rewrite Hk. unfold ssrnat.subn, ssrnat.subn_rec; cbn; lia. }
  destruct B as [b1 b2 b3 b4 b5 b6 b7 b8 b9 b10 b11 b12 b13 b14 b15 b16]. split; intros; try apply F; repeat match goal with H : (_ < _)%N |- _ => apply F in H end; auto.
  destruct (b9 x H) as (y & Hy & Ey). exists y. split; [now apply F|exact Ey].
Qed.
End Bifield.

Lemma fractions_ring : is_ring reduced_frac (0, 1)%N (1, 1)%N (r_add Fractions) (r_mul Fractions) (r_int Fractions).
Proof.
  pose proof Algebra_Proof.red0 as e0. pose proof Algebra_Proof.red1 as e1.
  assert (Q := fun x y z hx hy hz => @Algebra_Proof.frac_field x y z hx hy hz).
  assert (AA : forall x y, reduced_frac x -> reduced_frac y -> frac_add x y = Some (the_frac (frac_add x y)) /\ reduced_frac (the_frac (frac_add x y))).
  { intros x y hx hy. destruct (@Algebra_Proof.frac_closed x y hx hy) as [(z & -> & rz) _]. split; auto. }
  assert (MM : forall x y, reduced_frac x -> reduced_frac y -> frac_mul x y = Some (the_frac (frac_mul x y)) /\ reduced_frac (the_frac (frac_mul x y))).
  { intros x y hx hy. destruct (@Algebra_Proof.frac_closed x y hx hy) as (_ & _ & (z & -> & rz) & _). split; auto. }
  assert (I0 : forall x, reduced_frac x -> the_frac (mk_frac 0 (snd x)) = (0, 1)%N).
  { intros x hx. destruct (@Algebra_Proof.mk_frac_cross 0 (snd x) (proj1 hx)) as (y & -> & ry & Ey). cbn.
    apply Algebra_Proof.frac_canonical; auto. rewrite Algebra_Proof.pmul0 in Ey. symmetry in Ey. apply Algebra_Proof.pmul_eq0 in Ey.
    destruct Ey as [Ey|Ey]; [|now destruct (proj1 hx)]. rewrite Ey. cbn [fst snd]. now rewrite !Algebra_Proof.pmul0. }
  assert (I1 : forall x, reduced_frac x -> the_frac (mk_frac (fst x) (snd x)) = x).
  { intros x hx. destruct (@Algebra_Proof.mk_frac_cross (fst x) (snd x) (proj1 hx)) as (y & -> & ry & Ey). cbn.
    apply Algebra_Proof.frac_canonical; auto. }
  split; cbn [r_add r_mul r_int Fractions]; auto; intros; try (now apply AA); try (now apply MM).
  - destruct (_ =? _)%Z; [rewrite I0|rewrite I1]; auto.
  - f_equal. now apply (Q x y (0,1)%N).
  - destruct (Q x y z) as (_ & A & _); auto. cbn in A.
    destruct (AA y z) as [e r]; auto. destruct (AA x y) as [e' r']; auto. rewrite e, e' in A.
    rewrite A. reflexivity.
  - destruct (Q x (0,1)%N (0,1)%N) as (_ & _ & A & _); auto. now rewrite A.
  - exists x. split; auto. destruct (Q x (0,1)%N (0,1)%N) as (_ & _ & _ & A & _); auto. unfold frac_neg in A. now rewrite A.
  - destruct (Q x y z) as (_ & _ & _ & _ & _ & _ & A & _); auto. cbn in A.
    destruct (MM y z) as [e r]; auto. destruct (MM x y) as [e' r']; auto. rewrite e, e' in A. rewrite A. reflexivity.
  - destruct (Q x (0,1)%N (0,1)%N) as (_ & _ & _ & _ & _ & _ & _ & A & _); auto. now rewrite A.
  - assert (C : forall u v, reduced_frac u -> reduced_frac v -> frac_mul u v = frac_mul v u) by (intros u v hu hv; now apply (Q u v (0,1)%N)).
    destruct (AA x y) as [e r]; auto. rewrite (C _ z), (C x z), (C y z) by auto.
    destruct (Q z x y) as (_ & _ & _ & _ & _ & _ & _ & _ & A & _); auto. cbn in A. rewrite e in A.
    destruct (MM z x) as [e1' r1]; auto. destruct (MM z y) as [e2 r2]; auto. rewrite e1', e2 in A. now rewrite A.
  - destruct (AA y z) as [e r]; auto. destruct (Q x y z) as (_ & _ & _ & _ & _ & _ & _ & _ & A & _); auto. cbn in A. rewrite e in A.
    destruct (MM x y) as [e1' r1]; auto. destruct (MM x z) as [e2 r2]; auto. rewrite e1', e2 in A. now rewrite A.
  - assert (P0 : the_frac (frac_add (0,1)%N x) = x) by (destruct (Q x (0,1)%N (0,1)%N) as (_ & _ & A & _); auto; now rewrite A).
    assert (P1 : the_frac (frac_add x x) = (0,1)%N) by (destruct (Q x (0,1)%N (0,1)%N) as (_ & _ & _ & A & _); auto; unfold frac_neg in A; now rewrite A).
    pose proof (Z.mod_pos_bound z 2 ltac:(lia)). pose proof (Z.mod_pos_bound (z + 1) 2 ltac:(lia)).
    pose proof (Z.div_mod z 2 ltac:(lia)). pose proof (Z.div_mod (z + 1) 2 ltac:(lia)).
    destruct (Z.eqb_spec (z mod 2) 0), (Z.eqb_spec ((z + 1) mod 2) 0); try lia.
    + now rewrite I0, I1, P0.
    + now rewrite I0, I1, P1.
Qed.
