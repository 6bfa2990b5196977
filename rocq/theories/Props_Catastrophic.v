(* C82: the generator matrix of a convolutional encoder, its maximal minors and invariant factors, and is_catastrophic. *)
From Verif Require Import Common Vec_Model BinPoly_Model Algebra_Spec Conv_Model Conv_Spec Cat_Spec Cat_Model.
From Verif Require Algebra_Proof Cat_Top Cat_High Cat_Gcd.
Local Open Scope nat_scope.

(* entry (i, j) of the generator matrix is p_ij / q_i in lowest terms *)
Theorem C82_generator : forall rows c, ConvolutionalCode rows = Some c -> Forall (fun r => N.odd (snd r) = true) rows ->
  exists G, cc_generator rows = Some G /\ length G = length rows /\
    forall i j, i < length rows -> j < cv_n c ->
      let x := nth j (nth i G []) (0, 1)%N in let ps := fst (nth i rows ([], 0%N)) in let q := snd (nth i rows ([], 0%N)) in
      length (nth i G []) = cv_n c /\ reduced_frac x /\ pmul (fst x) q = pmul (snd x) (nth j ps 0%N).
Proof. intros rows c E Q. exact (@Cat_Top.cc_entries rows c E Q). Qed.

(* the answer True is always right *)
Theorem C82_sound : forall rows c G, ConvolutionalCode rows = Some c -> Forall (fun r => N.odd (snd r) = true) rows ->
  cc_generator rows = Some G -> is_catastrophic G = Some true -> catastrophic c.
Proof.
  intros rows c G E Q EG. destruct (@Cat_Top.cc_has_generator rows c E Q) as (G' & EG' & HG). rewrite EG' in EG. injection EG as <-.
  exact (@Cat_Top.cc_sound rows c E Q G' HG).
Qed.
(* it raises exactly for encoders that lose information *)
Theorem C82_raises : forall rows c G, ConvolutionalCode rows = Some c -> Forall (fun r => N.odd (snd r) = true) rows ->
  cc_generator rows = Some G -> (is_catastrophic G = None <-> loses_input c).
Proof.
  intros rows c G E Q EG. destruct (@Cat_Top.cc_has_generator rows c E Q) as (G' & EG' & HG). rewrite EG' in EG. injection EG as <-.
  exact (@Cat_Top.cc_raises rows c E Q G' HG).
Qed.
(* with one input, both answers are right *)
Theorem C82_rate_one : forall rows c G b, ConvolutionalCode rows = Some c -> Forall (fun r => N.odd (snd r) = true) rows -> length rows = 1 ->
  cc_generator rows = Some G -> is_catastrophic G = Some b -> (b = true <-> catastrophic c).
Proof.
  intros rows c G b E Q L EG. destruct (@Cat_Top.cc_has_generator rows c E Q) as (G' & EG' & HG). rewrite EG' in EG. injection EG as <-.
  exact (@Cat_Top.cc_rate_one rows c E Q G' b HG L).
Qed.
Theorem C82_low_rate : forall g, g <> [] -> exists G, lr_generator g = Some G /\
  (forall b, is_catastrophic G = Some b -> (b = true <-> catastrophic (LowRate g))) /\
  (is_catastrophic G = None <-> Forall (fun p => p = 0%N) g).
Proof. intros g N. exact (@Cat_Top.low_rate g (LowRate g) N eq_refl). Qed.
(* systematic encoders with one parity bit: never catastrophic, and the answer is False *)
Theorem C82_high_rate : forall hs q, hs <> [] -> N.odd q = true ->
  (exists G, hr_generator hs q = Some G /\ is_catastrophic G = Some false) /\
  (0 < cv_deg (HighRate hs q) -> ~ catastrophic (HighRate hs q)).
Proof. intros hs q N Q. split; [exact (@Cat_Top.high_rate hs q N Q)|intros P; apply Cat_High.hr_not_catastrophic; auto]. Qed.

(* a polynomial matrix: the number of invariant factors is right (fewer than k only if every k x k minor is zero), and their
   product is the gcd of the k x k minors *)
Theorem C82_factors : forall k n (M : list (list N)), 0 < k -> k <= n -> length M = k -> (forall r, In r M -> length r = n) ->
  exists fs g, invariant_factors M = Some fs /\ minors_gcd (map (map (fun p => (p, 1%N))) M) = Some g /\
    length fs <= k /\ (forall f, In f fs -> f <> 0%N) /\ (length fs = k -> fold_right pmul 1%N fs = g) /\ (length fs < k <-> g = 0%N).
Proof. intros k n M K KN L R. exact (@Cat_Top.factors_minors k n M K KN L R). Qed.
Theorem C82_factors_reject : forall (M : list (list N)), length (nth 0 M []) < length M -> invariant_factors M = None.
Proof. intros M H. unfold invariant_factors. apply Nat.ltb_lt in H. rewrite H. reflexivity. Qed.

(* feedforward encoders: the criterion of Massey and Sain, with the library's gcd of the minors *)
Theorem C82_massey_sain : forall rows c, ConvolutionalCode rows = Some c -> Forall (fun r => snd r = 1%N) rows -> length rows <= cv_n c ->
  exists G g, cc_generator rows = Some G /\ minors_gcd G = Some g /\ (catastrophic c <-> forall i, g <> N.shiftl 1 (N.of_nat i)).
Proof.
  intros rows c E F L. destruct (@Cat_Top.criterion rows c E F L) as (g & Eg & H). exists (Cat_Gcd.integral (map fst rows)), g.
  split; [exact (@Cat_Top.feedforward_generator rows c E F)|]. split; auto.
Qed.

(* the answer False is not: the encoders diag(1 + D, D) and [[0, 1 + D, 0], [0, 0, D]] are catastrophic *)
Theorem C82_refuted_false : forall rows, rows = [([3; 0], 1); ([0; 2], 1)]%N \/ rows = [([0; 3; 0], 1); ([0; 0; 2], 1)]%N ->
  exists c G, ConvolutionalCode rows = Some c /\ cc_generator rows = Some G /\ is_catastrophic G = Some false /\ catastrophic c.
Proof.
  assert (Z : forall i, 6%N <> N.shiftl 1 (N.of_nat i)).
  { intros i H. rewrite N.shiftl_1_l in H. destruct i as [|[|[|i]]]; try discriminate.
    assert (8 <= 2 ^ N.of_nat (S (S (S i))))%N by (change 8%N with (2 ^ 3)%N; apply N.pow_le_mono_r; lia). lia. }
  intros rows [-> | ->]; eexists; eexists; (split; [reflexivity|]; split; [vm_compute; reflexivity|]; split; [vm_compute; reflexivity|]).
  - edestruct C82_massey_sain with (rows := [([3; 0], 1); ([0; 2], 1)]%N) as (G & g & EG & Eg & H); [reflexivity|repeat constructor|cbn; lia|].
    assert (X : bind (cc_generator [([3; 0], 1); ([0; 2], 1)]%N) minors_gcd = Some 6%N) by (vm_compute; reflexivity). rewrite EG in X. cbn [bind] in X.
    rewrite Eg in X. injection X as ->. apply H. exact Z.
  - edestruct C82_massey_sain with (rows := [([0; 3; 0], 1); ([0; 0; 2], 1)]%N) as (G & g & EG & Eg & H); [reflexivity|repeat constructor|cbn; lia|].
    assert (X : bind (cc_generator [([0; 3; 0], 1); ([0; 0; 2], 1)]%N) minors_gcd = Some 6%N) by (vm_compute; reflexivity). rewrite EG in X. cbn [bind] in X.
    rewrite Eg in X. injection X as ->. apply H. exact Z.
Qed.
(* the factors need not divide each other, so they are not the invariant factors *)
Theorem C82_refuted_factors : invariant_factors [[3; 0]; [0; 2]]%N = Some [3; 2]%N /\ invariant_factors [[2; 2]; [2; 3]]%N = Some [2; 1]%N /\
  ~ ndvd 3 2 /\ ~ ndvd 2 1.
Proof.
  split; [vm_compute; reflexivity|]. split; [vm_compute; reflexivity|].
  assert (G : forall c a b, a <> 0%N -> b <> 0%N -> b = pmul c a -> bit_length c + bit_length a = S (bit_length b)).
  { intros c a b A B H. assert (c <> 0%N) by (intros ->; rewrite (@Algebra_Proof.pmul0 a) in H; congruence).
    rewrite H, (@Algebra_Proof.bit_length_pmul c a) by auto. assert (0 < bit_length a) by (destruct a as [|[]]; cbn; congruence || lia). lia. }
  split; intros (c & H); pose proof H as H'; apply G in H'; try discriminate; destruct c as [|[[]|[]|]]; cbn in H'; try lia; discriminate.
Qed.

(* a catastrophic rate 1/2 encoder, one that is not, one with feedback, one that loses its input, and two factor lists *)
Example C82_satisfiable :
  bind (lr_generator [3; 5]%N) is_catastrophic = Some true /\ bind (lr_generator [7; 5]%N) is_catastrophic = Some false /\
  bind (cc_generator [([5; 3], 7)]%N) is_catastrophic = Some true /\ bind (cc_generator [([5; 7], 3)]%N) is_catastrophic = Some false /\
  bind (cc_generator [([3; 5; 7], 1); ([3; 5; 7], 1)]%N) is_catastrophic = None /\
  bind (cc_generator [([3; 2; 3], 1); ([2; 1; 1], 1)]%N) is_catastrophic = Some false /\
  bind (cc_generator [([3; 2; 3], 1); ([2; 1; 1], 1)]%N) minors_gcd = Some 1%N /\
  bind (hr_generator [6; 5]%N 7%N) is_catastrophic = Some false /\
  (exists c, ConvolutionalCode [([5; 7], 3)]%N = Some c) /\ 0 < cv_deg (HighRate [6; 5]%N 7%N).
Proof. vm_compute. repeat split; try (eexists; reflexivity). auto. Qed.
