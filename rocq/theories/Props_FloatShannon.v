(** C113: ShannonCode as it runs, in double precision. *)
From Coq Require Import Reals Lra QArith Qreals.
From Flocq Require Import Core.
From Verif Require Import Common Spec_Lossless Prefix_Model Prefix_Proof PmfCodes_Model PmfCodes_Proof Float_Model FloatShannon_Model FloatShannon_Spec FloatShannon_Proof.
From Verif Require Props_PmfCodes.
Local Open Scope R_scope.

(* the correctly rounded logarithm satisfies the hypothesis on log2 *)
Theorem C113_log2_hypothesis_met : log2_like (fun x => binary64 (ln x / ln 2)).
Proof. exact correctly_rounded_log2_like. Qed.

(* the length of a codeword is never above the promised one, and at most one below *)
Theorem C113_length_error : forall clog2 p l, log2_like clog2 -> representable_range p -> ideal_length l p ->
  float_shannon_length clog2 p = l \/ (2 <= l)%nat /\ float_shannon_length clog2 p = (l - 1)%nat.
Proof. intros clog2 p l LK R I. exact (float_length_bounds clog2 l p LK R I). Qed.
(* and it is the promised one unless p lies within a relative distance 2^-40 below a power of two *)
Theorem C113_length_exact : forall clog2 p l, log2_like clog2 -> representable_range p -> clear_of_powers p -> ideal_length l p ->
  float_shannon_length clog2 p = l.
Proof. intros clog2 p l LK R C I. exact (float_length_exact clog2 l p LK R C I). Qed.

(* construction: whenever the block probabilities (as computed) add up to at most 1 and stay clear of powers of two, the
   constructor accepts, and its code is prefix-free with exactly the promised lengths *)
Theorem C113_accepts : forall clog2 pmf k, log2_like clog2 -> (2 <= length pmf)%nat -> (1 <= k)%nat -> Forall (fun p => 0 < p) pmf ->
  Forall (fun p => representable_range p /\ clear_of_powers p) (float_products pmf k) -> rsum (float_products pmf k) <= 1 ->
  exists c, float_shannon_make clog2 pmf k = Some c /\
    f2v_src c = N.of_nat (length pmf) /\ f2v_tgt c = 2%N /\ f2v_k c = k /\ map fst (f2v_map c) = tuples (N.of_nat (length pmf)) k /\
    prefix_free_words (f2v_codewords c) /\ f2v_is_prefix_free c = true /\
    Forall (fun w => w <> []) (f2v_codewords c) /\ Forall (Forall (fun x => (x < 2)%N)) (f2v_codewords c) /\
    Forall2 ideal_length (map (@length N) (f2v_codewords c)) (float_products pmf k).
Proof.
  intros clog2 pmf k LK H2 Hk HP HC HS. pose proof (Forall2_ideal clog2 _ LK HC) as F2.
  destruct (proj1 (float_make_spec clog2 pmf k H2 Hk HP)) as (c & ws & E & [G1 G2 G3 G4 G5 G6 G7 G8 G9] & K).
  - eapply Rle_trans; [apply (ideal_kraft _ _ F2)|exact HS].
  - exists c. repeat (split; [assumption|]). rewrite K. exact F2.
Qed.
(* in every case the constructor either refuses or returns a prefix-free code whose codeword lengths are the computed ones;
   it refuses exactly when those violate the Kraft inequality *)
Theorem C113_sound : forall clog2 pmf k, (2 <= length pmf)%nat -> (1 <= k)%nat -> Forall (fun p => 0 < p) pmf ->
  (forall c, float_shannon_make clog2 pmf k = Some c ->
     f2v_src c = N.of_nat (length pmf) /\ f2v_k c = k /\ map fst (f2v_map c) = tuples (N.of_nat (length pmf)) k /\
     prefix_free_words (f2v_codewords c) /\ f2v_is_prefix_free c = true /\
     map (@length N) (f2v_codewords c) = map (float_shannon_length clog2) (float_products pmf k)) /\
  (float_shannon_make clog2 pmf k = None <-> 1 < rsum (map (fun p => / 2 ^ float_shannon_length clog2 p) (float_products pmf k))).
Proof.
  intros clog2 pmf k H2 Hk HP. pose proof (float_make_spec clog2 pmf k H2 Hk HP) as [A B]. rewrite map_map in A, B. split.
  - intros c E. destruct (Rle_lt_dec (rsum (map (fun p => / 2 ^ float_shannon_length clog2 p) (float_products pmf k))) 1) as [L|L].
    + destruct (A L) as (c' & ws & E' & [G1 G2 G3 G4 G5 G6 G7 G8 G9] & K). rewrite E in E'. injection E' as <-. repeat (split; [assumption|]). exact K.
    + rewrite (B L) in E. discriminate.
  - split; [|exact B]. intros E. destruct (Rle_lt_dec (rsum (map (fun p => / 2 ^ float_shannon_length clog2 p) (float_products pmf k))) 1) as [L|L]; [|exact L].
    destruct (A L) as (c' & ws & E' & _). rewrite E in E'. discriminate.
Qed.
(* dyadic sources, such as (1/2, 1/4, 1/4), meet all the hypotheses of C113_accepts *)
Theorem C113_accepts_met : let pmf := [/ 2 ^ 1; / 2 ^ 2; / 2 ^ 2] in
  (2 <= length pmf)%nat /\ Forall (fun p => 0 < p) pmf /\
  Forall (fun p => representable_range p /\ clear_of_powers p) (float_products pmf 1) /\ rsum (float_products pmf 1) <= 1.
Proof.
  cbn [float_products]. assert (R : forall a, (1 <= a <= 2)%nat -> representable_range (/ 2 ^ a)).
  { intros a Ha. split; [apply Rinv_le_contravar; [apply pow_lt; lra|apply Rle_pow; [lra|lia]]|].
    assert (/ 2 ^ a <= / 2 ^ 0) by (apply Rinv_le_contravar; [apply pow_lt; lra|apply Rle_pow; [lra|lia]]). cbn in H. lra. }
  split; [cbn; lia|]. split; [repeat (apply Forall_cons; [apply range_pos, R; lia|]); apply Forall_nil|].
  split; [repeat (apply Forall_cons; [split; [apply R; lia|apply dyadic_clear; lia]|]); apply Forall_nil|]. unfold rsum. cbn [fold_right]. lra.
Qed.

(* without "clear of powers of two" acceptance fails: a pmf of doubles that adds up to exactly 1 is rejected in double
   precision (by the best possible logarithm), although exact arithmetic builds a code for it *)
Definition sixteenth_less : Q := 9007199254740991 # 144115188075855872. (* (2^53 - 1) / 2^57 *)
Definition pmfQ : list Q := repeat sixteenth_less 16 ++ [1 # 9007199254740992]%Q.
Theorem C113_exact_sum_rejected :
  Forall (fun p => binary64 (Q2R p) = Q2R p) pmfQ /\ (fold_right Qplus 0 pmfQ == 1)%Q /\ Forall (fun p => (0 < p)%Q) pmfQ /\
  (exists c, shannon_make pmfQ 1 = Some c) /\
  float_shannon_make (fun x => binary64 (ln x / ln 2)) (map Q2R pmfQ) 1 = None.
Proof.
  assert (S1 : (fold_right Qplus 0 pmfQ == 1)%Q) by (vm_compute; reflexivity).
  assert (P1 : Forall (fun p => (0 < p)%Q) pmfQ) by (repeat constructor).
  split; [|split; [exact S1|split; [exact P1|split]]].
  - unfold pmfQ. apply Forall_app. split.
    + apply Forall_forall. intros y Hy. apply repeat_spec in Hy. subst y. apply round_generic; [apply valid_rnd_N|]. apply generic_format_FLT.
      exists (Float radix2 9007199254740991 (-57)); cbn [Fnum Fexp]; [|change (radix2 ^ 53)%Z with 9007199254740992%Z; lia|lia].
      unfold F2R, Q2R. cbn [Fnum Fexp Qnum Qden sixteenth_less]. reflexivity.
    + constructor; [|constructor]. apply round_generic; [apply valid_rnd_N|]. apply generic_format_FLT.
      exists (Float radix2 1 (-53)); cbn [Fnum Fexp]; [|change (radix2 ^ 53)%Z with 9007199254740992%Z; lia|lia].
      unfold F2R, Q2R. cbn [Fnum Fexp Qnum Qden]. reflexivity.
  - destruct (Props_PmfCodes.C12_shannon pmfQ 1) as (c & E & _); [cbn; lia|lia|exact P1|rewrite S1; apply Qle_refl|]. exists c. exact E.
  - replace (map Q2R pmfQ) with bad_pmf; [exact bad_pmf_rejected|]. unfold bad_pmf, pmfQ. rewrite map_app.
    assert (E1 : q16 = Q2R sixteenth_less) by (unfold q16, Q2R, sixteenth_less; cbn [Qnum Qden]; lra).
    assert (E2 : / 2 ^ 53 = Q2R (1 # 9007199254740992)) by (unfold Q2R; cbn [Qnum Qden]; lra). rewrite E1, E2. reflexivity.
Qed.
Print Assumptions C113_accepts. Print Assumptions C113_exact_sum_rejected.
