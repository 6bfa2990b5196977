(* C56, C69: scalar quantizers. *)
From Coq Require Import Reals Lra.
From Verif Require Import Common Quant_Model Quant_Spec Quant_Proof.
Local Open Scope R_scope.

(* C56: the constructor accepts exactly the strictly interleaved levels and thresholds *)
Theorem C56_accepts (y t : list R) : (exists q, ScalarQuantizer y t = Some q) <-> strictly_interleaved y t.
Proof. apply scalar_accepts. Qed.

(* what both constructors guarantee about their result *)
Lemma scalar_ok y t q : ScalarQuantizer y t = Some q -> strictly_interleaved (levels q) (thresholds q).
Proof. intros H. destruct (scalar_fields _ _ _ H) as [-> ->]. apply scalar_accepts. eauto. Qed.
Lemma uniform_ok L s o q : UniformQuantizer L s o = Some q -> strictly_interleaved (levels q) (thresholds q).
Proof. intros H. destruct (uniform_cases _ _ _ _ H) as (H1 & H2 & -> & ->). apply uniform_interleaved; auto. lia. Qed.

(* C56: digitize returns the index of the cell that contains the input, and that index is the only one *)
Theorem C56_digitize (y t : list R) (q : quantizer) (x : R) : ScalarQuantizer y t = Some q ->
  in_cell t (digitize q x) x /\ (digitize q x < length y)%nat /\ (forall k, in_cell t k x -> k = digitize q x) /\ quantize q x = nth (digitize q x) y 0.
Proof.
  intros H. pose proof (scalar_ok _ _ _ H) as S. destruct (scalar_fields _ _ _ H) as [E1 E2]. unfold digitize, quantize. rewrite E1, E2 in *.
  assert (C := filter_le_cell t x (interleaved_nondecreasing _ _ S)). split; [exact C|]. split; [destruct S as [-> _]; destruct C; lia|]. split; [|unfold digitize; now rewrite E2].
  intros k Hk. eapply cell_unique; eauto.
Qed.
(* C56: monotone *)
Theorem C56_monotone (y t : list R) (q : quantizer) (x x' : R) : ScalarQuantizer y t = Some q -> x <= x' ->
  (digitize q x <= digitize q x')%nat /\ quantize q x <= quantize q x'.
Proof.
  intros H L. pose proof (scalar_ok _ _ _ H) as S. destruct (C56_digitize _ _ _ x H) as (A1 & A2 & _ & ->). destruct (C56_digitize _ _ _ x' H) as (B1 & B2 & _ & ->).
  destruct (scalar_fields _ _ _ H) as [E1 E2]. assert (D : (digitize q x <= digitize q x')%nat) by (apply filter_le_mono; auto). split; [exact D|].
  rewrite E1, E2 in S. destruct (Nat.eq_dec (digitize q x) (digitize q x')) as [->|N]; [lra|]. left. eapply interleaved_mono_y; eauto. lia.
Qed.
(* C56: a level is a fixed point; hence quantize is idempotent *)
Theorem C56_fixed (y t : list R) (q : quantizer) (i : nat) : ScalarQuantizer y t = Some q -> (i < length y)%nat ->
  digitize q (nth i y 0) = i /\ quantize q (nth i y 0) = nth i y 0.
Proof.
  intros H Hi. pose proof (scalar_ok _ _ _ H) as S. destruct (C56_digitize _ _ _ (nth i y 0) H) as (_ & _ & U & ->). destruct (scalar_fields _ _ _ H) as [E1 E2]. rewrite E1, E2 in S.
  rewrite <- (U i (level_cell _ _ _ S Hi)). auto.
Qed.
Theorem C56_idempotent (y t : list R) (q : quantizer) (x : R) : ScalarQuantizer y t = Some q -> quantize q (quantize q x) = quantize q x.
Proof. intros H. destruct (C56_digitize _ _ _ x H) as (_ & L & _ & ->). apply (C56_fixed _ _ _ _ H L). Qed.

(* C56: the uniform quantizer: when it is accepted, and that it is a scalar quantizer with the same arrays *)
Theorem C56_uniform_accepts (L : nat) (step offset : R) :
  ((exists q, UniformQuantizer L step offset = Some q) <-> (1 < L)%nat /\ 0 < step) /\
  (forall q, UniformQuantizer L step offset = Some q -> ScalarQuantizer (levels q) (thresholds q) = Some q /\ length (levels q) = L).
Proof.
  split.
  - split; [intros [q H]; destruct (uniform_cases _ _ _ _ H); tauto|]. intros [H1 H2]. unfold UniformQuantizer. destruct (Nat.leb_spec L 1); [lia|]. destruct (Rltb_spec 0 step); [eauto|easy].
  - intros q H. pose proof (uniform_ok _ _ _ _ H) as S. destruct (proj2 (scalar_accepts _ _) S) as [q' Hq']. destruct (scalar_fields _ _ _ Hq') as [E1 E2]. split.
    + rewrite Hq'. f_equal. destruct q, q'; cbn in *; congruence.
    + destruct (uniform_cases _ _ _ _ H) as (_ & _ & -> & _). apply uniform_levels_length.
Qed.
(* C56: its levels are equally spaced, and every input is mapped to a nearest level *)
Theorem C56_uniform_nearest (L : nat) (step offset : R) (q : quantizer) (x : R) : UniformQuantizer L step offset = Some q ->
  In (quantize q x) (levels q) /\ (forall v, In v (levels q) -> Rabs (x - quantize q x) <= Rabs (x - v)).
Proof.
  intros H. destruct (C56_uniform_accepts L step offset) as [_ A]. destruct (A q H) as [S EL]. destruct (C56_digitize _ _ _ x S) as (C & D & _ & E). split; [rewrite E; now apply nth_In|].
  intros v Hv. apply (In_nth _ _ 0) in Hv as (j & Hj & <-). rewrite E. destruct (uniform_cases _ _ _ _ H) as (_ & Hs & E1 & E2). rewrite EL in *. rewrite E1, E2 in *. now apply uniform_nearest.
Qed.
Theorem C56_uniform_levels (L : nat) (step offset : R) (q : quantizer) (i : nat) : UniformQuantizer L step offset = Some q -> (S i < L)%nat ->
  nth (S i) (levels q) 0 - nth i (levels q) 0 = step /\ nth 0 (levels q) 0 + nth (L - 1) (levels q) 0 = 2 * offset * step.
Proof.
  intros H Hi. destruct (uniform_cases _ _ _ _ H) as (HL & Hs & -> & _). rewrite !uniform_levels_nth by lia. rewrite S_INR, minus_INR by lia. cbn [INR]. split; [ring|field].
Qed.
(* C56: in the granular region the error is at most half a step *)
Theorem C56_uniform_error (L : nat) (step offset : R) (q : quantizer) (x : R) : UniformQuantizer L step offset = Some q ->
  nth 0 (levels q) 0 - step / 2 <= x <= nth (L - 1) (levels q) 0 + step / 2 -> Rabs (x - quantize q x) <= step / 2.
Proof.
  intros H B. destruct (C56_uniform_accepts L step offset) as [_ A]. destruct (A q H) as [S EL]. destruct (C56_digitize _ _ _ x S) as (C & D & _ & E). rewrite E.
  destruct (uniform_cases _ _ _ _ H) as (_ & Hs & E1 & E2). rewrite EL in *. rewrite E1, E2 in *. now apply uniform_error.
Qed.
(* C56: mid_riser puts a threshold at zero, mid_tread puts a level there, for even and odd numbers of levels *)
Lemma zero_in (l : list R) (i : nat) : (i < length l)%nat -> nth i l 0 = 0 -> In 0 l.
Proof. intros H E. rewrite <- E at 1. now apply nth_In. Qed.
Lemma even_INR L : Nat.even L = true -> exists k, L = (2 * k)%nat /\ INR L = 2 * INR k.
Proof. intros H. apply Nat.even_spec in H as [k ->]. exists k. split; [reflexivity|]. now rewrite mult_INR. Qed.
Lemma odd_INR L : Nat.odd L = true -> exists k, L = (2 * k + 1)%nat /\ INR L = 2 * INR k + 1.
Proof. intros H. apply Nat.odd_spec in H as [k ->]. exists k. split; [reflexivity|]. rewrite plus_INR, mult_INR. cbn. ring. Qed.
Theorem C56_mid_riser (L : nat) (step : R) (q : quantizer) : mid_riser L step = Some q -> In 0 (thresholds q).
Proof.
  unfold mid_riser. intros H. destruct (uniform_cases _ _ _ _ H) as (HL & Hs & _ & ->). destruct (Nat.even L) eqn:E.
  - apply even_INR in E as (k & -> & E). assert (Z : nth (k - 1) (uniform_thresholds (2 * k) step 0) 0 = 0).
    { rewrite uniform_thresholds_nth by lia. rewrite E, minus_INR by lia. cbn [INR]. field. }
    refine (zero_in _ (k - 1) _ Z). rewrite uniform_thresholds_length. lia.
  - assert (O : Nat.odd L = true) by (unfold Nat.odd; now rewrite E). apply odd_INR in O as (k & -> & O).
    assert (Z : nth k (uniform_thresholds (2 * k + 1) step (- (1 / 2))) 0 = 0).
    { rewrite uniform_thresholds_nth by lia. rewrite O. field. }
    refine (zero_in _ k _ Z). rewrite uniform_thresholds_length. lia.
Qed.
Theorem C56_mid_tread (L : nat) (step : R) (q : quantizer) : mid_tread L step = Some q -> In 0 (levels q) /\ quantize q 0 = 0.
Proof.
  unfold mid_tread. intros H. assert (In 0 (levels q)) as I.
  { destruct (uniform_cases _ _ _ _ H) as (HL & Hs & -> & _). destruct (Nat.odd L) eqn:E.
    - apply odd_INR in E as (k & -> & O). assert (Z : nth k (uniform_levels (2 * k + 1) step 0) 0 = 0).
      { rewrite uniform_levels_nth by lia. rewrite O. field. }
      refine (zero_in _ k _ Z). rewrite uniform_levels_length. lia.
    - assert (O : Nat.even L = true) by (rewrite <- Nat.negb_odd, E; reflexivity). apply even_INR in O as (k & -> & O).
      assert (Z : nth k (uniform_levels (2 * k) step (- (1 / 2))) 0 = 0).
      { rewrite uniform_levels_nth by lia. rewrite O. field. }
      refine (zero_in _ k _ Z). rewrite uniform_levels_length. lia. }
  split; [exact I|]. apply (In_nth _ _ 0) in I as (i & Hi & E). destruct (C56_uniform_accepts L step (if Nat.odd L then 0 else - (1 / 2))) as [_ A]. destruct (A q H) as [S _].
  destruct (C56_fixed _ _ _ i S Hi) as [_ F]. now rewrite E in F.
Qed.

(* the hypotheses are met: the quantizer of the ScalarQuantizer docstring and of UniformQuantizer's *)
Example C56_scalar_case : exists q, ScalarQuantizer [-2; -1; 0; 1; 2] [-(3/2); -(3/10); 8/10; 14/10] = Some q.
Proof. apply C56_accepts. split; [reflexivity|]. intros i Hi. cbn in Hi. do 4 (destruct i as [|i]; [cbn; lra|]). lia. Qed.
Example C56_uniform_case : exists q, UniformQuantizer 8 (1/2) 0 = Some q /\ quantize q (6/10) = 3/4.
Proof.
  destruct (C56_uniform_accepts 8 (1/2) 0) as [[_ A] _]. destruct A as [q Hq]; [split; [lia|lra]|]. exists q. split; [exact Hq|].
  destruct (C56_uniform_accepts 8 (1/2) 0) as [_ B]. destruct (B q Hq) as [S _]. destruct (C56_digitize _ _ _ (6/10) S) as (_ & _ & U & ->).
  destruct (uniform_cases _ _ _ _ Hq) as (_ & _ & E1 & E2). rewrite <- (U 5%nat); [rewrite E1; cbn; lra|]. rewrite E2. split; [cbn; lia|]. split; intros i Hi.
  - do 5 (destruct i as [|i]; [cbn; lra|]). lia.
  - rewrite uniform_thresholds_length in Hi. do 5 (destruct i as [|i]; [lia|]). do 3 (destruct i as [|i]; [try lia; cbn; lra|]). lia.
Qed.

(* C69: the Lloyd-Max design always gives interleaved levels and thresholds inside the input range, for every
   non-negative density, every comparison used to stop, and whatever the uninitialised array holds. *)
Theorem C69_lloyd_max (close : list R -> list R -> bool) (pdf : R -> R) (xmin xmax : R) (num_levels : nat) (garbage : list R) :
  (forall u, 0 <= pdf u) -> (1 <= num_levels)%nat -> xmin <= xmax ->
  let q := LloydMaxQuantizer close pdf xmin xmax num_levels garbage in length (levels q) = num_levels /\ interleaved_within xmin xmax (levels q) (thresholds q).
Proof.
  intros P H1 H2. unfold LloydMaxQuantizer, lloyd_max_quantizer. cbv zeta. set (d := (xmax - xmin) / INR num_levels). set (y := linspace (xmin + d / 2) (xmax - d / 2) num_levels).
  assert (N : y <> []) by (intros E; apply (f_equal (@length R)) in E; unfold y in E; rewrite linspace_length in E; cbn in E; lia).
  assert (P4 : (2 <= 4096)%nat) by (apply Nat.leb_le; vm_compute; reflexivity). change 1000%nat with (S 999).
  pose proof (lloyd_loop_inv close pdf 4096 xmin xmax 999 y garbage P4 P N (initial_chain _ _ _ H1 H2)) as I. destruct (lloyd_loop _ _ _ _ _ _ _ _) as [y' lam']. cbn [levels thresholds].
  destruct I as [I1 I2]. split; [rewrite I2; apply linspace_length|]. now apply interchain_within.
Qed.
Lemma nondec_within a b y t : interleaved_within a b y t -> nondecreasing t.
Proof.
  intros (L & _ & _ & I). apply step_nondecreasing. intros i Hi. pose proof (I i ltac:(lia)). pose proof (I (S i) Hi). lra.
Qed.
(* C69: hence it digitizes every input to the cell that contains it *)
Theorem C69_digitize close pdf xmin xmax num_levels garbage x : (forall u, 0 <= pdf u) -> (1 <= num_levels)%nat -> xmin <= xmax ->
  let q := LloydMaxQuantizer close pdf xmin xmax num_levels garbage in
  in_cell (thresholds q) (digitize q x) x /\ xmin <= quantize q x <= xmax.
Proof.
  intros P H1 H2 q. destruct (C69_lloyd_max close pdf xmin xmax num_levels garbage P H1 H2) as [EL I]. fold q in EL, I. clearbody q. split; [apply filter_le_cell; eapply nondec_within; eauto|].
  assert (C := filter_le_cell (thresholds q) x (nondec_within _ _ _ _ I)). destruct C as (C & _). destruct I as (L & A & B & I). unfold quantize. fold (digitize q x) in C.
  assert (K : forall d i, (i + d = length (thresholds q))%nat -> nth i (levels q) 0 <= xmax).
  { induction d as [|d IH]; intros i Hi; [rewrite Nat.add_0_r in Hi; now rewrite Hi|]. pose proof (I i ltac:(lia)). pose proof (IH (S i) ltac:(lia)). lra. }
  assert (K' : forall i, (i <= length (thresholds q))%nat -> xmin <= nth i (levels q) 0).
  { induction i as [|i IH]; intros Hi; [exact A|]. pose proof (I i ltac:(lia)). pose proof (IH ltac:(lia)). lra. }
  split; [apply K'; exact C|]. apply (K (length (thresholds q) - digitize q x)%nat). lia.
Qed.
Example C69_case : (forall u : R, 0 <= (fun _ => 1 / 2) u) /\ (1 <= 4)%nat /\ -1 <= 1.
Proof. split; [intros; lra|]. split; [lia|lra]. Qed.
