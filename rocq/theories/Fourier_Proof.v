(** Proofs about the discrete Fourier transform. *)
From Coq Require Import Reals Lra.
From Coquelicot Require Import Complex.
From Verif Require Import Common Corr_Model Corr_Spec Corr_Proof Array_Model Array_Spec Array_Proof Array_Lift SignalNd_Model SignalNd_Spec Convolve_Proof Fourier_Model Fourier_Spec.
Local Open Scope nat_scope.

Lemma half_split (n : nat) : 0 < n -> (n - 1) / 2 + 1 + n / 2 = n /\ (n - 1) / 2 + 1 = n - n / 2.
Proof.
  intros H. assert (D : n / 2 + (n - 1) / 2 = n - 1).
  { destruct (Nat.Even_or_Odd n) as [[k E]|[k E]]; rewrite E.
    - replace (2 * k - 1) with (1 + (k - 1) * 2) by lia. rewrite Nat.div_add by lia. rewrite (Nat.mul_comm 2 k), Nat.div_mul by lia. cbn. lia.
    - replace (2 * k + 1) with (1 + k * 2) by lia. rewrite Nat.div_add by lia. replace (1 + k * 2 - 1) with (k * 2) by lia. rewrite Nat.div_mul by lia. cbn. lia. }
  lia.
Qed.
(** the source of element j of a shifted list *)
Definition src (n j : nat) : nat := if j <? n / 2 then j + (n - n / 2) else j - n / 2.
Lemma src_lt (n j : nat) : j < n -> src n j < n.
Proof. intros H. unfold src. pose proof (Nat.div_le_upper_bound n 2 n ltac:(lia) ltac:(lia)). destruct (Nat.ltb_spec j (n / 2)); lia. Qed.
Lemma shift_nth (T : dtype) (x : list T) (j : nat) : j < length x -> nth j (fftshift T x) (d_zero T) = nth (src (length x) j) x (d_zero T).
Proof.
  intros H. unfold fftshift, roll. rewrite nth_map_seq by exact H. f_equal. set (n := length x) in *.
  pose proof (Nat.div_le_upper_bound n 2 n ltac:(lia) ltac:(lia)). unfold src. destruct (Nat.ltb_spec j (n / 2)) as [G|G].
  - replace (Z.of_nat j - Z.of_nat (n / 2))%Z with (Z.of_nat (j + (n - n / 2)) + (-1) * Z.of_nat n)%Z by lia.
    rewrite Z.mod_add by lia. rewrite Z.mod_small by lia. lia.
  - rewrite Z.mod_small by lia. lia.
Qed.
Lemma shift_length (T : dtype) (x : list T) : length (fftshift T x) = length x.
Proof. unfold fftshift, roll. rewrite map_length, seq_length. reflexivity. Qed.
Lemma fftfreq_length (n : nat) (d : R) : 0 < n -> length (fftfreq n d) = n.
Proof. intros H. unfold fftfreq. rewrite map_length, app_length, !map_length, !seq_length. apply half_split. exact H. Qed.
Lemma fftfreq_nth (n k : nat) (d : R) : k < n ->
  nth k (fftfreq n d) 0%R = ((if k <? n - n / 2 then INR k else INR k - INR n) * (1 / (INR n * d)))%R.
Proof.
  intros H. destruct (half_split n ltac:(lia)) as [E1 E2]. unfold fftfreq. rewrite E2 in *.
  set (g := fun k : R => (k * (1 / (INR n * d)))%R). rewrite (nth_indep _ _ (g 0%R)) by (rewrite map_length, app_length, !map_length, !seq_length; lia).
  rewrite map_nth. unfold g at 1. f_equal. destruct (Nat.ltb_spec k (n - n / 2)) as [G|G].
  - rewrite app_nth1 by (rewrite map_length, seq_length; exact G). rewrite nth_map_seq by exact G. reflexivity.
  - rewrite app_nth2 by (rewrite map_length, seq_length; exact G). rewrite map_length, seq_length.
    rewrite nth_map_seq by lia. rewrite !minus_INR by lia. lra.
Qed.
Lemma freqs_nth (n j : nat) (d : R) : j < n ->
  nth j (fftshift real_dtype (fftfreq n d)) 0%R = ((INR j - INR (n / 2)) / (INR n * d))%R.
Proof.
  intros H. change 0%R with (d_zero real_dtype). pose proof (Nat.div_le_upper_bound n 2 n ltac:(lia) ltac:(lia)).
  rewrite (shift_nth real_dtype) by (rewrite fftfreq_length; lia). rewrite fftfreq_length by lia. change (d_zero real_dtype) with 0%R.
  rewrite fftfreq_nth by (apply src_lt; exact H). unfold src.
  destruct (Nat.ltb_spec j (n / 2)).
  - destruct (Nat.ltb_spec (j + (n - n / 2)) (n - n / 2)); [lia|]. rewrite plus_INR, minus_INR by lia. unfold Rdiv. rewrite Rmult_1_l. f_equal. lra.
  - destruct (Nat.ltb_spec (j - n / 2) (n - n / 2)); [|lia]. rewrite minus_INR by lia. unfold Rdiv. rewrite Rmult_1_l. reflexivity.
Qed.
(** a whole number of turns does not matter *)
Lemma cexp_turns (x : R) (k : Z) : cexp (x + 2 * PI * IZR k) = cexp x.
Proof. rewrite cexp_add, cexp_2kPI, Cmult_1_r. reflexivity. Qed.
Lemma fft_shift_nth (n j : nat) (x : list C) : j < n ->
  nth j (fftshift complex_dtype (fft_line n x)) (RtoC 0) =
  Csum n (fun m => Cmult (nth m x (RtoC 0)) (cexp (- (2 * PI * (INR j - INR (n / 2)) * INR m / INR n)))).
Proof.
  intros H. assert (Ln : length (fft_line n x) = n) by (unfold fft_line; rewrite map_length, seq_length; reflexivity).
  pose proof (shift_nth complex_dtype (fft_line n x) j) as SN. cbn [carrier complex_dtype d_zero] in SN. rewrite Ln in SN. etransitivity; [exact (SN H)|]. clear SN.
  unfold fft_line at 1. rewrite nth_map_seq by (apply src_lt; exact H). rewrite <- Csum_fold. apply Csum_ext. intros m Hm. f_equal.
  assert (N0 : INR n <> 0%R) by (apply not_0_INR; lia). pose proof (Nat.div_le_upper_bound n 2 n ltac:(lia) ltac:(lia)).
  unfold src. destruct (Nat.ltb_spec j (n / 2)).
  - rewrite <- (cexp_turns (- (2 * PI * INR (j + (n - n / 2)) * INR m / INR n)) (Z.of_nat m)). f_equal.
    rewrite <- INR_IZR_INZ, plus_INR, minus_INR by lia. field. exact N0.
  - rewrite minus_INR by lia. reflexivity.
Qed.
(** the exponentials of the n frequencies are orthogonal *)
Lemma orthogonal (n : nat) (h : R) (a : Z) : 0 < n -> (- Z.of_nat n < a < Z.of_nat n)%Z ->
  Csum n (fun j => cexp (2 * PI * (INR j - h) * IZR a / INR n)) = if (a =? 0)%Z then RtoC (INR n) else RtoC 0.
Proof.
  intros Hn Ha. assert (N0 : INR n <> 0%R) by (apply not_0_INR; lia).
  rewrite (Csum_ext n _ (fun j => Cmult (cexp (- (2 * PI * h * IZR a / INR n))) (cexp (2 * PI * IZR a * INR j / IZR (Z.of_nat n))))).
  2:{ intros j Hj. rewrite <- cexp_add. f_equal. rewrite <- INR_IZR_INZ. field. exact N0. }
  rewrite Csum_scal. destruct (Z.eqb_spec a 0) as [->|NZ].
  - rewrite (Csum_ext n _ (fun _ => RtoC 1)).
    + rewrite Csum_const. replace (- (2 * PI * h * 0 / INR n))%R with 0%R by (field; exact N0). rewrite cexp_0, Cmult_1_l, Cmult_1_r. reflexivity.
    + intros j _. rewrite <- cexp_0. f_equal. rewrite <- INR_IZR_INZ. field. exact N0.
  - assert (RS : (a mod Z.of_nat n <> 0)%Z -> Csum n (fun j => cexp (2 * PI * IZR a * INR j / IZR (Z.of_nat n))) = RtoC 0).
    { intros E. rewrite <- (roots_sum (Z.of_nat n) a ltac:(lia) E). rewrite Nat2Z.id. reflexivity. }
    rewrite RS; [apply Cmult_0_r|].
    intros E. apply Z.mod_divide in E; [|lia]. destruct E as (k & E). assert (k = 0 \/ 1 <= k \/ k <= -1)%Z as [->|[|]] by lia; nia.
Qed.

Section Transform.
Variables (n : nat) (dt : R).
Hypothesis Hn : 0 < n.
Hypothesis Hdt : dt <> 0%R.
Let F (j : nat) : R := ((INR j - INR (n / 2)) / (INR n * dt))%R.
Lemma N0 : INR n <> 0%R.
Proof. apply not_0_INR. lia. Qed.
Lemma Csum_single (N : nat) (f : nat -> C) (m : nat) : m < N -> (forall l, l < N -> l <> m -> f l = RtoC 0) -> Csum N f = f m.
Proof.
  intros Hm Hf. replace N with (m + (1 + (N - m - 1))) by lia. rewrite !Csum_app.
  rewrite (Csum_0 m) by (intros; apply Hf; lia). rewrite (Csum_0 (N - m - 1)) by (intros; apply Hf; lia).
  cbn [Csum]. rewrite Nat.add_0_r. ring.
Qed.
(** the inner product of two spectra *)
Lemma plancherel (x y : nat -> C) :
  Csum n (fun j => Cmult (fourier_sum n dt x (F j)) (Cconj (fourier_sum n dt y (F j)))) =
  Cmult (RtoC (INR n * dt * dt)) (Csum n (fun m => Cmult (x m) (Cconj (y m)))).
Proof.
  pose proof N0 as N0.
  rewrite (Csum_ext n _ (fun j => Csum n (fun l => Csum n (fun k => Cmult (RtoC (dt * dt)) (Cmult (Cmult (x l) (Cconj (y k))) (cexp (2 * PI * (INR j - INR (n / 2)) * IZR (Z.of_nat k - Z.of_nat l) / INR n))))))).
  2:{ intros j Hj. unfold fourier_sum. rewrite Cconj_mult, Csum_conj.
      replace (Cconj (RtoC dt)) with (RtoC dt) by (unfold Cconj, RtoC; cbn; f_equal; ring).
      transitivity (Cmult (RtoC (dt * dt)) (Cmult (Csum n (fun m => Cmult (x m) (cexp (- (2 * PI * F j * (INR m * dt)))))) (Csum n (fun i => Cconj (Cmult (y i) (cexp (- (2 * PI * F j * (INR i * dt))))))))).
      { rewrite RtoC_mult. ring. }
      rewrite (Cmult_comm (Csum n _) (Csum n (fun i => Cconj _))). rewrite <- Csum_scal, <- Csum_scal. apply Csum_ext. intros l Hl.
      rewrite (Cmult_comm (Csum n (fun i => Cconj _))), <- Csum_scal, <- Csum_scal. apply Csum_ext. intros k Hk. f_equal.
      rewrite Cconj_mult, cexp_conj.
      replace (cexp (2 * PI * (INR j - INR (n / 2)) * IZR (Z.of_nat k - Z.of_nat l) / INR n)) with (Cmult (cexp (- (2 * PI * F j * (INR l * dt)))) (cexp (- - (2 * PI * F j * (INR k * dt))))).
      { ring. }
      rewrite <- cexp_add. f_equal. unfold F. rewrite minus_IZR, <- !INR_IZR_INZ. field. split; assumption. }
  rewrite Csum_swap. rewrite <- Csum_scal. apply Csum_ext. intros l Hl. rewrite Csum_swap.
  rewrite (Csum_single n _ l Hl).
  - rewrite Csum_scal. rewrite Csum_scal. rewrite orthogonal by lia. destruct (Z.eqb_spec (Z.of_nat l - Z.of_nat l) 0); [|lia]. rewrite !RtoC_mult. ring.
  - intros k Hk NE. rewrite Csum_scal, Csum_scal, orthogonal by lia. destruct (Z.eqb_spec (Z.of_nat k - Z.of_nat l) 0); [lia|]. ring.
Qed.
Lemma inversion_formula (x : nat -> C) (m : nat) : m < n ->
  Cmult (RtoC (1 / (INR n * dt))) (Csum n (fun j => Cmult (fourier_sum n dt x (F j)) (cexp (2 * PI * F j * (INR m * dt))))) = x m.
Proof.
  intros Hm. pose proof N0 as N0.
  rewrite (Csum_ext n _ (fun j => Csum n (fun l => Cmult (Cmult (RtoC dt) (x l)) (cexp (2 * PI * (INR j - INR (n / 2)) * IZR (Z.of_nat m - Z.of_nat l) / INR n))))).
  2:{ intros j Hj. unfold fourier_sum.
      transitivity (Cmult (Cmult (RtoC dt) (cexp (2 * PI * F j * (INR m * dt)))) (Csum n (fun m0 => Cmult (x m0) (cexp (- (2 * PI * F j * (INR m0 * dt))))))); [ring|].
      rewrite <- Csum_scal. apply Csum_ext. intros l Hl.
      replace (cexp (2 * PI * (INR j - INR (n / 2)) * IZR (Z.of_nat m - Z.of_nat l) / INR n)) with (Cmult (cexp (- (2 * PI * F j * (INR l * dt)))) (cexp (2 * PI * F j * (INR m * dt)))); [ring|].
      rewrite <- cexp_add. f_equal. unfold F. rewrite minus_IZR, <- !INR_IZR_INZ. field. split; assumption. }
  rewrite Csum_swap. rewrite (Csum_single n _ m Hm).
  - rewrite Csum_scal, orthogonal by lia. destruct (Z.eqb_spec (Z.of_nat m - Z.of_nat m) 0); [|lia].
    transitivity (Cmult (RtoC (1 / (INR n * dt) * dt * INR n)) (x m)); [rewrite !RtoC_mult; ring|].
    replace (1 / (INR n * dt) * dt * INR n)%R with 1%R by (field; split; assumption). apply Cmult_1_l.
  - intros k Hk NE. rewrite Csum_scal, orthogonal by lia. destruct (Z.eqb_spec (Z.of_nat m - Z.of_nat k) 0); [lia|]. apply Cmult_0_r.
Qed.
End Transform.

Lemma Csum_total (n : nat) (f : nat -> C) : Csum n f = total complex_dtype n f.
Proof. rewrite Csum_fold. reflexivity. Qed.
Ltac cring := change (carrier complex_dtype) with C; change (d_mul complex_dtype) with Cmult; change (d_zero complex_dtype) with (RtoC 0); match goal with |- @eq _ ?a ?b => change (@eq C a b); ring end.
(** a full convolution is a product of spectra *)
Lemma conv_fourier (n : nat) (dt f : R) (x y : list C) : length x + length y - 1 <= n ->
  Cmult (RtoC dt) (fourier_sum n dt (fun m => conv_at complex_dtype x y m) f) =
  Cmult (fourier_sum n dt (fun m => nth m x (RtoC 0)) f) (fourier_sum n dt (fun m => nth m y (RtoC 0)) f).
Proof.
  intros H. unfold fourier_sum. set (e := fun m : nat => cexp (- (2 * PI * f * (INR m * dt)))).
  assert (K : Csum n (fun m => Cmult (conv_at complex_dtype x y m) (e m)) = Cmult (Csum n (fun m => Cmult (nth m x (RtoC 0)) (e m))) (Csum n (fun m => Cmult (nth m y (RtoC 0)) (e m)))).
  2:{ fold e. change (fun m : nat => Cmult (conv_at complex_dtype x y m) (cexp (- (2 * PI * f * (INR m * dt))))) with (fun m => Cmult (conv_at complex_dtype x y m) (e m)). rewrite K. unfold e. ring. }
  rewrite !Csum_total.
  rewrite (total_ext complex_dtype n _ (fun m => total complex_dtype (S m) (fun i => Cmult (Cmult (Cmult (nth i x (RtoC 0)) (nth (m - i) y (RtoC 0))) (e i)) (e (m - i))))).
  2:{ intros m Hm. unfold conv_at. change Cmult with (d_mul complex_dtype) at 1. rewrite (total_mul_r complex_dtype complex_semiring).
      apply total_ext. intros i Hi. unfold sample. cbn [d_mul complex_dtype d_zero].
      replace (e m) with (Cmult (e i) (e (m - i))); [cring|]. unfold e. rewrite <- cexp_add. f_equal. rewrite minus_INR by lia. ring. }
  rewrite (total_triangle complex_dtype complex_semiring n (fun i m => Cmult (Cmult (Cmult (nth i x (RtoC 0)) (nth (m - i) y (RtoC 0))) (e i)) (e (m - i)))).
  change Cmult with (d_mul complex_dtype) at 4. rewrite (total_mul_r complex_dtype complex_semiring). apply (total_ext complex_dtype). intros i Hi.
  rewrite (total_mul_l complex_dtype complex_semiring). replace n with ((n - i) + i) at 2 by lia. rewrite (total_split complex_dtype complex_semiring).
  rewrite (total_zero complex_dtype complex_semiring i).
  - rewrite (add_0_r complex_dtype complex_semiring). apply (total_ext complex_dtype). intros t Ht. cbn [d_mul complex_dtype]. replace (i + t - i) with t by lia. cring.
  - intros t Ht. cbn [d_mul d_zero complex_dtype]. destruct (Nat.lt_ge_cases i (length x)).
    + rewrite (nth_overflow y) by lia. cring.
    + rewrite (nth_overflow x) by lia. cring.
Qed.
