(** C97: fourier_transform. *)
From Coq Require Import Reals Lra.
From Coquelicot Require Import Complex.
From Verif Require Import Common Corr_Model Corr_Spec Corr_Proof Array_Model Array_Spec Array_Proof Array_Lift SignalNd_Model SignalNd_Spec Convolve_Proof Fourier_Model Fourier_Spec Fourier_Proof Props_SignalNd.
Local Open Scope nat_scope.

Lemma get_map (a : array C) (g : C -> C) (idx : list nat) : well_formed a -> valid_index (shape a) idx ->
  get (RtoC 0) (Arr (shape a) (map g (data a))) idx = g (get (RtoC 0) a idx).
Proof.
  intros W V. unfold get. cbn [shape data]. pose proof (ravel_lt _ _ V) as R. unfold well_formed in W. rewrite <- W in R.
  rewrite (nth_indep _ _ (g (RtoC 0))) by (rewrite map_length; exact R). apply map_nth.
Qed.
(** For waveforms stored along any axis of an array of any shape: the frequency axis is (j - n//2) / (n dt),
    and the spectrum is the Riemann sum of the Fourier integral at those frequencies. *)
Theorem C97_transform (a : array C) (pre post : list nat) (len n : nat) (dt : R) (nfft : option Z) (axis : Z) :
  well_formed a -> shape a = pre ++ len :: post -> is_axis axis pre post -> dt <> 0%R -> points nfft len n ->
  exists S f, fourier_transform a dt nfft axis = Some (S, f) /\ well_formed S /\ shape S = pre ++ n :: post /\ length f = n /\
    (forall j, j < n -> nth j f 0%R = ((INR j - INR (n / 2)) / (INR n * dt))%R) /\
    forall p q j, valid_index pre p -> valid_index post q -> j < n ->
      get (RtoC 0) S (p ++ j :: q) = fourier_sum n dt (waveform a len p q) (nth j f 0%R).
Proof.
  intros W Hs Ha Hdt [Hn Hp]. unfold fourier_transform. rewrite (is_axis_norm a pre post len axis Hs Ha), (sh_nth pre post len a Hs).
  set (nz := match nfft with None | Some 0%Z => Z.of_nat len | Some k => k end).
  assert (En : nz = Z.of_nat n).
  { unfold nz. destruct Hp as [-> |[[-> | ->] ->]]; try reflexivity. destruct n; [lia|reflexivity]. }
  rewrite En. destruct (Z.ltb_spec (Z.of_nat n) 1); [lia|]. rewrite Nat2Z.id. cbv zeta.
  set (s1 := along (RtoC 0) (RtoC 0) (fft_line n) n (length pre) a).
  assert (S1 : shape s1 = pre ++ n :: post) by apply (along_shape _ _ pre post len a Hs).
  assert (W1 : well_formed s1) by apply (along_wf _ _ pre post len a Hs).
  set (s2 := along (RtoC 0) (RtoC 0) (fftshift complex_dtype) n (length pre) s1).
  assert (S2 : shape s2 = pre ++ n :: post) by apply (along_shape _ _ pre post n s1 S1).
  assert (W2 : well_formed s2) by apply (along_wf _ _ pre post n s1 S1).
  assert (FQ : forall j, j < n -> nth j (fftshift real_dtype (fftfreq n dt)) 0%R = ((INR j - INR (n / 2)) / (INR n * dt))%R) by (intros; apply freqs_nth; assumption).
  eexists _, _. split; [reflexivity|]. split.
  { unfold well_formed in *. cbn [shape data]. rewrite map_length. exact W2. }
  split; [exact S2|]. split; [rewrite (shift_length real_dtype); apply fftfreq_length; exact Hn|]. split; [exact FQ|].
  intros p q j Vp Vq Hj.
  assert (V : valid_index (pre ++ n :: post) (p ++ j :: q)) by (apply valid_app; [exact Vp|constructor; assumption]).
  rewrite (get_map s2 (fun z => Cmult z (RtoC dt))) by (try exact W2; rewrite S2; exact V).
  unfold s2. rewrite (along_get (RtoC 0) (RtoC 0) pre post n s1 S1) by assumption.
  assert (L1 : line (RtoC 0) s1 n p q = fft_line n (line (RtoC 0) a len p q)).
  { apply (along_line (RtoC 0) (RtoC 0) pre post len a Hs); try assumption. unfold fft_line. rewrite map_length, seq_length. reflexivity. }
  rewrite L1, fft_shift_nth by exact Hj. unfold fourier_sum. f_equal. apply Csum_ext. intros m Hm. rewrite FQ by exact Hj.
  assert (N0 : INR n <> 0%R) by (apply not_0_INR; lia). f_equal.
  - unfold waveform. destruct (Nat.ltb_spec m len) as [G|G]; [apply nth_line; exact G|]. apply nth_overflow. rewrite line_length. exact G.
  - f_equal. field. split; assumption.
Qed.
(** The frequency axis: increasing, spaced by 1 / (n dt), inside [-1/(2 dt), 1/(2 dt)), and 0 at index n//2. *)
Theorem C97_frequencies (a : array C) (pre post : list nat) (len n : nat) (dt : R) (nfft : option Z) (axis : Z) S f :
  well_formed a -> shape a = pre ++ len :: post -> is_axis axis pre post -> (0 < dt)%R -> points nfft len n ->
  fourier_transform a dt nfft axis = Some (S, f) ->
  length f = n /\ nth (n / 2) f 0%R = 0%R /\
  (forall j, j < n -> (- (1 / (2 * dt)) <= nth j f 0 < 1 / (2 * dt))%R) /\
  (forall j, j + 1 < n -> nth (j + 1) f 0%R = (nth j f 0 + 1 / (INR n * dt))%R).
Proof.
  intros W Hs Ha Hdt P E. destruct (C97_transform a pre post len n dt nfft axis W Hs Ha ltac:(lra) P) as (S' & f' & E' & _ & _ & Lf & Ff & _).
  rewrite E in E'. injection E' as <- <-. destruct P as [Hn _].
  assert (N0 : (0 < INR n)%R) by (apply lt_0_INR; exact Hn).
  assert (H1 : n / 2 < n) by (apply Nat.div_lt; lia).
  assert (H2 : 2 * (n / 2) <= n < 2 * (n / 2) + 2) by (pose proof (Nat.mul_div_le n 2 ltac:(lia)); pose proof (Nat.mul_succ_div_gt n 2 ltac:(lia)); lia).
  split; [exact Lf|]. split; [|split].
  - rewrite Ff by exact H1. field. split; lra.
  - intros j Hj. rewrite Ff by exact Hj.
    assert (B1 : (2 * INR (n / 2) <= INR n)%R) by (change 2%R with (INR 2); rewrite <- mult_INR; apply le_INR; lia).
    assert (B2 : (2 * (INR j - INR (n / 2)) < INR n)%R).
    { assert (2 * j < n + 2 * (n / 2)) as B by lia. apply lt_INR in B. rewrite mult_INR, plus_INR, mult_INR in B. cbn [INR] in B. lra. }
    pose proof (pos_INR j). assert (D : (0 < INR n * dt)%R) by (apply Rmult_lt_0_compat; lra). split.
    + apply (Rmult_le_reg_r (INR n * dt)); [exact D|]. replace ((INR j - INR (n / 2)) / (INR n * dt) * (INR n * dt))%R with (INR j - INR (n / 2))%R by (field; lra).
      replace (- (1 / (2 * dt)) * (INR n * dt))%R with (- (INR n / 2))%R by (field; lra). lra.
    + apply (Rmult_lt_reg_r (INR n * dt)); [exact D|]. replace ((INR j - INR (n / 2)) / (INR n * dt) * (INR n * dt))%R with (INR j - INR (n / 2))%R by (field; lra).
      replace (1 / (2 * dt) * (INR n * dt))%R with (INR n / 2)%R by (field; lra). lra.
  - intros j Hj. rewrite !Ff by lia. rewrite plus_INR. cbn [INR]. field. split; lra.
Qed.
(** The waveform is recovered from the returned spectrum and frequencies. *)
Theorem C97_inverse (a : array C) (pre post : list nat) (len n : nat) (dt : R) (nfft : option Z) (axis : Z) S f :
  well_formed a -> shape a = pre ++ len :: post -> is_axis axis pre post -> dt <> 0%R -> points nfft len n ->
  fourier_transform a dt nfft axis = Some (S, f) ->
  forall p q m, valid_index pre p -> valid_index post q -> m < n ->
  Cmult (RtoC (1 / (INR n * dt))) (Csum n (fun j => Cmult (get (RtoC 0) S (p ++ j :: q)) (cexp (2 * PI * nth j f 0%R * (INR m * dt))))) = waveform a len p q m.
Proof.
  intros W Hs Ha Hdt P E p q m Vp Vq Hm. destruct (C97_transform a pre post len n dt nfft axis W Hs Ha Hdt P) as (S' & f' & E' & _ & _ & Lf & Ff & Gf).
  rewrite E in E'. injection E' as <- <-. destruct P as [Hn _]. rewrite <- (inversion_formula n dt Hn Hdt (waveform a len p q) m Hm). f_equal.
  apply Csum_ext. intros j Hj. rewrite Gf by assumption. rewrite Ff by exact Hj. reflexivity.
Qed.
(** Parseval: the energy computed in time and in frequency is the same. *)
Theorem C97_parseval (a : array C) (pre post : list nat) (len n : nat) (dt : R) (nfft : option Z) (axis : Z) S f :
  well_formed a -> shape a = pre ++ len :: post -> is_axis axis pre post -> dt <> 0%R -> points nfft len n ->
  fourier_transform a dt nfft axis = Some (S, f) ->
  forall p q, valid_index pre p -> valid_index post q ->
  Cmult (RtoC (1 / (INR n * dt))) (Csum n (fun j => RtoC (Cmod (get (RtoC 0) S (p ++ j :: q)) ^ 2))) =
  Cmult (RtoC dt) (Csum n (fun m => RtoC (Cmod (waveform a len p q m) ^ 2))).
Proof.
  intros W Hs Ha Hdt P E p q Vp Vq. destruct (C97_transform a pre post len n dt nfft axis W Hs Ha Hdt P) as (S' & f' & E' & _ & _ & Lf & Ff & Gf).
  rewrite E in E'. injection E' as <- <-. destruct P as [Hn _]. assert (N0 : INR n <> 0%R) by (apply not_0_INR; lia).
  assert (SQ : forall z : C, RtoC (Cmod z ^ 2) = Cmult z (Cconj z)).
  { intros [x y]. unfold Cmod. rewrite pow2_sqrt by (cbn; nra). unfold RtoC, Cmult, Cconj. cbn [fst snd]. f_equal; ring. }
  rewrite (Csum_ext n _ (fun j => Cmult (fourier_sum n dt (waveform a len p q) ((INR j - INR (n / 2)) / (INR n * dt))) (Cconj (fourier_sum n dt (waveform a len p q) ((INR j - INR (n / 2)) / (INR n * dt)))))).
  2:{ intros j Hj. rewrite SQ, Gf by assumption. rewrite Ff by exact Hj. reflexivity. }
  rewrite (plancherel n dt Hn Hdt). rewrite (Csum_ext n (fun m => RtoC (Cmod (waveform a len p q m) ^ 2)) (fun m => Cmult (waveform a len p q m) (Cconj (waveform a len p q m)))) by (intros; apply SQ).
  rewrite Cmult_assoc, <- RtoC_mult. do 2 f_equal. field. split; assumption.
Qed.
(** A real waveform has a conjugate-symmetric spectrum. *)
Theorem C97_real_symmetry (a : array C) (pre post : list nat) (len n : nat) (dt : R) (nfft : option Z) (axis : Z) S f :
  well_formed a -> shape a = pre ++ len :: post -> is_axis axis pre post -> dt <> 0%R -> points nfft len n ->
  fourier_transform a dt nfft axis = Some (S, f) -> (forall z, In z (data a) -> snd z = 0%R) ->
  forall p q i j, valid_index pre p -> valid_index post q -> i < n -> j < n -> nth i f 0%R = (- nth j f 0)%R ->
  get (RtoC 0) S (p ++ i :: q) = Cconj (get (RtoC 0) S (p ++ j :: q)).
Proof.
  intros W Hs Ha Hdt P E HR p q i j Vp Vq Hi Hj Hf. destruct (C97_transform a pre post len n dt nfft axis W Hs Ha Hdt P) as (S' & f' & E' & _ & _ & Lf & Ff & Gf).
  rewrite E in E'. injection E' as <- <-. rewrite !Gf by assumption. rewrite Hf. unfold fourier_sum. rewrite Cconj_mult, Csum_conj.
  replace (Cconj (RtoC dt)) with (RtoC dt) by (unfold Cconj, RtoC; cbn; f_equal; ring). f_equal. apply Csum_ext. intros m Hm. rewrite Cconj_mult, cexp_conj. f_equal.
  - assert (R : snd (waveform a len p q m) = 0%R).
    { unfold waveform. destruct (Nat.ltb_spec m len); [|reflexivity]. unfold get. apply HR, nth_In. unfold well_formed in W. rewrite W. apply ravel_lt. rewrite Hs.
      apply valid_app; [exact Vp|constructor; assumption]. }
    destruct (waveform a len p q m) as [u v]. cbn in R. subst v. unfold Cconj. cbn. f_equal. ring.
  - f_equal. ring.
Qed.
(** The spectrum of a convolution is the product of the spectra, if nfft leaves room for it. *)
Theorem C97_convolution (x y : list C) (N : nat) (dt : R) : x <> [] -> y <> [] -> dt <> 0%R -> length x + length y - 1 <= N ->
  exists xy Sx Sy Sxy f, convolve complex_dtype (Arr [length x] x) (Arr [length y] y) (-1) Full = Some xy /\
    fourier_transform (Arr [length x] x) dt (Some (Z.of_nat N)) (-1) = Some (Sx, f) /\
    fourier_transform (Arr [length y] y) dt (Some (Z.of_nat N)) (-1) = Some (Sy, f) /\
    fourier_transform xy dt (Some (Z.of_nat N)) (-1) = Some (Sxy, f) /\
    forall j, j < N -> Cmult (RtoC dt) (get (RtoC 0) Sxy [j]) = Cmult (get (RtoC 0) Sx [j]) (get (RtoC 0) Sy [j]).
Proof.
  intros Hx Hy Hdt HN.
  assert (Lx : 0 < length x) by (destruct x; [congruence|cbn; lia]). assert (Ly : 0 < length y) by (destruct y; [congruence|cbn; lia]).
  pose proof (C96_signals complex_dtype x y (-1) Full complex_semiring (or_intror eq_refl) Hx Hy) as EC.
  set (xy := conv_samples complex_dtype x y Full : list C). set (cnt := conv_count (length (A := complex_dtype) x) (length (A := complex_dtype) y) Full) in *.
  assert (Lc : length xy = cnt) by exact (conv_samples_length complex_dtype x y Full).
  assert (WF : forall l : list C, well_formed (Arr [length l] l)) by (intros l; unfold well_formed, prod; cbn; lia).
  assert (P : forall len, points (Some (Z.of_nat N)) len N) by (intros len; split; [lia|left; reflexivity]).
  assert (TR : forall l : list C, exists S f, fourier_transform (Arr [length l] l) dt (Some (Z.of_nat N)) (-1) = Some (S, f) /\ length f = N /\
            (forall j, j < N -> nth j f 0%R = ((INR j - INR (N / 2)) / (INR N * dt))%R) /\ forall j, j < N -> get (RtoC 0) S [j] = fourier_sum N dt (fun m => nth m l (RtoC 0)) (nth j f 0%R)).
  { intros l. destruct (C97_transform (Arr [length l] l) [] [] (length l) N dt (Some (Z.of_nat N)) (-1) (WF l) eq_refl (or_intror eq_refl) Hdt (P _)) as (S & f & E & _ & _ & Lf & Ff & Gf).
    exists S, f. split; [exact E|]. split; [exact Lf|]. split; [exact Ff|]. intros j Hj. specialize (Gf [] [] j (Forall2_nil _) (Forall2_nil _) Hj). cbn [app] in Gf. rewrite Gf.
    unfold fourier_sum. f_equal. apply Csum_ext. intros m Hm. f_equal. unfold waveform. destruct (Nat.ltb_spec m (length l)) as [G|G].
    - unfold get. cbn [shape data ravel app]. f_equal. unfold prod. cbn. lia.
    - symmetry. apply nth_overflow. exact G. }
  destruct (TR x) as (Sx & fx & Ex & Lfx & Fx & Gx). destruct (TR y) as (Sy & fy & Ey & Lfy & Fy & Gy). destruct (TR xy) as (Sxy & fxy & Exy & Lfxy & Fxy & Gxy).
  assert (E1 : fy = fx) by (apply (list_ext 0%R); [congruence|]; intros j Hj; rewrite Fy, Fx by lia; reflexivity).
  assert (E2 : fxy = fx) by (apply (list_ext 0%R); [congruence|]; intros j Hj; rewrite Fxy, Fx by lia; reflexivity).
  subst fy fxy. exists (Arr [length xy] xy), Sx, Sy, Sxy, fx. split; [rewrite Lc; exact EC|]. split; [exact Ex|]. split; [exact Ey|]. split; [exact Exy|].
  intros j Hj. rewrite Gxy, Gx, Gy by exact Hj. rewrite <- (conv_fourier N dt _ x y HN). f_equal. unfold fourier_sum. f_equal. apply Csum_ext. intros m Hm. f_equal.
  exact (full_sample complex_dtype complex_semiring x y m).
Qed.
(** Rejected: an axis the array does not have, a negative nfft, no samples and no nfft. *)
Theorem C97_rejects (a : array C) (dt : R) (nfft : option Z) (axis : Z) :
  (~ (- Z.of_nat (length (shape a)) <= axis < Z.of_nat (length (shape a)))%Z -> fourier_transform a dt nfft axis = None) /\
  (forall k, nfft = Some k -> (k < 0)%Z -> fourier_transform a dt nfft axis = None) /\
  (forall pre post, shape a = pre ++ 0 :: post -> is_axis axis pre post -> nfft = None \/ nfft = Some 0%Z -> fourier_transform a dt nfft axis = None).
Proof.
  split; [|split].
  - intros H. unfold fourier_transform, norm_axis. destruct (Z.leb_spec (- Z.of_nat (length (shape a))) axis), (Z.ltb_spec axis (Z.of_nat (length (shape a)))); cbn [andb]; try reflexivity. lia.
  - intros k -> Hk. unfold fourier_transform. destruct (norm_axis _ _); [|reflexivity]. destruct k; try lia. destruct (Z.ltb_spec (Z.neg p) 1); [reflexivity|lia].
  - intros pre post Hs Ha H. unfold fourier_transform. rewrite (is_axis_norm a pre post 0 axis Hs Ha), (sh_nth pre post 0 a Hs). destruct H as [-> | ->]; reflexivity.
Qed.
(** The hypotheses are met: two waveforms of three samples, stored along the first axis, with eight points. *)
Example C97_example : let a := Arr [3; 2] (map RtoC [1; 2; 3; 4; 5; 6]%R) in
  well_formed a /\ shape a = [] ++ 3 :: [2] /\ is_axis 0 [] [2] /\ is_axis (-2) [] [2] /\ points (Some 8%Z) 3 8 /\ points None 3 3.
Proof.
  cbv zeta. split; [reflexivity|]. split; [reflexivity|]. split; [left; reflexivity|]. split; [right; reflexivity|].
  split; (split; [lia|]); [left; reflexivity|right; split; [left; reflexivity|reflexivity]].
Qed.
