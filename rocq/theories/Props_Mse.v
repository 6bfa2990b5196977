Set Warnings "-ambiguous-paths".
(** C93: mean squared quantization error. *)
From Coq Require Import List ZArith Reals Lra Lia Psatz.
From Coquelicot Require Import Coquelicot.
From Verif Require Import Quant_Model Quant_Spec Quant_Proof Mse_Model Mse_Spec Mse_Proof Mse_Proof2 Pulse_Spec Pulse_Int Props_Quantizer.
Import ListNotations.
Local Open Scope R_scope.

(** The accepted quantizers are ordered. *)
Lemma steps_ordered (t : list R) : (forall i, (S i < length t)%nat -> nth i t 0 <= nth (S i) t 0) ->
  forall i j, (i < j < length t)%nat -> nth i t 0 <= nth j t 0.
Proof.
  intros H i j. induction j as [|j IH]; intros Hj; [lia|].
  destruct (Nat.eq_dec i j) as [->|N]; [apply H; lia|].
  apply Rle_trans with (nth j t 0); [apply IH; lia|apply H; lia].
Qed.
Theorem C93_scalar_ordered (y t : list R) (q : quantizer) : ScalarQuantizer y t = Some q -> ordered q.
Proof.
  intros H. assert (A : strictly_interleaved y t) by (apply C56_accepts; exists q; exact H).
  destruct (scalar_fields _ _ _ H) as [E1 E2]. unfold ordered. rewrite E1, E2. destruct A as [L A].
  split; [exact L|]. apply steps_ordered. intros i Hi.
  pose proof (A i ltac:(lia)). pose proof (A (S i) Hi). lra.
Qed.
Theorem C93_uniform_ordered (L : nat) (step offset : R) (q : quantizer) : UniformQuantizer L step offset = Some q -> ordered q.
Proof.
  intros H. destruct (C56_uniform_accepts L step offset) as [_ A]. destruct (A q H) as [S _].
  exact (C93_scalar_ordered _ _ _ S).
Qed.
Theorem C93_lloyd_max_ordered (close : list R -> list R -> bool) (pdf : R -> R) (xmin xmax : R) (num_levels : nat) (garbage : list R) :
  (forall u, 0 <= pdf u) -> (1 <= num_levels)%nat -> xmin <= xmax ->
  ordered (LloydMaxQuantizer close pdf xmin xmax num_levels garbage).
Proof.
  intros P H1 H2. destruct (C69_lloyd_max close pdf xmin xmax num_levels garbage P H1 H2) as [_ (L & _ & _ & I)].
  split; [exact L|]. apply steps_ordered. intros i Hi. pose proof (I i ltac:(lia)). pose proof (I (S i) Hi). lra.
Qed.

(** The mean squared error exists, and the computed value tends to it when the
    number of points per interval grows, for every input density on the given
    range - even if some thresholds lie outside the range. *)
Theorem C93_mse_limit (q : quantizer) (pdf : R -> R) (xmin xmax : R) :
  ordered q -> xmin <= xmax -> density_on pdf xmin xmax ->
  exists D, is_mse q pdf D /\ is_lim_seq (fun points => mean_squared_error q pdf xmin xmax points) D.
Proof.
  intros [Hl Hs] Hx [(g & Hg & Hin) Hout].
  eexists. split; [exact (mse_true pdf g xmin xmax Hx Hg Hin Hout q Hl Hs)|exact (mse_lim pdf g xmin xmax Hx Hg Hin Hout q)].
Qed.

(** An explicit error bound: if the thresholds lie in the range, pdf is bounded by
    M and Lipschitz with constant K there and no level is farther than W from a point of the range,
    the error is at most (K W^2 + 2 M W) (xmax - xmin)^2 / (2 (points - 1)). *)
Lemma clamp_ok (pdf : R -> R) (xmin xmax K : R) : xmin <= xmax -> 0 <= K ->
  (forall u v, xmin <= u <= xmax -> xmin <= v <= xmax -> Rabs (pdf u - pdf v) <= K * Rabs (u - v)) ->
  (forall x : R, continuous (fun x => pdf (Rmax xmin (Rmin x xmax))) x) /\
  (forall x, xmin <= x <= xmax -> pdf x = pdf (Rmax xmin (Rmin x xmax))).
Proof.
  intros Hx HK HL. split.
  - assert (Hc : forall x, xmin <= Rmax xmin (Rmin x xmax) <= xmax).
    { intros x. split; [apply Rmax_l|]. apply Rmax_lub; [exact Hx|apply Rmin_r]. }
    assert (D : forall u v, Rabs (Rmax xmin (Rmin u xmax) - Rmax xmin (Rmin v xmax)) <= Rabs (u - v)).
    { intros u v. unfold Rmax, Rmin. repeat destruct Rle_dec; unfold Rabs; repeat destruct Rcase_abs; lra. }
    intros x. apply continuity_pt_filterlim. intros e He. exists (e / (K + 1)).
    split; [apply Rdiv_lt_0_compat; lra|]. intros z [_ Hz]. cbn in *. unfold R_dist in *.
    eapply Rle_lt_trans; [apply HL; apply Hc|].
    apply Rle_lt_trans with (K * Rabs (z - x)); [apply Rmult_le_compat_l; [exact HK|apply D]|].
    pose proof (Rabs_pos (z - x)).
    apply Rle_lt_trans with ((K + 1) * Rabs (z - x)); [nra|].
    apply Rmult_lt_compat_l with (r := K + 1) in Hz; [|lra].
    replace ((K + 1) * (e / (K + 1))) with e in Hz by (field; lra). exact Hz.
  - intros x H. rewrite Rmin_left by lra. rewrite Rmax_right by lra. reflexivity.
Qed.
Theorem C93_mse_error (q : quantizer) (pdf : R -> R) (xmin xmax K M W D : R) (points : nat) :
  ordered q -> xmin <= xmax -> (forall t, In t (thresholds q) -> xmin <= t <= xmax) ->
  (forall x, x < xmin \/ xmax < x -> pdf x = 0) ->
  (forall x, xmin <= x <= xmax -> Rabs (pdf x) <= M) ->
  (forall u v, xmin <= u <= xmax -> xmin <= v <= xmax -> Rabs (pdf u - pdf v) <= K * Rabs (u - v)) ->
  (forall y x, In y (levels q) -> xmin <= x <= xmax -> Rabs (y - x) <= W) ->
  0 <= K -> (2 <= points)%nat -> is_mse q pdf D ->
  Rabs (mean_squared_error q pdf xmin xmax points - D) <=
  (K * W ^ 2 + 2 * M * W) * (xmax - xmin) ^ 2 / (2 * (INR points - 1)).
Proof.
  intros [Hl Hs] Hx Ht Hout HM HK HW K0 Hp HD.
  destruct (clamp_ok pdf xmin xmax K Hx K0 HK) as [Hg Hin]. set (g := fun x => pdf (Rmax xmin (Rmin x xmax))) in *.
  pose proof (mse_true pdf g xmin xmax Hx Hg Hin Hout q Hl Hs) as HT.
  rewrite (integral_unique _ _ _ HD HT).
  destruct points as [|[|m]]; [lia|lia|]. rewrite (mse_cells q pdf xmin xmax (S m)).
  replace (INR (S (S m)) - 1) with (INR (S m)) by (rewrite (S_INR (S m)); ring).
  assert (N : 0 < INR (S m)) by (apply lt_0_INR; lia).
  assert (M0 : 0 <= M) by (pose proof (HM xmin ltac:(lra)); pose proof (Rabs_pos (pdf xmin)); lra).
  assert (W0 : 0 <= W).
  { destruct (levels q) as [|y l]; [discriminate|]. pose proof (HW y xmin ltac:(left; reflexivity) ltac:(lra)).
    pose proof (Rabs_pos (y - xmin)). lra. }
  assert (C0 : 0 <= K * W ^ 2 + 2 * M * W) by (pose proof (pow2_ge_0 W); nra).
  replace ((K * W ^ 2 + 2 * M * W) * (xmax - xmin) ^ 2 / (2 * INR (S m)))
    with ((K * W ^ 2 + 2 * M * W) / (2 * INR (S m)) * (xmax - xmin) ^ 2) by (field; lra).
  assert (Hord : forall i, (i <= length (thresholds q))%nat ->
     xmin <= nth i (xmin :: thresholds q ++ [xmax]) 0 /\ nth (S i) (xmin :: thresholds q ++ [xmax]) 0 <= xmax /\
     nth i (xmin :: thresholds q ++ [xmax]) 0 <= nth (S i) (xmin :: thresholds q ++ [xmax]) 0).
  { intros i Hi. rewrite nth_ends by exact Hi. destruct (Nat.ltb_spec i (length (thresholds q))) as [L|L].
    - pose proof (Ht _ (nth_In _ 0 L)) as T. destruct i as [|i]; [cbn; lra|]. rewrite nth_ends by lia.
      destruct (Nat.ltb_spec i (length (thresholds q))); [|lia].
      pose proof (Ht _ (nth_In (thresholds q) 0 (n := i) ltac:(lia))) as T'. pose proof (Hs i (S i) ltac:(lia)). lra.
    - destruct i as [|i]; [cbn; lra|]. rewrite nth_ends by lia.
      destruct (Nat.ltb_spec i (length (thresholds q))); [|lia].
      pose proof (Ht _ (nth_In (thresholds q) 0 (n := i) ltac:(lia))) as T'. lra. }
  apply (cell_sum_dist _ _ ((K * W ^ 2 + 2 * M * W) / (2 * INR (S m)))).
  - apply Rdiv_le_0_compat; [exact C0|lra].
  - exact Hl.
  - intros i Hi. apply Hord. exact Hi.
  - intros i Hi. destruct (Hord i Hi) as (O1 & O2 & O3).
    set (a := nth i (xmin :: thresholds q ++ [xmax]) 0) in *. set (b := nth (S i) (xmin :: thresholds q ++ [xmax]) 0) in *.
    set (y := nth i (levels q) 0). assert (Iy : In y (levels q)) by (apply nth_In; lia).
    assert (KI : is_RInt (fun u => (y - u) ^ 2 * pdf u) a b (RInt (V := R_CompleteNormedModule) (fun u => (y - u) ^ 2 * pdf u) a b)).
    { apply (RInt_correct (V := R_CompleteNormedModule)), (E_ex pdf g xmin xmax Hx Hg Hin Hout). }
    eapply Rle_trans; [apply (trap_lip _ a b (K * W ^ 2 + 2 * M * W) _ (S m) O3 ltac:(lia)); [|exact KI]|].
    + intros u v Hu Hv.
      pose proof (HK u v ltac:(lra) ltac:(lra)) as L1. pose proof (HM u ltac:(lra)) as L2.
      pose proof (HW y u Iy ltac:(lra)) as L3. pose proof (HW y v Iy ltac:(lra)) as L4.
      replace ((y - u) ^ 2 * pdf u - (y - v) ^ 2 * pdf v)
        with ((y - v) ^ 2 * (pdf u - pdf v) + (((y - u) + (y - v)) * (v - u)) * pdf u) by ring.
      eapply Rle_trans; [apply Rabs_triang|]. rewrite !Rabs_mult.
      assert (T1 : Rabs ((y - v) ^ 2) <= W ^ 2).
      { rewrite <- RPow_abs. apply pow_incr. split; [apply Rabs_pos|exact L4]. }
      assert (T2 : Rabs (y - u + (y - v)) <= 2 * W) by (eapply Rle_trans; [apply Rabs_triang|lra]).
      rewrite (Rabs_minus_sym v u).
      pose proof (Rabs_pos (u - v)). pose proof (Rabs_pos (pdf u)). pose proof (Rabs_pos (pdf u - pdf v)).
      pose proof (Rabs_pos ((y - v) ^ 2)). pose proof (Rabs_pos (y - u + (y - v))).
      assert (A1 : Rabs ((y - v) ^ 2) * Rabs (pdf u - pdf v) <= W ^ 2 * (K * Rabs (u - v))) by (apply Rmult_le_compat; assumption).
      assert (A2 : Rabs (y - u + (y - v)) * Rabs (u - v) * Rabs (pdf u) <= 2 * W * Rabs (u - v) * M).
      { apply Rmult_le_compat; [nra|assumption| |assumption]. apply Rmult_le_compat_r; assumption. }
      lra.
    + right. field. lra.
Qed.

(** For a uniform quantizer and the uniform density on its granular region, the
    mean squared error is step^2/12, and the computed value is known exactly. *)
Theorem C93_uniform_exact (L : nat) (step offset : R) (q : quantizer) (pdf : R -> R) (points : nat) :
  UniformQuantizer L step offset = Some q -> (2 <= points)%nat ->
  let xmin := (offset - INR L / 2) * step in
  let xmax := (offset + INR L / 2) * step in
  (forall u, xmin <= u <= xmax -> pdf u = 1 / (xmax - xmin)) ->
  mean_squared_error q pdf xmin xmax points = step ^ 2 / 12 * (1 + 2 / (INR points - 1) ^ 2).
Proof.
  intros HQ Hp xmin xmax Hpdf. destruct (uniform_cases _ _ _ _ HQ) as (HL & Hstep & E1 & E2).
  destruct points as [|[|m]]; [lia|lia|]. rewrite mse_cells.
  replace (INR (S (S m)) - 1) with (INR (S m)) by (rewrite (S_INR (S m)); ring).
  assert (NL : 0 < INR L) by (apply lt_0_INR; lia).
  assert (Nm : 0 < INR (S m)) by (apply lt_0_INR; lia).
  assert (Len : length (levels q) = L) by (rewrite E1; apply uniform_levels_length).
  assert (LenT : length (thresholds q) = (L - 1)%nat) by (rewrite E2; apply uniform_thresholds_length).
  assert (Ny : forall i, (i < L)%nat -> nth i (levels q) 0 = (INR i - (INR L - 1) / 2 + offset) * step).
  { intros i Hi. rewrite E1. unfold uniform_levels.
    rewrite (nth_indep _ 0 ((fun i => (INR i - (INR L - 1) / 2 + offset) * step) 0%nat)) by (rewrite map_length, seq_length; exact Hi).
    rewrite (map_nth (fun i => (INR i - (INR L - 1) / 2 + offset) * step)), seq_nth by exact Hi. reflexivity. }
  assert (Nt : forall i, (i < L - 1)%nat -> nth i (thresholds q) 0 = (INR i + 1 - INR L / 2 + offset) * step).
  { intros i Hi. rewrite E2. unfold uniform_thresholds. rewrite nth_removelast.
    - assert (ML : (i < length (uniform_levels L step offset))%nat) by (rewrite uniform_levels_length; lia).
      rewrite (nth_indep _ 0 ((fun y => y + step / 2) 0)) by (rewrite map_length; exact ML).
      rewrite (map_nth (fun y => y + step / 2)). rewrite <- E1, Ny by lia. field.
    - rewrite map_length, uniform_levels_length. lia. }
  assert (Nlam : forall i, (i <= L)%nat -> nth i (xmin :: thresholds q ++ [xmax]) 0 = (INR i - INR L / 2 + offset) * step).
  { intros i Hi. destruct i as [|i]; [cbn; unfold xmin; ring|]. rewrite nth_ends by lia.
    destruct (Nat.ltb_spec i (length (thresholds q))) as [C|C].
    - rewrite Nt by lia. rewrite S_INR. reflexivity.
    - replace (S i) with L by lia. unfold xmax. field. }
  rewrite (cell_sum_const _ (1 / (xmax - xmin) * (step ^ 3 / 12 * (1 + 2 / INR (S m) ^ 2)))).
  - rewrite Len. unfold xmax, xmin. field. repeat (first [split|lra|nra]).
  - cbn [length]. rewrite app_length, LenT, Len. cbn. lia.
  - intros i Hi. rewrite Len in Hi. rewrite (Nlam i), (Nlam (S i)), (Ny i) by lia. rewrite S_INR.
    set (y := (INR i - (INR L - 1) / 2 + offset) * step).
    replace ((INR i - INR L / 2 + offset) * step) with (y - step / 2) by (unfold y; field).
    replace ((INR i + 1 - INR L / 2 + offset) * step) with (y + step / 2) by (unfold y; field).
    apply trap_square; [lia|lra|]. intros u Hu. apply Hpdf. unfold y, xmin, xmax in *.
    assert (0 <= INR i) by apply pos_INR. assert (INR i + 1 <= INR L) by (rewrite <- S_INR; apply le_INR; lia).
    nra.
Qed.
Theorem C93_uniform_mse (L : nat) (step offset : R) (q : quantizer) (pdf : R -> R) :
  UniformQuantizer L step offset = Some q ->
  let xmin := (offset - INR L / 2) * step in
  let xmax := (offset + INR L / 2) * step in
  (forall u, xmin <= u <= xmax -> pdf u = 1 / (xmax - xmin)) -> (forall u, u < xmin \/ xmax < u -> pdf u = 0) ->
  is_mse q pdf (step ^ 2 / 12).
Proof.
  intros HQ xmin xmax H1 H2. destruct (uniform_cases _ _ _ _ HQ) as (HL & Hstep & E1 & E2).
  assert (NL : 0 < INR L) by (apply lt_0_INR; lia).
  assert (Hx : xmin <= xmax) by (unfold xmin, xmax; nra).
  destruct (C93_mse_limit q pdf xmin xmax (C93_uniform_ordered _ _ _ _ HQ) Hx) as (D & HD & HL').
  { split; [|exact H2]. exists (fun _ => 1 / (xmax - xmin)). split; [intros x; apply continuous_const|exact H1]. }
  replace (step ^ 2 / 12) with D; [exact HD|].
  assert (LS : is_lim_seq (fun points => mean_squared_error q pdf xmin xmax points) (step ^ 2 / 12)).
  { apply is_lim_seq_incr_n with (N := 2%nat).
    apply is_lim_seq_ext with (fun n => step ^ 2 / 12 * (1 + 2 * (/ (INR n + 1) * / (INR n + 1)))).
    - intros n. rewrite (C93_uniform_exact L step offset q pdf (n + 2) HQ ltac:(lia) H1 : mean_squared_error q pdf xmin xmax (n + 2) = _).
      replace (INR (n + 2) - 1) with (INR n + 1) by (rewrite plus_INR; cbn; ring).
      pose proof (pos_INR n). field. lra.
    - assert (IL : is_lim_seq (fun n => / (INR n + 1)) 0).
      { apply (is_lim_seq_ext (fun n => / INR (S n))); [intros n; rewrite S_INR; reflexivity|].
        apply (is_lim_seq_incr_1 (fun n => / INR n)).
        replace (Finite 0) with (Rbar_inv p_infty) by reflexivity. apply is_lim_seq_inv; [apply is_lim_seq_INR|discriminate]. }
      pose proof (is_lim_seq_mult' _ _ _ _ IL IL) as IM.
      pose proof (is_lim_seq_mult' _ _ _ _ (is_lim_seq_const 2) IM) as IM2.
      pose proof (is_lim_seq_plus' _ _ _ _ (is_lim_seq_const 1) IM2) as IP.
      pose proof (is_lim_seq_mult' _ _ _ _ (is_lim_seq_const (step ^ 2 / 12)) IP) as IT.
      replace (step ^ 2 / 12 * (1 + 2 * (0 * 0))) with (step ^ 2 / 12) in IT by ring. exact IT. }
  apply is_lim_seq_unique in LS. apply is_lim_seq_unique in HL'. rewrite LS in HL'. injection HL'. intros E. symmetry. exact E.
Qed.

(** A non-negative density gives a non-negative value when the range covers the thresholds ... *)
Lemma trap_nonneg (f : R -> R) (a b : R) (m : nat) : a <= b -> (forall u, 0 <= f u) -> 0 <= trap f a b m.
Proof.
  intros Hab Hf. unfold trap.
  assert (Hh : 0 <= (b - a) / INR m).
  { destruct m as [|m]; [cbn; unfold Rdiv; rewrite Rinv_0; lra|]. apply Rdiv_le_0_compat; [lra|apply lt_0_INR; lia]. }
  generalize 0%nat as s. revert Hh. generalize ((b - a) / INR m). intros h H0. induction m as [|m IH]; intros s; [cbn; lra|].
  cbn [gsum]. pose proof (Hf (pt a h s)). pose proof (Hf (pt a h (S s))). 
  assert (0 <= h * (f (pt a h s) + f (pt a h (S s)))) by (apply Rmult_le_pos; lra).
  assert (G : 0 <= gsum (fun k : nat => h * (f (pt a h k) + f (pt a h (S k))) / 2) (S s) m).
  { apply IH. }
  lra.
Qed.
Theorem C93_mse_nonneg (q : quantizer) (pdf : R -> R) (xmin xmax : R) (points : nat) :
  ordered q -> xmin <= xmax -> (forall t, In t (thresholds q) -> xmin <= t <= xmax) ->
  (forall x, 0 <= pdf x) -> 0 <= mean_squared_error q pdf xmin xmax points.
Proof.
  intros [Hl Hs] Hx Ht Hp. destruct points as [|m].
  - unfold mean_squared_error. generalize (levels q) (xmin :: thresholds q ++ [xmax]).
    induction l as [|y l IH]; intros lam; [cbn; lra|]. destruct lam as [|a [|b lam]]; [cbn; lra|cbn; lra|].
    change (0 <= 0 + cell_errors pdf 0 l (b :: lam)). specialize (IH (b :: lam)). lra.
  - rewrite mse_cells. revert Hl Hs Ht. generalize (thresholds q) (levels q). intros ts. revert xmin Hx.
    induction ts as [|t ts IH]; intros xmin Hx ys Hl Hs Ht.
    + destruct ys as [|y [|]]; [discriminate| |discriminate]. cbn [app cell_sum]. rewrite Rplus_0_r.
      apply trap_nonneg; [exact Hx|]. intros u. apply Rmult_le_pos; [apply pow2_ge_0|apply Hp].
    + destruct ys as [|y ys]; [discriminate|].
      match goal with |- 0 <= cell_sum ?J _ _ => change (0 <= J y xmin t + cell_sum J ys (t :: ts ++ [xmax])) end.
      pose proof (Ht t ltac:(left; reflexivity)) as T.
      apply Rplus_le_le_0_compat.
      * apply trap_nonneg; [lra|]. intros u. apply Rmult_le_pos; [apply pow2_ge_0|apply Hp].
      * apply IH; [lra|cbn in Hl; lia|intros i j Hij; apply (Hs (S i) (S j)); cbn; lia|].
        intros u Hu. split; [|apply Ht; right; exact Hu].
        apply (In_nth _ _ 0) in Hu as (k & Hk & <-). apply (Hs 0%nat (S k)). cbn. lia.
Qed.
(** ... but not otherwise: if the density does not vanish outside the given range
    and a threshold lies outside, the "mean squared error" can be negative. *)
Theorem C93_range_refuted : exists q, ScalarQuantizer [0; 10] [5] = Some q /\
  mean_squared_error q (fun u => if Rle_dec 0 u then if Rle_dec u 10 then 1/10 else 0 else 0) 0 1 2 < 0.
Proof.
  assert (A : exists q, ScalarQuantizer [0; 10] [5] = Some q).
  { apply C56_accepts. split; [reflexivity|]. intros i Hi. cbn in Hi. destruct i as [|i]; [cbn; lra|lia]. }
  destruct A as [q Hq]. exists q. split; [exact Hq|]. destruct (scalar_fields _ _ _ Hq) as [E1 E2].
  unfold mean_squared_error. rewrite E1, E2. cbn [app cell_errors]. unfold cell_error, linspace. cbn [seq map trapezoid INR].
  repeat (destruct Rle_dec; [|try lra]); lra.
Qed.
Example C93_case : exists q, UniformQuantizer 4 2 0 = Some q /\
  mean_squared_error q (fun u => 1 / 8) (- 4) 4 4096 = 1/3 * (1 + 2 / 4095 ^ 2).
Proof.
  destruct (C56_uniform_accepts 4 2 0) as [[_ A] _]. destruct A as [q Hq]; [split; [lia|lra]|]. exists q. split; [exact Hq|].
  pose proof (C93_uniform_exact 4 2 0 q (fun _ => 1/8) 4096 Hq) as H. cbv zeta in H.
  assert (P : (2 <= 4096)%nat) by (apply Nat.leb_le; vm_compute; reflexivity). specialize (H P).
  replace ((0 - INR 4 / 2) * 2) with (-4) in H by (cbn; lra). replace ((0 + INR 4 / 2) * 2) with 4 in H by (cbn; lra).
  rewrite H by (intros; lra). replace (INR 4096 - 1) with 4095 by (rewrite INR_IZR_INZ; change (Z.of_nat 4096) with 4096%Z; lra). lra.
Qed.
