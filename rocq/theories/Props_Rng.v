(** C103: what channels and sources do with the variates that they draw.  C104: programs with several
    objects and generators.  Models: Rng_Model; what the statements say: Rng_Spec. *)
From Coq Require Import Reals Lra.
From Coquelicot Require Import Complex.
From Verif Require Import Common Quant_Model Array_Model Array_Spec Array_Proof Array_Lift NdMaps_Model Rng_Model Rng_Spec Rng_Proof Rng_Proof2.
Local Open Scope nat_scope.

Definition bit (x : Z) : Prop := x = 0%Z \/ x = 1%Z.
(** numpy's own test of a pmf *)
Definition precise (p : list R) : Prop := (Rabs (Rsum p - 1) <= 1 / 2 ^ 26)%R.
Lemma precise_spec p : precise p <-> choice_accepts p = true.
Proof. unfold precise, choice_accepts. rewrite Rleb_spec. reflexivity. Qed.

(** *** C103: the constructors accept a probability in [0, 1], a non-negative noise power, a pmf that is non-negative and
    sums to 1 up to numpy's tolerance 1e-8 + 1e-5, a rectangular matrix of such rows (square, for a Markov chain); nothing else. *)
Definition tolerated_pmf (p : list R) : Prop := Forall (fun x => (0 <= x)%R) p /\ (Rabs (Rsum p - 1) <= 1 / 10 ^ 8 + 1 / 10 ^ 5)%R.
Theorem C103_constructors : forall d, accepts d = true <->
  match d with
  | BSC p | BEC p | ZChannel p => (0 <= p <= 1)%R
  | Gaussian P => (0 <= P)%R
  | Source pmf => tolerated_pmf pmf
  | DMC W => Forall (fun row => length row = length (nth 0 W [])) W /\ Forall tolerated_pmf W
  | Chain P => Forall (fun row => length row = length P) P /\ Forall tolerated_pmf P
  end.
Proof.
  assert (NN : forall p, forallb (Rleb 0) p = true <-> Forall (fun x => (0 <= x)%R) p).
  { intros p. rewrite forallb_forall, Forall_forall. split; intros H x Hx; specialize (H x Hx); apply Rleb_spec; exact H. }
  assert (TP : forall p, valid_pmf p = true <-> tolerated_pmf p).
  { intros p. unfold valid_pmf, tolerated_pmf, close_to_one. rewrite Bool.andb_true_iff, NN, Rleb_spec. reflexivity. }
  assert (VP : forall p, valid_probability p = true <-> (0 <= p <= 1)%R).
  { intros p. unfold valid_probability. rewrite Bool.andb_true_iff, !Rleb_spec. reflexivity. }
  assert (VM : forall sq W cols, valid_matrix sq W cols = true <-> Forall (fun row => length row = cols) W /\ Forall tolerated_pmf W /\ (sq = true -> length W = cols)).
  { intros sq W cols. unfold valid_matrix. rewrite !Bool.andb_true_iff, !forallb_forall, !Forall_forall, Bool.orb_true_iff, Nat.eqb_eq.
    split.
    - intros [[[H1 H2] H3] H4]. split; [intros row I; apply Nat.eqb_eq, H1, I|]. split; [|intros ->; destruct H4; [discriminate|assumption]].
      intros row I. apply TP. unfold valid_pmf. rewrite (H2 row I), (H3 row I). reflexivity.
    - intros (H1 & H2 & H3). assert (V : forall row, In row W -> forallb (Rleb 0) row = true /\ close_to_one (Rsum row) = true) by (intros row I; apply Bool.andb_true_iff, TP, H2, I).
      repeat split; try (intros row I; apply V; exact I); [intros row I; apply Nat.eqb_eq, H1, I|]. destruct sq; cbn; auto. }
  intros [p|p|p|W|P|pmf|P]; cbn [accepts].
  - apply VP.
  - apply VP.
  - apply VP.
  - rewrite VM. split; [tauto|intros [? ?]; repeat split; auto; discriminate].
  - apply Rleb_spec.
  - apply TP.
  - rewrite VM. split.
    + intros (H1 & H2 & H3). specialize (H3 eq_refl). rewrite H3. auto.
    + intros [H1 H2]. assert (E : length (nth 0 P []) = length P). { destruct P as [|r P]; [reflexivity|]. inversion H1; subst. assumption. }
      rewrite E. auto.
Qed.

(** *** C103: binary channels.  Every symbol gets its own variate, and is changed if and only if the variate is below
    the probability. *)
Theorem C103_bsc : forall (G : Type) (r : generator G) (p : R),
  symbolwise (next_uniform r) bit (fun x u y => ((u < p)%R -> y = (1 - x)%Z) /\ ((p <= u)%R -> y = x)) (bsc_transmit r p).
Proof.
  intros G r p. apply (zip_symbolwise r _ _ (fun x u => ((x + b2z (Rltb u p)) mod 2)%Z)).
  - intros a g. unfold bsc_transmit. destruct (draws (next_uniform r) (prod (shape a)) g). reflexivity.
  - intros x u [->| ->] U; destruct (Rltb u p) eqn:E; (split; [intros H|intros H]); try reflexivity; exfalso;
      try (apply Rltb_spec in E; lra); apply Rltb_spec in H; congruence.
Qed.
Theorem C103_bec : forall (G : Type) (r : generator G) (e : R),
  symbolwise (next_uniform r) bit (fun x u y => ((u < e)%R -> y = 2%Z) /\ ((e <= u)%R -> y = x)) (bec_transmit r e).
Proof.
  intros G r p. apply (zip_symbolwise r _ _ (fun x u => if Rltb u p then 2%Z else x)).
  - intros a g. unfold bec_transmit. destruct (draws (next_uniform r) (prod (shape a)) g). reflexivity.
  - intros x u B U; destruct (Rltb u p) eqn:E; (split; [intros H|intros H]); try reflexivity; exfalso;
      try (apply Rltb_spec in E; lra); apply Rltb_spec in H; congruence.
Qed.
(** the Z-channel only ever changes a 1 into a 0 *)
Theorem C103_z : forall (G : Type) (r : generator G) (p : R),
  symbolwise (next_uniform r) bit (fun x u y => (x = 0%Z -> y = 0%Z) /\ (x = 1%Z -> (u < p)%R -> y = 0%Z) /\ ((p <= u)%R -> y = x)) (z_transmit r p).
Proof.
  intros G r p. apply (zip_symbolwise r _ _ (fun x u => (x * b2z (Rleb p u))%Z)).
  - intros a g. unfold z_transmit. destruct (draws (next_uniform r) (prod (shape a)) g). reflexivity.
  - intros x u [->| ->] U; destruct (Rleb p u) eqn:E; (split; [intros H|split; [intros H H'|intros H]]); try reflexivity; try discriminate; exfalso;
      try (apply Rleb_spec in E; lra); apply Rleb_spec in H; congruence.
Qed.
(** the two extreme probabilities *)
Theorem C103_extremes : forall (G : Type) (r : generator G) (a : array Z) (g : G), well_formed a -> Forall bit (data a) ->
  Forall unit_interval (fst (draws (next_uniform r) (prod (shape a)) g)) ->
  fst (bsc_transmit r 0 a g) = Some a /\ fst (bec_transmit r 0 a g) = Some a /\ fst (z_transmit r 0 a g) = Some a /\
  fst (bsc_transmit r 1 a g) = Some (Arr (shape a) (map (fun x => 1 - x)%Z (data a))) /\
  fst (bec_transmit r 1 a g) = Some (Arr (shape a) (map (fun _ => 2%Z) (data a))) /\
  fst (z_transmit r 1 a g) = Some (Arr (shape a) (map (fun _ => 0%Z) (data a))).
Proof.
  intros G r a g W B U. unfold bsc_transmit, bec_transmit, z_transmit. pose proof (draws_length (next_uniform r) (prod (shape a)) g) as L.
  destruct (draws (next_uniform r) (prod (shape a)) g) as [us g']. cbn [fst] in *. unfold well_formed in W. destruct a as [sh l]. cbn [shape data] in *. rewrite <- W in L. clear W.
  assert (K : forall (f : Z -> R -> Z) (h : Z -> Z), (forall x u, bit x -> unit_interval u -> f x u = h x) -> zip_nd f (Arr sh l) us = Arr sh (map h l)).
  { intros f h E. unfold zip_nd. cbn [shape data]. f_equal. revert us L U. induction B as [|x l Bx Bl IH]; intros [|u us] L U; try discriminate; [reflexivity|].
    inversion_clear U. cbn [combine map]. rewrite E by assumption. f_equal. apply IH; [cbn in L; lia|assumption]. }
  assert (I0 : forall u, unit_interval u -> Rltb u 0 = false /\ Rltb u 1 = true /\ Rleb 0 u = true /\ Rleb 1 u = false).
  { intros u [U0 U1]. repeat split; try (apply Rltb_spec || apply Rleb_spec || apply Rleb_false; lra). destruct (Rltb u 0) eqn:E; [apply Rltb_spec in E; lra|reflexivity]. }
  repeat split; f_equal.
  - rewrite (K _ (fun x => x)), map_id; [reflexivity|]. intros x u Bx Hu. destruct (I0 u Hu) as (-> & _). destruct Bx as [->| ->]; reflexivity.
  - rewrite (K _ (fun x => x)), map_id; [reflexivity|]. intros x u Bx Hu. destruct (I0 u Hu) as (-> & _). reflexivity.
  - rewrite (K _ (fun x => x)), map_id; [reflexivity|]. intros x u Bx Hu. destruct (I0 u Hu) as (_ & _ & -> & _). destruct Bx as [->| ->]; reflexivity.
  - apply K. intros x u Bx Hu. destruct (I0 u Hu) as (_ & -> & _). destruct Bx as [->| ->]; reflexivity.
  - apply K. intros x u Bx Hu. destruct (I0 u Hu) as (_ & -> & _). reflexivity.
  - apply K. intros x u Bx Hu. destruct (I0 u Hu) as (_ & _ & _ & ->). destruct Bx as [->| ->]; reflexivity.
Qed.

(** *** C103: memoryless channels, memoryless sources and Markov chains select by the share of the total weight *)
Theorem C103_dmc : forall (G : Type) (r : generator G) (W : list (list R)), accepts (DMC W) = true -> Forall precise W ->
  symbolwise (next_uniform r) (fun x => 0 <= x < Z.of_nat (length W))%Z
    (fun x u y => (0 <= y)%Z /\ selected (nth (Z.to_nat x) W []) u (Z.to_nat y)) (dmc_transmit r W).
Proof.
  intros G r W A P. cbn [accepts] in A. apply valid_matrix_rows in A. destruct A as (_ & NN & _).
  assert (RO : Forall row_ok W) by (rewrite Forall_forall in *; intros row H; split; [apply NN; exact H|apply precise_spec, P; exact H]).
  intros a g Wf O U. rewrite dmc_zip by assumption. eexists. split; [reflexivity|]. split; [apply zip_wf; [exact Wf|apply draws_length]|]. split; [reflexivity|].
  intros idx V. rewrite (zip_get 0%Z 0%R 0%Z) by (try exact V; try exact Wf; apply draws_length). split; [lia|]. rewrite Nat2Z.id.
  assert (Hx : (0 <= get 0%Z a idx < Z.of_nat (length W))%Z) by (apply (get_ok 0%Z _ a idx Wf O V)).
  assert (R1 : row_ok (nth (Z.to_nat (get 0%Z a idx)) W [])) by (rewrite Forall_forall in RO; apply RO, nth_In; lia). destruct R1 as [N1 C1].
  apply searchsorted_selected; [exact N1|apply accepts_total in C1; lra|]. rewrite Forall_forall in U. apply U, nth_In. rewrite draws_length. apply ravel_lt. exact V.
Qed.
(** when transmitting fails, with the symbols counted from the end if they are negative *)
Theorem C103_dmc_raises : forall (G : Type) (r : generator G) (W : list (list R)) (a : array Z) (g : G),
  fst (dmc_transmit r W a g) = None <->
  Exists (fun x => ~ (- Z.of_nat (length W) <= x < Z.of_nat (length W))%Z \/ ~ precise (nth (Z.to_nat (x mod Z.of_nat (length W))) W [])) (data a).
Proof.
  intros G r W a g. unfold dmc_transmit. transitivity (fst (dmc_loop r W (data a) g) = None); [destruct (dmc_loop r W (data a) g) as [[l|] g']; cbn; split; congruence|].
  generalize (data a). clear a. intros l. revert g. induction l as [|x l IH]; intros g.
  - cbn. split; [discriminate|]. intros H. inversion H.
  - cbn [dmc_loop]. rewrite Exists_cons, <- (IH g). destruct (index_ok (length W) x) eqn:E.
    + assert (Hx : (- Z.of_nat (length W) <= x < Z.of_nat (length W))%Z) by (unfold index_ok in E; lia).
      assert (Ew : wrap (length W) x = Z.to_nat (x mod Z.of_nat (length W))).
      { unfold wrap. destruct (Z.ltb_spec x 0).
        - f_equal. replace (x mod Z.of_nat (length W))%Z with (x + Z.of_nat (length W))%Z; [lia|]. apply (Z.mod_unique_pos _ _ (-1)); lia.
        - f_equal. rewrite Z.mod_small by lia. reflexivity. }
      unfold choice. rewrite <- Ew. destruct (choice_accepts (nth (wrap (length W) x) W [])) eqn:C.
      * destruct (next_uniform r g) as [u g1]. rewrite (IH g). rewrite <- (IH g1). destruct (dmc_loop r W l g1) as [[ys|] g2]; cbn; (split; [intros H|intros [[H|H]|H]]); try discriminate; try reflexivity.
        -- contradiction.
        -- apply precise_spec in C. contradiction.
        -- right. reflexivity.
      * cbn. split; [|reflexivity]. intros _. left. right. rewrite precise_spec, C. discriminate.
    + cbn. split; [|reflexivity]. intros _. left. left. unfold index_ok in E. lia.
Qed.
Theorem C103_emit : forall (G : Type) (r : generator G) (pmf : list R) (s : shape_arg) (sh : list nat) (g : G), accepts (Source pmf) = true -> precise pmf ->
  requested s sh -> Forall unit_interval (fst (draws (next_uniform r) (prod sh) g)) ->
  exists out, emit r pmf s g = (Some out, snd (draws (next_uniform r) (prod sh) g)) /\ well_formed out /\ shape out = sh /\
    forall idx, valid_index sh idx ->
      (0 <= get 0%Z out idx)%Z /\ selected pmf (nth (ravel sh idx) (fst (draws (next_uniform r) (prod sh) g)) 0%R) (Z.to_nat (get 0%Z out idx)).
Proof.
  intros G r p s sh g A P Rq U. cbn [accepts] in A. apply valid_pmf_nonneg in A. apply precise_spec in P. unfold emit, choice_nd. rewrite P.
  assert (emit_shape s = sh) as -> by (destruct Rq as [[-> ->]|[(n & -> & ->)| ->]]; reflexivity).
  pose proof (draws_length (next_uniform r) (prod sh) g) as L. destruct (draws (next_uniform r) (prod sh) g) as [us g']. cbn [fst snd] in *.
  eexists. split; [reflexivity|]. split; [unfold well_formed; cbn [data shape]; rewrite map_length; exact L|]. split; [reflexivity|]. intros idx V.
  pose proof (ravel_lt _ _ V) as Rl. unfold get. cbn [shape data]. set (f := fun u => Z.of_nat (searchsorted p u)). rewrite (nth_indep _ 0%Z (f 0%R)) by (rewrite map_length, L; exact Rl).
  rewrite map_nth. unfold f. split; [lia|]. rewrite Nat2Z.id. apply searchsorted_selected; [exact A|apply accepts_total in P; lra|]. rewrite Forall_forall in U. apply U, nth_In. rewrite L. exact Rl.
Qed.
Theorem C103_emit_raises : forall (G : Type) (r : generator G) (pmf : list R) (s : shape_arg) (g : G),
  fst (emit r pmf s g) = None <-> ~ precise pmf.
Proof.
  intros G r p s g. rewrite precise_spec. unfold emit, choice_nd. destruct (choice_accepts p); [destruct (draws _ _ g)|]; cbn; split; intros; congruence.
Qed.
(** simulate returns [steps] states: the given initial state, then every state selected from the row of the one before it;
    it draws one variate for every step, also for the last one, which no returned state depends on *)
Theorem C103_simulate : forall (G : Type) (r : generator G) (P : list (list R)) (state : Z) (steps : nat) (g : G), accepts (Chain P) = true -> Forall precise P ->
  (0 <= state < Z.of_nat (length P))%Z -> Forall unit_interval (fst (draws (next_uniform r) steps g)) ->
  exists l, simulate r P state steps g = (Some l, snd (draws (next_uniform r) steps g)) /\ length l = steps /\
    Forall (fun x => 0 <= x < Z.of_nat (length P))%Z l /\ (0 < steps -> nth 0 l 0%Z = state) /\
    forall t, S t < steps ->
      selected (nth (Z.to_nat (nth t l 0%Z)) P []) (nth t (fst (draws (next_uniform r) steps g)) 0%R) (Z.to_nat (nth (S t) l 0%Z)).
Proof.
  intros G r P s n g A Pr Hs U. cbn [accepts] in A. apply valid_matrix_rows in A. destruct A as (L & NN & Q).
  assert (RO : Forall row_ok P) by (rewrite Forall_forall in *; intros row H; split; [apply NN; exact H|apply precise_spec, Pr; exact H]).
  rewrite <- (Q eq_refl) in L. exists (path P s (fst (draws (next_uniform r) n g))). rewrite simulate_ok by assumption. split; [reflexivity|].
  pose proof (draws_length (next_uniform r) n g) as Ld. set (us := fst (draws (next_uniform r) n g)) in *.
  assert (PR : Forall (fun x => 0 <= x < Z.of_nat (length P))%Z (path P s us)) by (apply path_range; assumption).
  split; [rewrite path_length; exact Ld|]. split; [exact PR|]. split.
  - destruct us as [|u us]; [cbn in Ld; lia|]. reflexivity.
  - intros t Ht. rewrite path_step by lia. rewrite Nat2Z.id.
    assert (Hx : (0 <= nth t (path P s us) 0 < Z.of_nat (length P))%Z) by (rewrite Forall_forall in PR; apply PR, nth_In; rewrite path_length; lia).
    assert (R1 : row_ok (nth (Z.to_nat (nth t (path P s us) 0%Z)) P [])) by (rewrite Forall_forall in RO; apply RO, nth_In; lia). destruct R1 as [N1 C1].
    apply searchsorted_selected; [exact N1|apply accepts_total in C1; lra|]. rewrite Forall_forall in U. apply U, nth_In. lia.
Qed.
(** at most one symbol is selected, and in proportion to its weight: the variates that select y form an interval of
    length p_y / sum p *)
Theorem C103_selected : forall p u y, Forall (fun x => (0 <= x)%R) p -> precise p -> y < length p -> 
  (selected p u y <-> (Rsum (firstn y p) / Rsum p <= u < Rsum (firstn y p) / Rsum p + nth y p 0 / Rsum p)%R) /\
  (forall y', selected p u y -> selected p u y' -> y = y').
Proof.
  intros p u y NN P Hy. apply precise_spec, accepts_total in P. split.
  - unfold selected. assert (E : Rsum (firstn (S y) p) = (Rsum (firstn y p) + nth y p 0)%R).
    { clear NN P. revert p Hy. induction y as [|y IH]; intros [|a p] Hy; cbn [length] in Hy; try lia; [unfold Rsum; cbn; lra|].
      change (firstn (S (S y)) (a :: p)) with (a :: firstn (S y) p). change (firstn (S y) (a :: p)) with (a :: firstn y p). change (nth (S y) (a :: p) 0%R) with (nth y p 0%R).
      change (Rsum (a :: firstn (S y) p)) with (a + Rsum (firstn (S y) p))%R. rewrite IH by lia. change (Rsum (a :: firstn y p)) with (a + Rsum (firstn y p))%R. lra. }
    rewrite E. set (S0 := Rsum p) in *. set (F := Rsum (firstn y p)). set (q := nth y p 0%R). split.
    + intros (_ & H1 & H2). split.
      * apply Rmult_le_reg_r with S0; [lra|]. unfold Rdiv. rewrite Rmult_assoc, Rinv_l by lra. lra.
      * apply Rmult_lt_reg_r with S0; [lra|]. unfold Rdiv. rewrite Rmult_plus_distr_r, !Rmult_assoc, Rinv_l by lra. lra.
    + intros [H1 H2]. split; [exact Hy|]. split.
      * apply Rmult_le_compat_r with (r := S0) in H1; [|lra]. unfold Rdiv in H1. rewrite Rmult_assoc, Rinv_l in H1 by lra. lra.
      * apply Rmult_lt_compat_r with (r := S0) in H2; [|lra]. unfold Rdiv in H2. rewrite Rmult_plus_distr_r, !Rmult_assoc, Rinv_l in H2 by lra. lra.
  - intros y' (_ & A1 & A2) (_ & B1 & B2). destruct (Nat.lt_trichotomy y y') as [H|[H|H]]; [|exact H|].
    + pose proof (Rsum_firstn_mono p (S y) y' NN ltac:(lia)). lra.
    + pose proof (Rsum_firstn_mono p (S y') y NN ltac:(lia)). lra.
Qed.
(** a pmf and a transition matrix that the constructors accept, but that no sampling method can use *)
Theorem C103_tolerance_refuted : exists pmf,
  accepts (Source pmf) = true /\ accepts (DMC [pmf; pmf]) = true /\ accepts (Chain [pmf; pmf]) = true /\
  forall (G : Type) (r : generator G) g,
    (forall s, fst (call r (Source pmf) (Emit s) g) = None) /\ (forall sh x l, fst (call r (DMC [pmf; pmf]) (Transmit (Arr sh (x :: l))) g) = None) /\
    forall s n, fst (call r (Chain [pmf; pmf]) (Simulate s (S n)) g) = None.
Proof.
  exists [1 / 2; 1 / 2 + 5 / 10 ^ 6]%R. set (pmf := [1 / 2; 1 / 2 + 5 / 10 ^ 6]%R). assert (S0 : Rsum pmf = (1 + 5 / 10 ^ 6)%R) by (unfold pmf, Rsum; cbn [fold_right]; lra).
  assert (C : close_to_one (Rsum pmf) = true) by (unfold close_to_one; apply Rleb_spec; rewrite S0; unfold Rabs; destruct (Rcase_abs _); lra).
  assert (NN : forallb (Rleb 0) pmf = true) by (unfold pmf; cbn [forallb]; rewrite !(proj2 (Rleb_spec _ _)) by lra; reflexivity).
  assert (NC : choice_accepts pmf = false) by (unfold choice_accepts; apply Rleb_false; rewrite S0; unfold Rabs; destruct (Rcase_abs _); lra).
  assert (V : forall sq, valid_matrix sq [pmf; pmf] 2 = true) by (intros sq; unfold valid_matrix; cbn [forallb]; rewrite NN, C; unfold pmf; cbn; destruct sq; reflexivity).
  split; [cbn [accepts]; unfold valid_pmf; rewrite NN, C; reflexivity|]. split; [apply V|]. split; [apply V|]. intros G r g. repeat split; intros.
  - cbn [call]. unfold emit, choice_nd. rewrite NC. reflexivity.
  - cbn [call]. unfold dmc_transmit. cbn [data dmc_loop length]. destruct (index_ok 2 x) eqn:E; [|reflexivity].
    assert (K : nth (wrap 2 x) [pmf; pmf] [] = pmf) by (assert (wrap 2 x = 0 \/ wrap 2 x = 1) as [->| ->] by (unfold index_ok, wrap in *; destruct (Z.ltb_spec x 0); lia); reflexivity).
    rewrite K. unfold choice. rewrite NC. reflexivity.
  - cbn [call simulate length]. destruct (index_ok 2 s) eqn:E; [|reflexivity].
    assert (K : nth (wrap 2 s) [pmf; pmf] [] = pmf) by (assert (wrap 2 s = 0 \/ wrap 2 s = 1) as [->| ->] by (unfold index_ok, wrap in *; destruct (Z.ltb_spec s 0); lia); reflexivity).
    rewrite K. unfold choice. rewrite NC. reflexivity.
Qed.

(** *** C103: the Gaussian channel *)
Theorem C103_gaussian_real : forall (G : Type) (r : generator G) (P : R) (a : array R) (g : G), well_formed a ->
  exists out, gaussian_real r P a g = (Some out, snd (draws (next_normal r) (prod (shape a)) g)) /\ well_formed out /\ shape out = shape a /\
    forall idx, valid_index (shape a) idx ->
      get 0%R out idx = (get 0 a idx + sqrt P * nth (ravel (shape a) idx) (fst (draws (next_normal r) (prod (shape a)) g)) 0)%R.
Proof.
  intros G r P a g W. rewrite gaussian_real_eq. eexists. split; [reflexivity|]. split; [apply zip_wf; [exact W|apply draws_length]|]. split; [reflexivity|].
  intros idx V. rewrite (zip_get 0%R 0%R 0%R) by (try exact V; try exact W; apply draws_length). lra.
Qed.
(** real and imaginary part of a complex element get consecutive variates, each with half the power *)
Theorem C103_gaussian_complex : forall (G : Type) (r : generator G) (P : R) (a : array C) (g : G), well_formed a ->
  exists out, gaussian_complex r P a g = (Some out, snd (draws (next_normal r) (2 * prod (shape a)) g)) /\ well_formed out /\ shape out = shape a /\
    forall idx, valid_index (shape a) idx ->
      let zs := fst (draws (next_normal r) (2 * prod (shape a)) g) in
      Re (get (RtoC 0) out idx) = (Re (get (RtoC 0) a idx) + sqrt (P / 2) * nth (2 * ravel (shape a) idx) zs 0)%R /\
      Im (get (RtoC 0) out idx) = (Im (get (RtoC 0) a idx) + sqrt (P / 2) * nth (2 * ravel (shape a) idx + 1) zs 0)%R.
Proof.
  intros G r P a g W. rewrite gaussian_complex_eq. eexists. split; [reflexivity|]. split; [apply zip_wf; [exact W|apply pair_noise_length]|]. split; [reflexivity|].
  intros idx V. cbv zeta. rewrite (zip_get (RtoC 0) (RtoC 0) (RtoC 0)) by (try exact V; try exact W; apply pair_noise_length).
  rewrite pair_noise_nth by (try apply draws_length; apply ravel_lt; exact V). split; reflexivity.
Qed.
(** The noise has mean 0 and power P, and the noises of different elements are uncorrelated: for every expectation under
    which the variates are white. *)
Theorem C103_gaussian_power : forall (O : Type) (E : (O -> R) -> R) (u : nat -> R) (z : O -> nat -> R) (P : R) (a : array R) (out : O -> array R),
  linear E -> (0 <= P)%R -> well_formed a -> white E z (prod (shape a)) ->
  (forall w, fst (gaussian_real (playback u (z w)) P a 0) = Some (out w)) ->
  let noise w idx := (get 0 (out w) idx - get 0 a idx)%R in
  forall idx, valid_index (shape a) idx ->
    E (fun w => noise w idx) = 0%R /\ E (fun w => (noise w idx * noise w idx)%R) = P /\
    forall idx', valid_index (shape a) idx' -> idx' <> idx -> E (fun w => (noise w idx * noise w idx')%R) = 0%R.
Proof.
  intros O E u z P a out Li HP W [M V] H noise idx Hi. assert (N : forall w i, valid_index (shape a) i -> noise w i = (sqrt P * z w (ravel (shape a) i))%R).
  { intros w i Hv. specialize (H w). destruct (C103_gaussian_real _ (playback u (z w)) P a 0 W) as (o & Eo & _ & _ & Go). rewrite Eo in H. cbn [fst] in H. inversion H; subst.
    unfold noise. rewrite (Go i Hv). cbn [playback next_normal]. rewrite nth_draws_playback by (apply ravel_lt; exact Hv). cbn [Nat.add]. lra. }
  pose proof Li as [X L]. pose proof (ravel_lt _ _ Hi) as Rl. split; [|split].
  - rewrite (X _ (fun w => (sqrt P * z w (ravel (shape a) idx))%R)) by (intros; apply N; exact Hi). rewrite linear_scale, M by assumption. lra.
  - rewrite (X _ (fun w => (P * (z w (ravel (shape a) idx) * z w (ravel (shape a) idx)))%R)).
    + rewrite linear_scale, V, Nat.eqb_refl by assumption. lra.
    + intros w. rewrite N by exact Hi. rewrite <- (sqrt_sqrt P HP) at 3. ring.
  - intros j Hj Hne. pose proof (ravel_lt _ _ Hj) as Rj. rewrite (X _ (fun w => (P * (z w (ravel (shape a) idx) * z w (ravel (shape a) j)))%R)).
    + rewrite linear_scale, V by assumption. destruct (Nat.eqb_spec (ravel (shape a) idx) (ravel (shape a) j)) as [e|]; [|lra].
      exfalso. apply Hne. symmetry. exact (ravel_inj _ _ _ Hi Hj e).
    + intros w. rewrite !N by assumption. rewrite <- (sqrt_sqrt P HP) at 3. ring.
Qed.
Theorem C103_gaussian_power_complex : forall (O : Type) (E : (O -> R) -> R) (u : nat -> R) (z : O -> nat -> R) (P : R) (a : array C) (out : O -> array C),
  linear E -> (0 <= P)%R -> well_formed a -> white E z (2 * prod (shape a)) ->
  (forall w, fst (gaussian_complex (playback u (z w)) P a 0) = Some (out w)) ->
  let noise w idx := Cminus (get (RtoC 0) (out w) idx) (get (RtoC 0) a idx) in
  forall idx, valid_index (shape a) idx ->
    E (fun w => Re (noise w idx)) = 0%R /\ E (fun w => Im (noise w idx)) = 0%R /\ E (fun w => (Cmod (noise w idx) ^ 2)%R) = P /\
    E (fun w => (Re (noise w idx) ^ 2)%R) = E (fun w => (Im (noise w idx) ^ 2)%R) /\ E (fun w => (Re (noise w idx) * Im (noise w idx))%R) = 0%R /\
    forall idx', valid_index (shape a) idx' -> idx' <> idx ->
      E (fun w => Re (Cmult (noise w idx) (Cconj (noise w idx')))) = 0%R /\ E (fun w => Im (Cmult (noise w idx) (Cconj (noise w idx')))) = 0%R.
Proof.
  intros O E u z P a out Li HP W [M V] H noise idx Hi.
  assert (N : forall w i, valid_index (shape a) i -> noise w i = ((sqrt (P / 2) * z w (2 * ravel (shape a) i)%nat)%R, (sqrt (P / 2) * z w (2 * ravel (shape a) i + 1)%nat)%R)).
  { intros w i Hv. specialize (H w). destruct (C103_gaussian_complex _ (playback u (z w)) P a 0 W) as (o & Eo & _ & _ & Go). rewrite Eo in H. cbn [fst] in H. inversion H; subst.
    destruct (Go i Hv) as [R1 I1]. pose proof (ravel_lt _ _ Hv) as Rl. cbn [playback next_normal] in *. rewrite nth_draws_playback in R1 by lia. rewrite nth_draws_playback in I1 by lia. cbn [Nat.add] in *.
    unfold noise. apply injective_projections; unfold Re, Im in *; cbn [fst snd Cminus Cplus Copp]; [rewrite R1|rewrite I1]; ring. }
  pose proof Li as [X L]. pose proof (ravel_lt _ _ Hi) as Rl. set (n := ravel (shape a) idx) in *.
  assert (SS : (sqrt (P / 2) * sqrt (P / 2) = P / 2)%R) by (apply sqrt_sqrt; lra). set (s := sqrt (P / 2)) in *.
  assert (Two : forall i j, i < 2 * prod (shape a) -> j < 2 * prod (shape a) -> E (fun w => (z w i * z w j)%R) = if i =? j then 1%R else 0%R) by exact V.
  assert (B : forall i j, i < 2 * prod (shape a) -> j < 2 * prod (shape a) -> E (fun w => ((P / 2) * (z w i * z w j))%R) = if i =? j then (P / 2)%R else 0%R).
  { intros i j Hi' Hj'. rewrite linear_scale, Two by assumption. destruct (i =? j); lra. }
  repeat split.
  - rewrite (X _ (fun w => (s * z w (2 * n)%nat)%R)) by (intros; rewrite N by exact Hi; reflexivity). rewrite linear_scale, M by (assumption || lia). lra.
  - rewrite (X _ (fun w => (s * z w (2 * n + 1)%nat)%R)) by (intros; rewrite N by exact Hi; reflexivity). rewrite linear_scale, M by (assumption || lia). lra.
  - rewrite (X _ (fun w => (P / 2 * (z w (2 * n)%nat * z w (2 * n)%nat) + P / 2 * (z w (2 * n + 1)%nat * z w (2 * n + 1)%nat))%R)).
    + rewrite L, !Two, !Nat.eqb_refl by lia. lra.
    + intros w. rewrite N by exact Hi. unfold Cmod. cbn [fst snd]. set (t := (_ ^ 2 + _ ^ 2)%R). replace (sqrt t ^ 2)%R with (sqrt t * sqrt t)%R by ring.
      rewrite sqrt_sqrt by (unfold t; nra). unfold t. rewrite <- SS. fold n. ring.
  - rewrite (X _ (fun w => (P / 2 * (z w (2 * n)%nat * z w (2 * n)%nat))%R)), B, Nat.eqb_refl by (try lia; intros w; rewrite N by exact Hi; unfold Re; cbn [fst]; rewrite <- SS; fold n; ring).
    rewrite (X _ (fun w => (P / 2 * (z w (2 * n + 1)%nat * z w (2 * n + 1)%nat))%R)), B, Nat.eqb_refl by (try lia; intros w; rewrite N by exact Hi; unfold Im; cbn [snd]; rewrite <- SS; fold n; ring). reflexivity.
  - rewrite (X _ (fun w => (P / 2 * (z w (2 * n)%nat * z w (2 * n + 1)%nat))%R)), B by (try lia; intros w; rewrite N by exact Hi; unfold Re, Im; cbn [fst snd]; rewrite <- SS; fold n; ring).
    destruct (Nat.eqb_spec (2 * n) (2 * n + 1)); [lia|reflexivity].
  - match goal with J : valid_index _ idx', K : idx' <> idx |- _ => rename J into Hj; rename K into Hne end.
    pose proof (ravel_lt _ _ Hj) as Rj. assert (D : ravel (shape a) idx' <> n) by (intros e; apply Hne; exact (ravel_inj _ _ _ Hj Hi e)). set (m := ravel (shape a) idx') in *.
    rewrite (X _ (fun w => (P / 2 * (z w (2 * n)%nat * z w (2 * m)%nat) + P / 2 * (z w (2 * n + 1)%nat * z w (2 * m + 1)%nat))%R)).
    + rewrite L, !Two by lia. destruct (Nat.eqb_spec (2 * n) (2 * m)); [lia|]. destruct (Nat.eqb_spec (2 * n + 1) (2 * m + 1)); [lia|]. lra.
    + intros w. rewrite !N by assumption. unfold Re, Cmult, Cconj. cbn [fst snd]. rewrite <- SS. fold n m. ring.
  - match goal with J : valid_index _ idx', K : idx' <> idx |- _ => rename J into Hj; rename K into Hne end.
    pose proof (ravel_lt _ _ Hj) as Rj. assert (D : ravel (shape a) idx' <> n) by (intros e; apply Hne; exact (ravel_inj _ _ _ Hj Hi e)). set (m := ravel (shape a) idx') in *.
    rewrite (X _ (fun w => (P / 2 * (z w (2 * n + 1)%nat * z w (2 * m)%nat) + - (P / 2) * (z w (2 * n)%nat * z w (2 * m + 1)%nat))%R)).
    + rewrite L, !Two by lia. destruct (Nat.eqb_spec (2 * n + 1) (2 * m)); [lia|]. destruct (Nat.eqb_spec (2 * n) (2 * m + 1)); [lia|]. lra.
    + intros w. rewrite !N by assumption. unfold Im, Cmult, Cconj. cbn [fst snd]. rewrite <- SS. fold n m. ring.
Qed.
(** such an expectation exists: the four sign pairs, each with probability 1/4, for two elements (or one complex one) *)
Theorem C103_gaussian_power_example :
  let sign (b : bool) := (if b then 1 else - 1)%R in
  let z (w : bool * bool) i := match i with 0 => sign (fst w) | 1 => sign (snd w) | _ => 0%R end in
  let E (f : bool * bool -> R) := ((f (true, true) + f (true, false) + f (false, true) + f (false, false)) / 4)%R in
  linear E /\ white E z 2.
Proof.
  cbv zeta. split; [split|split].
  - intros f h H. rewrite !H. reflexivity.
  - intros a b f h. lra.
  - intros [|[|i]] H; cbn [fst snd]; try lia; lra.
  - intros [|[|i]] [|[|j]] Hi Hj; try lia; cbn [fst snd Nat.eqb]; lra.
Qed.
(** noise power 0: the input comes back *)
Theorem C103_gaussian_silent : forall (G : Type) (r : generator G) (a : array R) (c : array C) (g : G), well_formed a -> well_formed c ->
  fst (gaussian_real r 0 a g) = Some a /\ fst (gaussian_complex r 0 c g) = Some c.
Proof.
  intros G r a c g Wa Wc. assert (K : forall A B (f : A -> B -> A) (x : array A) (l : list B), well_formed x -> length l = prod (shape x) ->
    (forall y z, In y (data x) -> In z l -> f y z = y) -> zip_nd f x l = x).
  { intros A B f [sh l0] l W L H. unfold zip_nd, well_formed in *. cbn [shape data] in *. f_equal. rewrite <- W in L. clear W. revert l L H.
    induction l0 as [|y l0 IH]; intros [|b l] L H; try discriminate; [reflexivity|]. cbn [combine map]. rewrite H by (left; reflexivity). f_equal. apply IH; [cbn in L; lia|].
    intros y' z' Hy Hz. apply H; right; assumption. }
  rewrite gaussian_real_eq, gaussian_complex_eq. cbn [fst]. split; f_equal.
  - apply K; [exact Wa|apply draws_length|]. intros y z _ _. rewrite sqrt_0. ring.
  - apply K; [exact Wc|apply pair_noise_length|]. intros y z _ Hz. assert (z = RtoC 0) as ->; [|apply Cplus_0_r].
    unfold pair_noise in Hz. apply in_map_iff in Hz. destruct Hz as (i & <- & _). replace (0 / 2)%R with 0%R by lra. rewrite sqrt_0.
    set (l := map (fun z => (0 + 0 * z)%R) _). assert (Z : forall j, nth j l 0%R = 0%R).
    { intros j. destruct (nth_in_or_default j l 0%R) as [Hin|]; [|assumption]. unfold l in Hin at 2. apply in_map_iff in Hin. destruct Hin as (w & <- & _). ring. }
    rewrite !Z. apply injective_projections; cbn; ring.
Qed.

(** *** C103: transmitting in pieces *)
Theorem C103_stream : forall (G : Type) (r : generator G) (p : R) (W : list (list R)),
  streams (bsc_transmit r p) /\ streams (bec_transmit r p) /\ streams (z_transmit r p) /\ streams (dmc_transmit r W) /\
  streams (gaussian_real r p) /\ streams (gaussian_complex r p).
Proof.
  intros G r p W. repeat split.
  - apply (zip_streams (fun g m => draws (next_uniform r) m g) (fun x u => ((x + b2z (Rltb u p)) mod 2)%Z)); [|intros; apply draws_length|intros; apply draws_add].
    intros a g. unfold bsc_transmit. destruct (draws _ _ g). reflexivity.
  - apply (zip_streams (fun g m => draws (next_uniform r) m g) (fun x u => if Rltb u p then 2%Z else x)); [|intros; apply draws_length|intros; apply draws_add].
    intros a g. unfold bec_transmit. destruct (draws _ _ g). reflexivity.
  - apply (zip_streams (fun g m => draws (next_uniform r) m g) (fun x u => (x * b2z (Rleb p u))%Z)); [|intros; apply draws_length|intros; apply draws_add].
    intros a g. unfold z_transmit. destruct (draws _ _ g). reflexivity.
  - apply dmc_streams.
  - apply gaussian_real_streams.
  - apply gaussian_complex_streams.
Qed.

(** *** C104 *)
(** Whatever else the program does, the calls that use generator number k get the answers that they would get if
    they were the only ones, and the generator ends in the corresponding state. *)
Theorem C104_replay : forall (G : Type) (r : generator G) (os : list (op G)) (w w' : world G) vs (k : nat) (seed : G),
  run r os w = Some (vs, w') -> nth_error (gens w ++ seeds os) k = Some seed ->
  answers_of k os w vs = fst (alone r (script k os w) seed) /\ nth_error (gens w') k = Some (snd (alone r (script k os w) seed)).
Proof. intros. eapply replay; eassumption. Qed.
(** so two programs that make the same requests of equally seeded generators get the same answers *)
Theorem C104_isolated : forall (G : Type) (r : generator G) (os1 os2 : list (op G)) (w1 w2 w1' w2' : world G) vs1 vs2 (k1 k2 : nat) (seed : G),
  run r os1 w1 = Some (vs1, w1') -> run r os2 w2 = Some (vs2, w2') ->
  nth_error (gens w1 ++ seeds os1) k1 = Some seed -> nth_error (gens w2 ++ seeds os2) k2 = Some seed ->
  script k1 os1 w1 = script k2 os2 w2 -> answers_of k1 os1 w1 vs1 = answers_of k2 os2 w2 vs2.
Proof.
  intros G r os1 os2 w1 w2 w1' w2' vs1 vs2 k1 k2 seed R1 R2 S1 S2 E. destruct (replay r k1 _ _ _ _ _ R1 S1) as [-> _]. destruct (replay r k2 _ _ _ _ _ R2 S2) as [-> _]. rewrite E. reflexivity.
Qed.
(** Seeding: a program that sets the global generator to a freshly seeded one, builds its objects without naming a
    generator and then calls their methods, answers the same wherever it starts. *)
Theorem C104_reproducible : forall (G : Type) (r : generator G) (seed : G) (ds : list device) (calls : list (nat * request)) (w : world G),
  Forall (fun d => accepts d = true) ds -> Forall (fun iq => fst iq < length ds) calls ->
  exists w' vs,
    run r (NewGenerator seed :: SetGlobal (length (gens w)) :: map (fun d => Construct d None) ds ++
           map (fun iq => Call (length (objects w) + fst iq) (snd iq)) calls) w = Some (vs, w') /\
    skipn (2 + length ds) vs = fst (alone r (map (fun iq => (nth (fst iq) ds (BSC 0), snd iq)) calls) seed).
Proof.
  intros G r seed ds calls w A F. cbn [run run_op gens global objects]. rewrite app_length. cbn [length]. destruct (Nat.ltb_spec (length (gens w)) (length (gens w) + 1)); [|lia].
  rewrite run_app. rewrite run_constructs by (cbn [gens global]; rewrite ?app_length; cbn [length]; first [lia|assumption]). cbn [gens global objects].
  set (w1 := World _ _ _). destruct (run_calls r ds (BSC 0) calls w1 (objects w) seed F) as [w' E].
  - reflexivity.
  - cbn [gens global w1]. rewrite nth_error_app2, Nat.sub_diag by lia. reflexivity.
  - rewrite E. exists w'. eexists. split; [reflexivity|]. cbn [Nat.add skipn]. rewrite skipn_app, map_length, Nat.sub_diag. cbn [skipn]. rewrite skipn_all2 by (rewrite map_length; lia). reflexivity.
Qed.
(** Setting the global generator does not reach the objects that exist already. *)
Theorem C104_late_set : forall (G : Type) (r : generator G) (k : nat) (calls : list (nat * request)) (w w' : world G) vs,
  run r (SetGlobal k :: map (fun iq => Call (fst iq) (snd iq)) calls) w = Some (vs, w') ->
  exists w'', run r (map (fun iq => Call (fst iq) (snd iq)) calls) w = Some (tl vs, w'') /\ gens w'' = gens w'.
Proof.
  intros G r k calls w w' vs H. cbn [run run_op] in H. destruct (k <? length (gens w)); [|discriminate].
  destruct (run r _ (World (gens w) k (objects w))) as [[vs1 w1]|] eqn:E; [|discriminate]. inversion H; subst. apply run_calls_global in E. eexists. split; [exact E|reflexivity].
Qed.
(** No operation leaves a dangling reference or an object with parameters that the constructor refuses; on such a
    state, constructing with the default generator and calling any existing object is always possible. *)
Theorem C104_sound : forall (G : Type) (r : generator G) (os : list (op G)) (w : world G), sound w ->
  (forall vs w', run r os w = Some (vs, w') -> sound w') /\
  (forall d, run_op r (Construct d None) w <> None) /\
  (forall i q, i < length (objects w) -> run_op r (Call i q) w <> None).
Proof.
  intros G r os w H. split; [|split].
  - revert w H. induction os as [|o os IH]; intros w H vs w' E; cbn [run] in E; [inversion E; subst; exact H|]. destruct (run_op r o w) as [[v w1]|] eqn:E1; [|discriminate].
    destruct (run r os w1) as [[vs1 w2]|] eqn:E2; [|discriminate]. inversion E; subst. eapply IH; [eapply sound_run_op; eassumption|exact E2].
  - intros d. cbn [run_op]. destruct H as [H _]. destruct (Nat.ltb_spec (global w) (length (gens w))); [discriminate|lia].
  - intros i q Hi. cbn [run_op]. destruct (nth_error (objects w) i) as [[d k]|] eqn:E; [|apply nth_error_None in E; lia]. destruct H as [_ F]. rewrite Forall_forall in F.
    destruct (F (d, k) (nth_error_In _ _ E)) as [Hk _]. cbn [snd] in Hk. destruct (nth_error (gens w) k) as [g|] eqn:Eg; [|apply nth_error_None in Eg; lia].
    destruct (call r d q g). discriminate.
Qed.
(** An example: generators that count (variate = state / 10), two channels on two generators, calls interleaved. *)
Theorem C104_example :
  let r := playback (fun k => (INR k / 10)%R) (fun k => INR k) in
  let bits := Arr [3] [1; 1; 0]%Z in
  let w := World [7; 0] 0 [(BSC (1 / 4), 0); (BEC (1 / 4), 1)] in
  sound w /\ script 0 [Call 1 (Transmit bits); SetGlobal 1; Construct (ZChannel 0) None; Call 0 (Transmit bits)] w = [(BSC (1 / 4), Transmit bits)] /\
  exists vs w', run r [Call 1 (Transmit bits); SetGlobal 1; Construct (ZChannel 0) None; Call 0 (Transmit bits)] w = Some (vs, w') /\
    nth 0 vs None = Some (VInts (Arr [3] [2; 2; 2]%Z)) /\ nth 3 vs None = Some (VInts bits) /\ gens w' = [10; 3].
Proof.
  cbv zeta. assert (A : forall p, (0 <= p <= 1)%R -> valid_probability p = true) by (intros p Hp; unfold valid_probability; rewrite !(proj2 (Rleb_spec _ _)) by lra; reflexivity).
  split; [|split].
  - unfold sound. cbn [global gens objects length]. split; [lia|]. repeat constructor; cbn [snd fst accepts]; try lia; apply A; lra.
  - unfold script. cbn [requests global objects accepts]. rewrite A by lra. reflexivity.
  - assert (L0 : Rltb (INR 0 / 10) (1 / 4) = true) by (apply Rltb_spec; cbn; lra). assert (L1 : Rltb (INR 1 / 10) (1 / 4) = true) by (apply Rltb_spec; cbn; lra).
    assert (L2 : Rltb (INR 2 / 10) (1 / 4) = true) by (apply Rltb_spec; cbn; lra).
    assert (L7 : forall k, 7 <= k -> Rltb (INR k / 10) (1 / 4) = false) by (intros k Hk; destruct (Rltb (INR k / 10) (1 / 4)) eqn:E; [|reflexivity]; apply Rltb_spec in E; apply le_INR in Hk; cbn in Hk; lra).
    set (r := playback _ _). set (bits := Arr [3] [1; 1; 0]%Z).
    assert (C1 : call r (BEC (1 / 4)) (Transmit bits) 0 = (Some (VInts (Arr [3] [2; 2; 2]%Z)), 3)).
    { cbn [call]. unfold bec_transmit, answer, bits, r. cbn [shape prod draws playback next_uniform fold_right Nat.mul Nat.add fst snd option_map]. unfold zip_nd. cbn [data shape combine map].
      rewrite L0, L1, L2. reflexivity. }
    assert (C2 : call r (BSC (1 / 4)) (Transmit bits) 7 = (Some (VInts bits), 10)).
    { cbn [call]. unfold bsc_transmit, answer, bits, r. cbn [shape prod draws playback next_uniform fold_right Nat.mul Nat.add fst snd option_map]. unfold zip_nd. cbn [data shape combine map].
      rewrite !L7 by lia. reflexivity. }
    assert (C3 : accepts (ZChannel 0) = true) by (apply A; lra). clearbody r.
    cbn [run]. unfold run_op at 1. cbn [nth_error objects gens]. rewrite C1. cbn [set_nth firstn skipn app gens global objects].
    unfold run_op at 1. cbn [set_nth firstn skipn app gens global objects length Nat.ltb Nat.leb].
    unfold run_op at 1. rewrite C3. cbn [set_nth firstn skipn app gens global objects length Nat.ltb Nat.leb].
    unfold run_op at 1. cbn [nth_error objects gens]. unfold set_nth at 1. cbn [firstn skipn app nth_error]. rewrite C2.
    eexists. eexists. split; [reflexivity|]. repeat split.
Qed.
