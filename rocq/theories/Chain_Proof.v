(* Proofs for C115. *)
From Coq Require Import Reals Lra.
From Coquelicot Require Import Complex.
From Verif Require Import Common Bits_Model Labeling_Model Labeling_Spec Labeling_Proof Corr_Model Quant_Model Const_Model Const_Spec Const_Proof Const_Post Chain_Spec.
Local Open Scope nat_scope.

Lemma differences_le a : forall b, differences a b <= length a.
Proof. induction a as [|x a IH]; intros [|y b]; cbn; try lia. specialize (IH b). destruct (Bool.eqb x y); lia. Qed.
Lemma differences_sym a : forall b, differences a b = differences b a.
Proof. induction a as [|x a IH]; intros [|y b]; cbn; auto. rewrite IH. now destruct x, y. Qed.
Lemma differences_tri a : forall b c, length b = length a -> length c = length a -> differences a c <= differences a b + differences b c.
Proof.
  induction a as [|x a IH]; intros [|y b] [|z c] H1 H2; cbn in *; try lia. specialize (IH b c ltac:(lia) ltac:(lia)).
  destruct x, y, z; cbn; lia.
Qed.

(* ---- one error bound per symbol gives a bound for the sequence ---- *)
Section Generic.
  Variables (l : labeling) (K : constellation).
  Hypothesis Cl : constructed l.
  Hypothesis Hm : 0 < num_bits l.
  Hypothesis D : 0 < dimension K.
  Hypothesis Rw : Forall (fun p => length p = dimension K) (matrix K).
  Hypothesis EL : length (matrix K) = 2 ^ num_bits l.
  Hypothesis Nr : forall r, length r = dimension K -> closest K r < 2 ^ num_bits l.
  Variable err : list C -> list C -> nat.
  Hypothesis Herr : forall i r, i < 2 ^ num_bits l -> length r = dimension K ->
    differences (label_of l i) (label_of l (closest K r)) <= err (nth i (matrix K) []) r.

  Lemma generic_differences idx : forall rs, length rs = length idx -> Forall (fun i => i < 2 ^ num_bits l) idx -> Forall (fun r => length r = dimension K) rs ->
    differences (concat (map (label_of l) idx)) (concat (map (label_of l) (map (closest K) rs))) <=
    list_sum (map (fun sr => err (fst sr) (snd sr)) (combine (map (fun i => nth i (matrix K) []) idx) rs)).
  Proof.
    induction idx as [|i idx IH]; intros [|r rs] L F1 F2; cbn [length] in L; try lia; cbn [map concat combine list_sum]; [cbn; lia|].
    inversion F1; inversion F2; subst. rewrite differences_app.
    - specialize (IH rs ltac:(lia)). specialize (Herr i r ltac:(assumption) ltac:(assumption)). cbn [fst snd]. change (list_sum (?x :: ?y)) with (x + list_sum y). specialize (IH ltac:(assumption) ltac:(assumption)). lia.
    - destruct (object_pair l Cl) as [OP _]. rewrite (proj1 (OP i ltac:(assumption))). symmetry. apply OP. auto.
  Qed.
  Lemma generic_chain bits T : 0 < T -> length bits = T * num_bits l ->
    exists ss, modulate l K bits = Some (concat ss) /\ length ss = T /\ Forall (fun s => length s = dimension K) ss /\
    forall rs, length rs = T -> Forall (fun r => length r = dimension K) rs ->
    exists out, demodulate l K (concat rs) = Some out /\ length out = length bits /\
      differences bits out <= list_sum (map (fun sr => err (fst sr) (snd sr)) (combine ss rs)).
  Proof.
    intros HT L. destruct (seq_round_trip' _ _ _ (object_pair l Cl) Hm bits T HT L) as (M0 & rows & A & Lr & Fr & Fi & E).
    set (idx := map (index_of l) rows) in *. assert (Li : length idx = T) by (unfold idx; now rewrite map_length).
    exists (map (fun i => nth i (matrix K) []) idx). split.
    { unfold modulate. rewrite (object_b2i l bits rows) by auto. fold idx. unfold indices_to_symbols. rewrite (proj2 (forallb_forall _ _)); [reflexivity|].
      intros i Hi. apply Nat.ltb_lt. rewrite EL. rewrite Forall_forall in Fi. auto. }
    split; [now rewrite map_length|]. split.
    { apply Forall_forall. intros s Hs. apply in_map_iff in Hs as (i & <- & Hi). rewrite Forall_forall in Rw, Fi. apply Rw, nth_In. rewrite EL. auto. }
    intros rs Lrs Frs. exists (concat (map (label_of l) (map (closest K) rs))). split.
    { unfold demodulate. rewrite closest_concat by auto. apply object_i2b; auto. apply Forall_forall. intros i Hi. apply in_map_iff in Hi as (r & <- & Hr). rewrite Forall_forall in Frs. auto. }
    split.
    { rewrite (concat_length_m (num_bits l)), !map_length; [lia|]. apply Forall_forall. intros b Hb. apply in_map_iff in Hb as (i & <- & Hi). apply in_map_iff in Hi as (r & <- & Hr).
      rewrite Forall_forall in Frs. apply object_pair; auto. }
    rewrite <- E at 1. apply generic_differences; auto. lia.
  Qed.
End Generic.

(* ---- half the minimum distance ---- *)
Local Open Scope R_scope.
Lemma sq_expand (a b : C) : Cmod (Cminus a b) ^ 2 = (fst a - fst b) ^ 2 + (snd a - snd b) ^ 2.
Proof. pose proof (dist2_1 a b) as H. cbn [dist2] in H. lra. Qed.
Lemma dist2_par p : forall q r, length q = length p -> length r = length p -> dist2 p q <= 2 * dist2 r p + 2 * dist2 r q.
Proof.
  induction p as [|a p IH]; intros [|b q] [|c r] H1 H2; cbn [length] in *; try lia; cbn [dist2]; [lra|]. specialize (IH q r ltac:(lia) ltac:(lia)). rewrite !sq_expand.
  assert (P : forall x y z : R, (x - y) ^ 2 <= 2 * (z - x) ^ 2 + 2 * (z - y) ^ 2) by (intros x y z; pose proof (pow2_ge_0 (2 * z - x - y)); lra).
  pose proof (P (fst a) (fst b) (fst c)). pose proof (P (snd a) (snd b) (snd c)). lra.
Qed.
Lemma within_half (points : list (list C)) n d i k r : Forall (fun p => length p = n) points -> (i < length points)%nat -> nearest points r k -> length r = n -> spaced points d ->
  i <> k -> d ^ 2 <= 4 * dist2 (nth i points []) r.
Proof.
  intros F Hi [Hk N] Lr S Ne. rewrite Forall_forall in F.
  assert (Dk : d ^ 2 <= dist2 (nth i points []) (nth k points [])).
  { destruct (Nat.lt_gt_cases i k) as [Hx _]. destruct (Hx Ne); [apply S; lia|]. rewrite dist2_sym. apply S; lia. }
  pose proof (dist2_par (nth i points []) (nth k points []) r) as T. rewrite !F in T by (apply nth_In; auto). specialize (T eq_refl Lr).
  specialize (N i Hi). rewrite (dist2_sym r (nth i points [])) in *. lra.
Qed.

(* ---- steps ---- *)
Lemma steps_spec d x (z : Z) : 0 < d -> Rabs (x / d - IZR z) <= 1 / 2 -> (Z.abs_nat z <= steps d x)%nat.
Proof.
  intros Hd H. unfold steps. assert (E : Rabs x / d = Rabs (x / d)). { unfold Rdiv. rewrite Rabs_mult. f_equal. rewrite Rabs_pos_eq; auto. left. now apply Rinv_0_lt_compat. }
  rewrite E. set (t := x / d) in *. destruct (base_Int_part (Rabs t + 1 / 2)) as [B1 B2].
  assert (A : IZR (Z.abs z) <= Rabs t + 1 / 2).
  { rewrite abs_IZR. unfold Rabs in *. destruct (Rcase_abs t), (Rcase_abs (IZR z)), (Rcase_abs (t - IZR z)); lra. }
  assert (G : (Z.abs z < Int_part (Rabs t + 1 / 2) + 1)%Z). { apply lt_IZR. rewrite plus_IZR. lra. }
  lia.
Qed.
Lemma axis_steps M d x i : 0 < d -> (i < M)%nat ->
  let j := clip M (npround (x / d + (INR M - 1) / 2)) in
  (Z.abs_nat (Z.of_nat j - Z.of_nat i) <= steps d (x - (INR i - (INR M - 1) / 2) * d))%nat.
Proof.
  intros Hd Hi j. set (u := x / d + (INR M - 1) / 2). set (t := x - _). assert (Et : t / d = u - INR i) by (unfold t, u; field; lra).
  pose proof (npround_near u) as N. fold u in j. set (z := npround u) in *.
  assert (H : (Z.abs_nat (z - Z.of_nat i) <= steps d t)%nat). { apply steps_spec; auto. rewrite Et, minus_IZR, <- INR_IZR_INZ. replace (u - INR i - (IZR z - INR i)) with (u - IZR z) by ring. exact N. }
  unfold j, clip. lia.
Qed.

(* ---- reflected labels ---- *)
Local Open Scope nat_scope.
Lemma reflected_far m : 0 < m -> forall n i, i + n < 2 ^ m -> differences (nth i (reflected_matrix m) []) (nth (i + n) (reflected_matrix m) []) <= n.
Proof.
  intros Hm. assert (Lm : forall i, i < 2 ^ m -> length (nth i (reflected_matrix m) []) = m).
  { intros i Hi. destruct (inverse_pair_table _ _ _ (reflected_pair m)) as (L & F & _). change (map _ (seq 0 (2 ^ m))) with (reflected_matrix m) in *. rewrite Forall_forall in F. apply F, nth_In. rewrite L. auto. }
  induction n as [|n IH]; intros i Hi; [rewrite Nat.add_0_r, differences_refl; lia|].
  specialize (IH i ltac:(lia)). pose proof (reflected_adjacent m (i + n) Hm ltac:(lia)) as A. rewrite Nat.mod_small in A by lia. replace (i + n + 1) with (i + S n) in A by lia.
  pose proof (differences_tri (nth i (reflected_matrix m) []) (nth (i + n) (reflected_matrix m) []) (nth (i + S n) (reflected_matrix m) [])) as T.
  rewrite !Lm in T by lia. specialize (T eq_refl eq_refl). lia.
Qed.
Lemma reflected_dist m i j : 0 < m -> i < 2 ^ m -> j < 2 ^ m ->
  differences (nth i (reflected_matrix m) []) (nth j (reflected_matrix m) []) <= Z.abs_nat (Z.of_nat j - Z.of_nat i).
Proof.
  intros Hm Hi Hj. destruct (Nat.le_gt_cases i j).
  - pose proof (reflected_far m Hm (j - i) i ltac:(lia)) as R. replace (i + (j - i)) with j in R by lia. lia.
  - rewrite differences_sym. pose proof (reflected_far m Hm (i - j) j ltac:(lia)) as R. replace (j + (i - j)) with i in R by lia. lia.
Qed.

(* ---- PSK with reflected labels ---- *)
Lemma reflected_cyclic m : 0 < m -> forall n i, i < 2 ^ m -> differences (nth i (reflected_matrix m) []) (nth ((i + n) mod 2 ^ m) (reflected_matrix m) []) <= n.
Proof.
  intros Hm. assert (NZ : 2 ^ m <> 0) by (apply Nat.pow_nonzero; lia).
  assert (Lm : forall i, i < 2 ^ m -> length (nth i (reflected_matrix m) []) = m).
  { intros i Hi. destruct (inverse_pair_table _ _ _ (reflected_pair m)) as (L & F & _). change (map _ (seq 0 (2 ^ m))) with (reflected_matrix m) in *. rewrite Forall_forall in F. apply F, nth_In. rewrite L. auto. }
  induction n as [|n IH]; intros i Hi; [rewrite Nat.add_0_r, Nat.mod_small, differences_refl by auto; lia|].
  specialize (IH i Hi). pose proof (Nat.mod_upper_bound (i + n) _ NZ) as B. pose proof (reflected_adjacent m ((i + n) mod 2 ^ m) Hm B) as A.
  rewrite Nat.add_mod_idemp_l in A by auto. replace (i + n + 1) with (i + S n) in A by lia. pose proof (Nat.mod_upper_bound (i + S n) _ NZ) as B'.
  pose proof (differences_tri (nth i (reflected_matrix m) []) (nth ((i + n) mod 2 ^ m) (reflected_matrix m) []) (nth ((i + S n) mod 2 ^ m) (reflected_matrix m) [])) as T.
  rewrite !Lm in T by auto. specialize (T eq_refl eq_refl). lia.
Qed.
Lemma reflected_ring m i (z : Z) : 0 < m -> i < 2 ^ m ->
  differences (nth i (reflected_matrix m) []) (nth (Z.to_nat ((Z.of_nat i + z) mod Z.of_nat (2 ^ m))) (reflected_matrix m) []) <= Z.abs_nat z.
Proof.
  intros Hm Hi. assert (NZ : 2 ^ m <> 0) by (apply Nat.pow_nonzero; lia). set (M := Z.of_nat (2 ^ m)). set (j := Z.to_nat _).
  pose proof (Z.mod_pos_bound (Z.of_nat i + z) M ltac:(lia)) as B. assert (Hj : j < 2 ^ m) by lia.
  destruct (Z.le_gt_cases 0 z).
  - replace j with ((i + Z.abs_nat z) mod 2 ^ m); [now apply reflected_cyclic|]. apply Nat2Z.inj. rewrite Nat2Z.inj_mod. fold M. unfold j. rewrite Z2Nat.id by lia. f_equal. lia.
  - rewrite differences_sym. assert (E : i = (j + Z.abs_nat z) mod 2 ^ m).
    { apply Nat2Z.inj. rewrite Nat2Z.inj_mod. fold M. rewrite Nat2Z.inj_add. unfold j. rewrite Z2Nat.id by lia. rewrite Z.add_mod_idemp_l by lia. rewrite Z.mod_small; lia. }
    rewrite E at 1. now apply reflected_cyclic.
Qed.
Local Open Scope R_scope.
Lemma angle_of_polar rho t : 0 < rho -> exists k : Z, angle (Cmult (RtoC rho) (cexp t)) = t + 2 * PI * IZR k.
Proof.
  intros H. set (w := Cmult (RtoC rho) (cexp t)). pose proof (angle_spec w) as E. assert (Mw : Cmod w = rho).
  { unfold w. rewrite Cmod_mult, Cmod_R, Rabs_pos_eq by lra. unfold cexp, Cmod. cbn [fst snd]. replace (cos t ^ 2 + sin t ^ 2) with 1 by (pose proof (sin2_cos2 t) as Q; unfold Rsqr in Q; lra). rewrite sqrt_1. ring. }
  rewrite Mw in E. remember (angle w) as th eqn:Eth. unfold w, Cmult, RtoC, cexp in E. cbn [fst snd] in E. injection E as E1 E2. rewrite Eth in E1, E2.
  assert (C1 : cos t = cos (angle w)) by (apply (Rmult_eq_reg_l rho); lra). assert (S1 : sin t = sin (angle w)) by (apply (Rmult_eq_reg_l rho); lra).
  destruct (Corr_Proof.cexp_eq_1 (angle w - t)) as [k Hk].
  - unfold cexp. rewrite cos_minus, sin_minus, <- C1, <- S1. unfold RtoC. f_equal; pose proof (sin2_cos2 t) as Q; unfold Rsqr in Q; lra.
  - exists k. lra.
Qed.
Lemma psk_steps M A phi i rho t : (i < M)%nat -> 0 < A -> 0 < rho ->
  let s := Cmult (Cmult (RtoC A) (cexp (2 * PI * INR i / INR M))) (rotation phi) in
  exists z : Z, psk_closest M phi (Cmult (RtoC rho) (Cmult s (cexp t))) = Z.to_nat ((Z.of_nat i + z) mod Z.of_nat M) /\
    (Z.abs_nat z <= steps (2 * PI / INR M) t)%nat.
Proof.
  intros Hi HA Hr s. assert (PM : 0 < INR M) by (apply lt_0_INR; lia). pose proof PI_RGT_0 as PP.
  unfold psk_closest. set (w := Cmult _ (cexp (- (2 * PI * phi)))).
  assert (Ew : w = Cmult (RtoC (rho * A)) (cexp (2 * PI * INR i / INR M + t))).
  { unfold w, s, rotation. assert (X : forall a b, cexp (a + b) = Cmult (cexp a) (cexp b)). { intros a b. unfold cexp, Cmult. cbn [fst snd]. rewrite cos_plus, sin_plus. f_equal; ring. }
    assert (I1 : Cmult (cexp (2 * PI * phi)) (cexp (- (2 * PI * phi))) = RtoC 1) by (rewrite <- X, Rplus_opp_r; unfold cexp; rewrite cos_0, sin_0; reflexivity).
    rewrite X, RtoC_mult. transitivity (Cmult (Cmult (Cmult (RtoC rho) (RtoC A)) (Cmult (cexp (2 * PI * INR i / INR M)) (cexp t))) (Cmult (cexp (2 * PI * phi)) (cexp (- (2 * PI * phi))))); [ring|rewrite I1; ring]. }
  destruct (angle_of_polar (rho * A) (2 * PI * INR i / INR M + t)) as [k Hk]; [now apply Rmult_lt_0_compat|]. rewrite <- Ew in Hk.
  set (n := npround _). pose proof (npround_near (INR M * (angle w / (2 * PI)))) as N. fold n in N.
  exists (n - Z.of_nat i - k * Z.of_nat M)%Z. split.
  - replace (Z.of_nat i + (n - Z.of_nat i - k * Z.of_nat M))%Z with (n + (- k) * Z.of_nat M)%Z by ring. now rewrite Z_mod_plus_full.
  - apply steps_spec; [apply Rdiv_lt_0_compat; lra|]. rewrite !minus_IZR, mult_IZR, <- !INR_IZR_INZ. rewrite Hk in N.
    replace (t / (2 * PI / INR M) - (IZR n - INR i - IZR k * INR M)) with (INR M * ((2 * PI * INR i / INR M + t + 2 * PI * IZR k) / (2 * PI)) - IZR n); [exact N|]. field. split; lra.
Qed.
