(* Proofs about constellations. *)
From Coq Require Import Reals Lra.
From Coquelicot Require Import Complex.
From Verif Require Import Common Conv_Model Conv_Proof Corr_Model Corr_Spec Corr_Proof BlockCode_Model Decoders_Proof Quant_Model Quant_Proof Const_Model Const_Spec.
Local Open Scope R_scope.

(* ---- rounding ---- *)
Lemma npround_near x : Rabs (x - IZR (npround x)) <= 1 / 2.
Proof.
  unfold npround. destruct (base_Int_part x) as [H1 H2]. destruct (Rltb_spec (x - IZR (Int_part x)) (1/2)); [apply Rabs_le; lra|].
  destruct (Rltb_spec (1/2) (x - IZR (Int_part x))); [rewrite plus_IZR; apply Rabs_le; lra|].
  destruct (Z.even _); [|rewrite plus_IZR]; apply Rabs_le; lra.
Qed.
Lemma IZR_INR z : (0 <= z)%Z -> INR (Z.to_nat z) = IZR z.
Proof. intros H. rewrite INR_IZR_INZ, Z2Nat.id; auto. Qed.
Lemma clip_bound M z : (1 <= M)%nat -> (clip M z < M)%nat.
Proof. unfold clip. lia. Qed.
Lemma round_clip_nearest M x j : (j < M)%nat -> Rabs (x - INR (clip M (npround x))) <= Rabs (x - INR j).
Proof.
  intros Hj. pose proof (npround_near x) as H. set (z := npround x) in *. assert (Z0 : - (1/2) <= x - IZR z <= 1/2) by (unfold Rabs in H; destruct (Rcase_abs _); lra).
  clear H. unfold clip. rewrite IZR_INR by lia. rewrite (INR_IZR_INZ j). set (c := Z.min (Z.max z 0) (Z.of_nat M - 1)). set (w := Z.of_nat j).
  assert (Hc : (c = z \/ (z < c /\ c = 0) \/ (c < z /\ c = Z.of_nat M - 1))%Z) by lia. assert (Hw : (0 <= w <= Z.of_nat M - 1)%Z) by lia.
  destruct (Z.lt_trichotomy c w) as [L|[->|L]]; [|lra|].
  - assert (IZR c + 1 <= IZR w) by (rewrite <- plus_IZR; apply IZR_le; lia). assert (x <= IZR c + 1/2).
    { assert (z <= c)%Z by lia. apply IZR_le in H0. lra. } rewrite (Rabs_left1 (x - IZR w)) by lra. apply Rabs_le. lra.
  - assert (IZR w + 1 <= IZR c) by (rewrite <- plus_IZR; apply IZR_le; lia). assert (IZR c - 1/2 <= x).
    { assert (c <= z)%Z by lia. apply IZR_le in H0. lra. } rewrite (Rabs_pos_eq (x - IZR w)) by lra. apply Rabs_le. lra.
Qed.
Lemma sq_le_of_abs a b : Rabs a <= Rabs b -> a ^ 2 <= b ^ 2.
Proof. intros H. rewrite <- (pow2_abs a), <- (pow2_abs b). apply pow_incr. split; [apply Rabs_pos|exact H]. Qed.

(* ---- distances ---- *)
Lemma sqnorm_dist2 r p : sqnorm_diff r p = dist2 r p.
Proof. revert p. induction r as [|a r IH]; intros [|b p]; cbn; auto; now rewrite IH. Qed.
Lemma Cmod2 z : Cmod z ^ 2 = fst z ^ 2 + snd z ^ 2.
Proof. unfold Cmod. rewrite pow2_sqrt; [reflexivity|]. nra. Qed.
Lemma dist2_1 a b : dist2 [a] [b] = (fst a - fst b) ^ 2 + (snd a - snd b) ^ 2.
Proof. cbn [dist2]. rewrite Cmod2. unfold Cminus, Cplus, Copp. cbn. ring. Qed.
Lemma dist2_sym p q : dist2 p q = dist2 q p.
Proof. revert q. induction p as [|a p IH]; intros [|b q]; cbn [dist2]; auto. rewrite IH, !Cmod2. unfold Cminus, Cplus, Copp. cbn. ring. Qed.
Lemma dist2_nonneg p q : 0 <= dist2 p q.
Proof. revert q. induction p as [|a p IH]; intros [|b q]; cbn [dist2]; try lra. specialize (IH q). pose proof (pow2_ge_0 (Cmod (Cminus a b))). lra. Qed.
Lemma dist2_refl p : dist2 p p = 0.
Proof. induction p as [|a p IH]; cbn [dist2]; auto. rewrite IH, Cmod2. unfold Cminus, Cplus, Copp. cbn. ring. Qed.
(* rotating a point *)
Lemma dist2_rot w z t : dist2 [w] [Cmult z (cexp t)] = dist2 [Cmult w (cexp (- t))] [z].
Proof.
  rewrite !dist2_1. destruct w as [a b], z as [c d]. unfold cexp. rewrite cos_neg, sin_neg. pose proof (sin2_cos2 t) as E. unfold Rsqr in E.
  unfold Cmult. cbn [fst snd]. set (C := cos t) in *. set (S := sin t) in *.
  replace ((a - (c * C - d * S)) ^ 2 + (b - (c * S + d * C)) ^ 2) with (a ^ 2 + b ^ 2 + (c ^ 2 + d ^ 2) * (S * S + C * C) - 2 * (a * (c * C - d * S) + b * (c * S + d * C))) by ring.
  replace ((a * C - b * - S - c) ^ 2 + (a * - S + b * C - d) ^ 2) with ((a ^ 2 + b ^ 2) * (S * S + C * C) + c ^ 2 + d ^ 2 - 2 * (a * (c * C - d * S) + b * (c * S + d * C))) by ring.
  rewrite E. ring.
Qed.
Lemma dist2_rot2 z z' t : dist2 [Cmult z (cexp t)] [Cmult z' (cexp t)] = dist2 [z] [z'].
Proof.
  rewrite dist2_rot. rewrite <- Cmult_assoc, <- cexp_add. replace (t + - t) with 0 by ring. now rewrite cexp_0, Cmult_1_r.
Qed.
Lemma nth_map_pt {A} (f : A -> list C) (l : list A) k d : (k < length l)%nat -> nth k (map f l) [] = f (nth k l d).
Proof. intros H. rewrite nth_indep with (d' := f d) by now rewrite map_length. apply map_nth. Qed.

(* ---- generic argmin ---- *)
Lemma argmin_spec l : l <> [] -> (argmin l < length l)%nat /\ (forall i, (i < length l)%nat -> nth (argmin l) l 0 <= nth i l 0) /\ (forall i, (i < argmin l)%nat -> nth (argmin l) l 0 < nth i l 0).
Proof.
  intros N. unfold argmin. destruct (argmin_by_spec Rleb) with (l := l) (d := 0) as (H1 & H2 & H3); auto.
  - intros x y. destruct (Rleb_spec x y); auto. right. destruct (Rleb_spec y x); auto. lra.
  - intros x y z. destruct (Rleb_spec x y), (Rleb_spec y z), (Rleb_spec x z); auto; lra.
  - repeat split; auto; intros i Hi; [specialize (H2 i Hi)|specialize (H3 i Hi)].
    + now destruct (Rleb_spec (nth (argmin_by Rleb l) l 0) (nth i l 0)).
    + destruct (Rleb_spec (nth i l 0) (nth (argmin_by Rleb l) l 0)); [discriminate|lra].
Qed.
Lemma argmax_spec l : l <> [] -> (argmax l < length l)%nat /\ (forall i, (i < length l)%nat -> nth i l 0 <= nth (argmax l) l 0) /\ (forall i, (i < argmax l)%nat -> nth i l 0 < nth (argmax l) l 0).
Proof.
  intros N. unfold argmax. destruct (argmin_by_spec (fun x y => Rleb y x)) with (l := l) (d := 0) as (H1 & H2 & H3); auto.
  - intros x y. destruct (Rleb_spec x y); auto. left. destruct (Rleb_spec y x); auto. lra.
  - intros x y z. destruct (Rleb_spec y x), (Rleb_spec z y), (Rleb_spec z x); auto; lra.
  - repeat split; auto; intros i Hi; [specialize (H2 i Hi)|specialize (H3 i Hi)]; cbn beta in *; set (p := argmin_by (fun x y => Rleb y x) l) in *.
    + now destruct (Rleb_spec (nth i l 0) (nth p l 0)).
    + destruct (Rleb_spec (nth p l 0) (nth i l 0)); [discriminate|lra].
Qed.
Lemma sqd_length m r : length (squared_distances m r) = length m.
Proof. apply map_length. Qed.
Lemma sqd_nth m r i : (i < length m)%nat -> nth i (squared_distances m r) 0 = dist2 r (nth i m []).
Proof.
  intros H. unfold squared_distances. rewrite nth_indep with (d' := sqnorm_diff r []) by now rewrite map_length. rewrite map_nth. apply sqnorm_dist2.
Qed.
Lemma base_nearest m r : m <> [] -> nearest m r (base_closest m r) /\ (forall i, (i < base_closest m r)%nat -> dist2 r (nth (base_closest m r) m []) < dist2 r (nth i m [])).
Proof.
  intros N. unfold base_closest. destruct (argmin_spec (squared_distances m r)) as (H1 & H2 & H3).
  - intros E. apply (f_equal (@length R)) in E. rewrite sqd_length in E. destruct m; easy.
  - rewrite sqd_length in *. split; [split; [exact H1|]|].
    + intros j Hj. specialize (H2 j Hj). now rewrite !sqd_nth in H2 by auto.
    + intros i Hi. specialize (H3 i Hi). now rewrite !sqd_nth in H3 by lia.
Qed.

(* ---- PAM ---- *)
Lemma pam_length M d : length (pam_points M d) = M.
Proof. apply linspace_length. Qed.
Lemma pam_nth M d i : (i < M)%nat -> nth i (pam_points M d) 0 = (INR i - (INR M - 1) / 2) * d.
Proof.
  intros H. unfold pam_points, linspace. rewrite nth_map_seq by auto. destruct (Nat.eq_dec M 1) as [->|N].
  - assert (i = 0)%nat by lia. subst. cbn. lra.
  - assert (2 <= M)%nat as L by lia. apply le_INR in L. cbn in L. field. lra.
Qed.
Lemma pam_matrix_nth M d i : (i < M)%nat -> nth i (map (fun x => [RtoC x]) (pam_points M d)) [] = [RtoC ((INR i - (INR M - 1) / 2) * d)].
Proof. intros H. rewrite nth_map_pt with (d := 0) by now rewrite pam_length. now rewrite pam_nth. Qed.
Lemma pam_axis_nearest M d x j : d <> 0 -> (j < M)%nat ->
  (x - (INR (clip M (npround (x / d + (INR M - 1) / 2))) - (INR M - 1) / 2) * d) ^ 2 <= (x - (INR j - (INR M - 1) / 2) * d) ^ 2.
Proof.
  intros Hd Hj. set (u := x / d + (INR M - 1) / 2). assert (Ex : x = (u - (INR M - 1) / 2) * d) by (unfold u; field; auto). rewrite Ex.
  set (c := clip M (npround u)). replace (((u - (INR M - 1) / 2) * d - (INR c - (INR M - 1) / 2) * d) ^ 2) with ((u - INR c) ^ 2 * d ^ 2) by ring.
  replace (((u - (INR M - 1) / 2) * d - (INR j - (INR M - 1) / 2) * d) ^ 2) with ((u - INR j) ^ 2 * d ^ 2) by ring.
  apply Rmult_le_compat_r; [apply pow2_ge_0|]. apply sq_le_of_abs. now apply round_clip_nearest.
Qed.
Lemma pam_nearest M d z : (1 <= M)%nat -> d <> 0 -> nearest (matrix (PAMConstellation M d)) [z] (closest (PAMConstellation M d) [z]).
Proof.
  intros HM Hd. cbn [matrix closest PAMConstellation coord nth]. split; [rewrite map_length, pam_length; apply clip_bound; auto|].
  intros j Hj. rewrite map_length, pam_length in Hj. rewrite !pam_matrix_nth by (auto; apply clip_bound; auto). rewrite !dist2_1. cbn [fst snd RtoC].
  pose proof (pam_axis_nearest M d (fst z) j Hd Hj). unfold pam_closest. lra.
Qed.

(* ---- QAM ---- *)
Lemma concat_nth {A} (d : A) (Mi Mq : nat) (f : nat -> nat -> A) i q : (i < Mi)%nat -> (q < Mq)%nat ->
  nth (Mq * i + q) (concat (map (fun a => map (fun b => f a b) (seq 0 Mq)) (seq 0 Mi))) d = f i q.
Proof.
  intros Hi Hq. assert (K : forall n s, (i < n)%nat -> nth (Mq * i + q) (concat (map (fun a => map (fun b => f a b) (seq 0 Mq)) (seq s n))) d = f (s + i)%nat q).
  { clear Hi. induction i as [|i IH]; intros [|n] s Hi; try lia; cbn [seq map concat].
    - rewrite app_nth1 by (rewrite map_length, seq_length; lia). rewrite Nat.mul_0_r, Nat.add_0_l, nth_map_seq by auto. now rewrite Nat.add_0_r.
    - rewrite app_nth2 by (rewrite map_length, seq_length; lia). rewrite map_length, seq_length. replace (Mq * S i + q - Mq)%nat with (Mq * i + q)%nat by lia. rewrite IH by lia. f_equal. lia. }
  rewrite K by auto. reflexivity.
Qed.
Definition qam_pt (Mi Mq : nat) (di dq : R) (i q : nat) : C := ((INR i - (INR Mi - 1) / 2) * di, (INR q - (INR Mq - 1) / 2) * dq).
Lemma map_seq_nth {A B} (d : A) (f : A -> B) (l : list A) : map f l = map (fun i => f (nth i l d)) (seq 0 (length l)).
Proof.
  induction l as [|a l IH]; [reflexivity|]. cbn [length seq map nth]. f_equal. rewrite IH, <- seq_shift, map_map. apply map_ext. reflexivity.
Qed.
Lemma qam_points_eq Mi Mq di dq phi :
  qam_points Mi Mq di dq phi = concat (map (fun i => map (fun q => Cmult (qam_pt Mi Mq di dq i q) (rotation phi)) (seq 0 Mq)) (seq 0 Mi)).
Proof.
  unfold qam_points. f_equal. rewrite (map_seq_nth 0), pam_length. apply map_ext_in. intros i Hi. apply in_seq in Hi. rewrite (map_seq_nth 0), pam_length. apply map_ext_in. intros q Hq. apply in_seq in Hq.
  f_equal. rewrite !pam_nth by lia. unfold qam_pt, Cplus, Cmult, Ci, RtoC. cbn [fst snd]. f_equal; ring.
Qed.
Lemma concat_const_length {A} n (ls : list (list A)) : Forall (fun l => length l = n) ls -> length (concat ls) = (n * length ls)%nat.
Proof. induction 1; cbn; [lia|]. rewrite app_length, H, IHForall. lia. Qed.
Lemma qam_length Mi Mq di dq phi : length (qam_points Mi Mq di dq phi) = (Mi * Mq)%nat.
Proof.
  rewrite qam_points_eq, (concat_const_length Mq); [rewrite map_length, seq_length; lia|]. apply Forall_forall. intros l Hl. apply in_map_iff in Hl as (i & <- & _). now rewrite map_length, seq_length.
Qed.
Lemma qam_nth Mi Mq di dq phi i q : (i < Mi)%nat -> (q < Mq)%nat ->
  nth (Mq * i + q) (map (fun z => [z]) (qam_points Mi Mq di dq phi)) [] = [Cmult (qam_pt Mi Mq di dq i q) (rotation phi)].
Proof.
  intros Hi Hq. rewrite nth_map_pt with (d := RtoC 0) by (rewrite qam_length; nia). f_equal. rewrite qam_points_eq.
  now rewrite (concat_nth (RtoC 0) Mi Mq (fun i q => Cmult (qam_pt Mi Mq di dq i q) (rotation phi))).
Qed.
Lemma qam_axis_eq M d x : d <> 0 -> qam_axis M (x / (d / 2)) = clip M (npround (x / d + (INR M - 1) / 2)).
Proof. intros H. unfold qam_axis. do 2 f_equal. field. auto. Qed.
Lemma qam_nearest Mi Mq di dq phi z : (1 <= Mi)%nat -> (1 <= Mq)%nat -> di <> 0 -> dq <> 0 ->
  nearest (matrix (QAMConstellation Mi Mq di dq phi)) [z] (closest (QAMConstellation Mi Mq di dq phi) [z]).
Proof.
  intros Hi Hq Hdi Hdq. cbn [matrix closest QAMConstellation coord nth]. unfold qam_closest. set (w := Cmult z _). rewrite !qam_axis_eq by auto.
  set (a := clip Mi _). set (b := clip Mq _). assert (Ha : (a < Mi)%nat) by now apply clip_bound. assert (Hb : (b < Mq)%nat) by now apply clip_bound.
  split; [rewrite map_length, qam_length; nia|]. intros j Hj. rewrite map_length, qam_length in Hj.
  assert (Ej : j = (Mq * (j / Mq) + j mod Mq)%nat) by (apply Nat.div_mod; lia). rewrite Ej. assert (Hj1 : (j / Mq < Mi)%nat) by (apply Nat.div_lt_upper_bound; lia). assert (Hj2 : (j mod Mq < Mq)%nat) by (apply Nat.mod_upper_bound; lia).
  rewrite !qam_nth by auto. unfold rotation. rewrite !dist2_rot. fold w. rewrite !dist2_1. unfold qam_pt. cbn [fst snd].
  pose proof (pam_axis_nearest Mi di (fst w) _ Hdi Hj1). pose proof (pam_axis_nearest Mq dq (snd w) _ Hdq Hj2). fold a in H. fold b in H0. lra.
Qed.

(* ---- ASK ---- *)
Lemma ask_length M A phi : length (ask_points M A phi) = M.
Proof. unfold ask_points. now rewrite map_length, seq_length. Qed.
Lemma ask_nth M A phi i : (i < M)%nat -> nth i (map (fun z => [z]) (ask_points M A phi)) [] = [Cmult (RtoC (A * INR i)) (rotation phi)].
Proof. intros H. rewrite nth_map_pt with (d := RtoC 0) by now rewrite ask_length. unfold ask_points. now rewrite nth_map_seq. Qed.
Lemma ask_nearest M A phi z : (1 <= M)%nat -> A <> 0 -> nearest (matrix (ASKConstellation M A phi)) [z] (closest (ASKConstellation M A phi) [z]).
Proof.
  intros HM HA. cbn [matrix closest ASKConstellation coord nth]. unfold ask_closest. set (w := Cmult z _). set (c := clip M _). assert (Hc : (c < M)%nat) by now apply clip_bound.
  split; [now rewrite map_length, ask_length|]. intros j Hj. rewrite map_length, ask_length in Hj. rewrite !ask_nth by auto. unfold rotation. rewrite !dist2_rot. fold w. rewrite !dist2_1. cbn [fst snd RtoC].
  assert (E : fst w = fst w / A * A) by (field; auto). pose proof (round_clip_nearest M (fst w / A) j Hj) as N. fold c in N. apply sq_le_of_abs in N. set (u := fst w / A) in *. rewrite E.
  replace ((u * A - A * INR c) ^ 2) with ((u - INR c) ^ 2 * A ^ 2) by ring. replace ((u * A - A * INR j) ^ 2) with ((u - INR j) ^ 2 * A ^ 2) by ring.
  apply Rplus_le_compat_r, Rmult_le_compat_r; [apply pow2_ge_0|exact N].
Qed.

(* ---- PSK ---- *)
Lemma angle_bound z : - PI <= angle z <= PI.
Proof.
  destruct z as [x y]. unfold angle. pose proof PI_RGT_0. pose proof (atan_bound (y / x)) as B. destruct (Rltb_spec 0 x); [lra|]. destruct (Rltb_spec x 0).
  - destruct (Rleb_spec 0 y).
    + assert (atan (y / x) <= 0). { destruct (Req_dec y 0) as [->|N]; [unfold Rdiv; rewrite Rmult_0_l, atan_0; lra|]. left. rewrite <- atan_0. apply atan_increasing. unfold Rdiv. assert (/ x < 0) by now apply Rinv_lt_0_compat. nra. } lra.
    + assert (0 < atan (y / x)). { rewrite <- atan_0. apply atan_increasing. unfold Rdiv. assert (/ x < 0) by now apply Rinv_lt_0_compat. nra. } lra.
  - destruct (Rltb_spec 0 y); [lra|]. destruct (Rltb_spec y 0); lra.
Qed.
Lemma angle_spec z : z = (Cmod z * cos (angle z), Cmod z * sin (angle z)).
Proof.
  destruct z as [x y]. pose proof PI_RGT_0 as P.
  assert (S : forall x y, x <> 0 -> sqrt (1 + (y / x)²) = Cmod (x, y) / Rabs x).
  { clear. intros x y H. assert (0 < Rabs x) by now apply Rabs_pos_lt. apply Rsqr_inj; [apply sqrt_pos|apply Rmult_le_pos; [apply Cmod_ge_0|left; now apply Rinv_0_lt_compat]|].
    rewrite Rsqr_sqrt by (pose proof (Rle_0_sqr (y / x)); lra). replace ((Cmod (x, y) / Rabs x)²) with (Cmod (x, y) ^ 2 / Rabs x ^ 2) by (unfold Rsqr; field; lra). rewrite Cmod2, pow2_abs. cbn [fst snd]. unfold Rsqr. field. auto. }
  assert (C0 : forall x y, x <> 0 -> 0 < Cmod (x, y)). { clear. intros x y H. apply Cmod_gt_0. intros E. apply H. now injection E. }
  unfold angle. destruct (Rltb_spec 0 x) as [H|H].
  - rewrite cos_atan, sin_atan, S by lra. rewrite Rabs_pos_eq by lra. pose proof (C0 x y ltac:(lra)). f_equal; field; lra.
  - destruct (Rltb_spec x 0) as [H'|H'].
    + pose proof (C0 x y ltac:(lra)). assert (Ex : Rabs x = - x) by (apply Rabs_left; auto). destruct (Rleb_spec 0 y).
      * rewrite neg_cos, neg_sin, cos_atan, sin_atan, S, Ex by lra. f_equal; field; lra.
      * replace (atan (y / x) - PI) with (- (PI - atan (y / x))) by ring. rewrite cos_neg, sin_neg. rewrite Rtrigo_facts.cos_pi_minus, Rtrigo_facts.sin_pi_minus, cos_atan, sin_atan, S, Ex by lra. f_equal; field; lra.
    + assert (x = 0) by lra. subst x. assert (E : Cmod (0, y) = Rabs y). { unfold Cmod. cbn [fst snd]. rewrite pow_i by lia. rewrite Rplus_0_l, <- Rsqr_pow2. apply sqrt_Rsqr_abs. }
      rewrite E. destruct (Rltb_spec 0 y); [rewrite cos_PI2, sin_PI2, Rabs_pos_eq by lra; f_equal; ring|]. destruct (Rltb_spec y 0).
      * rewrite cos_neg, sin_neg, cos_PI2, sin_PI2, Rabs_left by lra. f_equal; ring.
      * assert (y = 0) by lra. subst y. rewrite Rabs_R0. f_equal; ring.
Qed.
Lemma cos_Zperiod x k : cos (x + 2 * PI * IZR k) = cos x.
Proof. assert (E := cexp_add x (2 * PI * IZR k)). rewrite cexp_2kPI, Cmult_1_r in E. unfold cexp in E. now injection E. Qed.
Lemma cos_abs x : cos (Rabs x) = cos x.
Proof. unfold Rabs. destruct (Rcase_abs x); [apply cos_neg|reflexivity]. Qed.
Lemma cos_mono a b : Rabs a <= Rabs b -> Rabs b <= PI -> cos b <= cos a.
Proof.
  intros H1 H2. rewrite <- (cos_abs a), <- (cos_abs b). destruct (Req_dec (Rabs a) (Rabs b)) as [->|N]; [lra|]. left. apply cos_decreasing_1; try apply Rabs_pos; lra.
Qed.
(* the integer nearest to M theta / 2 pi gives the greatest cosine *)
Lemma cos_best M th n j : (1 <= M)%nat -> Rabs (INR M * (th / (2 * PI)) - IZR n) <= 1 / 2 -> cos (th - 2 * PI * IZR j / INR M) <= cos (th - 2 * PI * IZR n / INR M).
Proof.
  intros HM H. pose proof PI_RGT_0 as P. assert (PM : 0 < INR M) by (apply lt_0_INR; lia). set (s := npround ((th - 2 * PI * IZR j / INR M) / (2 * PI))).
  pose proof (npround_near ((th - 2 * PI * IZR j / INR M) / (2 * PI))) as Hs. fold s in Hs. set (t := (j + Z.of_nat M * s)%Z).
  assert (Et : th - 2 * PI * IZR t / INR M + 2 * PI * IZR s = th - 2 * PI * IZR j / INR M). { unfold t. rewrite plus_IZR, mult_IZR, <- INR_IZR_INZ. field. lra. }
  rewrite <- Et, cos_Zperiod. set (g := th - 2 * PI * IZR t / INR M) in *. set (a := th - 2 * PI * IZR n / INR M).
  assert (Bg : Rabs g <= PI). { assert (g = 2 * PI * ((th - 2 * PI * IZR j / INR M) / (2 * PI) - IZR s)) as -> by (rewrite <- Et; field; lra). rewrite Rabs_mult, (Rabs_pos_eq (2 * PI)) by lra. nra. }
  assert (Ba : Rabs a <= PI / INR M). { assert (a = 2 * PI / INR M * (INR M * (th / (2 * PI)) - IZR n)) as -> by (unfold a; field; lra). rewrite Rabs_mult, Rabs_pos_eq by (left; apply Rdiv_lt_0_compat; lra). replace (PI / INR M) with (2 * PI / INR M * (1 / 2)) by (field; lra). apply Rmult_le_compat_l; [left; apply Rdiv_lt_0_compat; lra|exact H]. }
  destruct (Z.eq_dec t n) as [E|N]; [unfold g, a; rewrite E; lra|]. apply cos_mono; [|exact Bg]. assert (D : a - g = 2 * PI / INR M * IZR (t - n)) by (unfold a, g; rewrite minus_IZR; field; lra).
  assert (1 <= Rabs (IZR (t - n))). { rewrite <- abs_IZR. apply IZR_le. lia. } assert (2 * (PI / INR M) <= Rabs (a - g)). { rewrite D, Rabs_mult, Rabs_pos_eq by (left; apply Rdiv_lt_0_compat; lra). assert (0 < PI / INR M) by (apply Rdiv_lt_0_compat; lra). replace (2 * PI / INR M) with (2 * (PI / INR M)) by (field; lra). nra. }
  pose proof (Rabs_triang a (- g)) as T. rewrite Rabs_Ropp in T. replace (a + - g) with (a - g) in T by ring. lra.
Qed.
Lemma psk_length M A phi : length (psk_points M A phi) = M.
Proof. unfold psk_points. now rewrite map_length, seq_length. Qed.
Lemma psk_nth M A phi i : (i < M)%nat -> nth i (map (fun z => [z]) (psk_points M A phi)) [] = [Cmult (Cmult (RtoC A) (cexp (2 * PI * INR i / INR M))) (rotation phi)].
Proof. intros H. rewrite nth_map_pt with (d := RtoC 0) by now rewrite psk_length. unfold psk_points. now rewrite nth_map_seq. Qed.
Lemma dist2_polar w A t : dist2 [w] [Cmult (RtoC A) (cexp t)] = Cmod w ^ 2 + A ^ 2 - 2 * A * Cmod w * cos (angle w - t).
Proof.
  rewrite dist2_1, cos_minus. pose proof (angle_spec w) as E. pose proof (sin2_cos2 t) as T. pose proof (sin2_cos2 (angle w)) as T'. unfold Rsqr in *. set (rho := Cmod w) in *. set (th := angle w) in *.
  rewrite E. unfold Cmult, RtoC, cexp. cbn [fst snd]. replace (rho ^ 2) with (rho ^ 2 * (sin th * sin th + cos th * cos th)) by (rewrite T'; ring). replace (A ^ 2) with (A ^ 2 * (sin t * sin t + cos t * cos t)) by (rewrite T; ring). ring.
Qed.
Lemma psk_nearest M A phi z : (1 <= M)%nat -> 0 < A -> nearest (matrix (PSKConstellation M A phi)) [z] (closest (PSKConstellation M A phi) [z]).
Proof.
  intros HM HA. cbn [matrix closest PSKConstellation coord nth]. unfold psk_closest. set (w := Cmult z _). set (n := npround _). assert (PM : 0 < INR M) by (apply lt_0_INR; lia).
  assert (Hk : (Z.to_nat (n mod Z.of_nat M) < M)%nat) by (pose proof (Z.mod_pos_bound n (Z.of_nat M) ltac:(lia)); lia).
  split; [now rewrite map_length, psk_length|]. intros j Hj. rewrite map_length, psk_length in Hj. rewrite !psk_nth by auto. unfold rotation. rewrite !(dist2_rot z _ (2 * PI * phi)). fold w. rewrite !dist2_polar.
  pose proof (npround_near (INR M * (angle w / (2 * PI)))) as Hn. fold n in Hn. pose proof (cos_best M (angle w) n (Z.of_nat j) HM Hn) as B.
  rewrite (INR_IZR_INZ (Z.to_nat _)), Z2Nat.id by (apply Z.mod_pos_bound; lia). rewrite (INR_IZR_INZ j).
  assert (E : angle w - 2 * PI * IZR (n mod Z.of_nat M) / INR M = angle w - 2 * PI * IZR n / INR M + 2 * PI * IZR (n / Z.of_nat M)).
  { assert (En := Z.div_mod n (Z.of_nat M) ltac:(lia)). apply (f_equal IZR) in En. rewrite plus_IZR, mult_IZR, <- INR_IZR_INZ in En. rewrite En. field. lra. }
  rewrite E, cos_Zperiod. assert (0 <= A * Cmod w) by (apply Rmult_le_pos; [lra|apply Cmod_ge_0]). nra.
Qed.

(* ---- orthogonal families ---- *)
Lemma dist2_sum n p q : length p = n -> length q = n -> dist2 p q = Rsumf n (fun i => (fst (nth i p (RtoC 0)) - fst (nth i q (RtoC 0))) ^ 2 + (snd (nth i p (RtoC 0)) - snd (nth i q (RtoC 0))) ^ 2).
Proof.
  revert p q. induction n as [|n IH]; intros p q Hp Hq; [destruct p; [reflexivity|easy]|]. destruct p as [|a p]; [easy|]. destruct q as [|b q]; [easy|]. cbn in Hp, Hq.
  change (S n) with (1 + n)%nat. rewrite Rsumf_app. change (dist2 (a :: p) (b :: q)) with (Cmod (Cminus a b) ^ 2 + dist2 p q). rewrite (IH p q) by lia. f_equal.
  cbn [Rsumf nth]. rewrite Cmod2. unfold Cminus, Cplus, Copp. cbn. ring.
Qed.
Lemma Rsumf_delta n i g : (i < n)%nat -> Rsumf n (fun j => if Nat.eqb i j then g j else 0) = g i.
Proof.
  induction n as [|n IH]; intros H; [lia|]. cbn [Rsumf]. destruct (Nat.eq_dec i n) as [->|N].
  - rewrite Nat.eqb_refl. rewrite (Rsumf_ext n _ (fun _ => 0 * 0)); [rewrite Rsumf_scal; ring|]. intros j Hj. destruct (Nat.eqb_spec n j); [lia|ring].
  - rewrite IH by lia. destruct (Nat.eqb_spec i n); [lia|ring].
Qed.
Definition vec_energy (n : nat) (r : list C) : R := Rsumf n (fun j => fst (nth j r (RtoC 0)) ^ 2 + snd (nth j r (RtoC 0)) ^ 2).
Lemma unit_length M A i : length (unit_vector M A i) = M.
Proof. unfold unit_vector. now rewrite map_length, seq_length. Qed.
Lemma unit_nth M A i j : (j < M)%nat -> nth j (unit_vector M A i) (RtoC 0) = RtoC (if Nat.eqb i j then A else 0).
Proof. intros H. unfold unit_vector. now rewrite nth_map_seq. Qed.
Lemma dist2_unit M A r i : length r = M -> (i < M)%nat -> dist2 r (unit_vector M A i) = vec_energy M r + A ^ 2 - 2 * A * fst (nth i r (RtoC 0)).
Proof.
  intros Hr Hi. rewrite (dist2_sum M) by (auto; apply unit_length). unfold vec_energy.
  rewrite (Rsumf_ext M _ (fun j => (fst (nth j r (RtoC 0)) ^ 2 + snd (nth j r (RtoC 0)) ^ 2) + (if Nat.eqb i j then A ^ 2 - 2 * A * fst (nth j r (RtoC 0)) else 0))).
  - rewrite Rsumf_plus. rewrite (Rsumf_delta M i (fun j => A ^ 2 - 2 * A * fst (nth j r (RtoC 0)))) by auto. ring.
  - intros j Hj. rewrite unit_nth by auto. cbn [fst snd RtoC]. destruct (Nat.eqb i j); ring.
Qed.
Lemma nth_fst (r : list C) i : (i < length r)%nat -> nth i (map fst r) 0 = fst (nth i r (RtoC 0)).
Proof. intros H. rewrite nth_indep with (d' := fst (RtoC 0)) by now rewrite map_length. apply map_nth. Qed.
Lemma orthogonal_nearest M A r : (1 <= M)%nat -> 0 < A -> length r = M -> nearest (matrix (OrthogonalConstellation M A)) r (closest (OrthogonalConstellation M A) r).
Proof.
  intros HM HA Hr. cbn [matrix closest OrthogonalConstellation]. destruct (argmax_spec (map fst r)) as (H1 & H2 & _); [destruct r; [cbn in Hr; lia|discriminate]|]. assert (Lf : length (map fst r) = M) by (rewrite map_length; exact Hr). rewrite Lf in H1, H2.
  split; [now rewrite map_length, seq_length|]. intros j Hj. rewrite map_length, seq_length in Hj. rewrite !nth_map_seq by auto. rewrite !dist2_unit by auto. specialize (H2 j Hj). rewrite !nth_fst in H2 by lia. nra.
Qed.
Lemma simplex_length M A i : length (simplex_vector M A i) = M.
Proof. unfold simplex_vector. now rewrite map_length, seq_length. Qed.
Lemma Rsumf_const n c : Rsumf n (fun _ => c) = INR n * c.
Proof. induction n as [|n IH]; [cbn; ring|]. cbn [Rsumf]. rewrite IH, S_INR. ring. Qed.
Lemma dist2_simplex M A r i : length r = M -> (i < M)%nat -> dist2 r (simplex_vector M A i) = vec_energy M r + 2 * A / INR M * Rsumf M (fun j => fst (nth j r (RtoC 0))) + A ^ 2 * (1 - 1 / INR M) - 2 * A * fst (nth i r (RtoC 0)).
Proof.
  intros Hr Hi. rewrite (dist2_sum M) by (auto; apply simplex_length). unfold vec_energy. assert (PM : 0 < INR M) by (apply lt_0_INR; lia).
  rewrite (Rsumf_ext M _ (fun j => ((fst (nth j r (RtoC 0)) ^ 2 + snd (nth j r (RtoC 0)) ^ 2) + 2 * A / INR M * fst (nth j r (RtoC 0))) + ((A / INR M) ^ 2 + (if Nat.eqb i j then A ^ 2 * (1 - 2 / INR M) - 2 * A * fst (nth j r (RtoC 0)) else 0)))).
  - rewrite !Rsumf_plus, Rsumf_const, Rsumf_scal. rewrite (Rsumf_delta M i (fun j => A ^ 2 * (1 - 2 / INR M) - 2 * A * fst (nth j r (RtoC 0)))) by auto. field. lra.
  - intros j Hj. unfold simplex_vector. rewrite nth_map_seq by auto. cbn [fst snd RtoC]. destruct (Nat.eqb i j); field; lra.
Qed.
Lemma simplex_nearest M A r : (1 <= M)%nat -> 0 < A -> length r = M -> nearest (matrix (SimplexConstellation M A)) r (closest (SimplexConstellation M A) r).
Proof.
  intros HM HA Hr. cbn [matrix closest SimplexConstellation]. destruct (argmax_spec (map fst r)) as (H1 & H2 & _); [destruct r; [cbn in Hr; lia|discriminate]|]. assert (Lf : length (map fst r) = M) by (rewrite map_length; exact Hr). rewrite Lf in H1, H2.
  split; [now rewrite map_length, seq_length|]. intros j Hj. rewrite map_length, seq_length in Hj. rewrite !nth_map_seq by auto. rewrite !dist2_simplex by auto. specialize (H2 j Hj). rewrite !nth_fst in H2 by lia. nra.
Qed.
Lemma biorthogonal_dist N A r i : length r = N -> (i < 2 * N)%nat ->
  dist2 r (nth i (map (unit_vector N A) (seq 0 N) ++ map (unit_vector N (- A)) (seq 0 N)) []) = vec_energy N r + A ^ 2 - 2 * A * nth i (map fst r ++ map Ropp (map fst r)) 0.
Proof.
  intros Hr Hi. assert (Lf : length (map fst r) = N) by (rewrite map_length; exact Hr). assert (Lu : length (map (unit_vector N A) (seq 0 N)) = N) by now rewrite map_length, seq_length.
  destruct (Nat.lt_ge_cases i N) as [L|L].
  - rewrite (app_nth1 (map (unit_vector N A) _)) by lia. rewrite (app_nth1 (map fst r)) by lia. rewrite nth_map_seq, dist2_unit, nth_fst by lia. ring.
  - rewrite (app_nth2 (map (unit_vector N A) _)) by lia. rewrite (app_nth2 (map fst r)) by lia. rewrite Lu, Lf. rewrite nth_map_seq, dist2_unit by lia.
    rewrite nth_indep with (d' := - 0) by (rewrite map_length; lia). rewrite map_nth, nth_fst by lia. ring.
Qed.
Lemma biorthogonal_nearest M A K r : BiorthogonalConstellation M A = Some K -> (2 <= M)%nat -> 0 < A -> length r = dimension K -> nearest (matrix K) r (closest K r).
Proof.
  unfold BiorthogonalConstellation. destruct (Nat.eqb_spec (M mod 2) 0) as [E|]; [|discriminate]. cbn [negb]. injection 1 as <-. intros HM HA Hr. change (length r = (M / 2)%nat) in Hr. cbn [matrix closest]. change (fst (Nat.divmod M 1 0 1)) with (M / 2)%nat. set (N := (M / 2)%nat) in *.
  assert (HN : (M = 2 * N)%nat) by (pose proof (Nat.div_mod M 2 ltac:(lia)); unfold N; lia). clearbody N. set (s := map fst r ++ map Ropp (map fst r)). assert (Lf : length (map fst r) = N) by (rewrite map_length; exact Hr). assert (Ls : length s = (2 * N)%nat) by (unfold s; rewrite app_length, (map_length Ropp), Lf; lia).
  destruct (argmax_spec s) as (H1 & H2 & _); [intros Z; rewrite Z in Ls; cbn [length] in Ls; lia|]. rewrite Ls in H1, H2. split; [rewrite app_length, !map_length, seq_length; lia|]. intros j Hj. rewrite app_length, !map_length, seq_length in Hj.
  rewrite !biorthogonal_dist by lia. fold s. specialize (H2 j ltac:(lia)). nra.
Qed.
