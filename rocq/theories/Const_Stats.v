(* Proofs about mean, mean energy and minimum distance of constellations. *)
From Coq Require Import Reals Lra.
From Coquelicot Require Import Complex.
From Verif Require Import Common Corr_Model Corr_Spec Corr_Proof Quant_Model Quant_Proof Const_Model Const_Spec Const_Proof.
Local Open Scope R_scope.

(* ---- sums ---- *)
Lemma lsum_app l l' : fold_right Rplus 0 (l ++ l') = fold_right Rplus 0 l + fold_right Rplus 0 l'.
Proof. induction l as [|a l IH]; cbn; [lra|]. rewrite IH. lra. Qed.
Lemma lsum_concat {A} (f : A -> R) ls : fold_right Rplus 0 (map f (concat ls)) = fold_right Rplus 0 (map (fun l => fold_right Rplus 0 (map f l)) ls).
Proof. induction ls as [|l ls IH]; cbn; [reflexivity|]. now rewrite map_app, lsum_app, IH. Qed.
Lemma lsum_filter {A} (f : A -> R) p l : fold_right Rplus 0 (map f (filter p l)) = fold_right Rplus 0 (map (fun x => if p x then f x else 0) l).
Proof. induction l as [|a l IH]; cbn; [reflexivity|]. destruct (p a); cbn; rewrite IH; lra. Qed.
Lemma INR_length {A} (l : list A) : INR (length l) = fold_right Rplus 0 (map (fun _ => 1) l).
Proof. induction l as [|a l IH]; [reflexivity|]. cbn [length map fold_right]. rewrite S_INR, IH. lra. Qed.
Lemma lsum_grid {A} (g : A -> R) (f : nat -> nat -> A) n m :
  fold_right Rplus 0 (map g (concat (map (fun i => map (fun q => f i q) (seq 0 m)) (seq 0 n)))) = Rsumf n (fun i => Rsumf m (fun q => g (f i q))).
Proof. rewrite lsum_concat, map_map, Rsumf_fold. f_equal. apply map_ext. intros i. now rewrite map_map, Rsumf_fold. Qed.
Lemma csum_parts l : fold_right Cplus (RtoC 0) l = (fold_right Rplus 0 (map fst l), fold_right Rplus 0 (map snd l)).
Proof. induction l as [|z l IH]; [reflexivity|]. cbn [fold_right map]. rewrite IH. reflexivity. Qed.
Lemma csum_mult l c : fold_right Cplus (RtoC 0) (map (fun z => Cmult z c) l) = Cmult (fold_right Cplus (RtoC 0) l) c.
Proof. induction l as [|z l IH]; cbn [map fold_right]; [now rewrite Cmult_0_l|]. rewrite IH. ring. Qed.
Lemma sum_shift2 n c : Rsumf n (fun i => (INR i + c) ^ 2) = INR n * c ^ 2 + c * INR n * (INR n - 1) + (INR n - 1) * INR n * (2 * INR n - 1) / 6.
Proof. induction n as [|n IH]; [cbn; field|]. cbn [Rsumf]. rewrite IH, S_INR. field. Qed.
Lemma sum_shift1 n c : Rsumf n (fun i => INR i + c) = INR n * c + INR n * (INR n - 1) / 2.
Proof. induction n as [|n IH]; [cbn; field|]. cbn [Rsumf]. rewrite IH, S_INR. field. Qed.

(* one-dimensional constellations *)
Lemma energy_1 z : energy_of [z] = fst z ^ 2 + snd z ^ 2.
Proof. unfold energy_of. cbn [map fold_right]. rewrite Cmod2. ring. Qed.
Lemma avg_energy_1 pts : average_energy (map (fun z => [z]) pts) = fold_right Rplus 0 (map (fun z => fst z ^ 2 + snd z ^ 2) pts) / INR (length pts).
Proof. unfold average_energy. rewrite map_map, map_length. do 2 f_equal. apply map_ext. apply energy_1. Qed.
Lemma avg_1 pts m : is_average (map (fun z => [z]) pts) [m] <-> m = Cdiv (fold_right Cplus (RtoC 0) pts) (RtoC (INR (length pts))).
Proof.
  unfold is_average, average_coordinate. split.
  - intros H. specialize (H 0%nat ltac:(cbn; lia)). cbn [nth] in H. rewrite H, map_map, map_length. cbn [nth]. now rewrite map_id.
  - intros -> c Hc. cbn in Hc. assert (c = 0%nat) by lia. subst c. cbn [nth]. rewrite map_map, map_length. cbn [nth]. now rewrite map_id.
Qed.
Lemma Cdiv_0 c : Cdiv (RtoC 0) c = RtoC 0.
Proof. unfold Cdiv. now rewrite Cmult_0_l. Qed.
Lemma energy_rot z t : fst (Cmult z (cexp t)) ^ 2 + snd (Cmult z (cexp t)) ^ 2 = fst z ^ 2 + snd z ^ 2.
Proof. rewrite <- !Cmod2. now rewrite Cmod_mult, cexp_mod, Rmult_1_r. Qed.
Lemma seq_pts {A} (f : nat -> A) (l : list A) n d : length l = n -> (forall i, (i < n)%nat -> nth i l d = f i) -> l = map f (seq 0 n).
Proof. intros <- H. apply (list_ext d); [now rewrite map_length, seq_length|]. intros i Hi. now rewrite H, nth_map_seq. Qed.

(* ---- PAM ---- *)
Lemma pam_eq M d : pam_points M d = map (fun i => (INR i - (INR M - 1) / 2) * d) (seq 0 M).
Proof. apply (seq_pts _ _ M 0); [apply pam_length|]. intros i Hi. now apply pam_nth. Qed.
Lemma pam_matrix_eq M d : map (fun x => [RtoC x]) (pam_points M d) = map (fun z => [z]) (map (fun i => RtoC ((INR i - (INR M - 1) / 2) * d)) (seq 0 M)).
Proof. rewrite pam_eq, !map_map. reflexivity. Qed.
Lemma centered2 M d : Rsumf M (fun i => ((INR i - (INR M - 1) / 2) * d) ^ 2) = INR M * (d ^ 2 * (INR M ^ 2 - 1) / 12).
Proof.
  rewrite (Rsumf_ext M _ (fun i => d ^ 2 * (INR i + - ((INR M - 1) / 2)) ^ 2)) by (intros; ring). rewrite Rsumf_scal, sum_shift2. field.
Qed.
Lemma centered1 M d : Rsumf M (fun i => (INR i - (INR M - 1) / 2) * d) = 0.
Proof. rewrite (Rsumf_ext M _ (fun i => d * (INR i + - ((INR M - 1) / 2)))) by (intros; ring). rewrite Rsumf_scal, sum_shift1. field. Qed.
Lemma pam_energy M d : (1 <= M)%nat -> average_energy (matrix (PAMConstellation M d)) = mean_energy0 (PAMConstellation M d).
Proof.
  intros HM. assert (0 < INR M) by (apply lt_0_INR; lia). cbn [matrix mean_energy0 PAMConstellation]. rewrite pam_matrix_eq, avg_energy_1, map_map, map_length, seq_length. rewrite <- (Rsumf_fold M (fun i => _)).
  rewrite (Rsumf_ext M _ (fun i => ((INR i - (INR M - 1) / 2) * d) ^ 2)) by (intros; cbn [fst snd RtoC]; ring). rewrite centered2. field. lra.
Qed.
Lemma csum_0 l : fold_right Rplus 0 (map fst l) = 0 -> fold_right Rplus 0 (map snd l) = 0 -> fold_right Cplus (RtoC 0) l = RtoC 0.
Proof. intros H1 H2. rewrite csum_parts, H1, H2. reflexivity. Qed.
Lemma lsum_0 {A} (l : list A) : fold_right Rplus 0 (map (fun _ => 0) l) = 0.
Proof. induction l; cbn; lra. Qed.
Lemma pam_mean M d : is_average (matrix (PAMConstellation M d)) (mean0 (PAMConstellation M d)).
Proof.
  cbn [matrix mean0 PAMConstellation]. rewrite pam_matrix_eq. apply avg_1. rewrite csum_0; [now rewrite Cdiv_0| |]; rewrite map_map; cbn [fst snd RtoC]; [|apply lsum_0].
  rewrite <- (Rsumf_fold M (fun i => _)). apply centered1.
Qed.
Lemma INR_lt_1 i j : (i < j)%nat -> INR i + 1 <= INR j.
Proof. intros H. rewrite <- S_INR. apply le_INR. lia. Qed.
Lemma pam_mindist M d : (2 <= M)%nat -> 0 < d -> is_min_distance (matrix (PAMConstellation M d)) d.
Proof.
  intros HM Hd. cbn [matrix PAMConstellation]. split; [lra|]. rewrite map_length, pam_length. split.
  - exists 0%nat, 1%nat. split; [lia|]. rewrite !pam_matrix_nth by lia. rewrite dist2_1. cbn [fst snd RtoC INR]. ring.
  - intros i j H. rewrite !pam_matrix_nth by lia. rewrite dist2_1. cbn [fst snd RtoC]. pose proof (INR_lt_1 i j ltac:(lia)).
    replace ((_ - _) ^ 2 + (0 - 0) ^ 2) with ((INR j - INR i) ^ 2 * d ^ 2) by ring. assert (1 <= (INR j - INR i) ^ 2) by nra. assert (0 <= d ^ 2) by nra. nra.
Qed.

(* ---- QAM ---- *)
Lemma qam_energy Mi Mq di dq phi : (1 <= Mi)%nat -> (1 <= Mq)%nat -> average_energy (matrix (QAMConstellation Mi Mq di dq phi)) = mean_energy0 (QAMConstellation Mi Mq di dq phi).
Proof.
  intros Hi Hq. assert (0 < INR Mi) by (apply lt_0_INR; lia). assert (0 < INR Mq) by (apply lt_0_INR; lia). cbn [matrix mean_energy0 QAMConstellation]. rewrite avg_energy_1, qam_length, qam_points_eq.
  rewrite (lsum_grid (fun z => fst z ^ 2 + snd z ^ 2) (fun i q => Cmult (qam_pt Mi Mq di dq i q) (rotation phi))).
  rewrite (Rsumf_ext Mi _ (fun i => INR Mq * ((INR i - (INR Mi - 1) / 2) * di) ^ 2 + INR Mq * (dq ^ 2 * (INR Mq ^ 2 - 1) / 12))).
  - rewrite Rsumf_plus, Rsumf_scal, centered2, Rsumf_const, mult_INR. field. lra.
  - intros i _. rewrite (Rsumf_ext Mq _ (fun q => ((INR i - (INR Mi - 1) / 2) * di) ^ 2 + ((INR q - (INR Mq - 1) / 2) * dq) ^ 2)).
    + now rewrite Rsumf_plus, centered2, Rsumf_const.
    + intros q _. unfold rotation. rewrite energy_rot. reflexivity.
Qed.
Lemma qam_mean Mi Mq di dq phi : is_average (matrix (QAMConstellation Mi Mq di dq phi)) (mean0 (QAMConstellation Mi Mq di dq phi)).
Proof.
  cbn [matrix mean0 QAMConstellation]. apply avg_1. rewrite qam_points_eq.
  replace (concat (map (fun i => map (fun q => Cmult (qam_pt Mi Mq di dq i q) (rotation phi)) (seq 0 Mq)) (seq 0 Mi))) with (map (fun z => Cmult z (rotation phi)) (concat (map (fun i => map (fun q => qam_pt Mi Mq di dq i q) (seq 0 Mq)) (seq 0 Mi)))).
  - rewrite csum_mult, csum_0; [now rewrite Cmult_0_l, Cdiv_0| |].
    + rewrite (lsum_grid fst (qam_pt Mi Mq di dq)). unfold qam_pt. cbn [fst]. rewrite (Rsumf_ext Mi _ (fun i => INR Mq * ((INR i - (INR Mi - 1) / 2) * di))) by (intros; apply Rsumf_const). rewrite Rsumf_scal, centered1. ring.
    + rewrite (lsum_grid snd (qam_pt Mi Mq di dq)). unfold qam_pt. cbn [snd]. rewrite (Rsumf_ext Mi _ (fun i => 0 * 0)) by (intros; rewrite centered1; ring). rewrite Rsumf_const. ring.
  - rewrite concat_map, map_map. f_equal. apply map_ext. intros i. now rewrite map_map.
Qed.
Lemma diff_sq_ge i j d : i <> j -> d ^ 2 <= ((INR i - INR j) * d) ^ 2.
Proof.
  intros H. assert (1 <= (INR i - INR j) ^ 2). { destruct (Nat.lt_total i j) as [L|[E|L]]; [|easy|]; apply INR_lt_1 in L; nra. }
  replace (((INR i - INR j) * d) ^ 2) with ((INR i - INR j) ^ 2 * d ^ 2) by ring. pose proof (pow2_ge_0 d). nra.
Qed.
Lemma qam_dist Mi Mq di dq phi a b a' b' : (a < Mi)%nat -> (b < Mq)%nat -> (a' < Mi)%nat -> (b' < Mq)%nat ->
  dist2 (nth (Mq * a + b) (matrix (QAMConstellation Mi Mq di dq phi)) []) (nth (Mq * a' + b') (matrix (QAMConstellation Mi Mq di dq phi)) []) = ((INR a - INR a') * di) ^ 2 + ((INR b - INR b') * dq) ^ 2.
Proof. intros. cbn [matrix QAMConstellation]. rewrite !qam_nth by auto. unfold rotation. rewrite dist2_rot2, dist2_1. unfold qam_pt. cbn [fst snd]. ring. Qed.
Lemma qam_mindist Mi Mq di dq phi : (2 <= Mi)%nat -> (2 <= Mq)%nat -> 0 < di -> 0 < dq -> is_min_distance (matrix (QAMConstellation Mi Mq di dq phi)) (Rmin di dq).
Proof.
  intros Hi Hq Hdi Hdq. assert (EL : length (matrix (QAMConstellation Mi Mq di dq phi)) = (Mi * Mq)%nat) by (cbn [matrix QAMConstellation]; rewrite map_length, qam_length; auto).
  pose proof (Rmin_l di dq). pose proof (Rmin_r di dq). assert (P : 0 < Rmin di dq) by (now apply Rmin_glb_lt). split; [lra|]. rewrite EL. split.
  - destruct (Rle_dec di dq) as [L|L].
    + exists 0%nat, Mq. split; [nia|]. pose proof (qam_dist Mi Mq di dq phi 0 0 1 0 ltac:(lia) ltac:(lia) ltac:(lia) ltac:(lia)) as D. rewrite Nat.mul_0_r, Nat.mul_1_r, !Nat.add_0_r in D. rewrite D. cbn [INR]. rewrite Rmin_left by lra. ring.
    + exists 0%nat, 1%nat. split; [nia|]. pose proof (qam_dist Mi Mq di dq phi 0 0 0 1 ltac:(lia) ltac:(lia) ltac:(lia) ltac:(lia)) as D. rewrite Nat.mul_0_r, !Nat.add_0_l in D. rewrite D. cbn [INR]. rewrite Rmin_right by lra. ring.
  - intros i j Hij. assert (Ei : i = (Mq * (i / Mq) + i mod Mq)%nat) by (apply Nat.div_mod; lia). assert (Ej : j = (Mq * (j / Mq) + j mod Mq)%nat) by (apply Nat.div_mod; lia).
    pose proof (Nat.mod_upper_bound i Mq ltac:(lia)). pose proof (Nat.mod_upper_bound j Mq ltac:(lia)). assert (i / Mq < Mi)%nat by (apply Nat.div_lt_upper_bound; nia). assert (j / Mq < Mi)%nat by (apply Nat.div_lt_upper_bound; nia).
    rewrite Ei, Ej. rewrite qam_dist by auto. destruct (Nat.eq_dec (i / Mq) (j / Mq)) as [E|N].
    + assert (i mod Mq <> j mod Mq) as N by (intros E'; rewrite Ei, Ej, E, E' in Hij; lia). pose proof (diff_sq_ge _ _ dq N). pose proof (pow2_ge_0 ((INR (i / Mq) - INR (j / Mq)) * di)). nra.
    + pose proof (diff_sq_ge _ _ di N). pose proof (pow2_ge_0 ((INR (i mod Mq) - INR (j mod Mq)) * dq)). nra.
Qed.

(* ---- ASK ---- *)
Lemma ask_energy M A phi : (1 <= M)%nat -> average_energy (matrix (ASKConstellation M A phi)) = mean_energy0 (ASKConstellation M A phi).
Proof.
  intros HM. assert (0 < INR M) by (apply lt_0_INR; lia). cbn [matrix mean_energy0 ASKConstellation]. rewrite avg_energy_1, ask_length. unfold ask_points. rewrite map_map, <- (Rsumf_fold M (fun i => _)).
  rewrite (Rsumf_ext M _ (fun i => A ^ 2 * (INR i + 0) ^ 2)) by (intros; unfold rotation; rewrite energy_rot; cbn [fst snd RtoC]; ring). rewrite Rsumf_scal, sum_shift2. field. lra.
Qed.
Lemma ask_mean M A phi : (1 <= M)%nat -> is_average (matrix (ASKConstellation M A phi)) (mean0 (ASKConstellation M A phi)).
Proof.
  intros HM. assert (0 < INR M) by (apply lt_0_INR; lia). cbn [matrix mean0 ASKConstellation]. apply avg_1. rewrite ask_length. unfold ask_points.
  rewrite <- (map_map (fun i => RtoC (A * INR i)) (fun z => Cmult z (rotation phi))), csum_mult, csum_parts, !map_map. cbn [fst snd RtoC]. rewrite lsum_0, <- (Rsumf_fold M (fun i => _)).
  rewrite (Rsumf_ext M _ (fun i => A * (INR i + 0))) by (intros; ring). rewrite Rsumf_scal, sum_shift1. change ((A * (INR M * 0 + INR M * (INR M - 1) / 2))%R, 0) with (RtoC (A * (INR M * 0 + INR M * (INR M - 1) / 2))).
  replace (A * (INR M * 0 + INR M * (INR M - 1) / 2)) with (1 / 2 * A * (INR M - 1) * INR M) by field. rewrite (RtoC_mult _ (INR M)).
  assert (NZ : RtoC (INR M) <> RtoC 0) by (intros E; apply RtoC_inj in E; lra). set (c := RtoC (1 / 2 * A * (INR M - 1))). set (m := RtoC (INR M)) in *. field. exact NZ.
Qed.
Lemma ask_mindist M A phi : (2 <= M)%nat -> 0 < A -> is_min_distance (matrix (ASKConstellation M A phi)) A.
Proof.
  intros HM HA. cbn [matrix ASKConstellation]. split; [lra|]. rewrite map_length, ask_length.
  assert (D : forall i j, (i < M)%nat -> (j < M)%nat -> dist2 (nth i (map (fun z => [z]) (ask_points M A phi)) []) (nth j (map (fun z => [z]) (ask_points M A phi)) []) = ((INR i - INR j) * A) ^ 2).
  { intros i j Hi Hj. rewrite !ask_nth by auto. unfold rotation. rewrite dist2_rot2, dist2_1. cbn [fst snd RtoC]. ring. }
  split; [exists 0%nat, 1%nat; split; [lia|]; rewrite D by lia; cbn [INR]; ring|]. intros i j H. rewrite D by lia. apply diff_sq_ge. lia.
Qed.

(* ---- PSK ---- *)
Lemma psk_energy_pt A t phi : fst (Cmult (Cmult (RtoC A) (cexp t)) (rotation phi)) ^ 2 + snd (Cmult (Cmult (RtoC A) (cexp t)) (rotation phi)) ^ 2 = A ^ 2.
Proof. unfold rotation. rewrite !energy_rot. cbn [fst snd RtoC]. ring. Qed.
Lemma psk_sum_energy M A phi : fold_right Rplus 0 (map (fun z => fst z ^ 2 + snd z ^ 2) (psk_points M A phi)) = INR M * A ^ 2.
Proof.
  unfold psk_points. rewrite map_map, <- (Rsumf_fold M (fun i => _)). rewrite (Rsumf_ext M _ (fun i => A ^ 2)) by (intros; apply psk_energy_pt). apply Rsumf_const.
Qed.
Lemma psk_energy M A phi : (1 <= M)%nat -> average_energy (matrix (PSKConstellation M A phi)) = mean_energy0 (PSKConstellation M A phi).
Proof.
  intros HM. assert (0 < INR M) by (apply lt_0_INR; lia). cbn [matrix mean_energy0 PSKConstellation]. rewrite avg_energy_1, psk_length, psk_sum_energy. field. lra.
Qed.
Lemma psk_sum M A phi : (2 <= M)%nat -> fold_right Cplus (RtoC 0) (psk_points M A phi) = RtoC 0.
Proof.
  intros HM. unfold psk_points. rewrite <- Csum_fold. rewrite (Csum_ext M _ (fun i => Cmult (Cmult (RtoC A) (rotation phi)) (cexp (2 * PI * IZR 1 * INR i / IZR (Z.of_nat M))))).
  - rewrite Csum_scal. pose proof (roots_sum (Z.of_nat M) 1 ltac:(lia)) as E. rewrite Nat2Z.id in E. rewrite E by (rewrite Z.mod_small; lia). apply Cmult_0_r.
  - intros i _. rewrite <- INR_IZR_INZ. replace (2 * PI * 1 * INR i / INR M) with (2 * PI * INR i / INR M) by (unfold Rdiv; ring). ring.
Qed.
Lemma psk_mean M A phi : (2 <= M)%nat -> is_average (matrix (PSKConstellation M A phi)) (mean0 (PSKConstellation M A phi)).
Proof. intros HM. cbn [matrix mean0 PSKConstellation]. apply avg_1. now rewrite psk_sum, Cdiv_0. Qed.
Lemma dist2_arc A a b : dist2 [Cmult (RtoC A) (cexp a)] [Cmult (RtoC A) (cexp b)] = 2 * A ^ 2 * (1 - cos (a - b)).
Proof.
  rewrite dist2_1, cos_minus. pose proof (sin2_cos2 a) as Ea. pose proof (sin2_cos2 b) as Eb. unfold Rsqr in *. unfold Cmult, RtoC, cexp. cbn [fst snd].
  replace (2 * A ^ 2 * (1 - (cos a * cos b + sin a * sin b))) with (A ^ 2 * ((sin a * sin a + cos a * cos a) + (sin b * sin b + cos b * cos b) - 2 * (cos a * cos b + sin a * sin b))) by (rewrite Ea, Eb; ring). ring.
Qed.
Lemma psk_dist M A phi i j : (i < M)%nat -> (j < M)%nat -> dist2 (nth i (matrix (PSKConstellation M A phi)) []) (nth j (matrix (PSKConstellation M A phi)) []) = 2 * A ^ 2 * (1 - cos (2 * PI * INR i / INR M - 2 * PI * INR j / INR M)).
Proof. intros. cbn [matrix PSKConstellation]. rewrite !psk_nth by auto. unfold rotation. rewrite dist2_rot2. apply dist2_arc. Qed.
Lemma chord A t : (2 * A * sin (t / 2)) ^ 2 = 2 * A ^ 2 * (1 - cos t).
Proof. replace t with (2 * (t / 2)) at 2 by field. rewrite cos_2a_sin. ring. Qed.
Lemma psk_mindist M A phi : (2 <= M)%nat -> 0 < A -> is_min_distance (matrix (PSKConstellation M A phi)) (2 * A * sin (PI / INR M)).
Proof.
  intros HM HA. pose proof PI_RGT_0 as P. assert (L : 2 <= INR M) by (apply le_INR in HM; cbn in HM; lra). assert (EL : length (matrix (PSKConstellation M A phi)) = M) by (cbn [matrix PSKConstellation]; now rewrite map_length, psk_length).
  assert (Q : 0 < PI / INR M) by (apply Rdiv_lt_0_compat; lra). assert (Q2 : PI / INR M <= PI / 2). { apply Rmult_le_compat_l; [lra|]. apply Rinv_le_contravar; lra. }
  split; [assert (0 <= sin (PI / INR M)) by (apply sin_ge_0; lra); nra|]. rewrite EL.
  assert (C : (2 * A * sin (PI / INR M)) ^ 2 = 2 * A ^ 2 * (1 - cos (2 * PI / INR M))). { rewrite <- chord. do 3 f_equal. field. lra. } rewrite C. split.
  - exists 0%nat, 1%nat. split; [lia|]. rewrite psk_dist by lia. do 2 f_equal. cbn [INR]. rewrite <- cos_neg. f_equal. field. lra.
  - intros i j H. rewrite psk_dist by lia. apply Rmult_le_compat_l; [nra|]. assert (cos (2 * PI * INR i / INR M - 2 * PI * INR j / INR M) <= cos (2 * PI / INR M)); [|lra].
    assert (Dj : INR i + 1 <= INR j) by (apply INR_lt_1; lia). assert (INR j + 1 <= INR M) by (apply INR_lt_1; lia). pose proof (pos_INR i) as I0.
    rewrite <- cos_neg. replace (- (2 * PI * INR i / INR M - 2 * PI * INR j / INR M)) with (2 * PI / INR M * (INR j - INR i)) by (field; lra).
    set (u := 2 * PI / INR M). assert (Eu : u * INR M = 2 * PI) by (unfold u; field; lra). assert (Pu : 0 < u) by (unfold u; apply Rdiv_lt_0_compat; lra). set (v := u * (INR j - INR i)). assert (u <= v) by (unfold v; nra). assert (v <= 2 * PI - u) by (unfold v; nra).
    assert (u <= PI) by nra. destruct (Rle_dec v PI).
    + apply cos_mono; rewrite !Rabs_pos_eq by lra; lra.
    + replace (cos v) with (cos (2 * PI - v)); [apply cos_mono; rewrite !Rabs_pos_eq by lra; lra|]. replace (2 * PI - v) with (- v + 2 * PI * IZR 1) by ring. rewrite cos_Zperiod. apply cos_neg.
Qed.

(* ---- APSK ---- *)
Lemma csum_app l l' : fold_right Cplus (RtoC 0) (l ++ l') = Cplus (fold_right Cplus (RtoC 0) l) (fold_right Cplus (RtoC 0) l').
Proof. induction l as [|a l IH]; cbn [app fold_right]; [now rewrite Cplus_0_l|]. rewrite IH. ring. Qed.
Lemma apsk_length rings : length (apsk_points rings) = list_sum (map (fun r => fst (fst r)) rings).
Proof. unfold apsk_points. induction rings as [|[[M A] phi] rings IH]; [reflexivity|]. cbn [map concat list_sum fold_right fst]. rewrite app_length, IH, psk_length. reflexivity. Qed.
Lemma apsk_energy rings : average_energy (matrix (APSKConstellation rings)) = mean_energy0 (APSKConstellation rings).
Proof.
  cbn [matrix mean_energy0 APSKConstellation]. rewrite avg_energy_1, apsk_length. f_equal. unfold apsk_points. rewrite lsum_concat, map_map. f_equal. apply map_ext. intros [[M A] phi]. apply psk_sum_energy.
Qed.
Lemma apsk_mean rings : Forall (fun r => (2 <= fst (fst r))%nat) rings -> is_average (matrix (APSKConstellation rings)) (mean0 (APSKConstellation rings)).
Proof.
  intros H. cbn [matrix mean0 APSKConstellation]. apply avg_1. assert (Z : fold_right Cplus (RtoC 0) (apsk_points rings) = RtoC 0); [|now rewrite Z, Cdiv_0].
  unfold apsk_points. induction H as [|[[M A] phi] rings HM _ IH]; [reflexivity|]. cbn [map concat]. rewrite csum_app, IH, psk_sum by exact HM. apply Cplus_0_l.
Qed.

(* ---- orthogonal families ---- *)
Lemma energy_sum n p : length p = n -> energy_of p = Rsumf n (fun i => fst (nth i p (RtoC 0)) ^ 2 + snd (nth i p (RtoC 0)) ^ 2).
Proof.
  intros <-. unfold energy_of. rewrite (map_seq_nth (RtoC 0)), <- (Rsumf_fold _ (fun i => _)). apply Rsumf_ext. intros. apply Cmod2.
Qed.
Lemma unit_energy M A i : (i < M)%nat -> energy_of (unit_vector M A i) = A ^ 2.
Proof.
  intros H. rewrite (energy_sum M) by apply unit_length. rewrite (Rsumf_ext M _ (fun j => if Nat.eqb i j then A ^ 2 else 0)); [now rewrite (Rsumf_delta M i (fun _ => A ^ 2))|].
  intros j Hj. rewrite unit_nth by auto. cbn [fst snd RtoC]. destruct (Nat.eqb i j); ring.
Qed.
Lemma avg_energy_const pts e : pts <> [] -> (forall p, In p pts -> energy_of p = e) -> average_energy pts = e.
Proof.
  intros N H. unfold average_energy. assert (0 < INR (length pts)) by (apply lt_0_INR; destruct pts; [easy|cbn; lia]). rewrite (map_ext_in _ (fun _ => e) _ H).
  assert (K : forall l : list (list C), fold_right Rplus 0 (map (fun _ => e) l) = INR (length l) * e). { clear. induction l as [|a l IH]; [cbn; ring|]. cbn [map fold_right length]. rewrite IH, S_INR. ring. } rewrite K. field. lra.
Qed.
Lemma orthogonal_energy M A : (1 <= M)%nat -> average_energy (matrix (OrthogonalConstellation M A)) = mean_energy0 (OrthogonalConstellation M A).
Proof.
  intros HM. cbn [matrix mean_energy0 OrthogonalConstellation]. apply avg_energy_const; [destruct M; [lia|discriminate]|]. intros p Hp. apply in_map_iff in Hp as (i & <- & Hi). apply in_seq in Hi. apply unit_energy. lia.
Qed.
Lemma csum_real {A} (f : A -> R) l : fold_right Cplus (RtoC 0) (map (fun x => RtoC (f x)) l) = RtoC (fold_right Rplus 0 (map f l)).
Proof. rewrite csum_parts, !map_map. cbn [fst snd RtoC]. now rewrite lsum_0. Qed.
Lemma avg_coord_seq n c (v : nat -> list C) (f : nat -> R) : (forall i, (i < n)%nat -> nth c (v i) (RtoC 0) = RtoC (f i)) ->
  average_coordinate (map v (seq 0 n)) c = RtoC (Rsumf n f / INR n).
Proof.
  intros H. unfold average_coordinate. rewrite map_map, map_length, seq_length. rewrite (map_ext_in _ (fun i => RtoC (f i))) by (intros i Hi; apply in_seq in Hi; apply H; lia). rewrite csum_real, <- Rsumf_fold.
  unfold Rdiv, Cdiv, Cinv, RtoC, Cmult. cbn [fst snd]. f_equal.
  - destruct (Req_dec (INR n) 0) as [E|E]; [|field; auto]. assert (n0 : n = 0%nat) by (apply INR_eq; rewrite E; reflexivity). rewrite E, n0. cbn [Rsumf]. ring.
  - unfold Rdiv. ring.
Qed.
Lemma orthogonal_mean M A : is_average (matrix (OrthogonalConstellation M A)) (mean0 (OrthogonalConstellation M A)).
Proof.
  cbn [matrix mean0 OrthogonalConstellation]. intros c Hc. rewrite map_length, seq_length in Hc. rewrite nth_map_seq by auto.
  rewrite (avg_coord_seq M c _ (fun i => if Nat.eqb i c then A else 0)) by (intros; now rewrite unit_nth). do 2 f_equal.
  rewrite (Rsumf_ext M _ (fun j => if Nat.eqb c j then A else 0)) by (intros; now rewrite Nat.eqb_sym). now rewrite (Rsumf_delta M c (fun _ => A)).
Qed.
Lemma sqrt2_sq A : (A * sqrt 2) ^ 2 = 2 * A ^ 2.
Proof. rewrite Rpow_mult_distr, pow2_sqrt by lra. ring. Qed.
Lemma unit_dist M A B i j : (i < M)%nat -> (j < M)%nat -> dist2 (unit_vector M A i) (unit_vector M B j) = if Nat.eqb i j then (A - B) ^ 2 else A ^ 2 + B ^ 2.
Proof.
  intros Hi Hj. rewrite dist2_unit by (auto; apply unit_length). rewrite unit_nth by auto. unfold vec_energy. rewrite <- (energy_sum M) by apply unit_length. rewrite unit_energy by auto. cbn [fst RtoC]. destruct (Nat.eqb i j); ring.
Qed.
Lemma orthogonal_mindist M A : (2 <= M)%nat -> 0 < A -> is_min_distance (matrix (OrthogonalConstellation M A)) (A * sqrt 2).
Proof.
  intros HM HA. cbn [matrix OrthogonalConstellation]. split; [pose proof (sqrt_pos 2); nra|]. rewrite map_length, seq_length, sqrt2_sq. split.
  - exists 0%nat, 1%nat. split; [lia|]. rewrite !nth_map_seq, unit_dist by lia. cbn [Nat.eqb]. ring.
  - intros i j H. rewrite !nth_map_seq, unit_dist by lia. destruct (Nat.eqb_spec i j); [lia|lra].
Qed.
Lemma simplex_nth M A i j : (j < M)%nat -> nth j (simplex_vector M A i) (RtoC 0) = RtoC (A * ((if Nat.eqb i j then 1 else 0) - 1 / INR M)).
Proof. intros H. unfold simplex_vector. now rewrite nth_map_seq. Qed.
Lemma simplex_vec_energy M A i : (i < M)%nat -> vec_energy M (simplex_vector M A i) = A ^ 2 * (1 - 1 / INR M).
Proof.
  intros H. assert (0 < INR M) by (apply lt_0_INR; lia). unfold vec_energy. rewrite (Rsumf_ext M _ (fun j => (A / INR M) ^ 2 + (if Nat.eqb i j then A ^ 2 * (1 - 2 / INR M) else 0))).
  - rewrite Rsumf_plus, Rsumf_const, (Rsumf_delta M i (fun _ => _)) by auto. field. lra.
  - intros j Hj. rewrite simplex_nth by auto. cbn [fst snd RtoC]. destruct (Nat.eqb i j); field; lra.
Qed.
Lemma simplex_energy M A : (1 <= M)%nat -> average_energy (matrix (SimplexConstellation M A)) = mean_energy0 (SimplexConstellation M A).
Proof.
  intros HM. assert (0 < INR M) by (apply lt_0_INR; lia). cbn [matrix mean_energy0 SimplexConstellation]. apply avg_energy_const; [destruct M; [lia|discriminate]|]. intros p Hp. apply in_map_iff in Hp as (i & <- & Hi). apply in_seq in Hi.
  rewrite (energy_sum M) by apply simplex_length. fold (vec_energy M (simplex_vector M A i)). rewrite simplex_vec_energy by lia. field. lra.
Qed.
Lemma simplex_sum M A i : (i < M)%nat -> Rsumf M (fun j => A * ((if Nat.eqb i j then 1 else 0) - 1 / INR M)) = 0.
Proof.
  intros H. assert (0 < INR M) by (apply lt_0_INR; lia). rewrite (Rsumf_ext M _ (fun j => - A / INR M + (if Nat.eqb i j then A else 0))) by (intros j Hj; destruct (Nat.eqb i j); field; lra).
  rewrite Rsumf_plus, Rsumf_const, (Rsumf_delta M i (fun _ => A)) by auto. field. lra.
Qed.
Lemma simplex_mean M A : is_average (matrix (SimplexConstellation M A)) (mean0 (SimplexConstellation M A)).
Proof.
  cbn [matrix mean0 SimplexConstellation]. intros c Hc. rewrite map_length, seq_length in Hc. rewrite nth_map_seq by auto.
  rewrite (avg_coord_seq M c _ (fun i => A * ((if Nat.eqb i c then 1 else 0) - 1 / INR M))) by (intros; now rewrite simplex_nth). f_equal.
  rewrite (Rsumf_ext M _ (fun j => A * ((if Nat.eqb c j then 1 else 0) - 1 / INR M))) by (intros; now rewrite Nat.eqb_sym). rewrite simplex_sum by auto. unfold Rdiv. ring.
Qed.
Lemma simplex_dist M A i j : (i < M)%nat -> (j < M)%nat -> dist2 (simplex_vector M A i) (simplex_vector M A j) = if Nat.eqb i j then 0 else 2 * A ^ 2.
Proof.
  intros Hi Hj. assert (0 < INR M) by (apply lt_0_INR; lia). rewrite dist2_simplex by (auto; apply simplex_length). rewrite simplex_vec_energy, simplex_nth by auto.
  rewrite (Rsumf_ext M _ (fun k => A * ((if Nat.eqb i k then 1 else 0) - 1 / INR M))) by (intros; rewrite simplex_nth by auto; reflexivity). rewrite simplex_sum by auto. cbn [fst RtoC]. destruct (Nat.eqb i j); field; lra.
Qed.
Lemma simplex_mindist M A : (2 <= M)%nat -> 0 < A -> is_min_distance (matrix (SimplexConstellation M A)) (A * sqrt 2).
Proof.
  intros HM HA. cbn [matrix SimplexConstellation]. split; [pose proof (sqrt_pos 2); nra|]. rewrite map_length, seq_length, sqrt2_sq. split.
  - exists 0%nat, 1%nat. split; [lia|]. rewrite !nth_map_seq, simplex_dist by lia. reflexivity.
  - intros i j H. rewrite !nth_map_seq, simplex_dist by lia. destruct (Nat.eqb_spec i j); [lia|lra].
Qed.
(* biorthogonal *)
Lemma biorthogonal_cases M A K : BiorthogonalConstellation M A = Some K -> exists N, (M = 2 * N)%nat /\ dimension K = N /\ order K = M /\ mean_energy0 K = A ^ 2 /\
  mean0 K = map (fun _ => RtoC 0) (seq 0 N) /\ minimum_distance K = Some (if Nat.eqb M 2 then 2 * A else A * sqrt 2) /\
  matrix K = map (fun i => if Nat.ltb i N then unit_vector N A i else unit_vector N (- A) (i - N)) (seq 0 M).
Proof.
  unfold BiorthogonalConstellation. destruct (Nat.eqb_spec (M mod 2) 0) as [E|]; [|discriminate]. cbn [negb]. injection 1 as <-. exists (M / 2)%nat. assert (HN : (M = 2 * (M / 2))%nat) by (pose proof (Nat.div_mod M 2 ltac:(lia)); lia).
  split; [exact HN|]. split; [reflexivity|]. split; [reflexivity|]. split; [reflexivity|]. split; [reflexivity|]. split; [reflexivity|]. change (fst (Nat.divmod M 1 0 1)) with (M / 2)%nat. cbn [matrix]. set (N := (M / 2)%nat) in *. clearbody N. subst M.
  replace (2 * N)%nat with (N + N)%nat by lia. rewrite seq_app, map_app. f_equal.
  - apply map_ext_in. intros i Hi. apply in_seq in Hi. destruct (Nat.ltb_spec i N); [reflexivity|lia].
  - apply (list_ext []); [now rewrite !map_length, !seq_length|]. intros i Hi. rewrite map_length, seq_length in Hi. rewrite nth_map_seq by auto.
    rewrite nth_map_pt with (d := 0%nat) by (rewrite seq_length; auto). rewrite nth_seq by auto.
    destruct (Nat.ltb_spec (0 + N + i) N); [lia|]. f_equal. lia.
Qed.
Lemma biorthogonal_energy M A K : BiorthogonalConstellation M A = Some K -> (1 <= M)%nat -> average_energy (matrix K) = mean_energy0 K.
Proof.
  intros H HM. destruct (biorthogonal_cases _ _ _ H) as (N & HN & _ & _ & -> & _ & _ & ->). apply avg_energy_const; [destruct M; [lia|discriminate]|].
  intros p Hp. apply in_map_iff in Hp as (i & <- & Hi). apply in_seq in Hi. destruct (Nat.ltb_spec i N); [apply unit_energy; auto|]. rewrite unit_energy by lia. ring.
Qed.
Lemma biorthogonal_mean M A K : BiorthogonalConstellation M A = Some K -> is_average (matrix K) (mean0 K).
Proof.
  intros H. destruct (biorthogonal_cases _ _ _ H) as (N & HN & _ & _ & _ & -> & _ & ->). intros c Hc. rewrite map_length, seq_length in Hc. rewrite nth_map_seq by auto.
  rewrite (avg_coord_seq M c _ (fun i => if Nat.ltb i N then (if Nat.eqb i c then A else 0) else (if Nat.eqb (i - N) c then - A else 0))).
  - f_equal. rewrite HN. replace (2 * N)%nat with (N + N)%nat by lia. rewrite Rsumf_app. rewrite (Rsumf_ext N _ (fun j => if Nat.eqb c j then A else 0)).
    + rewrite (Rsumf_ext N (fun i => if Nat.ltb (N + i) N then _ else _) (fun j => if Nat.eqb c j then - A else 0)); [rewrite (Rsumf_delta N c (fun _ => A)), (Rsumf_delta N c (fun _ => - A)) by auto; unfold Rdiv; ring|].
      intros j Hj. destruct (Nat.ltb_spec (N + j) N); [lia|]. replace (N + j - N)%nat with j by lia. now rewrite Nat.eqb_sym.
    + intros j Hj. destruct (Nat.ltb_spec j N); [|lia]. now rewrite Nat.eqb_sym.
  - intros i Hi. destruct (Nat.ltb_spec i N); now rewrite unit_nth.
Qed.
Lemma biorthogonal_mindist M A K : BiorthogonalConstellation M A = Some K -> (2 <= M)%nat -> 0 < A -> exists d, minimum_distance K = Some d /\ is_min_distance (matrix K) d.
Proof.
  intros H HM HA. destruct (biorthogonal_cases _ _ _ H) as (N & HN & _ & _ & _ & _ & -> & ->). eexists. split; [reflexivity|]. pose proof (sqrt_pos 2).
  assert (D : forall i j, (i < j < M)%nat -> dist2 (nth i (map (fun i => if Nat.ltb i N then unit_vector N A i else unit_vector N (- A) (i - N)) (seq 0 M)) []) (nth j (map (fun i => if Nat.ltb i N then unit_vector N A i else unit_vector N (- A) (i - N)) (seq 0 M)) []) = if Nat.eqb j (i + N) then 4 * A ^ 2 else 2 * A ^ 2).
  { intros i j Hij. rewrite !nth_map_seq by lia. destruct (Nat.ltb_spec i N), (Nat.ltb_spec j N); try lia; rewrite unit_dist by lia.
    - destruct (Nat.eqb_spec i j); [lia|]. destruct (Nat.eqb_spec j (i + N)); [lia|ring].
    - destruct (Nat.eqb_spec i (j - N)), (Nat.eqb_spec j (i + N)); try lia; ring.
    - destruct (Nat.eqb_spec (i - N) (j - N)); [lia|]. destruct (Nat.eqb_spec j (i + N)); [lia|ring]. }
  split; [destruct (Nat.eqb M 2); nra|]. rewrite map_length, seq_length. destruct (Nat.eqb_spec M 2) as [E|E].
  - split; [exists 0%nat, 1%nat|intros i j Hij]; [split; [lia|]|]; rewrite D by lia; [destruct (Nat.eqb_spec 1 (0 + N)); [ring|lia]|]. destruct (Nat.eqb_spec j (i + N)); [nra|lia].
  - rewrite sqrt2_sq. split; [exists 0%nat, 1%nat|intros i j Hij]; [split; [lia|]|]; rewrite D by lia; [destruct (Nat.eqb_spec 1 (0 + N)); [lia|ring]|]. destruct (Nat.eqb_spec j (i + N)); nra.
Qed.
