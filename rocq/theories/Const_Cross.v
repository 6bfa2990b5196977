(* Proofs about the cross QAM constellation, the inherited (generic) methods, noiseless decisions and posteriors. *)
From Coq Require Import Reals Lra.
From Coquelicot Require Import Complex.
From Verif Require Import Common Conv_Model Conv_Proof Corr_Model Corr_Spec Corr_Proof Quant_Model Quant_Proof Const_Model Const_Spec Const_Proof Const_Stats.
Local Open Scope R_scope.

Lemma power_of_two M : (M <> 0)%nat -> Nat.land M (M - 1) = 0%nat -> M = (2 ^ Nat.log2 M)%nat.
Proof.
  intros N H. destruct (Nat.log2_spec M ltac:(lia)) as [L1 L2]. destruct (Nat.eq_dec M (2 ^ Nat.log2 M)) as [E|E]; [exact E|]. exfalso.
  assert (E1 : Nat.log2 (M - 1) = Nat.log2 M). { apply Nat.log2_unique; lia. }
  assert (T := Nat.land_spec M (M - 1) (Nat.log2 M)). rewrite H, Nat.bits_0, Nat.bit_log2 in T by auto. rewrite <- E1, Nat.bit_log2 in T; [discriminate|].
  intros Z. assert (M = 1)%nat by lia. subst M. cbn in E. lia.
Qed.
Lemma cross_params M : ((M <? 32)%nat || negb (Nat.eqb (Nat.land M (M - 1)) 0) || Nat.even (Nat.log2 M)) = false ->
  exists h, (1 <= h)%nat /\ M = (32 * h * h)%nat /\ (3 * 2 ^ ((Nat.log2 M - 3) / 2) = 6 * h)%nat /\ (2 ^ ((Nat.log2 M - 1) / 2) = 4 * h)%nat.
Proof.
  intros H. apply orb_false_iff in H as [H H3]. apply orb_false_iff in H as [H1 H2]. apply Nat.ltb_ge in H1. apply negb_false_iff, Nat.eqb_eq in H2. pose proof (power_of_two M ltac:(lia) H2) as P.
  set (k := Nat.log2 M) in *. assert (O : Nat.odd k = true) by (unfold Nat.odd; now rewrite H3). apply Nat.odd_spec in O as [t Ht].
  assert (K : (5 <= k)%nat). { destruct (Nat.le_gt_cases 5 k); auto. assert (k <= 4)%nat by lia. assert (2 ^ k <= 2 ^ 4)%nat by (apply Nat.pow_le_mono_r; lia). cbn in H4. lia. }
  exists (2 ^ (t - 2))%nat. assert (T : (t = t - 2 + 2)%nat) by lia. set (u := (t - 2)%nat) in *. clearbody u. subst t. assert (0 < 2 ^ u)%nat by (apply Nat.neq_0_lt_0, Nat.pow_nonzero; lia). clearbody k. subst k.
  split; [lia|]. split; [rewrite P; replace (2 * (u + 2) + 1)%nat with (u + u + 5)%nat by lia; rewrite !Nat.pow_add_r; change (2 ^ 5)%nat with 32%nat; lia|].
  split; [replace ((2 * (u + 2) + 1 - 3) / 2)%nat with (u + 1)%nat by (replace (2 * (u + 2) + 1 - 3)%nat with ((u + 1) * 2)%nat by lia; now rewrite Nat.div_mul)|replace ((2 * (u + 2) + 1 - 1) / 2)%nat with (u + 2)%nat by (replace (2 * (u + 2) + 1 - 1)%nat with ((u + 2) * 2)%nat by lia; now rewrite Nat.div_mul)];
    rewrite Nat.pow_add_r; cbn [Nat.pow]; lia.
Qed.
Definition outer (h i : nat) : bool := (i <? h)%nat || (5 * h <=? i)%nat.
Lemma outer_spec h i d : 0 < d -> Rltb (INR (4 * h) * (d / 2)) (Rabs ((INR i - (INR (6 * h) - 1) / 2) * d)) = outer h i.
Proof.
  intros Hd. rewrite !mult_INR. change (INR 4) with (2 + 1 + 1). change (INR 6) with (2 + 1 + 1 + 1 + 1). rewrite Rabs_mult, (Rabs_pos_eq d) by lra. unfold outer.
  assert (IH1 : (i < h)%nat -> INR i + 1 <= INR h) by apply INR_lt_1. assert (IH2 : (h <= i)%nat -> INR h <= INR i) by (intros; now apply le_INR).
  assert (IH3 : (i < 5 * h)%nat -> INR i + 1 <= 5 * INR h). { intros L. apply INR_lt_1 in L. rewrite mult_INR in L. change (INR 5) with (2 + 1 + 1 + 1) in L. lra. }
  assert (IH4 : (5 * h <= i)%nat -> 5 * INR h <= INR i). { intros L. apply le_INR in L. rewrite mult_INR in L. change (INR 5) with (2 + 1 + 1 + 1) in L. lra. }
  set (x := INR i - ((2 + 1 + 1 + 1 + 1) * INR h - 1) / 2). assert (Ex : x = INR i - 3 * INR h + 1 / 2) by (unfold x; field). clearbody x.
  destruct (Nat.ltb_spec i h); cbn [orb].
  - specialize (IH1 H). destruct (Rltb_spec ((2 + 1 + 1) * INR h * (d / 2)) (Rabs x * d)) as [|N]; [reflexivity|]. exfalso. apply N. rewrite Rabs_left1 by (pose proof (pos_INR h); lra). nra.
  - specialize (IH2 H). destruct (Nat.leb_spec (5 * h) i).
    + specialize (IH4 H0). destruct (Rltb_spec ((2 + 1 + 1) * INR h * (d / 2)) (Rabs x * d)) as [|N]; [reflexivity|]. exfalso. apply N. pose proof (pos_INR h). rewrite Rabs_pos_eq by lra. nra.
    + specialize (IH3 H0). destruct (Rltb_spec ((2 + 1 + 1) * INR h * (d / 2)) (Rabs x * d)) as [N|]; [|reflexivity]. exfalso. assert (Rabs x <= 2 * INR h) by (apply Rabs_le; lra). nra.
Qed.
Definition grid {A} (n m : nat) (f : nat -> nat -> A) : list A := concat (map (fun i => map (fun q => f i q) (seq 0 m)) (seq 0 n)).
Lemma rotation_0 : rotation 0 = RtoC 1.
Proof. unfold rotation. rewrite Rmult_0_r. apply cexp_0. Qed.
Definition cross_grid (h : nat) (d : R) : list C :=
  filter (fun z : C => negb (Rltb (INR (4 * h) * (d / 2)) (Rabs (fst z)) && Rltb (INR (4 * h) * (d / 2)) (Rabs (snd z)))) (grid (6 * h) (6 * h) (qam_pt (6 * h) (6 * h) d d)).
Lemma cross_eq M d phi h : (3 * 2 ^ ((Nat.log2 M - 3) / 2) = 6 * h)%nat -> (2 ^ ((Nat.log2 M - 1) / 2) = 4 * h)%nat -> cross_points M d phi = map (fun z => Cmult z (rotation phi)) (cross_grid h d).
Proof.
  intros E1 E2. unfold cross_points. cbv zeta. rewrite E1, E2, qam_points_eq. unfold cross_grid, grid. do 3 f_equal. apply map_ext. intros i. apply map_ext. intros q. now rewrite rotation_0, Cmult_1_r.
Qed.
Lemma cross_sum h d (f : C -> R) : 0 < d -> fold_right Rplus 0 (map f (cross_grid h d)) = Rsumf (6 * h) (fun i => Rsumf (6 * h) (fun q => if outer h i && outer h q then 0 else f (qam_pt (6 * h) (6 * h) d d i q))).
Proof.
  intros Hd. unfold cross_grid. rewrite lsum_filter. unfold grid. rewrite (lsum_grid _ (qam_pt (6 * h) (6 * h) d d)). apply Rsumf_ext. intros i Hi. apply Rsumf_ext. intros q Hq. unfold qam_pt at 1 2. cbn [fst snd].
  rewrite !outer_spec by auto. destruct (outer h i && outer h q); reflexivity.
Qed.
Definition ind (b : bool) : R := if b then 1 else 0.
Lemma cross_double n (c : nat -> bool) (f g : nat -> R) :
  Rsumf n (fun i => Rsumf n (fun q => if c i && c q then 0 else f i + g q)) =
  INR n * Rsumf n f + INR n * Rsumf n g - Rsumf n (fun i => ind (c i)) * Rsumf n (fun i => ind (c i) * f i) - Rsumf n (fun i => ind (c i)) * Rsumf n (fun i => ind (c i) * g i).
Proof.
  set (U := Rsumf n (fun i => ind (c i))). set (G := Rsumf n g). set (UG := Rsumf n (fun i => ind (c i) * g i)).
  rewrite (Rsumf_ext n _ (fun i => (INR n * f i + G) + ((- U) * (ind (c i) * f i) + (- UG) * ind (c i)))).
  - rewrite !Rsumf_plus, !Rsumf_scal, Rsumf_const. fold U. ring.
  - intros i _. rewrite (Rsumf_ext n _ (fun q => (f i + g q) + ((- (ind (c i) * f i)) * ind (c q) + (- ind (c i)) * (ind (c q) * g q)))).
    + rewrite !Rsumf_plus, !Rsumf_scal, Rsumf_const. fold U G UG. ring.
    + intros q _. unfold ind. destruct (c i), (c q); cbn [andb]; ring.
Qed.
Lemma outer_split h (f : nat -> R) : Rsumf (6 * h) (fun i => ind (outer h i) * f i) = Rsumf h f + Rsumf h (fun i => f (5 * h + i)%nat).
Proof.
  replace (6 * h)%nat with (h + (4 * h + h))%nat by lia. rewrite !Rsumf_app. rewrite (Rsumf_ext h (fun i => ind (outer h i) * f i) f). 2: { intros i Hi. unfold outer. destruct (Nat.ltb_spec i h); [cbn; ring|lia]. }
  rewrite (Rsumf_ext (4 * h) _ (fun _ => 0)). 2: { intros i Hi. unfold outer. destruct (Nat.ltb_spec (h + i) h); [lia|]. destruct (Nat.leb_spec (5 * h) (h + i)); [lia|]. cbn. ring. }
  rewrite (Rsumf_ext h (fun i => ind (outer h (h + (4 * h + i))) * _) (fun i => f (5 * h + i)%nat)). 2: { intros i Hi. replace (h + (4 * h + i))%nat with (5 * h + i)%nat by lia. unfold outer. destruct (Nat.leb_spec (5 * h) (5 * h + i)); [|lia]. rewrite orb_true_r. cbn [ind]. ring. }
  rewrite Rsumf_const. ring.
Qed.
Lemma outer_count h : Rsumf (6 * h) (fun i => ind (outer h i)) = 2 * INR h.
Proof. rewrite (Rsumf_ext (6 * h) _ (fun i => ind (outer h i) * 1)) by (intros; ring). rewrite (outer_split h (fun _ => 1)), !Rsumf_const. ring. Qed.
Lemma INR6 h : INR (6 * h) = 6 * INR h. Proof. rewrite mult_INR. change (INR 6) with (2 + 1 + 1 + 1 + 1). ring. Qed.
Lemma cross_length h d : 0 < d -> length (cross_grid h d) = (32 * h * h)%nat.
Proof.
  intros Hd. apply INR_eq. rewrite INR_length, (cross_sum h d (fun _ => 1)) by auto.
  rewrite (Rsumf_ext (6 * h) _ (fun i => Rsumf (6 * h) (fun q => if outer h i && outer h q then 0 else 1 + 0))).
  - rewrite (cross_double (6 * h) (outer h) (fun _ => 1) (fun _ => 0)), !Rsumf_const, !outer_count, (outer_split h (fun _ => 1)), (outer_split h (fun _ => 0)), !Rsumf_const, INR6, !mult_INR.
    change (INR 32) with (INR (6 * 5 + 2)). rewrite plus_INR, mult_INR. change (INR 6) with (2 + 1 + 1 + 1 + 1). change (INR 5) with (2 + 1 + 1 + 1). change (INR 2) with 2. ring.
  - intros i _. apply Rsumf_ext. intros q _. destruct (outer h i && outer h q); ring.
Qed.
Definition xc (h : nat) (d : R) (i : nat) : R := (INR i - (INR (6 * h) - 1) / 2) * d.
Lemma outer_sq h d : Rsumf (6 * h) (fun i => ind (outer h i) * xc h d i ^ 2) = d ^ 2 * (2 * INR h * (3 * INR h - 1 / 2) ^ 2 - 2 * (3 * INR h - 1 / 2) * INR h * (INR h - 1) + (INR h - 1) * INR h * (2 * INR h - 1) / 3).
Proof.
  rewrite (outer_split h (fun i => xc h d i ^ 2)). unfold xc. rewrite !INR6.
  rewrite (Rsumf_ext h (fun i => ((INR i - (6 * INR h - 1) / 2) * d) ^ 2) (fun i => d ^ 2 * (INR i + (1 / 2 - 3 * INR h)) ^ 2)) by (intros; field).
  rewrite (Rsumf_ext h (fun i => ((INR (5 * h + i) - (6 * INR h - 1) / 2) * d) ^ 2) (fun i => d ^ 2 * (INR i + (2 * INR h + 1 / 2)) ^ 2)).
  - rewrite !Rsumf_scal, !sum_shift2. field.
  - intros i _. rewrite plus_INR, mult_INR. change (INR 5) with (2 + 1 + 1 + 1). field.
Qed.
Lemma outer_lin h d : Rsumf (6 * h) (fun i => ind (outer h i) * xc h d i) = 0.
Proof.
  rewrite (outer_split h (fun i => xc h d i)). unfold xc. rewrite !INR6.
  rewrite (Rsumf_ext h (fun i => (INR i - (6 * INR h - 1) / 2) * d) (fun i => d * (INR i + (1 / 2 - 3 * INR h)))) by (intros; field).
  rewrite (Rsumf_ext h (fun i => (INR (5 * h + i) - (6 * INR h - 1) / 2) * d) (fun i => d * (INR i + (2 * INR h + 1 / 2)))).
  - rewrite !Rsumf_scal, !sum_shift1. field.
  - intros i _. rewrite plus_INR, mult_INR. change (INR 5) with (2 + 1 + 1 + 1). field.
Qed.
Lemma all_sq h d : Rsumf (6 * h) (fun i => xc h d i ^ 2) = INR (6 * h) * (d ^ 2 * (INR (6 * h) ^ 2 - 1) / 12).
Proof. apply centered2. Qed.
Lemma cross_energy_sum h d : 0 < d -> fold_right Rplus 0 (map (fun z => fst z ^ 2 + snd z ^ 2) (cross_grid h d)) = 32 * INR h ^ 2 * (d ^ 2 * (31 * (32 * INR h ^ 2) - 32) / 192).
Proof.
  intros Hd. rewrite cross_sum by auto.
  rewrite (Rsumf_ext (6 * h) _ (fun i => Rsumf (6 * h) (fun q => if outer h i && outer h q then 0 else xc h d i ^ 2 + xc h d q ^ 2))) by (intros; reflexivity).
  rewrite (cross_double (6 * h) (outer h) (fun i => xc h d i ^ 2) (fun i => xc h d i ^ 2)), outer_count, outer_sq, all_sq, INR6. field.
Qed.
Lemma cross_csum h d : 0 < d -> fold_right Cplus (RtoC 0) (cross_grid h d) = RtoC 0.
Proof.
  intros Hd. assert (Z : Rsumf (6 * h) (fun _ => 0) = 0) by (rewrite Rsumf_const; ring). assert (Z' : Rsumf (6 * h) (fun i => ind (outer h i) * 0) = 0) by (rewrite (Rsumf_ext _ _ (fun _ => 0)) by (intros; ring); exact Z). assert (L : Rsumf (6 * h) (xc h d) = 0) by apply centered1.
  apply csum_0.
  - etransitivity; [exact (cross_sum h d fst Hd)|]. rewrite (Rsumf_ext (6 * h) _ (fun i => Rsumf (6 * h) (fun q => if outer h i && outer h q then 0 else xc h d i + 0))).
    + rewrite (cross_double (6 * h) (outer h) (xc h d) (fun _ => 0)), outer_lin, L, Z, Z'. ring.
    + intros i _. apply Rsumf_ext. intros q _. destruct (outer h i && outer h q); [reflexivity|]. unfold qam_pt, xc. cbn [fst]. ring.
  - etransitivity; [exact (cross_sum h d snd Hd)|]. rewrite (Rsumf_ext (6 * h) _ (fun i => Rsumf (6 * h) (fun q => if outer h i && outer h q then 0 else 0 + xc h d q))).
    + rewrite (cross_double (6 * h) (outer h) (fun _ => 0) (xc h d)), outer_lin, L, Z, Z'. ring.
    + intros i _. apply Rsumf_ext. intros q _. destruct (outer h i && outer h q); [reflexivity|]. unfold qam_pt, xc. cbn [snd]. ring.
Qed.
Lemma filter_nth {A} (p : A -> bool) (l : list A) (x : A) : forall i j, (i < j < length (filter p l))%nat -> exists i' j', (i' < j' < length l)%nat /\ nth i (filter p l) x = nth i' l x /\ nth j (filter p l) x = nth j' l x.
Proof.
  assert (One : forall l i, (i < length (filter p l))%nat -> exists i', (i' < length l)%nat /\ nth i (filter p l) x = nth i' l x).
  { clear. induction l as [|a l IH]; intros i Hi; [cbn in Hi; lia|]. cbn [filter] in *. destruct (p a).
    - destruct i as [|i]; [exists 0%nat; cbn; split; [lia|reflexivity]|]. cbn in Hi. destruct (IH i ltac:(lia)) as (i' & H1 & H2). exists (S i'). cbn. split; [lia|exact H2].
    - destruct (IH i Hi) as (i' & H1 & H2). exists (S i'). cbn. split; [lia|exact H2]. }
  induction l as [|a l IH]; intros i j H; [cbn in H; lia|]. cbn [filter] in *. destruct (p a).
  - destruct j as [|j]; [lia|]. cbn [length] in H. destruct i as [|i].
    + destruct (One l j ltac:(lia)) as (j' & H1 & H2). exists 0%nat, (S j'). cbn. split; [lia|auto].
    + destruct (IH i j ltac:(lia)) as (i' & j' & H1 & H2 & H3). exists (S i'), (S j'). cbn. split; [lia|auto].
  - destruct (IH i j H) as (i' & j' & H1 & H2 & H3). exists (S i'), (S j'). cbn. split; [lia|auto].
Qed.
Lemma grid_length {A} n m (f : nat -> nat -> A) : length (grid n m f) = (n * m)%nat.
Proof.
  unfold grid. rewrite (concat_const_length m); [rewrite map_length, seq_length; lia|]. apply Forall_forall. intros l Hl. apply in_map_iff in Hl as (i & <- & _). now rewrite map_length, seq_length.
Qed.
Lemma cross_grid_dist h d i j : (i < j < length (cross_grid h d))%nat -> d ^ 2 <= dist2 [nth i (cross_grid h d) (RtoC 0)] [nth j (cross_grid h d) (RtoC 0)].
Proof.
  intros H. unfold cross_grid in *. destruct (filter_nth _ _ (RtoC 0) i j H) as (i' & j' & H1 & -> & ->). rewrite grid_length in H1. set (L := (6 * h)%nat) in *.
  assert (0 < L)%nat by nia. assert (Ei : i' = (L * (i' / L) + i' mod L)%nat) by (apply Nat.div_mod; lia). assert (Ej : j' = (L * (j' / L) + j' mod L)%nat) by (apply Nat.div_mod; lia).
  pose proof (Nat.mod_upper_bound i' L ltac:(lia)). pose proof (Nat.mod_upper_bound j' L ltac:(lia)). assert (i' / L < L)%nat by (apply Nat.div_lt_upper_bound; lia). assert (j' / L < L)%nat by (apply Nat.div_lt_upper_bound; lia).
  unfold grid. rewrite Ei, Ej, !(concat_nth (RtoC 0) L L (qam_pt L L d d)) by auto. rewrite dist2_1. unfold qam_pt. cbn [fst snd].
  replace ((_ - _) ^ 2 + (_ - _) ^ 2) with (((INR (i' / L) - INR (j' / L)) * d) ^ 2 + ((INR (i' mod L) - INR (j' mod L)) * d) ^ 2) by ring.
  destruct (Nat.eq_dec (i' / L) (j' / L)) as [E|N].
  - assert (i' mod L <> j' mod L) as N by (intros E'; rewrite Ei, Ej, E, E' in H1; lia). pose proof (diff_sq_ge _ _ d N). pose proof (pow2_ge_0 ((INR (i' / L) - INR (j' / L)) * d)). lra.
  - pose proof (diff_sq_ge _ _ d N). pose proof (pow2_ge_0 ((INR (i' mod L) - INR (j' mod L)) * d)). lra.
Qed.
Lemma grid_in {A} n m (f : nat -> nat -> A) i j : (i < n)%nat -> (j < m)%nat -> In (f i j) (grid n m f).
Proof. intros Hi Hj. unfold grid. apply in_concat. exists (map (fun q => f i q) (seq 0 m)). split; apply in_map_iff; [exists i|exists j]; (split; [reflexivity|apply in_seq; lia]). Qed.
Lemma cross_in h d i q : 0 < d -> (i < 6 * h)%nat -> (q < 6 * h)%nat -> outer h i && outer h q = false -> In (qam_pt (6 * h) (6 * h) d d i q) (cross_grid h d).
Proof. intros Hd Hi Hq O. unfold cross_grid. apply filter_In. split; [now apply grid_in|]. unfold qam_pt. cbn [fst snd]. now rewrite !outer_spec, O by auto. Qed.
Lemma cross_pair h d : 0 < d -> (1 <= h)%nat -> exists i j, (i < j < length (cross_grid h d))%nat /\ dist2 [nth i (cross_grid h d) (RtoC 0)] [nth j (cross_grid h d) (RtoC 0)] = d ^ 2.
Proof.
  intros Hd Hh. set (L := (6 * h)%nat). assert (O : outer h h = false) by (unfold outer; destruct (Nat.ltb_spec h h), (Nat.leb_spec (5 * h) h); auto; lia).
  pose proof (cross_in h d h h Hd ltac:(lia) ltac:(lia) ltac:(rewrite O; reflexivity)) as I1. pose proof (cross_in h d h (h + 1) Hd ltac:(lia) ltac:(lia) ltac:(rewrite O; reflexivity)) as I2.
  apply (In_nth _ _ (RtoC 0)) in I1 as (a & Ha & Ea). apply (In_nth _ _ (RtoC 0)) in I2 as (b & Hb & Eb).
  assert (D : dist2 [nth a (cross_grid h d) (RtoC 0)] [nth b (cross_grid h d) (RtoC 0)] = d ^ 2). { rewrite Ea, Eb, dist2_1. unfold qam_pt. cbn [fst snd]. rewrite (plus_INR h 1). cbn [INR]. ring. }
  destruct (Nat.lt_total a b) as [T|[T|T]].
  - exists a, b. split; [lia|exact D].
  - exfalso. rewrite T, dist2_refl in D. nra.
  - exists b, a. split; [lia|]. now rewrite dist2_sym.
Qed.
Lemma cross_cases M d phi K : CrossQAMConstellation M d phi = Some K -> exists h, (1 <= h)%nat /\ M = (32 * h * h)%nat /\ order K = M /\ dimension K = 1%nat /\ mean0 K = [RtoC 0] /\
  mean_energy0 K = d ^ 2 * (31 * INR M - 32) / 192 /\ minimum_distance K = Some d /\ matrix K = map (fun z => [z]) (map (fun z => Cmult z (rotation phi)) (cross_grid h d)) /\ closest K = base_closest (matrix K).
Proof.
  unfold CrossQAMConstellation. cbv zeta. destruct (_ || _) eqn:E; [discriminate|]. intros H. apply (f_equal (fun o => match o with Some k => k | None => K end)) in H. rewrite <- H. clear H. destruct (cross_params M E) as (h & H1 & H2 & H3 & H4). exists h. repeat (split; [first [assumption|reflexivity]|]). cbn [matrix closest]. now rewrite (cross_eq M d phi h H3 H4).
Qed.
Lemma cross_stats M d phi K : CrossQAMConstellation M d phi = Some K -> 0 < d ->
  length (matrix K) = M /\ is_average (matrix K) (mean0 K) /\ average_energy (matrix K) = mean_energy0 K /\ is_min_distance (matrix K) d.
Proof.
  intros H Hd. destruct (cross_cases _ _ _ _ H) as (h & H1 & H2 & _ & _ & E0 & E1 & _ & EM & _). rewrite E0, E1, EM. split; [rewrite !map_length, cross_length; auto|]. split; [|split].
  - apply avg_1. rewrite csum_mult, cross_csum, Cmult_0_l, Cdiv_0 by auto. reflexivity.
  - rewrite avg_energy_1, map_map, map_length, cross_length by auto. rewrite (map_ext _ (fun z => fst z ^ 2 + snd z ^ 2)) by (intros; apply energy_rot). rewrite cross_energy_sum by auto.
    assert (0 < INR h) by (apply lt_0_INR; lia). rewrite H2. assert (E32 : INR (32 * h * h) = 32 * INR h ^ 2). { rewrite !mult_INR. change (INR 32) with (INR (6 * 5 + 2)). rewrite plus_INR, mult_INR. change (INR 6) with (2 + 1 + 1 + 1 + 1). change (INR 5) with (2 + 1 + 1 + 1). change (INR 2) with 2. ring. }
    rewrite E32. field. lra.
  - assert (N : forall i, (i < length (cross_grid h d))%nat -> nth i (map (fun z => [z]) (map (fun z => Cmult z (rotation phi)) (cross_grid h d))) [] = [Cmult (nth i (cross_grid h d) (RtoC 0)) (rotation phi)]).
    { intros i Hi. rewrite map_map. now rewrite nth_map_pt with (d := RtoC 0). }
    split; [lra|]. rewrite !map_length. split.
    + destruct (cross_pair h d Hd H1) as (i & j & Hij & D). exists i, j. split; [exact Hij|]. rewrite !N by lia. unfold rotation. now rewrite dist2_rot2.
    + intros i j Hij. rewrite !N by lia. unfold rotation. rewrite dist2_rot2. now apply cross_grid_dist.
Qed.
