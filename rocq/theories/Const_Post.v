(* Proofs about the inherited (generic) methods, noiseless decisions and posteriors. *)
From Coq Require Import Reals Lra.
From Coquelicot Require Import Complex.
From Verif Require Import Common Conv_Model Conv_Proof Corr_Model Corr_Spec Corr_Proof Quant_Model Quant_Proof Const_Model Const_Spec Const_Proof Const_Stats.
Local Open Scope R_scope.

(* ---- inherited statistics ---- *)
Lemma fold_Rmin_spec l : forall x, (fold_left Rmin l x = x \/ In (fold_left Rmin l x) l) /\ fold_left Rmin l x <= x /\ (forall y, In y l -> fold_left Rmin l x <= y).
Proof.
  induction l as [|a l IH]; intros x; cbn [fold_left]; [split; [auto|split; [lra|easy]]|]. destruct (IH (Rmin x a)) as (H1 & H2 & H3). pose proof (Rmin_l x a). pose proof (Rmin_r x a). split; [|split; [lra|]].
  - destruct H1 as [H1|H1]; [|right; now right]. rewrite H1. unfold Rmin. destruct (Rle_dec x a); [now left|right; now left].
  - intros y [->|Hy]; [lra|auto].
Qed.
Lemma rmin_spec l d : rmin l = Some d -> In d l /\ forall y, In y l -> d <= y.
Proof.
  destruct l as [|x l]; [discriminate|]. cbn [rmin]. injection 1 as <-. destruct (fold_Rmin_spec l x) as (H1 & H2 & H3). split; [destruct H1 as [->|H1]; [now left|now right]|]. intros y [<-|Hy]; auto.
Qed.
Lemma pair_list_in m x : In x (concat (map (fun i => map (fun j => sqrt (sqnorm_diff (nth i m []) (nth j m []))) (filter (fun j => negb (Nat.eqb i j)) (seq 0 (length m)))) (seq 0 (length m)))) <->
  exists i j, (i < length m)%nat /\ (j < length m)%nat /\ i <> j /\ x = sqrt (dist2 (nth i m []) (nth j m [])).
Proof.
  rewrite in_concat. split.
  - intros (l & Hl & Hx). apply in_map_iff in Hl as (i & <- & Hi). apply in_map_iff in Hx as (j & <- & Hj). apply filter_In in Hj as [Hj N]. apply in_seq in Hi, Hj. destruct (Nat.eqb_spec i j); [discriminate|]. exists i, j. rewrite sqnorm_dist2. repeat split; auto; lia.
  - intros (i & j & Hi & Hj & N & ->). eexists. split; [apply in_map_iff; exists i; split; [reflexivity|apply in_seq; lia]|]. apply in_map_iff. exists j. rewrite sqnorm_dist2. split; [reflexivity|]. apply filter_In. split; [apply in_seq; lia|]. now destruct (Nat.eqb_spec i j).
Qed.
Lemma base_mindist m : (2 <= length m)%nat -> exists d, base_minimum_distance m = Some d /\ is_min_distance m d.
Proof.
  intros H. unfold base_minimum_distance. set (l := concat _). assert (N : exists d, rmin l = Some d).
  { destruct l as [|x l'] eqn:E; [|cbn; eauto]. exfalso. assert (I : In (sqrt (dist2 (nth 0 m []) (nth 1 m []))) l) by (apply pair_list_in; exists 0%nat, 1%nat; repeat split; auto; lia). now rewrite E in I. }
  destruct N as [d Hd]. exists d. split; [exact Hd|]. apply rmin_spec in Hd as [H1 H2]. apply pair_list_in in H1 as (i & j & Hi & Hj & Hij & ->). assert (S : forall p q, sqrt (dist2 p q) ^ 2 = dist2 p q) by (intros; apply pow2_sqrt, dist2_nonneg).
  split; [apply sqrt_pos|]. split.
  - rewrite S. destruct (Nat.lt_total i j) as [T|[T|T]]; [exists i, j; split; [lia|reflexivity]|easy|exists j, i; split; [lia|apply dist2_sym]].
  - intros a b Hab. rewrite <- (S (nth a m []) (nth b m [])). apply pow_incr. split; [apply sqrt_pos|]. apply H2, pair_list_in. exists a, b. repeat split; auto; lia.
Qed.
Lemma base_mindist_none m : (length m <= 1)%nat -> base_minimum_distance m = None.
Proof. destruct m as [|a [|b m]]; cbn [length]; intros H; [reflexivity|reflexivity|lia]. Qed.
Lemma combine_const {A B} (c : A) (m : list B) : combine (map (fun _ => c) m) m = map (fun x => (c, x)) m.
Proof. induction m as [|x m IH]; [reflexivity|]. cbn. now rewrite IH. Qed.
Lemma base_energy m : base_mean_energy m (uniform_priors m) = average_energy m.
Proof.
  unfold base_mean_energy, uniform_priors, average_energy. rewrite combine_const, map_map. cbn [fst snd]. set (c := 1 / INR (length m)). replace (fold_right Rplus 0 (map energy_of m) / INR (length m)) with (c * fold_right Rplus 0 (map energy_of m)) by (unfold c, Rdiv; ring). clearbody c.
  induction m as [|p m IH]; cbn [map fold_right]; [ring|]. rewrite IH. fold (energy_of p). ring.
Qed.
Lemma base_average dim m : m <> [] -> is_average m (base_mean dim m (uniform_priors m)).
Proof.
  intros NE c Hc. unfold base_mean in *. rewrite map_length, seq_length in Hc. rewrite nth_map_seq by auto. unfold uniform_priors, average_coordinate. rewrite combine_const, map_map. cbn [fst snd].
  assert (P : 0 < INR (length m)) by (apply lt_0_INR; destruct m; [easy|cbn; lia]). assert (NZ : RtoC (INR (length m)) <> RtoC 0) by (intros E; apply RtoC_inj in E; lra).
  assert (EC : RtoC (1 / INR (length m)) = Cdiv (RtoC 1) (RtoC (INR (length m)))) by (now rewrite RtoC_div by lra). rewrite EC. set (u := RtoC (INR (length m))) in *. clearbody u. clear P EC NE.
  induction m as [|p m IH]; cbn [map fold_right]; [unfold Cdiv; ring|]. rewrite IH. field. exact NZ.
Qed.

(* ---- noiseless decisions ---- *)
Lemma nearest_exact m i k : separated m -> (i < length m)%nat -> nearest m (nth i m []) k -> k = i.
Proof.
  intros S Hi [Hk N]. specialize (N i Hi). rewrite dist2_refl in N. destruct (Nat.lt_total k i) as [T|[T|T]]; auto; exfalso.
  - specialize (S k i ltac:(lia)). rewrite dist2_sym in S. lra.
  - specialize (S i k ltac:(lia)). lra.
Qed.
Lemma separated_min m d : is_min_distance m d -> 0 < d -> separated m.
Proof. intros (_ & _ & H) P i j Hij. specialize (H i j Hij). assert (0 < d ^ 2) by nra. lra. Qed.
Lemma separated_1 m : (length m <= 1)%nat -> separated m.
Proof. intros H i j Hij. lia. Qed.
Lemma concat_len_mod {A} n (rs : list (list A)) : (0 < n)%nat -> Forall (fun r => length r = n) rs -> (length (concat rs) mod n = 0)%nat.
Proof. intros H F. rewrite (concat_const_length n) by auto. rewrite Nat.mul_comm. apply Nat.mod_mul. lia. Qed.
Lemma closest_concat K rs : (0 < dimension K)%nat -> Forall (fun r => length r = dimension K) rs -> closest_indices K (concat rs) = Some (map (closest K) rs).
Proof. intros H F. unfold closest_indices. rewrite concat_len_mod by auto. cbn [Nat.eqb negb]. now rewrite reshape_concat. Qed.
Lemma noiseless K idx : (0 < dimension K)%nat -> Forall (fun p => length p = dimension K) (matrix K) -> (forall r, length r = dimension K -> nearest (matrix K) r (closest K r)) -> separated (matrix K) ->
  Forall (fun i => (i < length (matrix K))%nat) idx -> exists s, indices_to_symbols K idx = Some s /\ closest_indices K s = Some idx /\ closest_symbols K s = Some s.
Proof.
  intros H1 H2 H3 H4 H5. set (rs := map (fun i => nth i (matrix K) []) idx). exists (concat rs). assert (E1 : indices_to_symbols K idx = Some (concat rs)).
  { unfold indices_to_symbols. rewrite (proj2 (forallb_forall _ _)); [reflexivity|]. intros i Hi. apply Nat.ltb_lt. rewrite Forall_forall in H5. auto. }
  assert (E2 : closest_indices K (concat rs) = Some idx).
  { rewrite closest_concat; auto.
    - f_equal. unfold rs. rewrite map_map. rewrite <- map_id. apply map_ext_in. intros i Hi. rewrite Forall_forall in H5. apply (nearest_exact (matrix K)); auto. apply H3. rewrite Forall_forall in H2. apply H2, nth_In. auto.
    - apply Forall_forall. intros r Hr. unfold rs in Hr. apply in_map_iff in Hr as (i & <- & Hi). rewrite Forall_forall in H2, H5. apply H2, nth_In. auto. }
  split; [exact E1|]. split; [exact E2|]. unfold closest_symbols. now rewrite E2.
Qed.

(* ---- posteriors ---- *)
Definition topf := fun (x acc : option R) => match x, acc with None, _ => acc | Some _, None => x | Some a, Some b => Some (Rmax a b) end.
Lemma top_some l a : In (Some a) l -> exists t, fold_right topf None l = Some t.
Proof.
  induction l as [|x l IH]; [easy|]. intros [->|H]; cbn [fold_right]; [destruct (fold_right topf None l); cbn; eauto|]. destruct (IH H) as [t ->]. destruct x; cbn; eauto.
Qed.
Lemma lsum_scal {A} c (f : A -> R) l : fold_right Rplus 0 (map (fun x => c * f x) l) = c * fold_right Rplus 0 (map f l).
Proof. induction l as [|a l IH]; cbn; [ring|]. rewrite IH. ring. Qed.
Lemma lsum_pos {A} (f : A -> R) l : (forall x, In x l -> 0 <= f x) -> (exists x, In x l /\ 0 < f x) -> 0 < fold_right Rplus 0 (map f l).
Proof.
  intros H (x & Hx & P). assert (NN : forall l', (forall y, In y l' -> 0 <= f y) -> 0 <= fold_right Rplus 0 (map f l')). { clear. induction l' as [|a l' IH]; cbn; intros H; [lra|]. pose proof (H a (or_introl eq_refl)). pose proof (IH (fun y Hy => H y (or_intror Hy))). lra. }
  induction l as [|a l IH]; [easy|]. cbn [map fold_right]. pose proof (H a (or_introl eq_refl)). pose proof (NN l (fun y Hy => H y (or_intror Hy))). destruct Hx as [->|Hx]; [lra|]. specialize (IH (fun y Hy => H y (or_intror Hy)) Hx). lra.
Qed.
Lemma lsum_le {A} (f g : A -> R) l : (forall x, In x l -> f x <= g x) -> fold_right Rplus 0 (map f l) <= fold_right Rplus 0 (map g l).
Proof. induction l as [|a l IH]; intros H; cbn; [lra|]. pose proof (H a (or_introl eq_refl)). pose proof (IH (fun y Hy => H y (or_intror Hy))). lra. Qed.
Lemma some_positive l : 0 < fold_right Rplus 0 l -> exists x, In x l /\ 0 < x.
Proof.
  induction l as [|a l IH]; cbn; intros H; [lra|]. destruct (Rlt_dec 0 a) as [P|P]; [exists a; auto|]. destruct IH as (x & Hx & Px); [lra|]. exists x. auto.
Qed.
Lemma combine_map_r {A B D} (f : B -> D) (a : list A) (b : list B) : combine a (map f b) = map (fun p => (fst p, f (snd p))) (combine a b).
Proof. revert b. induction a as [|x a IH]; intros [|y b]; cbn; auto. now rewrite IH. Qed.
Lemma combine_seq {A B} (da : A) (db : B) a b : length a = length b -> combine a b = map (fun i => (nth i a da, nth i b db)) (seq 0 (length b)).
Proof.
  revert b. induction a as [|x a IH]; intros [|y b] H; try easy. cbn [length seq map combine nth]. f_equal. rewrite IH by (cbn in H; lia). rewrite <- seq_shift, map_map. reflexivity.
Qed.
Lemma density_factor cplx N P d2 : 0 < P -> exists c, 0 < c /\ noise_density cplx N P d2 = c * exp (- d2 / (if cplx then P else 2 * P)) /\ (forall e2, noise_density cplx N P e2 = c * exp (- e2 / (if cplx then P else 2 * P))).
Proof.
  intros H. pose proof PI_RGT_0. unfold noise_density. destruct cplx.
  - exists ((1 / (PI * P)) ^ N). split; [apply pow_lt, Rdiv_lt_0_compat; nra|auto].
  - exists ((1 / sqrt (2 * PI * P)) ^ N). split; [|auto]. apply pow_lt, Rdiv_lt_0_compat; [lra|]. apply sqrt_lt_R0. nra.
Qed.
Lemma posterior_row_bayes K P priors r : 0 < P -> length priors = length (matrix K) -> Forall (fun x => 0 <= x) priors -> 0 < fold_right Rplus 0 priors ->
  posterior_row K P priors r = map (bayes (is_complex K) (dimension K) P (matrix K) priors r) (seq 0 (length (matrix K))).
Proof.
  intros HP HL HN HS. unfold posterior_row. fold topf. set (v := if is_complex K then P else 2 * P). assert (Hv : 0 < v) by (unfold v; destruct (is_complex K); lra).
  set (n := length (matrix K)). set (lp := fun i => if Rltb 0 (nth i priors 0) then Some (- sqnorm_diff r (nth i (matrix K) []) / v + ln (nth i priors 0)) else None).
  assert (EL : map (fun pd : R * R => if Rltb 0 (fst pd) then Some (- snd pd / v + ln (fst pd)) else None) (combine priors (squared_distances (matrix K) r)) = map lp (seq 0 n)).
  { unfold squared_distances. rewrite combine_map_r, (combine_seq 0 []) by auto. rewrite !map_map. reflexivity. }
  rewrite EL. clear EL.
  destruct (some_positive priors HS) as (x & Hx & Px). apply (In_nth _ _ 0) in Hx as (i0 & Hi0 & Ei0). assert (Hi0' : (i0 < n)%nat) by (unfold n; lia).
  assert (T : exists t, fold_right topf None (map lp (seq 0 n)) = Some t). { apply (top_some _ (- sqnorm_diff r (nth i0 (matrix K) []) / v + ln (nth i0 priors 0))). apply in_map_iff. exists i0. split; [|apply in_seq; lia]. unfold lp. destruct (Rltb_spec 0 (nth i0 priors 0)); [reflexivity|]. exfalso. apply n0. now rewrite Ei0. }
  destruct T as [t Ht]. rewrite Ht. set (w := fun i => nth i priors 0 * exp (- dist2 r (nth i (matrix K) []) / v)).
  assert (EW : map (fun x => match x with Some a => exp (a - t) | None => 0 end) (map lp (seq 0 n)) = map (fun i => exp (- t) * w i) (seq 0 n)).
  { rewrite map_map. apply map_ext_in. intros i Hi. apply in_seq in Hi. unfold lp, w. destruct (Rltb_spec 0 (nth i priors 0)) as [Q|Q].
    - unfold Rminus. rewrite !exp_plus, exp_ln, sqnorm_dist2 by auto. ring.
    - assert (nth i priors 0 = 0) as ->; [|ring]. rewrite Forall_forall in HN. assert (0 <= nth i priors 0) by (apply HN, nth_In; unfold n in Hi; lia). lra. }
  assert (W0 : forall i, In i (seq 0 n) -> 0 <= w i). { intros i Hi. apply in_seq in Hi. unfold w. apply Rmult_le_pos; [rewrite Forall_forall in HN; apply HN, nth_In; unfold n in Hi; lia|left; apply exp_pos]. }
  assert (SW : 0 < fold_right Rplus 0 (map w (seq 0 n))). { apply lsum_pos; auto. exists i0. split; [apply in_seq; lia|]. unfold w. rewrite Ei0. apply Rmult_lt_0_compat; [auto|apply exp_pos]. }
  cbv zeta. rewrite EW. clear EW. rewrite map_map. apply map_ext. intros i. rewrite lsum_scal. unfold bayes. fold n. destruct (density_factor (is_complex K) (dimension K) P 0 HP) as (c & Hc & _ & D). fold v in D.
  rewrite D. rewrite (map_ext (fun j => nth j priors 0 * noise_density (is_complex K) (dimension K) P (dist2 r (nth j (matrix K) []))) (fun j => c * w j)) by (intros j; rewrite D; unfold w; ring). rewrite lsum_scal. fold (w i). unfold w at 1. pose proof (exp_pos (- t)). field. repeat split; lra.
Qed.
