From Coq Require Import Reals Lra.
From Coquelicot Require Import Complex.
From Verif Require Import Common Quant_Model Array_Model Array_Spec Array_Proof Array_Lift NdMaps_Model Rng_Model Rng_Spec Rng_Proof.
Local Open Scope nat_scope.

Lemma valid_length sh idx : valid_index sh idx -> length idx = length sh.
Proof. induction 1; cbn; congruence. Qed.
Lemma ravel_inj sh : forall i j, valid_index sh i -> valid_index sh j -> ravel sh i = ravel sh j -> i = j.
Proof.
  induction sh as [|n sh IH]; intros i j Vi Vj E; inversion Vi; inversion Vj; subst; [reflexivity|].
  match goal with H1 : Forall2 _ ?a sh, H2 : Forall2 _ ?b sh, L1 : ?x < n, L2 : ?y < n |- _ =>
    pose proof (ravel_lt sh a H1); pose proof (ravel_lt sh b H2);
    change (ravel (n :: sh) (x :: a)) with (x * prod sh + ravel sh a) in E; change (ravel (n :: sh) (y :: b)) with (y * prod sh + ravel sh b) in E;
    assert (x = y) by (destruct (Nat.lt_trichotomy x y) as [?|[?|?]]; nia); subst; f_equal; apply IH; [assumption|assumption|lia] end.
Qed.
Lemma prod_snoc sh x : prod (sh ++ [x]) = prod sh * x.
Proof. unfold prod. induction sh as [|a sh IH]; cbn; [lia|]. rewrite IH. lia. Qed.

Definition pair_noise (s : R) (zs : list R) (m : nat) : list C :=
  map (fun i => Cplus (RtoC (nth (2 * i) (map (fun z => (0 + s * z)%R) zs) 0%R)) (Cmult Ci (RtoC (nth (2 * i + 1) (map (fun z => (0 + s * z)%R) zs) 0%R)))) (seq 0 m).
Lemma pair_noise_nth s zs m i : i < m -> length zs = 2 * m -> nth i (pair_noise s zs m) (RtoC 0) = ((s * nth (2 * i) zs 0)%R, (s * nth (2 * i + 1) zs 0)%R).
Proof.
  intros H L. unfold pair_noise. rewrite nth_map_seq by exact H. cbn [Nat.add]. set (f := fun z : R => (0 + s * z)%R).
  rewrite !(nth_indep (map f zs) 0%R (f 0%R)) by (rewrite map_length; lia). rewrite !map_nth. unfold f.
  apply injective_projections; cbn [fst snd Cplus Cmult RtoC Ci]; ring.
Qed.
Lemma pair_noise_length s zs m : length (pair_noise s zs m) = m.
Proof. unfold pair_noise. rewrite map_length, seq_length. reflexivity. Qed.
Lemma pair_noise_app s z1 z2 m n : length z1 = 2 * m -> length z2 = 2 * n -> pair_noise s (z1 ++ z2) (m + n) = pair_noise s z1 m ++ pair_noise s z2 n.
Proof.
  intros L1 L2. apply (list_ext (RtoC 0)); [rewrite app_length, !pair_noise_length; reflexivity|]. intros i Hi.
  rewrite pair_noise_length in Hi. rewrite pair_noise_nth by (try rewrite app_length; lia). destruct (Nat.lt_ge_cases i m) as [H|H].
  - rewrite (app_nth1 (pair_noise s z1 m)) by (rewrite pair_noise_length; lia). rewrite pair_noise_nth by lia. rewrite !app_nth1 by lia. reflexivity.
  - rewrite (app_nth2 (pair_noise s z1 m)) by (rewrite pair_noise_length; lia). rewrite pair_noise_length.
    rewrite pair_noise_nth by lia. rewrite !app_nth2 by lia. rewrite L1. replace (2 * i - 2 * m) with (2 * (i - m)) by lia. replace (2 * i + 1 - 2 * m) with (2 * (i - m) + 1) by lia. reflexivity.
Qed.
Lemma gaussian_complex_eq {G} (r : generator G) P a g :
  gaussian_complex r P a g = (Some (zip_nd Cplus a (pair_noise (sqrt (P / 2)) (fst (draws (next_normal r) (2 * prod (shape a)) g)) (prod (shape a)))), snd (draws (next_normal r) (2 * prod (shape a)) g)).
Proof. unfold gaussian_complex. rewrite prod_snoc, (Nat.mul_comm _ 2). destruct (draws (next_normal r) (2 * prod (shape a)) g) as [zs g']. reflexivity. Qed.
Lemma gaussian_real_eq {G} (r : generator G) P a g :
  gaussian_real r P a g = (Some (zip_nd (fun x z => (x + (0 + sqrt P * z))%R) a (fst (draws (next_normal r) (prod (shape a)) g))), snd (draws (next_normal r) (prod (shape a)) g)).
Proof. unfold gaussian_real. destruct (draws (next_normal r) (prod (shape a)) g) as [zs g']. reflexivity. Qed.
Lemma gaussian_complex_streams {G} (r : generator G) P : streams (gaussian_complex r P).
Proof.
  apply (zip_streams (fun g m => (pair_noise (sqrt (P / 2)) (fst (draws (next_normal r) (2 * m) g)) m, snd (draws (next_normal r) (2 * m) g))) Cplus).
  - intros a g. apply gaussian_complex_eq.
  - intros g m. cbn [fst]. unfold pair_noise. rewrite map_length, seq_length. reflexivity.
  - intros g m n. cbn [fst snd]. rewrite Nat.mul_add_distr_l, draws_add. cbn [fst snd]. rewrite pair_noise_app by apply draws_length. reflexivity.
Qed.
Lemma gaussian_real_streams {G} (r : generator G) P : streams (gaussian_real r P).
Proof.
  apply (zip_streams (fun g m => draws (next_normal r) m g) (fun x z => (x + (0 + sqrt P * z))%R)).
  - intros a g. apply gaussian_real_eq.
  - intros g m. apply draws_length.
  - intros g m n. apply draws_add.
Qed.
Lemma draws_playback z n : forall k, draws (fun k => (z k, S k)) n k = (map z (seq k n), k + n).
Proof. induction n as [|n IH]; intros k; cbn; [f_equal; lia|]. rewrite IH. cbn. f_equal. lia. Qed.
Lemma nth_draws_playback z n k i : i < n -> nth i (fst (draws (fun k => (z k, S k)) n k)) 0%R = z (k + i).
Proof. intros H. rewrite draws_playback. cbn [fst]. rewrite (nth_indep _ 0%R (z 0)) by (rewrite map_length, seq_length; exact H). rewrite map_nth, seq_nth by exact H. reflexivity. Qed.

Lemma linear_scale {O} (E : (O -> R) -> R) c f : linear E -> E (fun w => (c * f w)%R) = (c * E f)%R.
Proof.
  intros [X L]. rewrite (X _ (fun w => (c * f w + 0 * f w)%R)) by (intros; lra). rewrite L. lra.
Qed.

(** *** programs *)
Lemma nth_error_set_nth {A} (j k : nat) (x : A) l : j < length l -> nth_error (set_nth j x l) k = if k =? j then Some x else nth_error l k.
Proof.
  intros H. unfold set_nth. destruct (Nat.eqb_spec k j) as [->|Hne].
  - rewrite nth_error_app2 by (rewrite firstn_length; lia). rewrite firstn_length, Nat.min_l, Nat.sub_diag by lia. reflexivity.
  - transitivity (nth_error (firstn j l ++ skipn j l) k); [|rewrite firstn_skipn; reflexivity].
    destruct (Nat.lt_ge_cases k j) as [Hk|Hk].
    + rewrite !nth_error_app1 by (rewrite firstn_length; lia). reflexivity.
    + rewrite !nth_error_app2 by (rewrite firstn_length; lia).
      rewrite firstn_length, Nat.min_l by lia. assert (Hx : exists y, skipn j l = y :: skipn (S j) l).
      { clear - H. revert l H. induction j as [|j IH]; intros [|a l] H; cbn [length] in H; try lia; [eexists; reflexivity|]. apply (IH l). lia. }
      destruct Hx as [y ->]. replace (k - j) with (S (k - j - 1)) by lia. reflexivity.
Qed.
Lemma set_nth_length {A} (j : nat) (x : A) l : j < length l -> length (set_nth j x l) = length l.
Proof. intros H. unfold set_nth. rewrite app_length, firstn_length. cbn [length]. rewrite skipn_length. lia. Qed.
Lemma replay {G} (r : generator G) k : forall os w vs w' g0, run r os w = Some (vs, w') -> nth_error (gens w ++ seeds os) k = Some g0 ->
  answers_of k os w vs = fst (alone r (script k os w) g0) /\ nth_error (gens w') k = Some (snd (alone r (script k os w) g0)).
Proof.
  induction os as [|o os IH]; intros w vs w' g0 H K.
  - cbn in H. inversion H; subst. cbn in *. rewrite app_nil_r in K. split; [reflexivity|exact K].
  - cbn [run] in H. destruct (run_op r o w) as [[v w1]|] eqn:E; [|discriminate]. destruct (run r os w1) as [[vs1 w2]|] eqn:E1; [|discriminate]. inversion H; subst; clear H.
    destruct o as [g|j|d rng|i q]; cbn [run_op] in E.
    + inversion E; subst. specialize (IH _ _ _ g0 E1). cbn [seeds flat_map app gens] in *. rewrite <- app_assoc in IH. apply IH. exact K.
    + destruct (j <? length (gens w)); [|discriminate]. inversion E; subst. apply (IH _ _ _ g0 E1 K).
    + destruct (_ <? length (gens w)); [|discriminate]. inversion E; subst. unfold answers_of, script in *. cbn [requests]. specialize (IH _ _ _ g0 E1). destruct (accepts d); apply IH; exact K.
    + destruct (nth_error (objects w) i) as [[d j]|] eqn:Eo; [|discriminate]. destruct (nth_error (gens w) j) as [g|] eqn:Eg; [|discriminate].
      destruct (call r d q g) as [v1 g1] eqn:Ec. inversion E; subst; clear E. assert (Hj : j < length (gens w)) by (apply nth_error_Some; congruence).
      specialize (IH _ _ _ (if k =? j then g1 else g0) E1). cbn [gens seeds flat_map app] in *.
      assert (K' : nth_error (set_nth j g1 (gens w) ++ seeds os) k = Some (if k =? j then g1 else g0)).
      { destruct (Nat.lt_ge_cases k (length (gens w))) as [Hk|Hk].
        - rewrite nth_error_app1 by (rewrite set_nth_length; lia). rewrite nth_error_set_nth by lia. destruct (Nat.eqb_spec k j); [reflexivity|]. rewrite nth_error_app1 in K by lia. exact K.
        - rewrite nth_error_app2 by (rewrite set_nth_length; lia). rewrite set_nth_length by lia. rewrite nth_error_app2 in K by lia. destruct (Nat.eqb_spec k j); [lia|]. exact K. }
      specialize (IH K'). unfold answers_of, script in *. cbn [requests global objects] in *. rewrite Eo. cbn [combine filter map fst snd uses flat_map].
      rewrite (Nat.eqb_sym j k). destruct (Nat.eqb_spec k j) as [->|Hne].
      * assert (g0 = g) by (rewrite nth_error_app1 in K by lia; congruence). subst g0. cbn [app alone map snd]. rewrite Ec.
        destruct (alone r _ g1) as [vs2 g2] eqn:Ea. cbn [fst snd] in *. destruct IH as [-> ->]. split; reflexivity.
      * cbn [app]. exact IH.
Qed.
Lemma run_app {G} (r : generator G) os1 os2 : forall w, run r (os1 ++ os2) w =
  match run r os1 w with None => None | Some (v1, w1) => match run r os2 w1 with None => None | Some (v2, w2) => Some (v1 ++ v2, w2) end end.
Proof.
  induction os1 as [|o os IH]; intros w; cbn [app run]; [destruct (run r os2 w) as [[v w1]|]; reflexivity|]. destruct (run_op r o w) as [[v w1]|]; [|reflexivity]. rewrite IH.
  destruct (run r os w1) as [[v1 w2]|]; [|reflexivity]. destruct (run r os2 w2) as [[v2 w3]|]; reflexivity.
Qed.
Lemma sound_run_op {G} (r : generator G) o w v w' : sound w -> run_op r o w = Some (v, w') -> sound w'.
Proof.
  intros [Hg Ho] E. destruct o as [g|j|d rng|i q]; cbn [run_op] in E.
  - inversion E; subst. unfold sound. cbn [gens global objects]. rewrite app_length; cbn [length]. split; [lia|]. rewrite Forall_forall in *. intros x Hx. destruct (Ho x Hx). split; [lia|assumption].
  - destruct (j <? length (gens w)) eqn:L; [|discriminate]. apply Nat.ltb_lt in L. inversion E; subst. split; assumption.
  - destruct (_ <? length (gens w)) eqn:L; [|discriminate]. apply Nat.ltb_lt in L. inversion E; subst. destruct (accepts d) eqn:A; [|split; assumption]. split; [exact Hg|].
    cbn [objects gens]. apply Forall_app. split; [exact Ho|]. repeat constructor; assumption.
  - destruct (nth_error (objects w) i) as [[d j]|] eqn:Eo; [|discriminate]. destruct (nth_error (gens w) j) as [g|] eqn:Eg; [|discriminate].
    destruct (call r d q g) as [v1 g1]. inversion E; subst. assert (Hj : j < length (gens w)) by (apply nth_error_Some; congruence).
    unfold sound. cbn [gens global objects]. rewrite set_nth_length by exact Hj. split; assumption.
Qed.
Lemma run_constructs {G} (r : generator G) : forall ds w, global w < length (gens w) -> Forall (fun d => accepts d = true) ds ->
  run r (map (fun d => Construct d None) ds) w = Some (map (fun _ => None) ds, World (gens w) (global w) (objects w ++ map (fun d => (d, global w)) ds)).
Proof.
  induction ds as [|d ds IH]; intros w Hw F; cbn [map run]; [rewrite app_nil_r; destruct w; reflexivity|]. inversion_clear F. cbn [run_op].
  destruct (Nat.ltb_spec (global w) (length (gens w))); [|lia]. rewrite H. rewrite IH by (cbn; assumption). cbn [gens global objects]. rewrite <- app_assoc. reflexivity.
Qed.
Lemma run_calls {G} (r : generator G) ds d0 : forall calls w pre g, Forall (fun iq => fst iq < length ds) calls ->
  objects w = pre ++ map (fun d => (d, global w)) ds -> nth_error (gens w) (global w) = Some g ->
  exists w', run r (map (fun iq => Call (length pre + fst iq) (snd iq)) calls) w = Some (fst (alone r (map (fun iq => (nth (fst iq) ds d0, snd iq)) calls) g), w').
Proof.
  induction calls as [|[i q] calls IH]; intros w pre g F O N; cbn [map run]; [exists w; reflexivity|]. inversion_clear F. cbn [fst snd] in *. cbn [run_op].
  rewrite O, nth_error_app2, Nat.add_comm, Nat.add_sub by lia.
  assert (E : nth_error (map (fun d => (d, global w)) ds) i = Some (nth i ds d0, global w)).
  { rewrite (nth_error_nth' _ (d0, global w)) by (rewrite map_length; assumption). f_equal. apply (map_nth (fun d => (d, global w))). }
  rewrite E, N. cbn [alone]. destruct (call r (nth i ds d0) q g) as [v g1]. assert (Hj : global w < length (gens w)) by (apply nth_error_Some; congruence).
  destruct (IH (World (set_nth (global w) g1 (gens w)) (global w) (pre ++ map (fun d => (d, global w)) ds)) pre g1) as [w' Hw'].
  - assumption.
  - reflexivity.
  - cbn [gens global]. rewrite nth_error_set_nth, Nat.eqb_refl by exact Hj. reflexivity.
  - rewrite Hw'. destruct (alone r _ g1) as [vs g2]. exists w'. reflexivity.
Qed.
Lemma run_calls_global {G} (r : generator G) : forall calls w k vs w',
  run r (map (fun iq => Call (fst iq) (snd iq)) calls) (World (gens w) k (objects w)) = Some (vs, w') ->
  run r (map (fun iq => Call (fst iq) (snd iq)) calls) w = Some (vs, World (gens w') (global w) (objects w')).
Proof.
  induction calls as [|[i q] calls IH]; intros w k vs w' H; cbn [map run] in *; [inversion H; subst; destruct w; reflexivity|].
  cbn [run_op gens objects fst snd] in *. destruct (nth_error (objects w) i) as [[d j]|]; [|discriminate]. destruct (nth_error (gens w) j) as [g|]; [|discriminate].
  destruct (call r d q g) as [v g1]. specialize (IH (World (set_nth j g1 (gens w)) (global w) (objects w)) k). cbn [gens objects global] in *.
  destruct (run r _ _) as [[vs1 w2]|] eqn:E in H; [|discriminate]. inversion H; subst. rewrite (IH _ _ E). reflexivity.
Qed.
