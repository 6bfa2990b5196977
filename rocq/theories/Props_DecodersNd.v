(** C106: all the decoders on arrays of any shape, and recovery of arrays of messages. *)
From Coq Require Import QArith Qabs Reals Lqa.
From Verif Require Import Common Bits_Model Vec_Model Linear_Spec LinAlg_Model BlockCode_Model Code_Spec ReedMuller_Model ClassicCodes_Model Polar_Model SC_Model Wagner_Model BCH_Model
  FSM_Model Conv_Model Conv_Spec BCJR_Model Array_Model Array_Spec Array_Proof Array_Lift Nd_Model NdMaps_Model DecodersNd_Model DecodersNd_Spec DecodersNd_Proof.
From Verif Require Props_Array Props_Codes Props_ReedMuller Props_Polar Props_BCH Props_ConvViterbi Props_BCJR Props_Conv Vec_Proof BlockCode_Proof ReedMuller_Proof Decoders_Proof Wagner_Proof ConvTerm_Proof.
Local Open Scope nat_scope.
Local Notation blocks := Array_Spec.blocks.

(** *** The decorators with a body that may raise *)
Theorem C106_partial_functions {A B} (dA : A) (dB : B) (f : list A -> option (list B)) (b m : nat) : 0 < b -> 0 < m ->
  (forall l r, length l = b -> f l = Some r -> length r = m) -> maps_blocks dA dB f b m (blockwise b (vectorize dA dB f)).
Proof. exact (lifted_maps dA dB f b m). Qed.

(** *** Reed decoder *)
Lemma reed_hard_length rho mu r : length (reed_decode_hard rho mu r) = length (ReedMuller_Proof.monos rho mu).
Proof.
  unfold reed_decode_hard. rewrite ReedMuller_Proof.generator_spec, ReedMuller_Proof.partitions_spec.
  set (l := combine _ _). assert (L : length l = length (ReedMuller_Proof.monos rho mu)) by (unfold l; rewrite combine_length, !map_length; lia).
  rewrite <- L. clearbody l. clear L.
  enough (H : forall acc bx, length (fst (fold_left reed_step_hard l (acc, bx))) = length acc + length l) by (rewrite H; reflexivity).
  induction l as [|[p g] l IH]; intros acc bx; [cbn; lia|]. cbn [fold_left reed_step_hard]. rewrite IH, app_length. cbn. lia.
Qed.
Lemma reed_soft_length rho mu r : length (reed_decode_soft rho mu r) = length (ReedMuller_Proof.monos rho mu).
Proof.
  unfold reed_decode_soft. rewrite ReedMuller_Proof.generator_spec, ReedMuller_Proof.partitions_spec.
  set (l := combine _ _). assert (L : length l = length (ReedMuller_Proof.monos rho mu)) by (unfold l; rewrite combine_length, !map_length; lia).
  rewrite <- L. clearbody l. clear L.
  enough (H : forall acc bx, length (fst (fold_left (reed_step_soft r) l (acc, bx))) = length acc + length l) by (rewrite H; reflexivity).
  induction l as [|[p g] l IH]; intros acc bx; [cbn; lia|]. cbn [fold_left reed_step_soft]. rewrite IH, app_length. cbn. lia.
Qed.
Lemma rm_facts rho mu C : ReedMullerCode rho mu = Some C -> bc_n C = 2 ^ mu /\ bc_k C = length (ReedMuller_Proof.monos rho mu) /\ valid_code C.
Proof.
  intros E. destruct (Nat.lt_ge_cases rho mu) as [H|H]; [|rewrite Props_ReedMuller.C40_rejected in E by exact H; discriminate].
  destruct (Props_ReedMuller.rm_code rho mu H) as (C' & E' & N & K & _ & V & _). assert (C' = C) by congruence. subst C'. auto.
Qed.
Lemma valid_positive C : valid_code C -> 0 < bc_k C -> 0 < bc_n C.
Proof. intros V H. pose proof (ok_params C V). lia. Qed.
Lemma rm_positive rho mu C : ReedMullerCode rho mu = Some C -> 0 < bc_k C /\ 0 < bc_n C.
Proof.
  intros E. destruct (rm_facts rho mu C E) as (N & K & V).
  assert (P : 0 < bc_k C). { rewrite K, ReedMuller_Proof.monos_length, Nat.add_1_r. cbn [seq map list_sum fold_right]. destruct mu; cbn; lia. }
  split; [exact P|]. exact (valid_positive C V P).
Qed.
Theorem C106_reed rho mu C : ReedMullerCode rho mu = Some C ->
  maps_blocks false false (fun r => Some (reed_decode_hard rho mu r)) (bc_n C) (bc_k C) (reed_hard_nd rho mu) /\
  maps_blocks 0%Q false (fun r => Some (reed_decode_soft rho mu r)) (bc_n C) (bc_k C) (reed_soft_nd rho mu).
Proof.
  intros E. destruct (rm_facts rho mu C E) as (N & K & V). destruct (rm_positive rho mu C E) as [Pk Pn].
  unfold reed_hard_nd, reed_soft_nd. rewrite <- N.
  split; apply lifted_maps; auto; intros l r _ H; injection H as <-; rewrite K; [apply reed_hard_length|apply reed_soft_length].
Qed.
Theorem C106_reed_recovers rho mu C (vect : bool) : ReedMullerCode rho mu = Some C ->
  recovers false (bc_k C) (bc_n C) (few_errors (2 ^ (mu - rho - 1) - 1)) (encode_nd vect C) (reed_hard_nd rho mu) /\
  recovers 0%Q (bc_k C) (bc_n C) right_signs (encode_nd vect C) (reed_soft_nd rho mu).
Proof.
  intros E. destruct (rm_facts rho mu C E) as (N & K & V). destruct (rm_positive rho mu C E) as [Pk Pn]. destruct (C106_reed rho mu C E) as [MH MS].
  pose proof (Props_Array.C94_encode vect C V Pk) as AE. pose proof (fun u => ok_encode_length C V u) as LE.
  split; eapply (recovers_of_maps _ _ _ _ (bc_encode C)); [exact Pk|exact Pn|exact LE|exact AE|exact MH| |exact Pk|exact Pn|exact LE|exact AE|exact MS|].
  - intros u r Lu Lr H. cbn beta. f_equal. unfold few_errors in H. apply (Props_ReedMuller.C41_hard rho mu C u r E Lu Lr).
    rewrite BlockCode_Proof.hdist_sym. pose proof (Nat.pow_nonzero 2 (mu - rho - 1) ltac:(lia)). lia.
  - intros u r Lu Lr H. cbn beta. f_equal. apply (Props_ReedMuller.C41_soft_noiseless rho mu C u r E Lu Lr). intros p Hp. rewrite <- (LE u Lu) in Hp.
    revert H p Hp. clear. generalize (bc_encode C u). intros v H. induction H as [|b x c r' Hb H IH]; intros p Hp; [cbn in Hp; lia|].
    destruct p as [|p]; cbn [nth]; [exact Hb|]. apply IH. cbn [length] in Hp. lia.
Qed.

(** *** Berlekamp decoder *)
Theorem C106_berlekamp mu delta B (vect : bool) : BCHCode mu delta = Built B ->
  maps_blocks false false (berlekamp_decode B) (bc_n (bch_code B)) (bc_k (bch_code B)) (berlekamp_nd B) /\
  recovers false (bc_k (bch_code B)) (bc_n (bch_code B)) (few_errors ((delta - 1) / 2)) (encode_nd vect (bch_code B)) (berlekamp_nd B).
Proof.
  intros E. destruct (Props_BCH.C43_parameters mu delta B E) as (V & N & _ & _ & Pm & Pk & _).
  assert (Pn : 0 < bc_n (bch_code B)) by (pose proof (ok_params _ V); lia).
  assert (M : maps_blocks false false (berlekamp_decode B) (bc_n (bch_code B)) (bc_k (bch_code B)) (berlekamp_nd B)).
  { apply lifted_maps; [exact Pn|exact Pk|]. intros l r Ll Er. rewrite N in Ll. destruct (Props_BCH.C44_total mu delta B l E Ll) as (u & Eu & Lu). congruence. }
  split; [exact M|]. apply (recovers_of_maps _ _ _ _ (bc_encode (bch_code B)) _ _ _ Pk Pn (fun u => ok_encode_length _ V u) (Props_Array.C94_encode vect _ V Pk) M).
  intros u r Lu Lr H. apply (Props_BCH.C44_unique mu delta B r u E Lu); [congruence|exact H].
Qed.

(** *** Syndrome table and exhaustive search *)
Lemma recovers_of_acts {A} (dA : A) k n (reception : vec -> list A -> Prop) f g F D : 0 < k -> 0 < n ->
  (forall u, length u = k -> length (f u) = n) -> acts_blockwise false false Props_Array.any f k n F -> acts_blockwise dA false Props_Array.any g n k D ->
  (forall u r, length u = k -> length r = n -> reception (f u) r -> g r = u) -> recovers dA k n reception F D.
Proof.
  intros Pk Pn Lf AE AD HG. apply (recovers_intro dA k n reception f g); [exact Pk|exact Pn|exact Lf|exact AE| |exact HG].
  intros pre q a W S Hp Hq _. apply (AD pre q a W S Hp Hq). intros p _. apply Forall_forall. intros; exact Logic.I.
Qed.
Theorem C106_syndrome_table C d (v1 v2 : bool) : valid_code C -> 0 < bc_k C -> bc_m C <> 0 -> is_minimum_distance C d ->
  exists lds, coset_leaders C = Some lds /\
  recovers false (bc_k C) (bc_n C) (few_errors ((d - 1) / 2)) (encode_nd v1 C) (syndrome_decode_nd v2 C lds).
Proof.
  intros V Pk Pm D. destruct (Props_Codes.C32_corrects C d V Pm D) as (lds & E & H). exists lds. split; [exact E|].
  apply (recovers_of_acts false _ _ _ (bc_encode C) (syndrome_decode C lds)); [exact Pk|exact (valid_positive C V Pk)|exact (fun u => ok_encode_length C V u)|apply Props_Array.C94_encode; auto| |exact H].
  apply Props_Array.C94_syndrome_decode; auto.
Qed.
Lemma correlation_signs_le c r c' : right_signs c r -> length c' = length c -> (correlation r c' <= correlation r c)%Q.
Proof.
  intros H. revert c'. induction H as [|b x c r Hb H IH]; intros c' L; [destruct c'; [lra|discriminate]|]. destruct c' as [|b' c']; [discriminate|].
  rewrite !Wagner_Proof.correlation_cons. specialize (IH c' ltac:(cbn in L; lia)). destruct b, b'; lra.
Qed.
Lemma correlation_signs_lt c r c' : right_signs c r -> length c' = length c -> c' <> c -> (correlation r c' < correlation r c)%Q.
Proof.
  intros H. revert c'. induction H as [|b x c r Hb H IH]; intros c' L Ne; [destruct c'; [congruence|discriminate]|]. destruct c' as [|b' c']; [discriminate|].
  rewrite !Wagner_Proof.correlation_cons. assert (L' : length c' = length c) by (cbn in L; lia).
  destruct (list_eq_dec Bool.bool_dec c' c) as [->|Nc].
  - assert (b' <> b) by congruence. destruct b, b'; try congruence; lra.
  - specialize (IH c' L' Nc). destruct b, b'; lra.
Qed.
Lemma signs_length c r : right_signs c r -> length r = length c.
Proof. induction 1; cbn; congruence. Qed.
Theorem C106_exhaustive C d (v1 v2 : bool) : valid_code C -> 0 < bc_k C -> is_minimum_distance C d ->
  recovers false (bc_k C) (bc_n C) (few_errors ((d - 1) / 2)) (encode_nd v1 C) (exhaustive_hard_nd v2 C) /\
  recovers 0%Q (bc_k C) (bc_n C) right_signs (encode_nd v1 C) (exhaustive_soft_nd v2 C).
Proof.
  intros V Pk D. pose proof (valid_positive C V Pk) as Pn. destruct (Props_Array.C94_exhaustive v2 C V Pn) as [AH AS]. pose proof (fun u => ok_encode_length C V u) as LE. split.
  - apply (recovers_of_acts false _ _ _ (bc_encode C) (exhaustive_hard C)); [exact Pk|exact Pn|exact LE|apply Props_Array.C94_encode; auto|exact AH|].
    intros u r Lu Lr H. exact (Props_Codes.C33_hard_corrects C d u r V D Lu Lr H).
  - apply (recovers_of_acts 0%Q _ _ _ (bc_encode C) (exhaustive_soft C)); [exact Pk|exact Pn|exact LE|apply Props_Array.C94_encode; auto|exact AS|].
    intros u r Lu Lr H. destruct (Props_Codes.C33_soft C r V) as (j & Hj & Ej & Mj & _). rewrite Ej. clear Ej.
    assert (Lj : length (message (bc_k C) j) = bc_k C) by apply BlockCode_Proof.message_length. set (w := message (bc_k C) j) in *. clearbody w.
    destruct (list_eq_dec Bool.bool_dec (bc_encode C w) (bc_encode C u)) as [Ew|Nw].
    + apply (f_equal (bc_project C)) in Ew. rewrite !(ok_project C V) in Ew by assumption. exact Ew.
    + exfalso. assert (Lw : length (bc_encode C w) = length (bc_encode C u)) by (rewrite !LE by assumption; reflexivity).
      pose proof (correlation_signs_lt _ _ _ H Lw Nw). specialize (Mj (bc_encode C u) (ex_intro _ u (conj Lu eq_refl))). lra.
Qed.

(** *** Wagner decoder of the single-parity-check codes *)
Theorem C106_wagner n C (vect : bool) : SingleParityCheckCode n = Some C -> 1 < n ->
  maps_blocks 0%Q false (fun r => Some (wagner_decode C r)) (bc_n C) (bc_k C) (wagner_nd C) /\
  recovers 0%Q (bc_k C) (bc_n C) right_signs (encode_nd vect C) (wagner_nd C).
Proof.
  intros E Hn. destruct (ClassicCodes_Proof.spc_code n ltac:(lia)) as (C' & E' & A & B & V & Cw). assert (C' = C) by congruence. subst C'.
  assert (Pk : 0 < bc_k C) by (pose proof (ok_params C V); lia). pose proof (valid_positive C V Pk) as Pn. pose proof (fun u => ok_encode_length C V u) as LE.
  assert (M : maps_blocks 0%Q false (fun r => Some (wagner_decode C r)) (bc_n C) (bc_k C) (wagner_nd C)).
  { apply lifted_maps; [exact Pn|exact Pk|]. intros l r Ll Er. injection Er as <-. apply (Props_Polar.C45_wagner n C l E). congruence. }
  split; [exact M|]. apply (recovers_of_maps _ _ _ _ (bc_encode C) _ _ _ Pk Pn LE (Props_Array.C94_encode vect _ V Pk) M).
  intros u r Lu Lr H. f_equal. destruct (Props_Polar.C45_wagner n C r E) as [Lw Mw]; [congruence|]. set (w := wagner_decode C r) in *. clearbody w.
  destruct (list_eq_dec Bool.bool_dec (bc_encode C w) (bc_encode C u)) as [Ew|Nw].
  - apply (f_equal (bc_project C)) in Ew. rewrite !(ok_project C V) in Ew by assumption. exact Ew.
  - exfalso. assert (L' : length (bc_encode C w) = length (bc_encode C u)) by (rewrite !LE by assumption; reflexivity).
    pose proof (correlation_signs_lt _ _ _ H L' Nw). specialize (Mw (bc_encode C u) (ex_intro _ u (conj Lu eq_refl))). lra.
Qed.

(** *** Successive cancellation for the polar codes *)
Lemma swap_signs c r : right_signs_R c r -> Props_Polar.noiseless r c.
Proof. induction 1; constructor; assumption. Qed.
Theorem C106_successive_cancellation mu frozen C (vect : bool) : PolarCode mu frozen = Some C -> Props_Polar.polar_ok mu frozen -> 0 < bc_k C ->
  maps_blocks 0%R 0%R (sc_decode_soft mu frozen (4 * 2 ^ mu)) (bc_n C) (bc_k C) (sc_soft_nd mu frozen) /\
  maps_blocks 0%R false (sc_decode_hard mu frozen (4 * 2 ^ mu)) (bc_n C) (bc_k C) (sc_hard_nd mu frozen) /\
  recovers 0%R (bc_k C) (bc_n C) right_signs_R (encode_nd vect C) (sc_hard_nd mu frozen).
Proof.
  intros E OK Pk. destruct (Props_Polar.C42_polar_code mu frozen OK) as (C' & E' & V & N & K & _). assert (C' = C) by congruence. subst C'.
  pose proof (valid_positive C V Pk) as Pn. pose proof (fun u => ok_encode_length C V u) as LE.
  assert (AL : length (polar_active mu frozen) = bc_k C). { rewrite K. destruct OK as (O1 & O2 & O3 & O4). pose proof (Props_Polar.active_length mu frozen O2 O3). lia. }
  assert (M : maps_blocks 0%R 0%R (sc_decode_soft mu frozen (4 * 2 ^ mu)) (bc_n C) (bc_k C) (sc_soft_nd mu frozen)).
  { unfold sc_soft_nd. rewrite <- N. apply lifted_maps; [exact Pn|exact Pk|]. intros l r Ll Er. rewrite N in *. destruct (Props_Polar.C42_sc_terminates mu frozen l (4 * 2 ^ mu) Ll (le_n _)) as (o & Eo & Lo). congruence. }
  assert (MH : maps_blocks 0%R false (sc_decode_hard mu frozen (4 * 2 ^ mu)) (bc_n C) (bc_k C) (sc_hard_nd mu frozen)).
  { exact (maps_elementwise 0%R 0%R false SC_Model.neg _ _ _ _ Pk M). }
  split; [exact M|]. split; [exact MH|]. apply (recovers_of_maps _ _ _ _ (bc_encode C) _ _ _ Pk Pn LE (Props_Array.C94_encode vect _ V Pk) MH).
  intros u r Lu Lr H. apply (Props_Polar.C42_sc_noiseless mu frozen C u r _ E Lu (le_n _) (swap_signs _ _ H)).
Qed.

(** *** Terminated convolutional codes: encoder, Viterbi and BCJR decoders *)
Definition viterbi_ok (c : conv) (h : nat) (m : term_mode) : Prop :=
  conv_ok c /\ Props_ConvViterbi.distinct_successors c /\ 0 < h /\
  match m with
  | DirectTruncation => True
  | ZeroTermination => Props_ConvViterbi.distinct_tails c /\ (forall h s, reachable c (h + cv_mem c) s -> reachable c (cv_mem c) s) /\ 0 < cv_mem c
  | TailBiting => False
  end.
Lemma vt_facts c h m : viterbi_ok c h m -> 0 < h * cv_k c /\ 0 < terminated_length c h m /\ ConvTerm_Proof.mode_ok c h m.
Proof.
  intros (OK & _ & Hh & Hm). destruct OK as [Pk Pn _ _ _ _]. repeat split.
  - apply Nat.mul_pos_pos; assumption.
  - destruct m; cbn [terminated_length]; apply Nat.mul_pos_pos; lia.
  - destruct m; cbn; auto. split; [exact Hh|apply Hm].
Qed.
Lemma vt_run c h m u : viterbi_ok c h m -> length u = h * cv_k c ->
  option_map fst (terminated_run c h m u) = Some (terminated_encode c h m u) /\ length (terminated_encode c h m u) = terminated_length c h m.
Proof.
  intros H Lu. destruct (vt_facts c h m H) as (_ & _ & MO). destruct H as (OK & _).
  destruct (ConvTerm_Proof.terminated_linear c OK h m u u MO Lu Lu) as (v & f & _ & _ & G & _ & _ & L & _). unfold terminated_encode. rewrite G. auto.
Qed.
Lemma vt_hard c h m r : viterbi_ok c h m -> length r = terminated_length c h m ->
  exists u, viterbi_decode_hard c m r = Some u /\ length u = h * cv_k c /\
  forall u', length u' = h * cv_k c -> hdist (terminated_encode c h m u) r <= hdist (terminated_encode c h m u') r.
Proof.
  intros (OK & DS & Hh & Hm) Lr. destruct m; [apply Props_ConvViterbi.C66_truncation_hard; auto| |destruct Hm].
  destruct Hm as (DT & RE & Pm). apply Props_ConvViterbi.C66_zero_termination_hard; auto.
Qed.
Lemma vt_soft c h m r : viterbi_ok c h m -> length r = terminated_length c h m ->
  exists u, viterbi_decode_soft c m r = Some u /\ length u = h * cv_k c /\
  forall u', length u' = h * cv_k c -> (correlation r (terminated_encode c h m u') <= correlation r (terminated_encode c h m u))%Q.
Proof.
  intros (OK & DS & Hh & Hm) Lr. destruct m; [apply Props_ConvViterbi.C66_truncation_soft; auto| |destruct Hm].
  destruct Hm as (DT & RE & Pm). apply Props_ConvViterbi.C66_zero_termination_soft; auto.
Qed.
Lemma vt_bcjr c h m li out : viterbi_ok c h m -> length li = terminated_length c h m -> bcjr_soft c m li = Some out -> length out = h * cv_k c.
Proof.
  intros (OK & DS & Hh & Hm) Ll E. destruct m; [| |destruct Hm].
  - destruct (Props_BCJR.C83_truncation c h li _ OK DS Hh Ll (Props_BCJR.C83_any_lvalues li)) as (o & Eo & Lo & _). congruence.
  - destruct Hm as (DT & RE & Pm).
    destruct (Props_BCJR.C83_zero_termination c h li _ OK DS DT RE Hh Pm Ll (Props_BCJR.C83_any_lvalues li)) as (o & Eo & Lo & _). congruence.
Qed.
Theorem C106_convolutional c h m : viterbi_ok c h m ->
  maps_blocks false false (fun u => Some (terminated_encode c h m u)) (h * cv_k c) (terminated_length c h m) (terminated_encode_nd c h m) /\
  maps_blocks false false (viterbi_decode_hard c m) (terminated_length c h m) (h * cv_k c) (viterbi_hard_nd c h m) /\
  maps_blocks 0%Q false (viterbi_decode_soft c m) (terminated_length c h m) (h * cv_k c) (viterbi_soft_nd c h m) /\
  maps_blocks 0%R NaN (bcjr_soft c m) (terminated_length c h m) (h * cv_k c) (bcjr_soft_nd c h m) /\
  maps_blocks 0%R false (bcjr_hard c m) (terminated_length c h m) (h * cv_k c) (bcjr_hard_nd c h m).
Proof.
  intros H. destruct (vt_facts c h m H) as (Pk & Pn & _).
  assert (MB : maps_blocks 0%R NaN (bcjr_soft c m) (terminated_length c h m) (h * cv_k c) (bcjr_soft_nd c h m)).
  { apply lifted_maps; [exact Pn|exact Pk|]. intros l r Ll. apply vt_bcjr; auto. }
  split; [|split; [|split; [|split]]].
  - assert (M : maps_blocks false false (fun u => option_map fst (terminated_run c h m u)) (h * cv_k c) (terminated_length c h m) (terminated_encode_nd c h m)).
    { apply lifted_maps; [exact Pk|exact Pn|]. intros l r Ll E. destruct (vt_run c h m l H Ll) as [E' L]. congruence. }
    intros pre k a W S Hp Hk. specialize (M pre k a W S Hp Hk).
    assert (BL : forall p r, In r (blocks (h * cv_k c) (line false a (k * (h * cv_k c)) p [])) -> length r = h * cv_k c).
    { intros p r Hr. destruct (blocks_lengths (h * cv_k c) k (line false a (k * (h * cv_k c)) p []) Pk (line_length _ _ _ _ _)) as [F _]. rewrite Forall_forall in F. apply F, Hr. }
    destruct (terminated_encode_nd c h m a) as [o|].
    + destruct M as (Wo & So & Lo). split; [exact Wo|]. split; [exact So|]. intros p Hv. rewrite <- (Lo p Hv). apply map_ext_in. intros r Hr.
      symmetry. apply (vt_run c h m r H), (BL p r Hr).
    + destruct M as (p & r & Hv & Hr & Er). rewrite (proj1 (vt_run c h m r H (BL p r Hr))) in Er. discriminate.
  - apply lifted_maps; [exact Pn|exact Pk|]. intros l r Ll E. destruct (vt_hard c h m l H Ll) as (u & Eu & Lu & _). congruence.
  - apply lifted_maps; [exact Pn|exact Pk|]. intros l r Ll E. destruct (vt_soft c h m l H Ll) as (u & Eu & Lu & _). congruence.
  - exact MB.
  - exact (maps_elementwise 0%R NaN false lneg _ _ _ _ Pk MB).
Qed.
(** recovery: hard decisions up to half the distance, soft decisions when no sign is wrong *)
Theorem C106_convolutional_recovers c h m d : viterbi_ok c h m -> 0 < d ->
  (forall u v, length u = h * cv_k c -> length v = h * cv_k c -> u <> v -> d <= hdist (terminated_encode c h m u) (terminated_encode c h m v)) ->
  recovers false (h * cv_k c) (terminated_length c h m) (few_errors ((d - 1) / 2)) (terminated_encode_nd c h m) (viterbi_hard_nd c h m) /\
  recovers 0%Q (h * cv_k c) (terminated_length c h m) right_signs (terminated_encode_nd c h m) (viterbi_soft_nd c h m).
Proof.
  intros H Hd HD. destruct (vt_facts c h m H) as (Pk & Pn & _). destruct (C106_convolutional c h m H) as (ME & MH & MS & _).
  assert (LE : forall u, length u = h * cv_k c -> length (terminated_encode c h m u) = terminated_length c h m) by (intros u Lu; apply (vt_run c h m u H Lu)).
  assert (AE : acts_blockwise false false (fun _ => True) (terminated_encode c h m) (h * cv_k c) (terminated_length c h m) (terminated_encode_nd c h m)).
  { apply (maps_acts _ _ _ _ _ _ _ _ Pk Pn ME). reflexivity. }
  split.
  - apply (recovers_of_maps _ _ _ _ _ _ _ _ Pk Pn LE AE MH). intros u r Lu Lr F. unfold few_errors in F. destruct (vt_hard c h m r H Lr) as (w & Ew & Lw & O). rewrite Ew. f_equal.
    destruct (list_eq_dec Bool.bool_dec w u) as [|Nw]; [assumption|exfalso]. specialize (O u Lu). specialize (HD w u Lw Lu Nw).
    rewrite (BlockCode_Proof.hdist_sym (terminated_encode c h m u) r) in O.
    pose proof (BlockCode_Proof.hdist_triangle (terminated_encode c h m w) r (terminated_encode c h m u)) as T. rewrite !LE in T by assumption.
    specialize (T (eq_sym Lr) Lr). pose proof (Nat.div_mod (d - 1) 2 ltac:(lia)). lia.
  - apply (recovers_of_maps _ _ _ _ _ _ _ _ Pk Pn LE AE MS). intros u r Lu Lr F. destruct (vt_soft c h m r H Lr) as (w & Ew & Lw & O). rewrite Ew. f_equal.
    destruct (list_eq_dec Bool.bool_dec w u) as [|Nw]; [assumption|exfalso]. specialize (O u Lu).
    assert (Ne : terminated_encode c h m w <> terminated_encode c h m u).
    { intros E. specialize (HD w u Lw Lu Nw). rewrite E in HD. rewrite BlockCode_Proof.hdist_self in HD. lia. }
    assert (L' : length (terminated_encode c h m w) = length (terminated_encode c h m u)) by (rewrite !LE by assumption; reflexivity).
    pose proof (correlation_signs_lt _ _ _ F L' Ne). lra.
Qed.

(** every feedforward code with one input bit and memory meets the hypotheses, for every number of steps *)
Theorem C106_low_rate g h m : 0 < cv_deg (LowRate g) -> 0 < h -> m <> TailBiting -> viterbi_ok (LowRate g) h m.
Proof.
  intros P Hh Hm. assert (NE : g <> []) by (intros ->; cbn in P; lia). pose proof (ConvCons_Proof.low_rate_as_cc g NE) as E.
  assert (Enu : row_nu (g, 1%N) = max_deg g) by (unfold row_nu; cbn [fst snd]; change (deg 1) with 0; lia).
  destruct (Props_ConvViterbi.C66_classes _ _ E) as [C1 C2]. split; [|split; [|split; [exact Hh|]]].
  - apply Props_Conv.C49_shapes; auto.
  - apply C1. repeat constructor. rewrite Enu. exact P.
  - destruct m; [exact Logic.I| |congruence]. split; [|split].
    + apply C2; repeat constructor. rewrite Enu. reflexivity.
    + apply Props_Conv.C50_zero_termination_classes; auto.
    + exact P.
Qed.
(** a block that no decoder of the class accepts makes the whole call fail, wherever it is: tail-biting codes *)
Theorem C106_tail_biting c h (li : array R) pre k : well_formed li -> shape li = pre ++ [k * terminated_length c h TailBiting] ->
  Forall (lt 0) pre -> 0 < k -> 0 < h * cv_k c -> 0 < terminated_length c h TailBiting -> bcjr_soft_nd c h TailBiting li = None.
Proof.
  intros W S Hp Hk Pk Pn.
  assert (M : maps_blocks 0%R NaN (bcjr_soft c TailBiting) (terminated_length c h TailBiting) (h * cv_k c) (bcjr_soft_nd c h TailBiting)).
  { apply lifted_maps; [exact Pn|exact Pk|]. intros l r _ E. rewrite (proj1 (Props_BCJR.C83_tail_biting c l)) in E. discriminate. }
  specialize (M pre k li W S Hp Hk). destruct (bcjr_soft_nd c h TailBiting li) as [o|]; [|reflexivity]. exfalso.
  destruct M as (Wo & So & Lo). pose proof (prod_pos _ Hp) as Pp. destruct (unravel pre 0 Pp) as (p & Vp & _). specialize (Lo p Vp).
  destruct (blocks_lengths (terminated_length c h TailBiting) k (line 0%R li (k * terminated_length c h TailBiting) p []) Pn (line_length _ _ _ _ _)) as [_ BL].
  destruct (blocks (terminated_length c h TailBiting) (line 0%R li (k * terminated_length c h TailBiting) p [])) as [|x l]; [cbn in BL; lia|].
  cbn [map] in Lo. rewrite (proj1 (Props_BCJR.C83_tail_biting c x)) in Lo. destruct (blocks (h * cv_k c) (line NaN o (k * (h * cv_k c)) p [])); discriminate.
Qed.

(** *** Concrete cases *)
(* a BCH code of length 15 correcting 2 errors: messages of shape (2, 14), that is two rows of two messages; two errors in three of the four words *)
Definition example_messages : array bool := Arr [2; 14] (flat_map (nbits 7) [85; 19; 127; 64]).
Definition example_flips : list nat := [0; 14; 15; 16; 33; 44].
Definition flip_at (l : list nat) (a : array bool) : array bool :=
  Arr (shape a) (map (fun i => xorb (nth i (data a) false) (existsb (Nat.eqb i) l)) (seq 0 (length (data a)))).
Theorem C106_example : exists B sent, BCHCode 4 5 = Built B /\ bc_k (bch_code B) = 7 /\ encode_nd false (bch_code B) example_messages = Some sent /\ shape sent = [2; 30] /\
  flip_at example_flips sent <> sent /\ berlekamp_nd B (flip_at example_flips sent) = Some example_messages.
Proof.
  assert (X : exists B, BCHCode 4 5 = Built B) by (eexists; vm_compute; reflexivity).
  destruct X as (B & E). vm_compute in E. injection E as <-.
  eexists. eexists. split; [vm_compute; reflexivity|]. split; [vm_compute; reflexivity|]. split; [vm_compute; reflexivity|].
  split; [reflexivity|]. split; [vm_compute; discriminate|]. vm_compute. reflexivity.
Qed.
(* the (7, 5) code terminated after three steps has distance 5, so two errors per word are corrected *)
Theorem C106_convolutional_example : viterbi_ok (LowRate [7; 5]%N) 3 ZeroTermination /\
  (forall u v, length u = 3 -> length v = 3 -> u <> v ->
     5 <= hdist (terminated_encode (LowRate [7; 5]%N) 3 ZeroTermination u) (terminated_encode (LowRate [7; 5]%N) 3 ZeroTermination v)) /\
  recovers false 3 10 (few_errors 2) (terminated_encode_nd (LowRate [7; 5]%N) 3 ZeroTermination) (viterbi_hard_nd (LowRate [7; 5]%N) 3 ZeroTermination).
Proof.
  assert (V : viterbi_ok (LowRate [7; 5]%N) 3 ZeroTermination) by (apply C106_low_rate; [vm_compute; lia|lia|discriminate]).
  assert (D : forall u v, length u = 3 -> length v = 3 -> u <> v ->
     5 <= hdist (terminated_encode (LowRate [7; 5]%N) 3 ZeroTermination u) (terminated_encode (LowRate [7; 5]%N) 3 ZeroTermination v)).
  { intros u v Lu Lv Ne. destruct u as [|a [|b [|c [|]]]]; try discriminate. destruct v as [|a' [|b' [|c' [|]]]]; try discriminate.
    destruct a, b, c, a', b', c'; try congruence; apply Nat.leb_le; vm_compute; reflexivity. }
  split; [exact V|]. split; [exact D|]. exact (proj1 (C106_convolutional_recovers _ 3 ZeroTermination 5 V ltac:(lia) D)).
Qed.
