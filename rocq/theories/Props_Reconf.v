(** C109: assigning the public attributes of a channel or quantizer object after its construction.
    Model: Reconf_Model; what a program has assigned and read: Reconf_Spec. *)
From Coq Require Import Reals Lra.
From Verif Require Import Common Quant_Model Quant_Proof Array_Model NdMaps_Model Info_Model Rng_Model Reconf_Model Reconf_Spec Reconf_Proof.
Local Open Scope nat_scope.

(** Channels: whatever the program [os] has done, mutual_information, capacity and transmit answer as the current value of
    the attribute says, i.e. as an object that was just constructed with it (last part) *)
Theorem C109_channel_current : forall (G : Type) (r : generator G) (tol : R) (k : kind) (p : R) (c : channel) (os : list cop) (g : G),
  new_channel k p = Some c ->
  let s := crun r tol os (c, g) in let q := parameter p os in
  (forall b pmf, fst (cstep r tol (MutualInformation b pmf) s) = Number (mi_body k tol q b pmf)) /\
  (forall b, fst (cstep r tol (Capacity b) s) = Number (capacity_body k q b)) /\
  (forall a, fst (cstep r tol (TransmitArray a) s) = Symbols (fst (transmit_body k r q a (snd s)))) /\
  (forall c' op, new_channel k q = Some c' -> op <> TransitionMatrix -> fst (cstep r tol op s) = fst (cstep r tol op (c', snd s))).
Proof.
  intros G r tol k p c os g H s q. unfold new_channel in H. destruct (validate_probability p); [|discriminate]. injection H as <-.
  destruct (crun_state r tol k os p None g) as [g' E]. fold s in E. fold q in E. rewrite E. cbn [snd].
  split; [reflexivity|]. split; [reflexivity|]. split.
  - intros a. cbn [cstep ch_kind ch_p]. destruct (transmit_body k r q a g'). reflexivity.
  - intros c' op Hc N. unfold new_channel in Hc. destruct (validate_probability q); [|discriminate]. injection Hc as <-.
    destruct op; cbn [cstep ch_kind ch_p fst]; try reflexivity; [congruence|]. destruct (transmit_body k r q a g'). reflexivity.
Qed.
(** the methods of the three classes are the functions C103 (transmit), C77 (mutual_information) and C78 (capacity) are about *)
Theorem C109_methods : forall (G : Type) (r : generator G) (p tol : R) (a : array Z) (g : G) (b : log_base) (pmf : list R),
  (transmit_body KBSC r p a g = Rng_Model.bsc_transmit r p a g /\ transmit_body KBEC r p a g = Rng_Model.bec_transmit r p a g /\ transmit_body KZ r p a g = Rng_Model.z_transmit r p a g) /\
  (mi_body KBSC tol p b pmf = bsc_mutual_information tol p b pmf /\ mi_body KBEC tol p b pmf = bec_mutual_information tol p b pmf /\ mi_body KZ tol p b pmf = z_mutual_information tol p b pmf) /\
  (capacity_body KBSC p b = bsc_capacity p b /\ capacity_body KBEC p b = bec_capacity p b /\ capacity_body KZ p b = z_capacity p b) /\
  (matrix_body KBSC p = [[1 - p; p]; [p; 1 - p]] /\ matrix_body KBEC p = [[1 - p; 0; p]; [0; 1 - p; p]] /\ matrix_body KZ p = [[1; 0]; [p; 1 - p]])%R.
Proof. intros. repeat split; reflexivity. Qed.
(** ... but transition_matrix is the matrix for the value the attribute had when it was first read *)
Theorem C109_channel_matrix : forall (G : Type) (r : generator G) (tol : R) (k : kind) (p : R) (c : channel) (os : list cop) (g : G),
  new_channel k p = Some c ->
  fst (cstep r tol TransitionMatrix (crun r tol os (c, g))) = Matrix (matrix_body k (parameter_at_first_read p os)).
Proof.
  intros G r tol k p c os g H. unfold new_channel in H. destruct (validate_probability p); [|discriminate]. injection H as <-.
  destruct (crun_state r tol k os p None g) as [g' ->]. cbn [cstep ch_kind ch_p ch_matrix].
  destruct (existsb _ os) eqn:E; [reflexivity|]. cbn [fst]. rewrite (never_read p os E). reflexivity.
Qed.
(** so it agrees with the other methods exactly when the attribute is now what it was then *)
Theorem C109_channel_consistent_iff : forall (G : Type) (r : generator G) (tol : R) (k : kind) (p : R) (c : channel) (os : list cop) (g : G),
  new_channel k p = Some c ->
  fst (cstep r tol TransitionMatrix (crun r tol os (c, g))) = Matrix (matrix_body k (parameter p os)) <->
  parameter_at_first_read p os = parameter p os.
Proof.
  intros G r tol k p c os g H. rewrite (C109_channel_matrix G r tol k p c os g H). split; [|intros ->; reflexivity].
  intros E. injection E as E. apply matrix_body_inj in E. exact E.
Qed.
(** in particular when it has not been assigned after the first reading *)
Theorem C109_channel_consistent : forall (G : Type) (r : generator G) (tol : R) (k : kind) (p : R) (c : channel) (sets rest : list cop) (g : G),
  new_channel k p = Some c -> Forall (fun o => o <> TransitionMatrix) sets -> Forall (fun o => forall q, o <> SetParameter q) rest ->
  fst (cstep r tol TransitionMatrix (crun r tol (sets ++ rest) (c, g))) = Matrix (matrix_body k (parameter p (sets ++ rest))).
Proof.
  intros G r tol k p c sets rest g H Hs Hr. apply (C109_channel_consistent_iff G r tol k p c _ g H).
  clear -Hs Hr. revert p. induction Hs as [|o sets Ho Hs IH]; intros p; cbn [app].
  - revert p. induction Hr as [|o rest Ho Hr IH]; intros p; [reflexivity|].
    assert (P : forall q, parameter q rest = q).
    { clear -Hr. intros q. induction Hr as [|o rest Ho Hr IH]; [reflexivity|]. destruct o as [x| | | |]; [destruct (Ho x); reflexivity|cbn; auto ..]. }
    destruct o as [x| | | |]; [destruct (Ho x); reflexivity|cbn; auto ..].
  - destruct o; cbn; auto. congruence.
Qed.

(** otherwise not: a symmetric channel that has become useless still shows the matrix of a perfect one *)
Theorem C109_stale_matrix_refuted : forall (G : Type) (r : generator G) (g : G), exists c s,
  new_channel KBSC 0 = Some c /\ s = crun r 0 [TransitionMatrix; SetParameter (1 / 2)] (c, g) /\
  fst (cstep r 0 TransitionMatrix s) = Matrix [[1 - 0; 0]; [0; 1 - 0]]%R /\ fst (cstep r 0 (Capacity (Base 2)) s) = Number (Some 0%R).
Proof.
  intros G r g. assert (V : validate_probability 0 = true).
  { unfold validate_probability, Rleb. destruct (Rle_dec 0 0); [|lra]. destruct (Rle_dec 0 1); [reflexivity|lra]. }
  unfold new_channel. rewrite V. eexists. eexists. split; [reflexivity|]. split; [reflexivity|]. split; [reflexivity|].
  cbn [crun cstep snd fst ch_kind ch_p ch_matrix capacity_body]. do 2 f_equal. unfold bsc_capacity.
  assert (validate_log_base (Base 2) = true) as ->.
  { unfold validate_log_base, Rleb, Reqb. destruct (Rle_dec 2 0); [lra|]. destruct (Req_EM_T 2 1); [lra|reflexivity]. }
  unfold binary_entropy. assert (validate_probability (1 / 2) = true) as ->.
  { unfold validate_probability, Rleb. destruct (Rle_dec 0 (1 / 2)); [|lra]. destruct (Rle_dec (1 / 2) 1); [reflexivity|lra]. }
  unfold Reqb. destruct (Req_EM_T (1 / 2) 0); [lra|]. destruct (Req_EM_T (1 / 2) 1); [lra|]. cbn [orb option_map]. f_equal.
  assert (L : log2 (1 / 2) = (-1)%R).
  { unfold log2. assert (ln 2 <> 0)%R by (apply Rgt_not_eq; rewrite <- ln_1; apply ln_increasing; lra).
    replace (1 / 2)%R with (/ 2)%R by lra. rewrite ln_Rinv by lra. field. auto. }
  replace (1 - 1 / 2)%R with (1 / 2)%R by lra. rewrite L. lra.
Qed.
(** no check is made at an assignment: the erasure channel can be given probability 2, and then a negative capacity *)
Theorem C109_unchecked_assignment : forall (G : Type) (r : generator G) (g : G), new_channel KBEC 2 = None /\
  exists c, new_channel KBEC 0 = Some c /\ fst (cstep r 0 (Capacity (Base 2)) (crun r 0 [SetParameter 2] (c, g))) = Number (Some (- 1)%R).
Proof.
  intros G r g. split.
  - unfold new_channel, validate_probability, Rleb. destruct (Rle_dec 0 2); [|reflexivity]. destruct (Rle_dec 2 1); [lra|reflexivity].
  - assert (V : validate_probability 0 = true).
    { unfold validate_probability, Rleb. destruct (Rle_dec 0 0); [|lra]. destruct (Rle_dec 0 1); [reflexivity|lra]. }
    unfold new_channel. rewrite V. eexists. split; [reflexivity|].
    cbn [crun cstep snd fst ch_kind ch_p capacity_body]. do 2 f_equal. unfold bec_capacity.
    assert (validate_log_base (Base 2) = true) as ->.
    { unfold validate_log_base, Rleb, Reqb. destruct (Rle_dec 2 0); [lra|]. destruct (Req_EM_T 2 1); [lra|reflexivity]. }
    f_equal. unfold log2, base_value. assert (ln 2 <> 0)%R by (apply Rgt_not_eq; rewrite <- ln_1; apply ln_increasing; lra). field. auto.
Qed.

(** The uniform quantizer: its levels belong to the attributes at the first use, its thresholds lie half a step above those
    levels, with the step at the first use of the thresholds *)
Theorem C109_quantizer_arrays : forall L s d o os, new_uniform L s d = Some o ->
  let a1 := attrs (L, s, d) (before_first_read os) in let a2 := attrs (L, s, d) (before_thresholds os) in
  let q := {| levels := uniform_levels (fst (fst a1)) (snd (fst a1)) (snd a1);
              thresholds := removelast (map (fun v => (v + snd (fst a2) / 2)%R) (uniform_levels (fst (fst a1)) (snd (fst a1)) (snd a1))) |} in
  fst (ustep Levels (urun os o)) = Values (levels q) /\ fst (ustep Thresholds (urun os o)) = Values (thresholds q) /\
  (forall x, fst (ustep (Digitize x) (urun os o)) = Index (digitize q x)) /\ (forall x, fst (ustep (Quantize x) (urun os o)) = Value (quantize q x)).
Proof.
  intros L s d o os H a1 a2 q. unfold new_uniform in H. destruct (Nat.leb L 1); [discriminate|]. destruct (Rltb 0 s); [|discriminate]. injection H as <-.
  rewrite urun_state. 
  assert (E1 : frozen_levels (L, s, d) os = levels q).
  { unfold frozen_levels, q, levels_of. cbn [levels]. fold a1. destruct a1 as [[? ?] ?]. reflexivity. }
  assert (E2 : frozen_thresholds (L, s, d) os = thresholds q) by (unfold frozen_thresholds; rewrite E1; reflexivity).
  assert (EB : forallb assigns os = true -> a1 = attrs (L, s, d) os) by (intros F; unfold a1; rewrite before_first_read_eq, takewhile_all; auto).
  assert (ET : forallb (fun o => negb (needs_thresholds o)) os = true -> a2 = attrs (L, s, d) os) by (intros F; unfold a2; rewrite before_thresholds_eq, takewhile_all; auto).
  pose proof (needs_forall os) as NF. rewrite E1, E2. clear E1 E2.
  unfold digitize, quantize. 
  destruct (attrs (L, s, d) os) as [[L1 s1] d1] eqn:EA.
  destruct (forallb assigns os) eqn:F1; destruct (forallb (fun o => negb (needs_thresholds o)) os) eqn:F2; try (specialize (NF eq_refl); discriminate);
    cbn [ustep fst read_levels read_thresholds u_L u_step u_offset u_levels u_thresholds]; unfold q, digitize; cbn [levels thresholds];
    rewrite ?EB, ?ET by reflexivity; cbn [fst snd]; auto.
Qed.
(** so when nothing is assigned after the first use, it is the quantizer of its current attributes *)
Theorem C109_quantizer_consistent : forall L s d o sets rest q, new_uniform L s d = Some o ->
  Forall (fun op => assigns op = true) sets -> Forall (fun op => assigns op = false) rest ->
  let a := attrs (L, s, d) sets in UniformQuantizer (fst (fst a)) (snd (fst a)) (snd a) = Some q ->
  forall x, fst (ustep (Quantize x) (urun (sets ++ rest) o)) = Value (quantize q x) /\ fst (ustep (Digitize x) (urun (sets ++ rest) o)) = Index (digitize q x).
Proof.
  intros L s d o sets rest q H Hs Hr a HQ x.
  destruct (C109_quantizer_arrays L s d o (sets ++ rest) H) as (_ & _ & HD & HV).
  assert (E1 : before_first_read (sets ++ rest) = sets).
  { clear -Hs Hr. induction Hs as [|op l E Hs IH]; cbn; [|rewrite E; f_equal; auto]. destruct Hr as [|op l E Hr]; cbn; [reflexivity|]. rewrite E. reflexivity. }
  assert (ER : forall b, attrs b (before_thresholds rest) = b).
  { clear -Hr. intros b. induction Hr as [|op l E Hr IH]; [reflexivity|]. cbn [before_thresholds]. destruct (needs_thresholds op); [reflexivity|]. cbn [attrs]. destruct b as [[? ?] ?]. destruct op; try discriminate; exact IH. }
  assert (E2 : attrs (L, s, d) (before_thresholds (sets ++ rest)) = a).
  { assert (before_thresholds (sets ++ rest) = sets ++ before_thresholds rest) as ->.
    { clear -Hs. induction Hs as [|op l E Hs IH]; [reflexivity|]. cbn. destruct op; try discriminate; cbn; f_equal; auto. }
    rewrite attrs_app. apply ER. }
  rewrite E1, E2 in HD, HV. fold a in HD, HV. destruct (uniform_cases _ _ _ _ HQ) as (_ & _ & Q1 & Q2).
  rewrite HD, HV. unfold quantize, digitize. cbn [levels thresholds]. rewrite Q1, Q2. split; reflexivity.
Qed.
(** otherwise it may be neither the old nor the new one: after the step of a two-level quantizer is raised from 1 to 4 between the
    first use of the levels and the first use of the thresholds, the input 1 goes to the level -1/2 although 1/2 is nearer *)
Theorem C109_quantizer_mixed_refuted : exists o, new_uniform 2 1 0 = Some o /\
  fst (ustep Levels o) = Values [- (1 / 2); 1 / 2]%R /\
  fst (ustep (Quantize 1) (urun [Levels; SetStep 4] o)) = Value (- (1 / 2))%R.
Proof.
  assert (E : uniform_levels 2 1 0 = [- (1 / 2); 1 / 2]%R) by (unfold uniform_levels; cbn [seq map]; change (INR 0) with 0%R; change (INR 1) with 1%R; change (INR 2) with 2%R; f_equal; [lra|f_equal; lra]).
  unfold new_uniform. cbn [Nat.leb]. destruct (Rltb_spec 0 1); [|lra]. eexists. split; [reflexivity|].
  cbn [ustep urun read_levels read_thresholds u_L u_step u_offset u_levels u_thresholds fst snd]. rewrite E. split; [reflexivity|].
  cbn [map removelast filter]. unfold Rleb. destruct (Rle_dec (- (1 / 2) + 4 / 2) 1); [lra|]. reflexivity.
Qed.
Theorem C109_satisfiable : exists o q, new_uniform 2 1 0 = Some o /\ UniformQuantizer 4 3 1 = Some q /\
  attrs (2, 1%R, 0%R) [SetLevels 4; SetOffset 1; SetStep 3] = (4, 3%R, 1%R) /\
  parameter_at_first_read 0 [SetParameter 1; TransitionMatrix; SetParameter 2] = 1%R /\ parameter 0 [SetParameter 1; TransitionMatrix; SetParameter 2] = 2%R.
Proof.
  unfold new_uniform, UniformQuantizer. cbn [Nat.leb]. destruct (Rltb_spec 0 1); [|lra]. destruct (Rltb_spec 0 3); [|lra].
  eexists. eexists. repeat split; reflexivity.
Qed.
