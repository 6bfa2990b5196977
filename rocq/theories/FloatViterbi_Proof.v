Set Warnings "-ambiguous-paths".
From Coq Require Import Reals Lra QArith Qreals.
From Flocq Require Import Core Relative Plus_error.
From Verif Require Import Common Vec_Model Vec_Proof LinAlg_Model LinAlg_Proof BlockCode_Model FSM_Model FSM_Spec FSM_Proof Conv_Model Stream_Model Float_Model FloatViterbi_Model FloatViterbi_Spec.
From Verif Require Conv_Proof ConvTerm_Proof ConvViterbi_Proof FreeDist_Proof Decoders_Proof Props_FSM.
Local Open Scope nat_scope.

(* ---------------- a simulation between two metric types, with a bound that grows with the number of steps *)
Section Sim.
Context (V W : metric_ops) (rel : Z -> V -> W -> Prop) (limit step : Z) {A : Type} (M : mealy) (g : nat -> A -> V) (g' : nat -> A -> W) (good : A -> Prop).
Context (step_pos : (0 <= step)%Z).
Context (rel_inf : forall B, rel B (minf V) (minf W)) (rel_le : forall B B' a b, (B <= B')%Z -> rel B a b -> rel B' a b).
Context (rel_lt : forall B B' a a' b b', rel B a a' -> rel B' b b' -> mlt V a b = mlt W a' b').
Context (rel_add : forall B a a' y z, (0 <= B)%Z -> (B + step < limit)%Z -> good z -> rel B a a' -> rel (B + step) (madd V a (g y z)) (madd W a' (g' y z))).

Lemma sim_nth B l l' i : Forall2 (rel B) l l' -> rel B (nth i l (minf V)) (nth i l' (minf W)).
Proof. intros F. revert i; induction F; intros [|i]; cbn; auto. Qed.
Lemma sim_upd B l l' i a a' : Forall2 (rel B) l l' -> rel B a a' -> Forall2 (rel B) (upd i a l) (upd i a' l').
Proof. intros F H. revert i; induction F; intros [|i]; cbn; constructor; auto. Qed.
Lemma sim_repeat B n : Forall2 (rel B) (repeat (minf V) n) (repeat (minf W) n).
Proof. induction n; cbn; constructor; auto. Qed.

Lemma sim_relax B row row' z s0 es : (0 <= B)%Z -> (B + step < limit)%Z -> good z -> Forall2 (rel B) row row' -> forall acc acc',
  Forall2 (rel (B + step)) (fst acc) (fst acc') -> snd acc = snd acc' ->
  let r := fold_left (viterbi_relax V g row z s0) es acc in let r' := fold_left (viterbi_relax W g' row' z s0) es acc' in
  Forall2 (rel (B + step)) (fst r) (fst r') /\ snd r = snd r'.
Proof.
  intros HB HL Gz F. induction es as [|[s1 y] es IH]; intros [m c] [m' c'] Fm Ec; cbn [fold_left]; [split; assumption|].
  apply IH.
  - unfold viterbi_relax. cbn [fst snd] in *.
    pose proof (rel_add B _ _ y z HB HL Gz (sim_nth B row row' s0 F)) as R1.
    rewrite (rel_lt _ _ _ _ _ _ R1 (sim_nth _ m m' s1 Fm)). destruct (mlt W _ _); cbn [fst]; auto using sim_upd.
  - unfold viterbi_relax. cbn [fst snd] in *.
    pose proof (rel_add B _ _ y z HB HL Gz (sim_nth B row row' s0 F)) as R1.
    rewrite (rel_lt _ _ _ _ _ _ R1 (sim_nth _ m m' s1 Fm)). destruct (mlt W _ _); cbn [snd]; congruence.
Qed.
Lemma sim_step B row row' z : (0 <= B)%Z -> (B + step < limit)%Z -> good z -> Forall2 (rel B) row row' ->
  Forall2 (rel (B + step)) (fst (viterbi_step V M g row z)) (fst (viterbi_step W M g' row' z)) /\ snd (viterbi_step V M g row z) = snd (viterbi_step W M g' row' z).
Proof.
  intros HB HL Gz F. unfold viterbi_step.
  assert (G : forall ss acc acc', Forall2 (rel (B + step)) (fst acc) (fst acc') -> snd acc = snd acc' ->
    Forall2 (rel (B + step)) (fst (fold_left (fun acc s0 => fold_left (viterbi_relax V g row z s0) (combine (nth s0 (fsm_transitions M) []) (nth s0 (fsm_outputs M) [])) acc) ss acc))
      (fst (fold_left (fun acc s0 => fold_left (viterbi_relax W g' row' z s0) (combine (nth s0 (fsm_transitions M) []) (nth s0 (fsm_outputs M) [])) acc) ss acc')) /\
    snd (fold_left (fun acc s0 => fold_left (viterbi_relax V g row z s0) (combine (nth s0 (fsm_transitions M) []) (nth s0 (fsm_outputs M) [])) acc) ss acc) =
    snd (fold_left (fun acc s0 => fold_left (viterbi_relax W g' row' z s0) (combine (nth s0 (fsm_transitions M) []) (nth s0 (fsm_outputs M) [])) acc) ss acc')).
  { induction ss as [|s ss IH]; intros acc acc' F1 E1; cbn [fold_left]; [split; assumption|].
    destruct (sim_relax B row row' z s (combine (nth s (fsm_transitions M) []) (nth s (fsm_outputs M) [])) HB HL Gz F acc acc' F1 E1) as [F2 E2]. apply IH; assumption. }
  apply G; [cbn [fst]; apply sim_repeat|reflexivity].
Qed.
Lemma sim_forward zs : forall B row row', (0 <= B)%Z -> (B + step * Z.of_nat (length zs) < limit)%Z -> Forall good zs -> Forall2 (rel B) row row' ->
  fst (viterbi_forward V M g row zs) = fst (viterbi_forward W M g' row' zs) /\
  Forall2 (rel (B + step * Z.of_nat (length zs))) (snd (viterbi_forward V M g row zs)) (snd (viterbi_forward W M g' row' zs)).
Proof.
  induction zs as [|z zs IH]; intros B row row' HB HL Gz F; cbn [viterbi_forward].
  - cbn [fst snd length]. split; [reflexivity|]. replace (B + step * Z.of_nat 0)%Z with B by lia. exact F.
  - inversion Gz as [|? ? G1 G2]; subst. cbn [length] in HL |- *.
    destruct (sim_step B row row' z HB ltac:(nia) G1 F) as [F1 E1].
    destruct (viterbi_step V M g row z) as [r c]. destruct (viterbi_step W M g' row' z) as [r' c']. cbn [fst snd] in F1, E1. subst c'.
    destruct (IH (B + step)%Z r r' ltac:(lia) ltac:(nia) G2 F1) as [E2 F2].
    destruct (viterbi_forward V M g r zs) as [cs f]. destruct (viterbi_forward W M g' r' zs) as [cs' f']. cbn [fst snd] in *. split; [congruence|].
    replace (B + step * Z.of_nat (S (length zs)))%Z with (B + step + step * Z.of_nat (length zs))%Z by lia. exact F2.
Qed.
Lemma sim_viterbi zs init init' : (step * Z.of_nat (length zs) < limit)%Z -> Forall good zs -> Forall2 (rel 0) init init' ->
  fst (viterbi V M g zs init) = fst (viterbi W M g' zs init') /\
  Forall2 (rel (step * Z.of_nat (length zs))) (snd (viterbi V M g zs init)) (snd (viterbi W M g' zs init')).
Proof.
  intros HL G F. destruct (sim_forward zs 0 init init' ltac:(lia) ltac:(lia) G F) as [E1 F1]. unfold viterbi.
  destruct (viterbi_forward V M g init zs) as [cs f]. destruct (viterbi_forward W M g' init' zs) as [cs' f']. cbn [fst snd] in *. subst. auto.
Qed.
Lemma sim_argmin B l l' : Forall2 (rel B) l l' -> argmin_by (mle V) l = argmin_by (mle W) l'.
Proof.
  induction 1 as [|a a' l l' Ha F IH]; [reflexivity|]. cbn [argmin_by]. destruct F as [|b b' l l' Hb F]; [reflexivity|]. rewrite IH.
  assert (R : rel B (nth (argmin_by (mle W) (b' :: l')) (b :: l) b) (nth (argmin_by (mle W) (b' :: l')) (b' :: l') b')).
  { generalize (argmin_by (mle W) (b' :: l')). intros i. assert (F2 : Forall2 (rel B) (b :: l) (b' :: l')) by (constructor; auto).
    revert i. clear -F2 Hb. induction F2; intros [|i]; cbn; auto. }
  unfold mle at 1. unfold mle at 2. rewrite (rel_lt _ _ _ _ _ _ R Ha). reflexivity.
Qed.
(* streaming *)
Definition mem_rel (B : Z) (m : metric_memory V) (m' : metric_memory W) : Prop :=
  mem_paths m = mem_paths m' /\ Forall2 (Forall2 (rel B)) (mem_metrics m) (mem_metrics m').
Lemma sim_last B l l' : Forall2 (rel B) l l' -> rel B (last l (minf V)) (last l' (minf W)).
Proof. induction 1 as [|a a' l l' Ha F IH]; [apply rel_inf|]. destruct F; [exact Ha|exact IH]. Qed.
Lemma Forall2_weaken {X Y} (P Q : X -> Y -> Prop) l l' : (forall a b, P a b -> Q a b) -> Forall2 P l l' -> Forall2 Q l l'.
Proof. intros H. induction 1; constructor; auto. Qed.
Lemma sim_streaming_step B m m' z : (0 <= B)%Z -> (B + step < limit)%Z -> good z -> mem_rel B m m' ->
  fst (streaming_step V M g m z) = fst (streaming_step W M g' m' z) /\ mem_rel (B + step) (snd (streaming_step V M g m z)) (snd (streaming_step W M g' m' z)).
Proof.
  intros HB HL G [P F]. unfold streaming_step.
  assert (FL : Forall2 (rel B) (map (fun row => last row (minf V)) (mem_metrics m)) (map (fun row => last row (minf W)) (mem_metrics m'))).
  { clear -F rel_inf. induction F; cbn [map]; constructor; auto using sim_last. }
  destruct (sim_step B _ _ z HB HL G FL) as [F1 E1].
  destruct (viterbi_step V M g _ z) as [nm ch]. destruct (viterbi_step W M g' _ z) as [nm' ch']. cbn [fst snd] in F1, E1. subst ch'.
  rewrite (sim_argmin _ _ _ F1), P. cbn [fst snd]. split; [reflexivity|]. split; [reflexivity|]. cbn [mem_metrics].
  assert (FW : Forall2 (Forall2 (rel (B + step))) (mem_metrics m) (mem_metrics m')).
  { eapply Forall2_weaken; [|exact F]. intros a b Hab. eapply Forall2_weaken; [|exact Hab]. intros. eapply rel_le; [|eassumption]. lia. }
  clear -FW F1. revert nm nm' F1. induction FW as [|r r' l l' Hr FW IH]; intros nm nm' F1; [constructor|].
  destruct F1 as [|x x' nm nm' Hx F1]; cbn [combine map]; constructor; [|apply IH; exact F1].
  unfold roll_in. apply Forall2_app; [|repeat constructor; exact Hx]. destruct Hr; cbn [tl]; auto.
Qed.
Lemma sim_streaming zs : forall B m m', (0 <= B)%Z -> (B + step * Z.of_nat (length zs) < limit)%Z -> Forall good zs -> mem_rel B m m' ->
  fst (viterbi_streaming V M g m zs) = fst (viterbi_streaming W M g' m' zs) /\
  mem_rel (B + step * Z.of_nat (length zs)) (snd (viterbi_streaming V M g m zs)) (snd (viterbi_streaming W M g' m' zs)).
Proof.
  induction zs as [|z zs IH]; intros B m m' HB HL G R; cbn [viterbi_streaming].
  - cbn [fst snd length]. split; [reflexivity|]. replace (B + step * Z.of_nat 0)%Z with B by lia. exact R.
  - inversion G as [|? ? G1 G2]; subst. cbn [length] in HL |- *.
    destruct (sim_streaming_step B m m' z HB ltac:(nia) G1 R) as [E1 R1].
    destruct (streaming_step V M g m z) as [x m1]. destruct (streaming_step W M g' m' z) as [x' m1']. cbn [fst snd] in E1, R1. subst x'.
    destruct (IH (B + step)%Z m1 m1' ltac:(lia) ltac:(nia) G2 R1) as [E2 R2].
    destruct (viterbi_streaming V M g m1 zs) as [xs m2]. destruct (viterbi_streaming W M g' m1' zs) as [xs' m2']. cbn [fst snd] in *. split; [congruence|].
    replace (B + step * Z.of_nat (S (length zs)))%Z with (B + step + step * Z.of_nat (length zs))%Z by lia. exact R2.
Qed.
End Sim.

(* ---------------- integers below 2^53 are added exactly *)
Lemma int_format k : (Z.abs k < 2 ^ 53)%Z -> is_binary64 (IZR k).
Proof.
  intros H. unfold is_binary64. apply generic_format_FLT. exists (Float radix2 k 0); cbn [Fnum Fexp]; [unfold F2R; cbn; lra|exact H|lia].
Qed.
Lemma binary64_int k : (Z.abs k < 2 ^ 53)%Z -> binary64 (IZR k) = IZR k.
Proof. intros H. unfold binary64. apply round_generic; [apply valid_rnd_N|apply int_format; exact H]. Qed.
Lemma bpow1024 : (IZR (2 ^ 53) <= bpow radix2 1024)%R.
Proof. change (IZR (2 ^ 53)) with (IZR (Zpower radix2 53)). rewrite IZR_Zpower by lia. apply bpow_le. lia. Qed.

Definition irel (B : Z) (a : xQ) (b : xF) : Prop :=
  match a, b with
  | None, None => True
  | Some q, Some x => exists k, (0 <= k <= B)%Z /\ (q == inject_Z k)%Q /\ x = IZR k
  | _, _ => False
  end.
Lemma irel_le B B' a b : (B <= B')%Z -> irel B a b -> irel B' a b.
Proof. intros H. destruct a, b; cbn; auto. intros (k & K & E). exists k. split; [lia|exact E]. Qed.
Lemma irel_lt B B' a a' b b' : irel B a a' -> irel B' b b' -> mlt xQ a b = mlt xF a' b'.
Proof.
  destruct a as [a|], a' as [a'|], b as [b|], b' as [b'|]; cbn; try tauto.
  intros (k & _ & Ea & ->) (j & _ & Eb & ->). destruct (Rlt_dec (IZR k) (IZR j)) as [H|H].
  - apply lt_IZR in H. apply negb_true_iff. apply not_true_is_false. rewrite Qle_bool_iff, Ea, Eb, <- Zle_Qle. lia.
  - apply negb_false_iff. rewrite Qle_bool_iff, Ea, Eb, <- Zle_Qle. apply Z.nlt_ge. intros L. apply H. apply IZR_lt. exact L.
Qed.
Lemma irel_add B s a a' m m' : (0 <= B)%Z -> (B + s < 2 ^ 53)%Z -> irel s m m' -> irel B a a' -> irel (B + s) (madd xQ a m) (madd xF a' m').
Proof.
  destruct a as [a|], a' as [a'|], m as [m|], m' as [m'|]; cbn [irel]; try tauto.
  intros HB HL (k & Hk & Em & ->) (j & Hj & Ea & ->). cbn [madd xQ xF].
  rewrite <- plus_IZR, binary64_int by lia. destruct (Rlt_dec (IZR (j + k)) (bpow radix2 1024)) as [_|N].
  - cbn [irel]. exists (j + k)%Z. split; [lia|]. split; [|reflexivity]. rewrite Ea, Em, <- inject_Z_plus. reflexivity.
  - exfalso. apply N. eapply Rlt_le_trans; [|apply bpow1024]. apply IZR_lt. lia.
Qed.
Lemma irel_metric n y z : length z = n -> irel (Z.of_nat n) (metric_hard n y z) (float_metric_hard n y z).
Proof.
  intros L. unfold metric_hard, float_metric_hard. cbn [irel]. eexists. split; [|split; [reflexivity|reflexivity]].
  split; [lia|]. apply Nat2Z.inj_le. assert (F : forall l : list bool, length (filter (fun b => b) l) <= length l) by (induction l as [|[] l IH]; cbn; lia).
  etransitivity; [apply F|]. rewrite vxor_length by (rewrite Conv_Proof.nbits_length; auto). rewrite Conv_Proof.nbits_length. lia.
Qed.
Lemma irel_init n : Forall2 (irel 0) (upd 0 (Some 0%Q : xQ) (repeat (None : xQ) n)) (upd 0 (Some 0%R : xF) (repeat (None : xF) n)).
Proof.
  apply (sim_upd xQ xF irel); [apply (sim_repeat xQ xF irel); intros; exact Logic.I|]. exists 0%Z. split; [lia|]. split; reflexivity.
Qed.
Lemma hard_viterbi n M (zs : list vec) init init' : Forall (fun z => length z = n) zs -> (Z.of_nat n * Z.of_nat (length zs) < 2 ^ 53)%Z -> Forall2 (irel 0) init init' ->
  fst (viterbi xQ M (metric_hard n) zs init) = fst (viterbi xF M (float_metric_hard n) zs init') /\
  Forall2 (irel (Z.of_nat n * Z.of_nat (length zs))) (snd (viterbi xQ M (metric_hard n) zs init)) (snd (viterbi xF M (float_metric_hard n) zs init')).
Proof.
  intros G HL F. apply (sim_viterbi xQ xF irel (2 ^ 53) (Z.of_nat n) M (metric_hard n) (float_metric_hard n) (fun z => length z = n)); auto.
  - lia.
  - intros; exact Logic.I.
  - apply irel_le.
  - intros. eapply irel_lt; eassumption.
  - intros B a a' y z HB HL' Hz R. apply irel_add; auto. apply irel_metric. exact Hz.
Qed.
Lemma hard_decode c m r : 0 < cv_n c -> length r mod cv_n c = 0 -> (Z.of_nat (length r) < 2 ^ 53)%Z -> float_viterbi_decode_hard c m r = viterbi_decode_hard c m r.
Proof.
  intros Hn Hm HL. unfold float_viterbi_decode_hard, viterbi_decode_hard, float_viterbi_decode, viterbi_decode_metric.
  destruct (Conv_Proof.reshape_spec (cv_n c) r Hn Hm) as (E & L & G).
  assert (LL : (Z.of_nat (cv_n c) * Z.of_nat (length (reshape (cv_n c) r)) < 2 ^ 53)%Z).
  { rewrite L. pose proof (Nat.div_mod_eq (length r) (cv_n c)). lia. }
  destruct (hard_viterbi (cv_n c) (conv_fsm c) (reshape (cv_n c) r) _ _ G LL (irel_init (num_states (conv_fsm c)))) as [E1 F1].
  destruct (viterbi xQ _ _ _ _) as [xs f]. destruct (viterbi xF _ _ _ _) as [xs' f']. cbn [fst snd] in E1, F1. subst xs'.
  destruct m; try reflexivity. rewrite (sim_argmin xQ xF irel irel_lt _ _ _ F1). reflexivity.
Qed.
Definition stream_rel (B : Z) (D : stream_decoder bool) (F : float_stream) : Prop :=
  sd_code D = fs_code F /\ sd_metric D = metric_hard (cv_n (sd_code D)) /\ mem_rel xQ xF irel B (sd_memory D) (fs_memory F).
Lemma hard_stream_init c tau state : stream_rel 0 (stream_decoder_hard c tau state) (float_stream_hard c tau state).
Proof.
  split; [reflexivity|]. split; [reflexivity|]. split; [reflexivity|]. cbn [sd_memory stream_decoder_hard fs_memory float_stream_hard streaming_memory mem_metrics].
  assert (R : forall n, Forall2 (irel 0) (repeat (minf xQ) n) (repeat (minf xF) n)) by (intros; apply (sim_repeat xQ xF irel); intros; exact Logic.I).
  generalize (num_states (conv_fsm c)) as N. intros N. revert state. induction N as [|N IH]; intros state; [destruct state; constructor|].
  cbn [repeat]. destruct state as [|state]; cbn [upd].
  - constructor; [|clear IH; induction N; cbn [repeat]; constructor; auto; apply R].
    apply Forall2_app; [apply R|]. repeat constructor. exists 0%Z. split; [lia|]. split; reflexivity.
  - constructor; [apply R|apply IH].
Qed.
Lemma hard_stream_decode B D F r : 0 < cv_n (sd_code D) -> (0 <= B)%Z -> (B + Z.of_nat (length r) < 2 ^ 53)%Z -> stream_rel B D F ->
  match stream_decode D r, float_stream_decode F r with
  | None, None => True
  | Some (x, D'), Some (x', F') => x = x' /\ sd_code D' = sd_code D /\ stream_rel (B + Z.of_nat (length r)) D' F'
  | _, _ => False
  end.
Proof.
  intros Hn HB HL (Ec & Em & R). unfold stream_decode, float_stream_decode. rewrite <- Ec. set (n := cv_n (sd_code D)) in *.
  destruct (Nat.eqb_spec (length r mod n) 0) as [Hm|]; [|exact Logic.I].
  destruct (Conv_Proof.reshape_spec n r Hn Hm) as (E & L & G).
  assert (LL : (Z.of_nat n * Z.of_nat (length (reshape n r)) = Z.of_nat (length r))%Z).
  { rewrite L. pose proof (Nat.div_mod_eq (length r) n). lia. }
  rewrite Em.
  destruct (sim_streaming xQ xF irel (2 ^ 53) (Z.of_nat n) (conv_fsm (sd_code D)) (metric_hard n) (float_metric_hard n) (fun z => length z = n)) with (zs := reshape n r) (B := B) (m := sd_memory D) (m' := fs_memory F) as [E1 R1]; auto.
  - lia.
  - intros; exact Logic.I.
  - apply irel_le.
  - intros. eapply irel_lt; eassumption.
  - intros B' a a' y z HB' HL' Hz R'. apply irel_add; auto. apply irel_metric. exact Hz.
  - lia.
  - destruct (viterbi_streaming xQ _ _ _ _) as [xs m1]. destruct (viterbi_streaming xF _ _ _ _) as [xs' m1']. cbn [fst snd] in E1, R1. subst xs'.
    split; [reflexivity|]. split; [reflexivity|]. split; [reflexivity|]. split; [reflexivity|]. rewrite <- LL. exact R1.
Qed.
Lemma hard_stream_calls ps : forall B D F, 0 < cv_n (sd_code D) -> (0 <= B)%Z -> (B + Z.of_nat (length (concat ps)) < 2 ^ 53)%Z -> stream_rel B D F ->
  option_map fst (stream_calls D ps) = option_map fst (float_stream_calls F ps).
Proof.
  induction ps as [|p ps IH]; intros B D F Hn HB HL R; [reflexivity|]. cbn [concat] in HL. rewrite app_length in HL. cbn [stream_calls float_stream_calls].
  pose proof (hard_stream_decode B D F p Hn HB ltac:(lia) R) as H.
  destruct (stream_decode D p) as [[x D']|], (float_stream_decode F p) as [[x' F']|]; try tauto.
  destruct H as (-> & Ec & R'). specialize (IH (B + Z.of_nat (length p))%Z D' F' ltac:(rewrite Ec; exact Hn) ltac:(lia) ltac:(lia) R').
  destruct (stream_calls D' ps) as [[y D2]|], (float_stream_calls F' ps) as [[y' F2]|]; cbn in IH |- *; try congruence. 
Qed.

(* ---------------- rounding errors along a path *)
Lemma xF_laws : metric_laws xF.
Proof.
  assert (NR : forall x y : R, negb (if Rlt_dec y x then true else false) = true <-> (x <= y)%R).
  { intros x y. destruct (Rlt_dec y x); cbn; split; intros; try discriminate; auto; lra. }
  assert (NB : forall a b : xF, mle xF a b = true <-> match a, b with Some x, Some y => (x <= y)%R | _, None => True | None, Some _ => False end).
  { intros [x|] [y|]; unfold mle; cbn; try apply NR; split; auto; try discriminate; tauto. }
  constructor.
  - intros [a|] [b|]; rewrite !NB; auto. destruct (Rle_dec a b); [left; auto|right; lra].
  - intros [a|] [b|] [c|]; rewrite !NB; auto; try tauto. lra.
  - intros [a|]; rewrite NB; exact Logic.I.
  - reflexivity.
  - intros [a|] [b|] [c|]; rewrite NB; intros H; cbn [madd xF]; rewrite NB; auto; try tauto.
    + assert (L : (binary64 (a + c) <= binary64 (b + c))%R) by (unfold binary64; apply round_le; [apply FLT_exp_valid; unfold Prec_gt_0; lia|apply valid_rnd_N|lra]).
      destruct (Rlt_dec (binary64 (b + c)) (bpow radix2 1024)); destruct (Rlt_dec (binary64 (a + c)) (bpow radix2 1024)); auto; lra.
    + destruct (Rlt_dec (binary64 (a + c)) (bpow radix2 1024)); auto.
Qed.
Lemma total_app a b : total (a ++ b) = (total a + total b)%R.
Proof. unfold total. induction a as [|x a IH]; cbn [app fold_right]; [lra|]. rewrite IH. lra. Qed.
Lemma total_bound A ms : (0 <= A)%R -> Forall (fun m => (Rabs m <= A)%R) ms -> (Rabs (total ms) <= INR (length ms) * A)%R.
Proof.
  intros HA. induction 1 as [|m ms Hm F IH]; [cbn [total fold_right length INR]; rewrite Rabs_R0; lra|].
  change (total (m :: ms)) with (m + total ms)%R. cbn [length]. rewrite S_INR. eapply Rle_trans; [apply Rabs_triang|]. lra.
Qed.
Lemma bpow_1001 : bpow radix2 1001 = (2 * bpow radix2 1000)%R.
Proof. change 1001%Z with (1000 + 1)%Z. rewrite bpow_plus, bpow_1. change (IZR radix2) with 2%R. lra. Qed.
Lemma is_binary64_0 : is_binary64 0.
Proof. apply generic_format_0. Qed.
Lemma plus_error x y : is_binary64 x -> is_binary64 y -> is_binary64 (binary64 (x + y)) /\ (Rabs (binary64 (x + y) - (x + y)) <= / 2 ^ 53 * Rabs (x + y))%R.
Proof.
  intros Hx Hy. split; [apply generic_format_round; [apply FLT_exp_valid; unfold Prec_gt_0; lia|apply valid_rnd_N]|].
  destruct (@FLT_plus_error_N_ex radix2 (-1074) 53 ltac:(unfold Prec_gt_0; lia) (fun x => negb (Z.even x)) x y Hx Hy) as (eps & He & E).
  unfold binary64. change ZnearestE with (Znearest (fun x => negb (Z.even x))). rewrite E. replace ((x + y) * (1 + eps) - (x + y))%R with (eps * (x + y))%R by ring.
  rewrite Rabs_mult. apply Rmult_le_compat_r; [apply Rabs_pos|]. eapply Rle_trans; [exact He|].
  assert (U : (u_ro radix2 53 = / 2 ^ 53)%R). { unfold u_ro. change (- (53) + 1)%Z with (-52)%Z. change (bpow radix2 (-52)) with (/ IZR (Zpower radix2 52))%R. rewrite IZR_Zpower by lia. cbn. lra. }
  rewrite U. assert (0 < / 2 ^ 53)%R by (apply Rinv_0_lt_compat; apply pow_lt; lra).
  apply Rmult_le_reg_r with (1 + / 2 ^ 53)%R; [lra|]. unfold Rdiv. rewrite Rmult_assoc, Rinv_l by lra. nra.
Qed.
Lemma error_step (t u A E F m G : R) : (0 <= t)%R -> (0 <= A)%R -> (0 < u)%R -> (u * t <= 1)%R ->
  (Rabs E <= t * A)%R -> (Rabs m <= A)%R -> (Rabs (F - E) <= 2 * u * (t * t) * A)%R -> (Rabs (G - (F + m)) <= u * Rabs (F + m))%R ->
  (Rabs (G - (E + m)) <= 2 * u * ((t + 1) * (t + 1)) * A)%R.
Proof.
  intros Ht HA Hu Hut HE Hm HF HG.
  assert (B1 : (Rabs (F + m) <= 2 * u * (t * t) * A + (t + 1) * A)%R).
  { replace (F + m)%R with ((F - E) + (E + m))%R by ring. eapply Rle_trans; [apply Rabs_triang|]. pose proof (Rabs_triang E m). lra. }
  replace (G - (E + m))%R with ((G - (F + m)) + (F - E))%R by ring. eapply Rle_trans; [apply Rabs_triang|].
  assert (u * Rabs (F + m) <= u * (2 * u * (t * t) * A + (t + 1) * A))%R by (apply Rmult_le_compat_l; lra).
  assert (K : (u * (2 * u * (t * t) * A) <= 2 * u * t * A)%R).
  { replace (u * (2 * u * (t * t) * A))%R with ((u * t) * (2 * u * t * A))%R by ring.
    rewrite <- (Rmult_1_l (2 * u * t * A)) at 2. apply Rmult_le_compat_r; [|exact Hut]. repeat apply Rmult_le_pos; lra. }
  assert (0 <= u * t * A)%R by (repeat apply Rmult_le_pos; lra). assert (0 <= u * A)%R by (apply Rmult_le_pos; lra). nra.
Qed.
Lemma float_sum A ms : (0 <= A)%R -> Forall is_binary64 ms -> Forall (fun m => (Rabs m <= A)%R) ms -> (INR (length ms) <= 2 ^ 53)%R -> (INR (length ms) * A <= bpow radix2 1000)%R ->
  exists F, fold_left (madd xF) (map (fun x => Some x : xF) ms) (Some 0%R : xF) = Some F /\ is_binary64 F /\ (Rabs (F - total ms) <= / 2 ^ 52 * (INR (length ms) * INR (length ms)) * A)%R.
Proof.
  intros HA. induction ms as [|m ms IH] using rev_ind; intros HB HM HT HL.
  - exists 0%R. split; [reflexivity|]. split; [apply is_binary64_0|]. cbn [total fold_right length INR]. rewrite Rminus_0_r, Rabs_R0. lra.
  - apply Forall_app in HB as [HB Hb]. apply Forall_app in HM as [HM Hm]. inversion Hb as [|? ? Hb1 _]; subst. inversion Hm as [|? ? Hm1 _]; subst.
    rewrite app_length in HT, HL |- *. cbn [length] in *. rewrite Nat.add_1_r, S_INR in *. pose proof (pos_INR (length ms)) as P.
    destruct IH as (F & EF & BF & RF); auto; [lra|nra|].
    rewrite map_app, fold_left_app, EF. cbn [map fold_left madd xF]. destruct (plus_error F m BF Hb1) as [Bz Ez].
    assert (U : (0 < / 2 ^ 53)%R) by (apply Rinv_0_lt_compat; apply pow_lt; lra).
    assert (U2 : (/ 2 ^ 52 = 2 * / 2 ^ 53)%R). { change (2 ^ 53)%R with (2 * 2 ^ 52)%R. rewrite Rinv_mult; lra. }
    assert (UT : (/ 2 ^ 53 * INR (length ms) <= 1)%R). { apply Rmult_le_reg_l with (2 ^ 53)%R; [apply pow_lt; lra|]. rewrite <- Rmult_assoc, Rinv_r by (apply pow_nonzero; lra). lra. }
    rewrite U2 in *. 
    pose proof (error_step (INR (length ms)) (/ 2 ^ 53) A (total ms) F m (binary64 (F + m)) P HA U UT (total_bound A ms HA HM) Hm1 RF Ez) as ES.
    assert (TB : (Rabs (total (ms ++ [m])) <= (INR (length ms) + 1) * A)%R).
    { pose proof (total_bound A (ms ++ [m]) HA) as TB. rewrite app_length, Nat.add_1_r, S_INR in TB. apply TB. apply Forall_app. auto. }
    assert (ET : total (ms ++ [m]) = (total ms + m)%R) by (rewrite total_app; cbn; lra). rewrite ET in *.
    assert (EB : (2 * / 2 ^ 53 * ((INR (length ms) + 1) * (INR (length ms) + 1)) * A <= 4 * ((INR (length ms) + 1) * A))%R).
    { replace (2 * / 2 ^ 53 * ((INR (length ms) + 1) * (INR (length ms) + 1)) * A)%R with (2 * (/ 2 ^ 53 * (INR (length ms) + 1)) * ((INR (length ms) + 1) * A))%R by ring.
      assert (/ 2 ^ 53 <= 1)%R. { rewrite <- Rinv_1. apply Rinv_le_contravar; [lra|]. apply pow_R1_Rle. lra. }
      apply Rmult_le_compat_r; [apply Rmult_le_pos; lra|]. lra. }
    assert (LT : (binary64 (F + m) < bpow radix2 1024)%R).
    { assert (binary64 (F + m) <= 5 * bpow radix2 1000)%R.
      { replace (binary64 (F + m)) with ((binary64 (F + m) - (total ms + m)) + (total ms + m))%R by ring.
        pose proof (Rle_abs (binary64 (F + m) - (total ms + m))). pose proof (Rle_abs (total ms + m)). lra. }
      eapply Rle_lt_trans; [exact H|]. change 1024%Z with (24 + 1000)%Z. rewrite bpow_plus. apply Rmult_lt_compat_r; [apply bpow_gt_0|].
      change (bpow radix2 24) with (IZR (Zpower radix2 24)). apply IZR_lt. reflexivity. }
    destruct (Rlt_dec (binary64 (F + m)) (bpow radix2 1024)); [|lra]. exists (binary64 (F + m)). split; [reflexivity|]. split; [exact Bz|exact ES].
Qed.
Lemma madd_none l : fold_left (madd xF) l (None : xF) = None.
Proof. induction l; cbn [fold_left]; auto. Qed.

Section Near.
Context {A : Type} (M : mealy) (g : nat -> A -> R) (bnd : R) (zs : list A) (init : list xF).
Let fg (y : nat) (z : A) : xF := Some (g y z).
Let T := INR (length zs).
Let err := (/ 2 ^ 52 * (T * T) * bnd)%R.
Context (OK : mealy_ok M) (NP : no_parallel_edges M) (Li : length init = num_states M).
Context (Hi : forall s, nth s init (None : xF) = Some 0%R \/ nth s init (None : xF) = None).
Context (Hb : (0 <= bnd)%R) (Hg : forall y z, In z zs -> is_binary64 (g y z) /\ (Rabs (g y z) <= bnd)%R).
Context (HT : (T <= 2 ^ 53)%R) (HTb : (T * bnd <= bpow radix2 1000)%R).

Lemma run_float s xs : nth s init (None : xF) = Some 0%R -> length xs = length zs ->
  exists F, run_metric xF M fg init s xs zs = Some F /\ (Rabs (F - exact_cost M g s xs zs) <= err)%R.
Proof.
  intros H0 L. unfold run_metric, exact_cost. change (minf xF) with (None : xF). rewrite H0.
  set (ps := combine (fst (process M xs s)) zs).
  assert (Lp : length ps = length zs) by (unfold ps; rewrite combine_length, process_length; lia).
  assert (E : map (fun '(y, z) => fg y z) ps = map (fun x => Some x : xF) (map (fun '(y, z) => g y z) ps)).
  { rewrite map_map. apply map_ext. intros [y z]. reflexivity. }
  rewrite E. assert (IN : forall p, In p ps -> In (snd p) zs). { intros [y z] I. unfold ps in I. apply in_combine_r in I. exact I. }
  destruct (float_sum bnd (map (fun '(y, z) => g y z) ps)) as (F & EF & _ & RF).
  - exact Hb.
  - apply Forall_forall. intros x I. apply in_map_iff in I as ([y z] & <- & I). apply (Hg y z), (IN _ I).
  - apply Forall_forall. intros x I. apply in_map_iff in I as ([y z] & <- & I). apply (Hg y z), (IN _ I).
  - rewrite map_length, Lp. exact HT.
  - rewrite map_length, Lp. exact HTb.
  - exists F. split; [exact EF|]. rewrite map_length, Lp in RF. exact RF.
Qed.
Lemma run_none s xs : nth s init (None : xF) = None -> run_metric xF M fg init s xs zs = None.
Proof. intros H. unfold run_metric. change (minf xF) with (None : xF). rewrite H. apply madd_none. Qed.
Lemma near_info :
  let '(hat, metrics) := viterbi xF M fg zs init in
  length hat = num_states M /\ length metrics = num_states M /\
  (forall f b, f < num_states M -> nth f metrics (None : xF) = Some b ->
     exists s xs, nth f hat [] = map Z.of_nat xs /\ s < num_states M /\ nth s init (None : xF) = Some 0%R /\ input_word M xs /\ length xs = length zs /\
       snd (process M xs s) = f /\ (Rabs (b - exact_cost M g s xs zs) <= err)%R) /\
  (forall s xs, s < num_states M -> nth s init (None : xF) = Some 0%R -> input_word M xs -> length xs = length zs ->
     exists b, nth (snd (process M xs s)) metrics (None : xF) = Some b /\ (b <= exact_cost M g s xs zs + err)%R).
Proof.
  pose proof (Props_FSM.C47_viterbi xF A M fg zs init xF_laws OK NP Li) as V. destruct (viterbi xF M fg zs init) as [hat metrics].
  destruct V as (L1 & L2 & V). split; [exact L1|]. split; [exact L2|]. split.
  - intros f b Hf Eb. destruct (V f Hf) as [_ AC]. destruct AC as (s & xs & Ex & Hs & W & L & F0 & P & R).
    { change (minf xF) with (None : xF). rewrite Eb. reflexivity. }
    exists s, xs. split; [exact Ex|]. split; [exact Hs|]. destruct (Hi s) as [H0|H0].
    + split; [exact H0|]. split; [exact W|]. split; [exact L|]. split; [exact P|]. destruct (run_float s xs H0 L) as (F & EF & RF).
      rewrite R in EF. change (minf xF) with (None : xF) in EF. rewrite Eb in EF. injection EF as <-. exact RF.
    + change (minf xF) with (None : xF) in F0. rewrite H0 in F0. discriminate.
  - intros s xs Hs H0 W L. assert (Hf : snd (process M xs s) < num_states M) by (apply process_state; auto).
    destruct (V _ Hf) as [LB _]. specialize (LB s xs Hs W L eq_refl). destruct (run_float s xs H0 L) as (F & EF & RF). rewrite EF in LB.
    unfold mle in LB. change (minf xF) with (None : xF) in LB. cbn [mlt xF] in LB. destruct (nth _ metrics None) as [b|]; [|discriminate].
    exists b. split; [reflexivity|]. destruct (Rlt_dec F b); [discriminate|]. pose proof (Rle_abs (F - exact_cost M g s xs zs)). lra.
Qed.
End Near.

(* ---------------- decoding terminated codes *)
Section Decode.
Import Conv_Spec Conv_Proof ConvTerm_Proof ConvViterbi_Proof.
Context (c : conv) (OK : conv_ok c).
Local Notation d := (cv_deg c).
Local Notation k := (cv_k c).
Local Notation n := (cv_n c).
Local Notation mu := (cv_mem c).
Local Notation M := (conv_fsm c).
Context (INJ : forall s u u', length s = d -> length u = k -> length u' = k -> conv_next c s u = conv_next c s u' -> u = u').
Context {A : Type} (g : nat -> A -> R) (bnd : R) (zs : list A).
Let fg (y : nat) (z : A) : xF := Some (g y z).
Let T := INR (length zs).
Let err := (/ 2 ^ 52 * (T * T) * bnd)%R.
Context (Hb : (0 <= bnd)%R) (Hg : forall y z, In z zs -> is_binary64 (g y z) /\ (Rabs (g y z) <= bnd)%R).
Context (HT : (T <= 2 ^ 53)%R) (HTb : (T * bnd <= bpow radix2 1000)%R).
Definition finit : list xF := upd 0 (Some 0%R : xF) (repeat (None : xF) (num_states M)).
Definition ecost (us : list vec) : R := exact_cost M g 0 (map bitsn us) zs.

Lemma finit_length : length finit = num_states M.
Proof. unfold finit. rewrite upd_length, repeat_length. reflexivity. Qed.
Lemma finit_0 : nth 0 finit (None : xF) = Some 0%R.
Proof. unfold finit. pose proof (num_pos c). destruct (num_states M); [lia|]. reflexivity. Qed.
Lemma finit_other s : s <> 0 -> nth s finit (None : xF) = None.
Proof. intros H. unfold finit. generalize (num_states M) as m. intros m. destruct m; destruct s; try congruence; cbn [repeat upd nth]; auto. clear. revert m; induction s; intros [|m]; cbn; auto. Qed.
Lemma float_path_info :
  let '(xs_hat, final) := viterbi xF M fg zs finit in
  length final = num_states M /\
  (forall f b, f < num_states M -> nth f final (None : xF) = Some b ->
     exists us, blocks k us /\ length us = length zs /\ nth f xs_hat [] = map Z.of_nat (map bitsn us) /\ bitsn (snd (conv_run c us (zeros d))) = f /\
       (Rabs (b - ecost us) <= err)%R) /\
  (forall us', blocks k us' -> length us' = length zs -> bitsn (snd (conv_run c us' (zeros d))) < num_states M /\
     exists b, nth (bitsn (snd (conv_run c us' (zeros d)))) final (None : xF) = Some b /\ (b <= ecost us' + err)%R).
Proof.
  assert (Hi : forall s, nth s finit (None : xF) = Some 0%R \/ nth s finit (None : xF) = None).
  { intros s. destruct (Nat.eq_dec s 0) as [->|H]; [left; apply finit_0|right; apply finit_other; exact H]. }
  pose proof (near_info M g bnd zs finit (fsm_mealy_ok c OK) (no_parallel c OK INJ) finit_length Hi Hb Hg HT HTb) as V. fold fg in V. fold T in V. fold err in V.
  destruct (viterbi xF M fg zs finit) as [xs_hat final]. destruct V as (L1 & L2 & V1 & V2). split; [exact L2|].
  assert (RUN : forall us, blocks k us -> snd (process M (map bitsn us) 0) = bitsn (snd (conv_run c us (zeros d)))).
  { intros us B. rewrite <- (FreeDist_Proof.bitsn_zeros d), (fsm_process c OK us (zeros d) B (zeros_length d)). reflexivity. }
  assert (IW : forall us, blocks k us -> input_word M (map bitsn us)).
  { intros us B. unfold input_word. rewrite (fsm_num_inputs c). apply Forall_forall. intros x I. apply in_map_iff in I as (u & <- & I). unfold blocks in B. rewrite Forall_forall in B. rewrite <- (B u I). apply bitsn_bound. }
  split.
  - intros f b Hf Eb. destruct (V1 f b Hf Eb) as (s & xs & Ex & Hs & H0 & Wx & Lx & Px & Rx).
    assert (s = 0). { destruct (Nat.eq_dec s 0); auto. rewrite finit_other in H0 by auto. discriminate. } subst s.
    set (us := map (nbits k) xs).
    assert (Bu : blocks k us) by (apply Forall_forall; intros u I; apply in_map_iff in I as (x & <- & _); apply nbits_length).
    assert (Exs : xs = map bitsn us).
    { unfold us. rewrite map_map. clear -Wx. unfold input_word in Wx. rewrite (fsm_num_inputs c) in Wx. induction Wx; cbn [map]; auto. rewrite bitsn_nbits by auto. f_equal. auto. }
    exists us. split; auto. split; [unfold us; rewrite map_length; auto|]. split; [rewrite Ex, <- Exs; auto|]. split; [rewrite <- RUN, <- Exs; auto|].
    unfold ecost. rewrite <- Exs. exact Rx.
  - intros us' B' L'. split.
    + rewrite (fsm_num_states c). rewrite <- (run_state_length c OK us' (zeros d) (zeros_length d)) at 2. apply bitsn_bound.
    + destruct (V2 0 (map bitsn us') (num_pos c) finit_0 (IW us' B')) as (b & Eb & Lb); [rewrite map_length; exact L'|]. rewrite RUN in Eb by auto. exists b. auto.
Qed.
Lemma float_decode_truncation : exists us, float_viterbi_decode c fg DirectTruncation zs = Some (concat us) /\ blocks k us /\ length us = length zs /\
  forall us', blocks k us' -> length us' = length zs -> (ecost us <= ecost us' + 2 * err)%R.
Proof.
  unfold float_viterbi_decode. fold finit. pose proof float_path_info as BP.
  destruct (viterbi xF M fg zs finit) as [xs_hat final]. destruct BP as (Lf & P1 & P2).
  pose proof (num_pos c) as NP. pose proof xF_laws as ML.
  destruct (Decoders_Proof.argmin_by_spec (mle xF) (mle_total xF ML) (mle_trans xF ML) final (None : xF)) as (Hp & Min & _). { intros E. rewrite E in Lf. cbn [length] in Lf. lia. }
  set (p := argmin_by (mle xF) final) in *. rewrite Lf in Hp.
  assert (FIN : forall us', blocks k us' -> length us' = length zs -> exists b, nth p final (None : xF) = Some b /\ (b <= ecost us' + err)%R).
  { intros us' B' L'. destruct (P2 us' B' L') as (Hf & b & Eb & Lb). rewrite <- Lf in Hf. specialize (Min _ Hf). rewrite Eb in Min. unfold mle in Min. cbn [mlt xF] in Min.
    destruct (nth p final None) as [b0|]; [|discriminate]. exists b0. split; auto. destruct (Rlt_dec b b0); [discriminate|]. lra. }
  destruct (FIN (repeat (zeros k) (length zs)) (zero_blocks c _) (repeat_length _ _)) as (b & Eb & _).
  destruct (P1 p b Hp Eb) as (us & B & L & Ex & Ef & Qb). exists us. rewrite Ex, dbits_blocks by auto. split; auto. split; auto. split; auto.
  intros us' B' L'. destruct (FIN us' B' L') as (b2 & Eb2 & Lb). rewrite Eb in Eb2. injection Eb2 as <-.
  rewrite Rabs_minus_sym in Qb. pose proof (Rle_abs (ecost us - b)). lra.
Qed.
Lemma float_decode_zero h : 0 < mu -> length zs = h + mu ->
  exists us, float_viterbi_decode c fg ZeroTermination zs = Some (concat (firstn h us)) /\ blocks k us /\ length us = length zs /\ snd (conv_run c us (zeros d)) = zeros d /\
  forall us', blocks k us' -> length us' = length zs -> snd (conv_run c us' (zeros d)) = zeros d -> (ecost us <= ecost us' + 2 * err)%R.
Proof.
  intros Hm Lz. unfold float_viterbi_decode. fold finit. pose proof float_path_info as BP.
  destruct (viterbi xF M fg zs finit) as [xs_hat final]. destruct BP as (Lf & P1 & P2).
  assert (Zr : snd (conv_run c (repeat (zeros k) (length zs)) (zeros d)) = zeros d).
  { rewrite run_zeros_input by (auto; apply zeros_length). apply vecmat_zeros. apply wf_pow; auto. }
  destruct (P2 _ (zero_blocks c (length zs)) (repeat_length _ _)) as (H0 & b & Eb & _). rewrite Zr, FreeDist_Proof.bitsn_zeros in H0, Eb.
  destruct (P1 0 b H0 Eb) as (us & B & L & Ex & Ef & Qb). exists us.
  assert (Fz : snd (conv_run c us (zeros d)) = zeros d).
  { apply FreeDist_Proof.bitsn_inj; [rewrite zeros_length; apply run_state_length; auto; apply zeros_length|]. rewrite Ef, FreeDist_Proof.bitsn_zeros. reflexivity. }
  destruct (Nat.eqb_spec mu 0); [lia|]. rewrite Ex, !map_length, L, Lz. replace (h + mu - mu) with h by lia. rewrite !firstn_map.
  rewrite dbits_blocks. 2:{ apply Forall_forall. intros u I. unfold blocks in B. rewrite Forall_forall in B. apply B. rewrite <- (firstn_skipn h us). apply in_or_app; auto. }
  split; auto. split; auto. split; [lia|]. split; auto.
  intros us' B' L' E'. destruct (P2 us' B') as (_ & b2 & Eb2 & Lb); [lia|]. rewrite E', FreeDist_Proof.bitsn_zeros, Eb in Eb2. injection Eb2 as <-.
  rewrite Rabs_minus_sym in Qb. pose proof (Rle_abs (ecost us - b)). lra.
Qed.
End Decode.

(* ---------------- rounded soft metrics *)
Lemma ones_sum_app v v' z z' : length v = length z -> ones_sum (v ++ v') (z ++ z') = (ones_sum v z + ones_sum v' z')%R.
Proof.
  unfold ones_sum. revert z; induction v as [|b v IH]; intros [|x z] L; cbn in L; try lia; cbn [app combine map]; [cbn; lra|].
  change (total (?a :: ?l)) with (a + total l)%R. rewrite IH by lia. cbn [total fold_right]. unfold total. lra.
Qed.
Lemma correlation_ones r v : length r = length v -> real_correlation r v = (total r - 2 * ones_sum v r)%R.
Proof.
  unfold real_correlation, ones_sum, total. revert v; induction r as [|x r IH]; intros [|b v] L; cbn in L; try lia; [cbn; lra|].
  cbn [combine map fold_right]. rewrite IH by lia. destruct b; lra.
Qed.
Section Soft.
Import Conv_Spec Conv_Proof ConvTerm_Proof ConvViterbi_Proof.
Context (c : conv) (OK : conv_ok c).
Local Notation d := (cv_deg c).
Local Notation k := (cv_k c).
Local Notation n := (cv_n c).
Local Notation mu := (cv_mem c).
Context (INJ : forall s u u', length s = d -> length u = k -> length u' = k -> conv_next c s u = conv_next c s u' -> u = u').
Context (g : nat -> list R -> R) (bnd e2 : R) (r : list R).
Local Notation fg := (fun (y : nat) (z : list R) => Some (g y z) : xF).
Local Notation T := (INR (length (reshape n r))).
Local Notation err := (/ 2 ^ 52 * (T * T) * bnd)%R.
Context (Hb : (0 <= bnd)%R) (Hg : forall y z, In z (reshape n r) -> is_binary64 (g y z) /\ (Rabs (g y z) <= bnd)%R).
Context (Hacc : forall y z, In z (reshape n r) -> (Rabs (g y z - ones_sum (nbits n y) z) <= e2)%R).
Context (HT : (T <= 2 ^ 53)%R) (HTb : (T * bnd <= bpow radix2 1000)%R).

Lemma soft_acc zs : (forall y z, In z zs -> (Rabs (g y z - ones_sum (nbits n y) z) <= e2)%R) -> Forall (fun z => length z = n) zs ->
  forall vs, blocks n vs -> length vs = length zs ->
  (Rabs (total (map (fun '(y, z) => g y z) (combine (map bitsn vs) zs)) - ones_sum (concat vs) (concat zs)) <= INR (length zs) * e2)%R.
Proof.
  clear. intros H F. induction F as [|z zs Lz F IH]; intros vs B L; (inversion B as [|v vs' Lv B']; subst); cbn [length] in L; try lia.
  - cbn [map combine concat]. unfold ones_sum. cbn. replace (0 - 0)%R with 0%R by lra. rewrite Rabs_R0. lra.
  - cbn [map combine concat length]. rewrite ones_sum_app by congruence. change (total (?a :: ?l)) with (a + total l)%R. rewrite S_INR.
    assert (H1 : (Rabs (g (bitsn v) z - ones_sum v z) <= e2)%R).
    { specialize (H (bitsn v) z (or_introl eq_refl)). rewrite <- Lv in H. rewrite nbits_bitsn in H by reflexivity. exact H. }
    assert (H2 : forall y w, In w zs -> (Rabs (g y w - ones_sum (nbits n y) w) <= e2)%R) by (intros; apply H; right; assumption).
    specialize (IH H2 vs' B' ltac:(lia)). 
    match goal with |- (Rabs (?a + ?b - (?e + ?f)) <= _)%R => replace (a + b - (e + f))%R with ((a - e) + (b - f))%R by ring; eapply Rle_trans; [apply Rabs_triang|] end. lra.
Qed.
Lemma ecost_acc us : Forall (fun z => length z = n) (reshape n r) -> blocks k us -> length us = length (reshape n r) ->
  (Rabs (ecost c g (reshape n r) us - ones_sum (concat (fst (conv_run c us (zeros d)))) (concat (reshape n r))) <= T * e2)%R.
Proof.
  intros F B L. unfold ecost, exact_cost. rewrite <- (FreeDist_Proof.bitsn_zeros d), (fsm_process c OK us (zeros d) B (zeros_length d)). cbn [fst].
  apply soft_acc; auto; [apply run_blocks; auto|rewrite run_length; exact L].
Qed.
Lemma soft_truncation h : length r = h * n ->
  exists u, float_viterbi_decode c fg DirectTruncation (reshape n r) = Some u /\ length u = h * k /\
  forall u', length u' = h * k -> (ones_sum (terminated_encode c h DirectTruncation u) r <= ones_sum (terminated_encode c h DirectTruncation u') r + 2 * err + 2 * (T * e2))%R.
Proof.
  intros Lr. pose proof (n_pos c OK) as Pn.
  assert (Rm : length r mod n = 0) by (rewrite Lr; apply Nat.mod_mul; lia). destruct (reshape_spec n r Pn Rm) as (Cr & Lrr & Fr).
  assert (Lr2 : length (reshape n r) = h) by (rewrite Lrr, Lr, Nat.div_mul by lia; reflexivity).
  destruct (float_decode_truncation c OK INJ g bnd (reshape n r) Hb Hg HT HTb) as (us & E & B & L & Opt). exists (concat us). split; [exact E|].
  rewrite (blocks_concat_length k us B). split; [congruence|]. intros u' Lu'. destruct (as_blocks c u' h Lu') as (us' & -> & B' & L').
  rewrite !(enc_direct c OK) by auto. specialize (Opt us' B' ltac:(congruence)).
  pose proof (ecost_acc us Fr B L) as A1. pose proof (ecost_acc us' Fr B' ltac:(congruence)) as A2. rewrite Cr in A1, A2.
  rewrite Rabs_minus_sym in A1. pose proof (Rle_trans _ _ _ (Rle_abs _) A1). pose proof (Rle_trans _ _ _ (Rle_abs _) A2). lra.
Qed.
Context (REACH : forall h s, reachable c (h + mu) s -> reachable c mu s).
Context (UNIQ : forall us us' s, blocks k us -> blocks k us' -> length us = mu -> length us' = mu -> length s = d ->
  snd (conv_run c us s) = snd (conv_run c us' s) -> us = us').
Lemma soft_zero h : 0 < h -> 0 < mu -> length r = (h + mu) * n ->
  exists u, float_viterbi_decode c fg ZeroTermination (reshape n r) = Some u /\ length u = h * k /\
  forall u', length u' = h * k -> (ones_sum (terminated_encode c h ZeroTermination u) r <= ones_sum (terminated_encode c h ZeroTermination u') r + 2 * err + 2 * (T * e2))%R.
Proof.
  intros Hh Hm Lr. pose proof (n_pos c OK) as Pn.
  assert (Rm : length r mod n = 0) by (rewrite Lr; apply Nat.mod_mul; lia). destruct (reshape_spec n r Pn Rm) as (Cr & Lrr & Fr).
  assert (Lr2 : length (reshape n r) = h + mu) by (rewrite Lrr, Lr, Nat.div_mul by lia; reflexivity).
  destruct (float_decode_zero c OK INJ g bnd (reshape n r) Hb Hg HT HTb h Hm Lr2) as (us & E & B & L & Ez & Opt). exists (concat (firstn h us)). split; [exact E|].
  assert (Bf : blocks k (firstn h us) /\ blocks k (skipn h us)) by (rewrite <- (firstn_skipn h us) in B; apply Forall_app in B; auto). destruct Bf as [Bf Bs].
  assert (Lf : length (firstn h us) = h) by (rewrite firstn_length; lia).
  rewrite (blocks_concat_length k _ Bf), Lf. split; auto.
  assert (ENC : forall u, length u = h * k -> exists ts, blocks k ts /\ length ts = mu /\ exists ws, u = concat ws /\ blocks k ws /\ length ws = h /\
     snd (conv_run c (ws ++ ts) (zeros d)) = zeros d /\ terminated_encode c h ZeroTermination u = concat (fst (conv_run c (ws ++ ts) (zeros d)))).
  { intros u Lu. destruct (zero_tail c OK h u Hh Hm Lu (REACH h)) as (Lt & Er & Zr). destruct (as_blocks c u h Lu) as (ws & -> & Bw & Lw).
    destruct (as_blocks c (tail_of c h (concat ws)) mu Lt) as (ts & Et & Bt & Lt'). exists ts. split; auto. split; auto. exists ws. split; auto. split; auto. split; auto.
    rewrite Et in Er, Zr. rewrite <- concat_app in Er, Zr. assert (Bwt : blocks k (ws ++ ts)) by (apply Forall_app; auto).
    assert (Zs : snd (conv_run c (ws ++ ts) (zeros d)) = zeros d) by (rewrite (reach_spec c OK _ Bwt), app_length, Lw, Lt'; exact Zr).
    split; auto. unfold terminated_encode. rewrite Er, (encode_with_state_blocks c OK) by (auto; apply zeros_length). reflexivity. }
  assert (Eu : terminated_encode c h ZeroTermination (concat (firstn h us)) = concat (fst (conv_run c us (zeros d)))).
  { destruct (ENC (concat (firstn h us))) as (ts & Bt & Lt & ws & Ew & Bw & Lw & Zw & ->). { rewrite (blocks_concat_length k _ Bf), Lf. auto. }
    apply (concat_blocks_inj k) in Ew; auto; [|lia]. subst ws. replace ts with (skipn h us); [rewrite firstn_skipn; auto|].
    apply (UNIQ _ _ (snd (conv_run c (firstn h us) (zeros d)))); auto; [rewrite skipn_length; lia|apply run_state_length; auto; apply zeros_length|].
    rewrite <- (firstn_skipn h us) in Ez. rewrite run_app in Ez, Zw. cbn [snd] in Ez, Zw. congruence. }
  rewrite Eu. intros u' Lu'. destruct (ENC u' Lu') as (ts & Bt & Lt & ws & -> & Bw & Lw & Zw & ->).
  assert (Bwt : blocks k (ws ++ ts)) by (apply Forall_app; auto).
  assert (Lwt : length (ws ++ ts) = length (reshape n r)) by (rewrite app_length; lia). specialize (Opt (ws ++ ts) Bwt Lwt Zw).
  pose proof (ecost_acc us Fr B L) as A1. pose proof (ecost_acc (ws ++ ts) Fr Bwt Lwt) as A2. rewrite Cr in A1, A2.
  rewrite Rabs_minus_sym in A1. pose proof (Rle_trans _ _ _ (Rle_abs _) A1). pose proof (Rle_trans _ _ _ (Rle_abs _) A2). lra.
Qed.
End Soft.

(* ---------------- np.dot from left to right *)
Lemma xF_fold ms : forall a F, fold_left (madd xF) (map (fun x => Some x : xF) ms) (Some a : xF) = Some F -> fold_left (fun a x => binary64 (a + x)) ms a = F.
Proof.
  induction ms as [|m ms IH]; intros a F H; cbn [map fold_left] in *; [injection H; auto|].
  apply IH. cbn [madd xF] in H. destruct (Rlt_dec _ _); [exact H|]. change (fold_left (madd xF) (map (fun x => Some x : xF) ms) (None : xF) = Some F) in H.
  rewrite madd_none in H. discriminate.
Qed.
Lemma float_dot_spec n y z a : length z = n -> (0 <= a)%R -> Forall is_binary64 z -> Forall (fun x => (Rabs x <= a)%R) z -> (INR n <= 2 ^ 52)%R -> (INR n * a <= bpow radix2 1000)%R ->
  is_binary64 (float_dot n y z) /\ (Rabs (float_dot n y z - ones_sum (nbits n y) z) <= / 2 ^ 52 * (INR n * INR n) * a)%R /\ (Rabs (float_dot n y z) <= 2 * (INR n * a))%R.
Proof.
  intros Lz Ha Fb Fa H1 H2. unfold float_dot, ones_sum. set (ms := map _ (combine (nbits n y) z)).
  assert (Lm : length ms = n) by (unfold ms; rewrite map_length, combine_length, Conv_Proof.nbits_length; lia).
  assert (Gb : Forall is_binary64 ms). { apply Forall_forall. intros x I. apply in_map_iff in I as ([b w] & <- & I). apply in_combine_r in I. rewrite Forall_forall in Fb. destruct b; [auto|apply is_binary64_0]. }
  assert (Ga : Forall (fun x => (Rabs x <= a)%R) ms). { apply Forall_forall. intros x I. apply in_map_iff in I as ([b w] & <- & I). apply in_combine_r in I. rewrite Forall_forall in Fa. destruct b; [auto|rewrite Rabs_R0; exact Ha]. }
  rewrite <- Lm in H1, H2. assert (H3 : (INR (length ms) <= 2 ^ 53)%R) by (change (2 ^ 53)%R with (2 * 2 ^ 52)%R; assert (0 < 2 ^ 52)%R by (apply pow_lt; lra); lra).
  destruct (float_sum a ms Ha Gb Ga H3 H2) as (F & EF & BF & RF). apply xF_fold in EF. rewrite EF.
  split; [exact BF|]. rewrite <- Lm. split; [exact RF|].
  assert (TB := total_bound a ms Ha Ga). replace F with ((F - total ms) + total ms)%R by ring. eapply Rle_trans; [apply Rabs_triang|].
  set (t := INR (length ms)) in *. assert (0 <= t)%R by apply pos_INR.
  assert (/ 2 ^ 52 * (t * t) * a <= t * a)%R.
  { replace (/ 2 ^ 52 * (t * t) * a)%R with ((/ 2 ^ 52 * t) * (t * a))%R by ring. rewrite <- (Rmult_1_l (t * a)) at 2.
    apply Rmult_le_compat_r; [apply Rmult_le_pos; assumption|]. apply Rmult_le_reg_l with (2 ^ 52)%R; [apply pow_lt; lra|]. rewrite <- Rmult_assoc, Rinv_r by (apply pow_nonzero; lra). lra. }
  lra.
Qed.
