(** Stream decoding, III: segmentation of the stream, sparse errors, and encoders without silent loops. *)
From Coq Require Import QArith Lqa.
From Verif Require Import Common Vec_Model LinAlg_Model Linear_Spec Vec_Proof BlockCode_Model FSM_Model FSM_Spec Conv_Model Conv_Spec Conv_Proof ConvTerm_Proof Stream_Model Stream_Spec Stream_Proof Stream_Decode Cat_Spec.
From Verif Require BlockCode_Proof FreeDist_Proof ConvViterbi_Proof Props_FSM FSM_Proof XRref_Proof ConvCons_Proof.
Local Open Scope nat_scope.

(** joining the pieces *)
Lemma reshape_app {A} w (a b : list A) : 0 < w -> length a mod w = 0 -> length b mod w = 0 -> reshape w (a ++ b) = reshape w a ++ reshape w b.
Proof.
  intros Hw Ha Hb. destruct (reshape_spec w a Hw Ha) as (Ca & _ & Fa). destruct (reshape_spec w b Hw Hb) as (Cb & _ & Fb).
  rewrite <- Ca at 1. rewrite <- Cb at 1. rewrite <- concat_app. apply reshape_concat; [exact Hw|]. apply Forall_app. auto.
Qed.
Lemma concat_mod {A} w (ps : list (list A)) : 0 < w -> Forall (fun p => length p mod w = 0) ps -> length (concat ps) mod w = 0.
Proof. intros Hw F. induction F as [|p ps H F IH]; [apply Nat.mod_0_l; lia|]. cbn [concat]. rewrite app_length, Nat.add_mod, H, IH by lia. apply Nat.mod_0_l. lia. Qed.
Lemma decode_app {A} (D : stream_decoder A) a b : 0 < cv_n (sd_code D) -> length a mod cv_n (sd_code D) = 0 -> length b mod cv_n (sd_code D) = 0 ->
  stream_decode D (a ++ b) = match stream_decode D a with None => None | Some (o, D') => option_map (fun '(o', D'') => (o ++ o', D'')) (stream_decode D' b) end.
Proof.
  intros Hn Ha Hb. unfold stream_decode. rewrite app_length, Nat.add_mod, Ha, Hb, Nat.mod_0_l by lia. cbn [Nat.eqb]. rewrite (reshape_app _ a b Hn Ha Hb), FSM_Proof.streaming_app.
  destruct (viterbi_streaming _ _ _ (sd_memory D) _) as [xs m1]. cbn [sd_code sd_metric sd_memory]. rewrite Hb. cbn [Nat.eqb].
  destruct (viterbi_streaming _ _ _ m1 _) as [xs' m2]. cbn [option_map]. rewrite map_app, concat_app. reflexivity.
Qed.
Lemma decode_nil {A} (D : stream_decoder A) : stream_decode D [] = Some ([], D).
Proof. unfold stream_decode. destruct D as [c m mem]. cbn [length sd_code sd_metric sd_memory]. destruct (cv_n c) as [|n]; [reflexivity|]. rewrite Nat.mod_0_l by lia. cbn [Nat.eqb]. unfold reshape. cbn [length]. rewrite Nat.div_0_l by lia. reflexivity. Qed.
Lemma decode_code {A} (D D' : stream_decoder A) a o : stream_decode D a = Some (o, D') -> sd_code D' = sd_code D.
Proof. unfold stream_decode. destruct (_ =? 0); [|discriminate]. destruct (viterbi_streaming _ _ _ _ _) as [xs m]. injection 1 as _ <-. reflexivity. Qed.
Lemma calls_join {A} (ps : list (list A)) : forall D, 0 < cv_n (sd_code D) -> Forall (fun p => length p mod cv_n (sd_code D) = 0) ps ->
  stream_calls D ps = stream_decode D (concat ps).
Proof.
  induction ps as [|p ps IH]; intros D Hn F; cbn [stream_calls concat]; [symmetry; apply decode_nil|]. inversion F as [|? ? Hp F']; subst.
  rewrite decode_app by (auto; apply concat_mod; auto). destruct (stream_decode D p) as [[o D']|] eqn:Ed; [|reflexivity].
  pose proof (decode_code _ _ _ _ Ed) as Ec. rewrite IH by (rewrite Ec; auto). reflexivity.
Qed.
(** the first piece of a wrong length stops the program *)
Lemma calls_reject {A} (ps : list (list A)) : forall D, Exists (fun p => length p mod cv_n (sd_code D) <> 0) ps -> stream_calls D ps = None.
Proof.
  induction ps as [|p ps IH]; intros D X; [inversion X|]. cbn [stream_calls]. destruct (stream_decode D p) as [[o D']|] eqn:Ed; [|reflexivity].
  pose proof (decode_code _ _ _ _ Ed) as Ec. inversion X as [? ? H|? ? H]; subst.
  - exfalso. unfold stream_decode in Ed. destruct (Nat.eqb_spec (length p mod cv_n (sd_code D)) 0); [contradiction|discriminate].
  - rewrite IH by (rewrite Ec; exact H). reflexivity.
Qed.

(** windows of the stream and windows of blocks *)
Lemma window_blocks n X i W : blocks n X -> window n i W (concat X) = concat (firstn W (skipn i X)).
Proof.
  intros B. unfold window.
  assert (S1 : forall i l, blocks n l -> skipn (i * n) (concat l) = concat (skipn i l)).
  { clear. induction i as [|i IH]; intros l B; [reflexivity|]. destruct B as [|x l Lx B]; [cbn [concat skipn]; rewrite skipn_nil; reflexivity|].
    cbn [skipn concat Nat.mul]. rewrite skipn_app, (skipn_all2 x) by lia. cbn [app]. rewrite Lx. replace (n + i * n - n) with (i * n) by lia. apply IH, B. }
  assert (F1 : forall i l, blocks n l -> firstn (i * n) (concat l) = concat (firstn i l)).
  { clear. induction i as [|i IH]; intros l B; [reflexivity|]. destruct B as [|x l Lx B]; [cbn [concat firstn]; rewrite firstn_nil; reflexivity|].
    cbn [firstn concat Nat.mul]. rewrite firstn_app, (firstn_all_ge _ x) by lia. rewrite Lx. replace (n + i * n - n) with (i * n) by lia. f_equal. apply IH, B. }
  rewrite S1 by exact B. apply F1. rewrite <- (firstn_skipn i X) in B. apply Forall_app in B. tauto.
Qed.
Lemma nth_skipn {A} (l : list A) i j x : nth j (skipn i l) x = nth (i + j) l x.
Proof. revert l. induction i as [|i IH]; intros l; [reflexivity|]. destruct l as [|y l]; [destruct j; reflexivity|]. cbn [skipn Nat.add nth]. apply IH. Qed.
Lemma sum_zero f a len : (forall i, a <= i -> i < a + len -> f i = 0) -> sum f a len = 0.
Proof. intros H. rewrite (sum_ext f (fun _ => 0)) by exact H. rewrite sum_const. reflexivity. Qed.
Lemma sum_window n Z i W : blocks n Z -> sum (fun j => weight (nth j Z [])) i W = weight (window n i W (concat Z)).
Proof.
  intros Bz. rewrite window_blocks by exact Bz.
  assert (WC : forall l : list vec, weight (concat l) = sum (fun j => weight (nth j l [])) 0 (length l)).
  { clear. intros l. induction l as [|x l IH] using rev_ind; [reflexivity|]. rewrite concat_app, ConvViterbi_Proof.weight_app, app_length. cbn [concat length]. rewrite app_nil_r, Nat.add_1_r. cbn [sum Nat.add].
    rewrite IH, app_nth2, Nat.sub_diag by lia. f_equal. apply sum_ext. intros j _ Hj. rewrite app_nth1 by lia. reflexivity. }
  rewrite WC, firstn_length, skipn_length. set (m := Nat.min W (length Z - i)). replace W with (m + (W - m)) at 1 by lia. rewrite sum_app.
  rewrite (sum_zero _ (i + m)). 2:{ intros j H1 H2. rewrite nth_overflow by lia. reflexivity. }
  rewrite Nat.add_0_r. transitivity (sum (fun j => weight (nth (i + j) Z [])) 0 m); [pose proof (sum_shift (fun j => weight (nth j Z [])) i 0 m) as X; rewrite Nat.add_0_r in X; symmetry; exact X|].
  apply sum_ext. intros j _ Hj. cbn [Nat.add] in Hj. rewrite XRref_Proof.nth_firstn_lt, nth_skipn by lia. reflexivity.
Qed.
Lemma skipn_vxor i u v : skipn i (vxor u v) = vxor (skipn i u) (skipn i v).
Proof. revert u v. induction i as [|i IH]; intros u v; [reflexivity|]. destruct u as [|a u], v as [|b v]; cbn [skipn vxor]; try reflexivity; [destruct (skipn i u); reflexivity|apply IH]. Qed.

(** the whole program, for any metric *)
Lemma stream_corrects_metric {A} c tau D E r (bcost : vec -> list A -> Q) (wt : vec -> list A -> nat) m B u v (pieces : list (list A)) :
  conv_ok c -> (forall s u u', length s = cv_deg c -> length u = cv_k c -> length u' = cv_k c -> conv_next c s u = conv_next c s u' -> u = u') -> no_silent_loops c ->
  (forall us, blocks (cv_k c) us -> snd (conv_run c us (zeros (cv_deg c))) = zeros (cv_deg c) -> 0 < weight (concat (fst (conv_run c us (zeros (cv_deg c))))) -> D <= weight (concat (fst (conv_run c us (zeros (cv_deg c)))))) ->
  (r + 1) * E < D -> 2 ^ cv_deg c * (2 * (r + 1) * E + 2 * (r * (cv_deg c * cv_n c)) + 1) + 1 <= tau -> (0 < m)%Q -> (B <= qn r * m)%Q ->
  conv_encode c u = Some v -> Forall (fun p => length p mod cv_n c = 0) pieces -> length (concat pieces) = length v ->
  (forall x z w, length x = cv_n c -> length z = cv_n c -> length w = cv_n c -> In z (reshape (cv_n c) (concat pieces)) ->
     bcost x z + m * qn (weight w) - (m + B) * qn (wt x z) <= bcost (vxor x w) z /\ bcost (vxor x w) z <= bcost x z + B * qn (cv_n c))%Q ->
  (forall xs zs, v = concat xs -> concat pieces = concat zs -> blocks (cv_n c) xs -> Forall (fun z => length z = cv_n c) zs -> length zs = length xs ->
     forall i, sum (fun j => wt (nth j xs []) (nth j zs [])) i (2 ^ cv_deg c * (2 * (r + 1) * E + 1)) <= E) ->
  option_map fst (stream_calls {| sd_code := c; sd_metric := fun y z => Some (bcost (nbits (cv_n c) y) z) : xQ; sd_memory := streaming_memory xQ (conv_fsm c) tau 0 (Some 0%Q) |} pieces) = Some (delayed (cv_k c) tau u).
Proof.
  intros OK INJ NS FD HDE Htau Hm HB Ev Fp Lv Hb SE. pose proof (co_k c OK) as Pk. pose proof (co_n c OK) as Pn.
  rewrite calls_join by assumption. unfold stream_decode. cbn [sd_code sd_metric sd_memory].
  pose proof (concat_mod (cv_n c) pieces Pn Fp) as Cm. rewrite Cm. cbn [Nat.eqb].
  destruct (reshape_spec (cv_n c) (concat pieces) Pn Cm) as (Cr & Lr & Fr).
  unfold conv_encode in Ev. destruct (encode_with_state c u (zeros (cv_deg c))) as [[v' s']|] eqn:Ee; [|discriminate]. injection Ev as ->.
  assert (Lu : length u mod cv_k c = 0).
  { unfold encode_with_state in Ee. destruct (Nat.eqb_spec (length u mod cv_k c) 0); [assumption|]. rewrite andb_false_r in Ee. discriminate. }
  destruct (reshape_spec (cv_k c) u Pk Lu) as (Cu & _ & Bu). set (us := reshape (cv_k c) u) in *.
  rewrite <- Cu, (encode_with_state_blocks c OK us (zeros (cv_deg c)) Bu (zeros_length _)) in Ee. injection Ee as Ev _. fold (sent c us) in Ev.
  set (rs := reshape (cv_n c) (concat pieces)) in *. pose proof (sent_blocks c OK us) as Bs. pose proof (sent_length c us) as Ls.
  assert (LC : forall l : list (list A), Forall (fun z => length z = cv_n c) l -> length (concat l) = length l * cv_n c).
  { clear. intros l F. induction F as [|x l Lx F IH]; [reflexivity|]. cbn [concat length Nat.mul]. rewrite app_length, IH. lia. }
  assert (Lrs : length rs = length us).
  { rewrite <- Ev, <- Cr in Lv. rewrite (LC rs Fr), (blocks_concat_length (cv_n c) _ Bs), Ls in Lv. nia. }
  assert (Hz : forall i, i < length us -> length (nth i (sent c us) []) = cv_n c /\ length (nth i rs []) = cv_n c /\ In (nth i rs []) rs).
  { intros i Hi. split; [apply nth_blocks; [exact Bs|lia]|]. assert (In (nth i rs []) rs) by (apply nth_In; lia). split; [|assumption]. rewrite Forall_forall in Fr. apply Fr. assumption. }
  pose proof (answers c OK INJ NS D E r HDE FD us Bu bcost rs Lrs (fun i => wt (nth i (sent c us) []) (nth i rs [])) m B Hm HB) as Ans.
  destruct (viterbi_streaming xQ (conv_fsm c) _ (streaming_memory xQ (conv_fsm c) tau 0 (Some 0%Q)) rs) as [xs mem] eqn:Es.
  cbn [option_map fst]. rewrite <- Cu. f_equal. rewrite <- (fun h1 h2 h3 => Ans h1 h2 h3 tau Htau).
  - change (met c bcost) with (fun y z => Some (bcost (nbits (cv_n c) y) z) : xQ). rewrite Es. reflexivity.
  - intros i w Hi Lw. destruct (Hz i Hi) as (H1 & H2 & H3). apply (Hb _ _ w H1 H2 Lw H3).
  - intros i w Hi Lw. destruct (Hz i Hi) as (H1 & H2 & H3). apply (Hb _ _ w H1 H2 Lw H3).
  - intros i. apply (SE (sent c us) rs); auto. lia.
Qed.
(** hard decisions *)
Lemma stream_corrects c tau D E u v pieces :
  conv_ok c -> (forall s u u', length s = cv_deg c -> length u = cv_k c -> length u' = cv_k c -> conv_next c s u = conv_next c s u' -> u = u') -> no_silent_loops c ->
  (forall us, blocks (cv_k c) us -> snd (conv_run c us (zeros (cv_deg c))) = zeros (cv_deg c) -> 0 < weight (concat (fst (conv_run c us (zeros (cv_deg c))))) -> D <= weight (concat (fst (conv_run c us (zeros (cv_deg c)))))) ->
  2 * E < D -> 2 ^ cv_deg c * (4 * E + 2 * (cv_deg c * cv_n c) + 1) + 1 <= tau ->
  conv_encode c u = Some v -> Forall (fun p => length p mod cv_n c = 0) pieces ->
  sparse_errors (cv_n c) (2 ^ cv_deg c * (4 * E + 1)) E v (concat pieces) ->
  option_map fst (stream_calls (stream_decoder_hard c tau 0) pieces) = Some (delayed (cv_k c) tau u).
Proof.
  intros OK INJ NS FD HDE Htau Ev Fp [Lv SE].
  apply (stream_corrects_metric c tau D E 1 ConvViterbi_Proof.cost_hard (fun x z => weight (vxor x z)) 1%Q 1%Q u v pieces OK INJ NS FD); try assumption.
  - replace (2 * (1 + 1) * E + 2 * (1 * (cv_deg c * cv_n c)) + 1) with (4 * E + 2 * (cv_deg c * cv_n c) + 1) by lia. exact Htau.
  - lra.
  - change (qn 1) with 1%Q. lra.
  - intros x z w Lx Lz Lw _. unfold ConvViterbi_Proof.cost_hard. fold (qn (weight (vxor x z))) (qn (weight (vxor (vxor x w) z))).
    assert (X : vxor (vxor x w) z = vxor w (vxor x z)) by (rewrite (vxor_comm x w), vxor_assoc; reflexivity). rewrite X.
    assert (Lxz : length (vxor x z) = cv_n c) by (rewrite vxor_length; congruence).
    assert (H1 : weight w <= weight (vxor w (vxor x z)) + weight (vxor x z)).
    { rewrite <- (vxor_cancel_r (vxor x z) w) at 1 by congruence. apply BlockCode_Proof.weight_vxor_le. rewrite vxor_length; congruence. }
    assert (H2 : weight (vxor w (vxor x z)) <= cv_n c + weight (vxor x z)).
    { pose proof (BlockCode_Proof.weight_vxor_le w (vxor x z) ltac:(congruence)). assert (weight w <= length w) by (clear; unfold weight; induction w as [|[] w IH]; cbn; lia). lia. }
    apply qn_le in H1, H2. rewrite qn_add in H1, H2. split; lra.
  - intros xs zs Hx Hz Bx Bz Lz i. replace (2 * (1 + 1) * E + 1) with (4 * E + 1) by lia. specialize (SE i). rewrite Hx, Hz in SE.
    assert (Bb : blocks (cv_n c) (badd xs zs)) by (apply badd_blocks; auto).
    rewrite (sum_ext _ (fun j => weight (nth j (badd xs zs) []))).
    + rewrite (sum_window (cv_n c)) by exact Bb. rewrite (concat_badd (cv_n c)) by auto. unfold window in *. rewrite skipn_vxor, XRref_Proof.firstn_vxor. exact SE.
    + intros j _ _. destruct (le_lt_dec (length xs) j).
      * rewrite !nth_overflow; try lia; [reflexivity|]. rewrite badd_length; lia.
      * rewrite nth_badd by lia. reflexivity.
Qed.
(** soft decisions *)
Lemma soft_block m B x z w : (0 < m)%Q -> Forall (fun x => - B <= x <= B)%Q z -> length z = length x -> length w = length x ->
  (ConvViterbi_Proof.soft_sum x z + m * qn (weight w) - (m + B) * qn (weight (doubtful m x z)) <= ConvViterbi_Proof.soft_sum (vxor x w) z /\
   ConvViterbi_Proof.soft_sum (vxor x w) z <= ConvViterbi_Proof.soft_sum x z + B * qn (length x))%Q.
Proof.
  intros Hm F. revert x w. unfold ConvViterbi_Proof.soft_sum, doubtful. induction F as [|y z [H1 H2] F IH]; intros [|b x] [|a w] Lz Lw; cbn in Lz, Lw; try lia.
  - cbn [vxor combine map fold_right length]. change (qn (weight [])) with 0%Q. change (qn 0) with 0%Q. split; lra.
  - specialize (IH x w ltac:(lia) ltac:(lia)) as [I1 I2]. cbn [vxor combine map fold_right length].
    assert (WC : forall g (l : vec), (qn (weight (g :: l)) == (if g then 1 else 0) + qn (weight l))%Q).
    { intros g l. destruct g; unfold weight; cbn [filter length]; [|lra]. rewrite <- Nat.add_1_l, qn_add. change (qn 1) with 1%Q. lra. }
    rewrite !WC. replace (S (length x)) with (1 + length x) by lia. rewrite qn_add. change (qn 1) with 1%Q.
    assert (HB : (0 <= B)%Q) by lra.
    destruct (Qle_bool m (if b then - y else y)) eqn:Eq; cbn [negb].
    + apply Qle_bool_iff in Eq. destruct a, b; cbn [xorb] in *; split; lra.
    + destruct a, b; cbn [xorb]; split; lra.
Qed.
Lemma doubtful_concat m : forall (xs : list vec) (zs : list (list Q)) w, blocks w xs -> Forall (fun z => length z = w) zs -> length zs = length xs ->
  doubtful m (concat xs) (concat zs) = concat (map (fun '(x, z) => doubtful m x z) (combine xs zs)).
Proof.
  induction xs as [|x xs IH]; intros [|z zs] w Bx Bz L; cbn in L; try lia; [reflexivity|]. inversion Bx; inversion Bz; subst. cbn [concat combine map]. rewrite <- (IH zs (length x)) by (auto; lia).
  unfold doubtful. rewrite <- map_app. f_equal. clear -H5. revert z H5. induction x as [|b x IH]; intros [|y z] L; cbn in L; try lia; [reflexivity|]. cbn [app combine]. f_equal. apply IH. lia.
Qed.
Lemma stream_corrects_soft c tau D E r m B u v pieces :
  conv_ok c -> (forall s u u', length s = cv_deg c -> length u = cv_k c -> length u' = cv_k c -> conv_next c s u = conv_next c s u' -> u = u') -> no_silent_loops c ->
  (forall us, blocks (cv_k c) us -> snd (conv_run c us (zeros (cv_deg c))) = zeros (cv_deg c) -> 0 < weight (concat (fst (conv_run c us (zeros (cv_deg c))))) -> D <= weight (concat (fst (conv_run c us (zeros (cv_deg c)))))) ->
  (r + 1) * E < D -> 2 ^ cv_deg c * (2 * (r + 1) * E + 2 * (r * (cv_deg c * cv_n c)) + 1) + 1 <= tau -> (0 < m)%Q -> (B <= qn r * m)%Q ->
  conv_encode c u = Some v -> Forall (fun p => length p mod cv_n c = 0) pieces ->
  sparse_doubts (cv_n c) (2 ^ cv_deg c * (2 * (r + 1) * E + 1)) E m B v (concat pieces) ->
  option_map fst (stream_calls (stream_decoder_soft c tau 0) pieces) = Some (delayed (cv_k c) tau u).
Proof.
  intros OK INJ NS FD HDE Htau Hm HB Ev Fp (Lv & FB & SE).
  apply (stream_corrects_metric c tau D E r ConvViterbi_Proof.soft_sum (fun x z => weight (doubtful m x z)) m B u v pieces OK INJ NS FD); try assumption.
  - intros x z w Lx Lz Lw Iz. rewrite <- Lx. apply soft_block; [exact Hm| |congruence|congruence].
    destruct (reshape_spec (cv_n c) (concat pieces) (co_n c OK) (concat_mod (cv_n c) pieces (co_n c OK) Fp)) as (Cr & _ & _). rewrite <- Cr in FB.
    apply Forall_forall. intros y Iy. rewrite Forall_forall in FB. apply FB. apply in_concat. exists z. auto.
  - intros xs zs Hx Hz Bx Bz Lz i. specialize (SE i). rewrite Hx, Hz, (doubtful_concat m xs zs (cv_n c) Bx Bz Lz) in SE.
    set (Z := map (fun '(x, z) => doubtful m x z) (combine xs zs)) in *.
    assert (NZ : forall j, nth j Z [] = doubtful m (nth j xs []) (nth j zs [])).
    { intros j. unfold Z. change (@nil bool) with ((fun '(x, z) => doubtful m x z) (@nil bool, @nil Q)). rewrite map_nth, combine_nth by auto. reflexivity. }
    rewrite (sum_ext _ (fun j => weight (nth j Z []))) by (intros j _ _; rewrite NZ; reflexivity).
    rewrite (sum_window (cv_n c)); [exact SE|]. apply Forall_forall. intros y Iy. apply In_nth with (d := []) in Iy as (j & Hj & <-). rewrite NZ.
    unfold Z in Hj. rewrite map_length, combine_length in Hj. unfold doubtful. rewrite map_length, combine_length. rewrite (nth_blocks (cv_n c) xs j Bx) by lia.
    rewrite Forall_forall in Bz. rewrite (Bz (nth j zs [])) by (apply nth_In; lia). lia.
Qed.

(** silent loops can be repeated *)
Lemma pump c us s m : snd (conv_run c us s) = s -> fst (conv_run c us s) = repeat (zeros (cv_n c)) (length us) ->
  conv_run c (concat (repeat us m)) s = (repeat (zeros (cv_n c)) (m * length us), s).
Proof.
  intros E1 E2. induction m as [|m IH]; [reflexivity|]. cbn [repeat concat Nat.mul]. rewrite run_app, E1, IH, E2, repeat_app. reflexivity.
Qed.
Lemma repeat_zero_blocks (us : list vec) k : (forall u, In u us -> u = zeros k) -> us = repeat (zeros k) (length us).
Proof. induction us as [|u us IH]; intros H; [reflexivity|]. cbn [length repeat]. rewrite (H u (or_introl eq_refl)) at 1. f_equal. apply IH. intros; apply H; right; assumption. Qed.
Lemma concat_repeat_repeat {A} (x : A) l m : concat (repeat (repeat x l) m) = repeat x (m * l).
Proof. induction m as [|m IH]; [reflexivity|]. cbn [repeat concat Nat.mul]. rewrite IH, repeat_app. reflexivity. Qed.

Section Flush.
Context (c : conv) (OK : conv_ok c).
Local Notation d := (cv_deg c).
Local Notation k := (cv_k c).
Local Notation n := (cv_n c).
Context (m0 : nat) (flush : forall s, length s = d -> snd (conv_run c (repeat (zeros k) m0) s) = zeros d).
Lemma flush_more m s : length s = d -> m0 <= m -> snd (conv_run c (repeat (zeros k) m) s) = zeros d.
Proof.
  intros Ls H. replace m with (m0 + (m - m0)) by lia. rewrite repeat_app, run_app. cbn [snd]. rewrite flush by exact Ls.
  generalize (m - m0). clear -OK. intros m. induction m as [|m IH]; [reflexivity|]. cbn [repeat conv_run]. cbv zeta. rewrite FreeDist_Proof.next_zero by exact OK.
  destruct (conv_run c (repeat (zeros k) m) (zeros d)); exact IH.
Qed.
(** a silent loop with input, entered from the zero state, is a catastrophic input *)
Lemma loop_catastrophic j s us x : reachable c j s -> blocks k us -> snd (conv_run c us s) = s -> fst (conv_run c us s) = repeat (zeros n) (length us) ->
  In x us -> x <> zeros k -> catastrophic c.
Proof.
  intros (ps & Bp & Lp & Ep) Bu E1 E2 Ix Nx. set (L := length us) in *.
  assert (HL : 0 < L) by (unfold L; destruct us; [destruct Ix|cbn; lia]).
  set (u := fun t => if t <? j then nth t ps [] else nth ((t - j) mod L) us []).
  assert (Hm : forall t, (t - j) mod L < L) by (intros t; apply Nat.mod_upper_bound; lia).
  assert (Lu : forall t, length (u t) = k).
  { intros t. unfold u. destruct (Nat.ltb_spec t j); [apply (nth_blocks k ps); [exact Bp|lia]|apply (nth_blocks k us); [exact Bu|apply Hm]]. }
  set (st := fun t => if t <? j then snd (conv_run c (firstn t ps) (zeros d)) else snd (conv_run c (firstn ((t - j) mod L) us) s)).
  assert (SN : forall (l : list vec) i z, i < length l -> snd (conv_run c (firstn (S i) l) z) = conv_next c (snd (conv_run c (firstn i l) z)) (nth i l [])).
  { clear. intros l i z H. assert (Ef : firstn (S i) l = firstn i l ++ [nth i l []]).
    { revert i H. induction l as [|y l IH]; intros i H; [cbn in H; lia|]. destruct i as [|i]; [reflexivity|]. cbn [firstn nth app]. f_equal. apply IH. cbn in H. lia. }
    rewrite Ef, run_snoc. reflexivity. }
  assert (ST : forall t, conv_next c (st t) (u t) = st (S t)).
  { intros t. unfold st, u. destruct (Nat.ltb_spec t j) as [H|H].
    - rewrite <- SN by lia. destruct (Nat.ltb_spec (S t) j); [reflexivity|]. assert (S t = j) as -> by lia. rewrite Nat.sub_diag, Nat.mod_0_l by lia. cbn [firstn conv_run snd].
      rewrite <- Lp, firstn_all. exact Ep.
    - destruct (Nat.ltb_spec (S t) j); [lia|]. replace (S t - j) with (t - j + 1) by lia. rewrite <- SN by apply Hm. specialize (Hm t). set (r := (t - j) mod L) in *.
      assert (Er : (t - j + 1) mod L = if S r =? L then 0 else S r).
      { rewrite <- Nat.add_mod_idemp_l by lia. fold r. rewrite Nat.add_1_r. destruct (Nat.eqb_spec (S r) L) as [->|]; [apply Nat.mod_same; lia|apply Nat.mod_small; lia]. }
      rewrite Er. destruct (Nat.eqb_spec (S r) L) as [->|]; [|reflexivity]. unfold L. rewrite firstn_all. exact E1. }
  assert (RS : forall m, snd (conv_run c (map u (seq 0 m)) (zeros d)) = st m).
  { induction m as [|m IH].
    - unfold st. cbn [seq map conv_run snd]. destruct (Nat.ltb_spec 0 j); [reflexivity|]. assert (j = 0) as -> by lia. destruct ps; [|cbn in Lp; lia]. cbn [conv_run snd] in Ep. cbn [Nat.sub]. rewrite Nat.mod_0_l by lia. exact Ep.
    - rewrite seq_S, map_app. cbn [map Nat.add]. rewrite run_snoc. cbn [snd]. rewrite IH. apply ST. }
  assert (B : forall m, blocks k (map u (seq 0 m))) by (intros m; apply Forall_forall; intros y I; apply in_map_iff in I as (i & <- & _); apply Lu).
  exists u. split; [exact Lu|]. split.
  - intros T. apply In_nth with (d := []) in Ix as (i & Hi & Ei). fold L in Hi. exists (j + (T * L + i)). split; [nia|]. unfold u. destruct (Nat.ltb_spec (j + (T * L + i)) j); [lia|].
    replace (j + (T * L + i) - j) with (i + T * L) by lia. rewrite Nat.mod_add, Nat.mod_small by lia. rewrite Ei. exact Nx.
  - exists j. intros m. exists (fst (conv_run c (map u (seq 0 m)) (zeros d))). unfold conv_encode, prefix. rewrite encode_with_state_blocks by (auto; apply zeros_length). split; [reflexivity|].
    rewrite run_length, map_length, seq_length. split; [reflexivity|]. split; [apply run_blocks; exact OK|]. intros t Ht Hm'.
    rewrite run_nth by (rewrite map_length, seq_length; exact Hm'). rewrite firstn_map, firstn_seq, Nat.min_l by lia. rewrite RS, nth_map_seq by exact Hm'. cbn [Nat.add].
    unfold st, u. destruct (Nat.ltb_spec t j); [lia|]. rewrite <- run_nth by (fold L; apply Hm). rewrite E2.
    rewrite (nth_indep _ [] (zeros n)) by (rewrite repeat_length; apply Hm). apply nth_repeat.
Qed.
Lemma flush_no_silent : ~ catastrophic c -> no_silent_loops c.
Proof.
  intros NC j s us R Bu Ne E1 E2. assert (HL : 0 < length us) by (destruct us; [congruence|cbn; lia]).
  assert (Ls : length s = d) by (destruct R as (ps & _ & _ & <-); apply run_state_length; [exact OK|apply zeros_length]).
  assert (Z : us = repeat (zeros k) (length us)).
  { apply repeat_zero_blocks. intros u I. destruct (list_eq_dec Bool.bool_dec u (zeros k)) as [|N]; [assumption|]. exfalso. apply NC. exact (loop_catastrophic j s us u R Bu E1 E2 I N). }
  split; [|exact Z]. pose proof (pump c us s m0 E1 E2) as P. rewrite Z, concat_repeat_repeat in P. rewrite repeat_length in P.
  rewrite <- (flush_more (m0 * length us) s Ls) by nia. rewrite P. reflexivity.
Qed.
End Flush.

Lemma high_rate_no_silent hs q : hs <> [] -> 0 < cv_deg (HighRate hs q) -> no_silent_loops (HighRate hs q).
Proof.
  intros NE Pd. destruct (cv_deg (HighRate hs q)) as [|d'] eqn:Ed; [lia|]. clear Pd. set (c := HighRate hs q) in *.
  pose proof (ConvCons_Proof.hr_ok hs q d' NE Ed) as OK. fold c in OK.
  intros j s us R Bu Ne E1 E2. rewrite Ed. change (cv_k c) with (length hs) in *. change (cv_n c) with (S (length hs)) in *. assert (HL : 0 < length us) by (destruct us; [congruence|cbn; lia]).
  assert (Ls : length s = S d') by (destruct R as (ps & _ & _ & <-); rewrite <- Ed; apply run_state_length; [exact OK|apply zeros_length]).
  assert (ZS : forall x : nat, zeros (S x) = zeros x ++ [false]) by (intros x; unfold zeros; induction x as [|x IH]; [reflexivity|]; cbn [repeat app] in *; f_equal; exact IH).
  assert (ST : forall z u, length z = S d' -> length u = length hs -> conv_output c z u = zeros (S (length hs)) ->
     u = zeros (length hs) /\ nth d' z false = false /\ forall i, i < S d' -> nth i (conv_next c z u) false = match i with 0 => false | S i' => nth i' z false end).
  { intros z u Lz Lu Ho. unfold c in Ho. rewrite (ConvCons_Proof.hr_output hs q d' NE Ed z u Lz Lu), ZS in Ho. apply app_inj_tail in Ho as [Hu Hy]. split; [exact Hu|].
    assert (U0 : forall l, ConvCons_Proof.usum hs l u = false).
    { intros l. rewrite Hu. unfold ConvCons_Proof.usum. clear. induction hs as [|h hs' IH]; [reflexivity|]. cbn [length]. unfold zeros in *. cbn [repeat map dot]. rewrite IH. reflexivity. }
    assert (Hd : nth d' z false = false) by (unfold ConvCons_Proof.ylast in Hy; rewrite U0, xorb_false_r in Hy; exact Hy). split; [exact Hd|].
    intros i Hi. unfold c. rewrite (ConvCons_Proof.hr_next hs q d' NE Ed z u i Lz Lu Hi). rewrite Hy, U0, andb_false_r. cbn [xorb]. rewrite xorb_false_r. reflexivity. }
  assert (RUN : forall ws z, blocks (length hs) ws -> length z = S d' -> fst (conv_run c ws z) = repeat (zeros (S (length hs))) (length ws) ->
     (forall w, In w ws -> w = zeros (length hs)) /\ forall i, i < S d' -> nth i (snd (conv_run c ws z)) false = if i <? length ws then false else nth (i - length ws) z false).
  { induction ws as [|w ws IH]; intros z B Lz Ho.
    - split; [intros w []|]. intros i _. cbn [length conv_run snd]. rewrite Nat.sub_0_r. reflexivity.
    - inversion B as [|? ? Lw B']; subst. cbn [conv_run length repeat] in *. cbv zeta in *. specialize (IH (conv_next c z w) B').
      rewrite next_length in IH by exact OK. specialize (IH Ed). destruct (conv_run c ws (conv_next c z w)) as [os z']. cbn [fst snd] in *. injection Ho as H1 H2. specialize (IH H2) as [I1 I2].
      destruct (ST z w Lz Lw H1) as (W & _ & Nx). split; [intros y [<-|Iy]; auto|]. intros i Hi. rewrite I2 by exact Hi.
      destruct (Nat.ltb_spec i (length ws)), (Nat.ltb_spec i (S (length ws))); try lia; try reflexivity.
      + rewrite Nx by lia. replace (i - length ws) with 0 by lia. reflexivity.
      + rewrite Nx by lia. replace (i - length ws) with (S (i - S (length ws))) by lia. reflexivity. }
  destruct (RUN us s Bu Ls E2) as [Z _]. split; [|apply repeat_zero_blocks, Z].
  pose proof (pump c us s (S d') E1 E2) as P.
  assert (Bp : blocks (length hs) (concat (repeat us (S d')))).
  { apply Forall_forall. intros x I. apply in_concat in I as (l & I1 & I2). apply repeat_spec in I1. subst l. unfold blocks in Bu. rewrite Forall_forall in Bu. auto. }
  assert (Lp : length (concat (repeat us (S d'))) = S d' * length us).
  { clear. generalize (S d'). intros m. induction m as [|m IH]; [reflexivity|]. cbn [repeat concat Nat.mul]. rewrite app_length, IH. reflexivity. }
  destruct (RUN (concat (repeat us (S d'))) s Bp Ls) as [_ F]; [rewrite P, Lp; reflexivity|]. rewrite P, Lp in F. cbn [snd] in F.
  apply (list_ext false); [rewrite zeros_length; exact Ls|]. intros i Hi. rewrite Ls in Hi. rewrite F by exact Hi. destruct (Nat.ltb_spec i (S d' * length us)); [|nia].
  unfold zeros. symmetry. apply nth_repeat.
Qed.
