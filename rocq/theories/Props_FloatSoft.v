(** C118: soft-decision block decoders in double precision. *)
Set Warnings "-ambiguous-paths".
From Coq Require Import Reals Lra QArith Qreals Permutation.
From Flocq Require Import Core.
From Verif Require Import Common Vec_Model Linear_Spec Code_Spec LinAlg_Model BlockCode_Model ReedMuller_Model Polar_Model SC_Model Float_Model
  FloatViterbi_Spec FloatSoft_Model FloatSoft_Spec.
From Verif Require Vec_Proof Hamming_Proof ReedMuller_Proof ClassicCodes_Model ClassicCodes_Proof Decoders_Proof Wagner_Proof Wagner_Model SC_Proof Polar_Proof Props_Codes Props_ReedMuller Props_Polar
  FloatSoft_Proof FloatSoft_Wagner FloatSoft_Reed FloatSoft_SC FloatShannon_Proof FloatFano_Proof FloatViterbi_Proof.
Local Open Scope nat_scope.

(* ================= the sums *)
(* The result of adding n numbers of magnitude at most a, in whatever order, is within n^2 a / 2^52 of the exact sum. *)
Theorem C118_sum_error : forall a l x, rounded_sum l x -> (0 <= a)%R -> Forall is_binary64 l -> Forall (fun y => (Rabs y <= a)%R) l ->
  (INR (length l) <= 2 ^ 52)%R -> is_binary64 x /\ (Rabs (x - total l) <= INR (length l) * INR (length l) * a / 2 ^ 52)%R.
Proof.
  intros a l x S Ha F B N. split; [eapply FloatSoft_Proof.rounded_format; eauto|].
  replace (INR (length l) * INR (length l) * a / 2 ^ 52)%R with (/ 2 ^ 52 * (INR (length l) * INR (length l)) * a)%R by (unfold Rdiv; ring).
  apply FloatSoft_Proof.rounded_error; auto.
Qed.
(* Sums of fixed-point numbers are exact in every order as long as the magnitudes add up to less than 2^53 units. *)
Theorem C118_sum_exact : forall e ks x, (-1074 <= e)%Z -> (fold_right Z.add 0 (map Z.abs ks) < 2 ^ 53)%Z -> rounded_sum (fixed_point e ks) x -> x = total (fixed_point e ks).
Proof.
  intros e ks x He B S. unfold fixed_point in *. rewrite (map_ext _ (fun k => (IZR k * bpow radix2 e)%R)) in * by (intros; rewrite FloatSoft_Proof.powerRZ_bpow; reflexivity).
  destruct (FloatSoft_Proof.rounded_exact e _ x He S ks eq_refl) as (k & _ & E & _); [|exact E].
  enough (FloatSoft_Proof.zabs_sum ks = fold_right Z.add 0 (map Z.abs ks))%Z by lia. clear. unfold FloatSoft_Proof.zabs_sum. induction ks as [|k ks IH]; cbn [map fold_right]; lia.
Qed.
(* Adding from left to right is one of the orders. *)
Theorem C118_left_to_right : any_order (fun l => fold_left (fun a x => binary64 (a + x)) l 0%R).
Proof.
  intros l. assert (G : forall l done a, rounded_sum done a -> rounded_sum (done ++ l) (fold_left (fun a x => binary64 (a + x)) l a)).
  { induction l0 as [|x l0 IH]; intros done a S; cbn [fold_left]; [rewrite app_nil_r; exact S|].
    replace (done ++ x :: l0) with ((done ++ [x]) ++ l0) by (rewrite <- app_assoc; reflexivity). apply IH. eapply sum_add; [exact S|constructor|apply Permutation_refl]. }
  apply (G l [] 0%R). constructor.
Qed.

(* ================= exhaustive search *)
(* The decoded word's correlation with the received word is within n^2 a / 2^51 of the largest. *)
Theorem C118_exhaustive : forall C npsum a r, valid_code C -> any_order npsum -> (0 <= a)%R -> length r = bc_n C ->
  Forall is_binary64 r -> Forall (fun x => (Rabs x <= a)%R) r -> (INR (bc_n C) <= 2 ^ 52)%R ->
  length (float_exhaustive npsum C r) = bc_k C /\
  forall c, is_codeword C c -> (real_correlation r c <= real_correlation r (bc_encode C (float_exhaustive npsum C r)) + INR (bc_n C) * INR (bc_n C) * a / 2 ^ 51)%R.
Proof.
  intros C npsum a r V S Ha L F B N. pose proof (ok_encoder C V) as OE.
  destruct (FloatSoft_Proof.exhaustive_pick npsum C r OE) as (j & Hj & E & M & _). rewrite E. split; [apply BlockCode_Proof.message_length|].
  intros c Hc. specialize (M c Hc).
  assert (Len : forall c', is_codeword C c' -> length c' = bc_n C) by (intros c' (u & Lu & <-); apply (ok_encode_length C OE); auto).
  assert (Hj' : is_codeword C (bc_encode C (message (bc_k C) j))) by (exists (message (bc_k C) j); split; auto using BlockCode_Proof.message_length).
  pose proof (FloatSoft_Proof.signed_error npsum a r c S Ha ltac:(rewrite (Len c Hc); exact L) F B ltac:(rewrite L; exact N)) as E1.
  pose proof (FloatSoft_Proof.signed_error npsum a r _ S Ha ltac:(rewrite (Len _ Hj'); exact L) F B ltac:(rewrite L; exact N)) as E2.
  rewrite L in E1, E2. apply Rabs_le_inv in E1. apply Rabs_le_inv in E2.
  assert (X : (INR (bc_n C) * INR (bc_n C) * a / 2 ^ 51 = 2 * (/ 2 ^ 52 * (INR (bc_n C) * INR (bc_n C)) * a))%R).
  { change (2 ^ 52)%R with (2 * 2 ^ 51)%R. field. }
  rewrite X. lra.
Qed.
(* A sent word whose correlation exceeds all others by more than that is found. *)
Theorem C118_exhaustive_margin : forall C npsum a r u, valid_code C -> any_order npsum -> (0 <= a)%R -> length r = bc_n C -> length u = bc_k C ->
  Forall is_binary64 r -> Forall (fun x => (Rabs x <= a)%R) r -> (INR (bc_n C) <= 2 ^ 52)%R ->
  (forall u', length u' = bc_k C -> u' <> u -> (real_correlation r (bc_encode C u') + INR (bc_n C) * INR (bc_n C) * a / 2 ^ 51 < real_correlation r (bc_encode C u))%R) ->
  float_exhaustive npsum C r = u.
Proof.
  intros C npsum a r u V S Ha L Lu F B N G. destruct (C118_exhaustive C npsum a r V S Ha L F B N) as [Lf M].
  destruct (list_eq_dec Bool.bool_dec (float_exhaustive npsum C r) u) as [E|E]; auto. exfalso.
  specialize (G _ Lf E). specialize (M (bc_encode C u) (ex_intro _ u (conj Lu eq_refl))). lra.
Qed.
(* Received values that all have the sign of the sent bit, of magnitude between m and a with n^2 a < d m 2^52, d being
   the minimum distance, are decoded without error. *)
Theorem C118_exhaustive_signs : forall C npsum m a r u d, valid_code C -> any_order npsum -> (0 < m)%R -> length u = bc_k C ->
  is_minimum_distance C d -> clear_word m r (bc_encode C u) ->
  Forall is_binary64 r -> Forall (fun x => (Rabs x <= a)%R) r -> (INR (bc_n C) <= 2 ^ 52)%R ->
  (INR (bc_n C) * INR (bc_n C) * a < INR d * m * 2 ^ 52)%R ->
  float_exhaustive npsum C r = u.
Proof.
  intros C npsum m a r u d V S Hm Lu [SD _] CW F B N G. pose proof (ok_encoder C V) as OE.
  assert (L : length r = bc_n C). { rewrite (SC_Proof.Forall2_len _ _ _ CW). apply (ok_encode_length C OE); auto. }
  destruct (Nat.eq_dec (bc_n C) 0) as [Z|Z].
  { rewrite Z in G. cbn [INR] in G. destruct (C118_exhaustive C npsum 0 r V S (Rle_refl 0) L F) as [Lf _]; [|exact N|].
    - rewrite Z in L. destruct r; [constructor|discriminate].
    - pose proof (ok_project C V u Lu) as P1. pose proof (ok_project C V _ Lf) as P2.
      assert (E : bc_encode C (float_exhaustive npsum C r) = bc_encode C u).
      { pose proof (ok_encode_length C OE u Lu) as A1. pose proof (ok_encode_length C OE _ Lf) as A2. rewrite Z in A1, A2.
        destruct (bc_encode C u); [|discriminate]. destruct (bc_encode C (float_exhaustive npsum C r)); [reflexivity|discriminate]. }
      congruence. }
  assert (Ha : (0 <= a)%R). { destruct r as [|x r]; [cbn in L; congruence|]. inversion B; subst. pose proof (Rabs_pos x). lra. }
  apply (C118_exhaustive_margin C npsum a r u V S Ha L Lu F B N). intros u' Lu' NE.
  assert (Ne : bc_encode C u <> bc_encode C u'). { intros E. apply NE. rewrite <- (ok_project C V u Lu), <- (ok_project C V u' Lu'). congruence. }
  pose proof (SD _ _ (ex_intro _ u (conj Lu eq_refl)) (ex_intro _ u' (conj Lu' eq_refl)) Ne) as D. apply le_INR in D.
  pose proof (FloatSoft_Proof.corr_gap m r (bc_encode C u) (bc_encode C u') (Rlt_le _ _ Hm) CW) as K.
  specialize (K ltac:(rewrite !(ok_encode_length C OE) by auto; reflexivity)).
  assert (K2 : (m * INR d <= m * INR (hdist (bc_encode C u) (bc_encode C u')))%R) by (apply Rmult_le_compat_l; lra).
  assert (X : (INR (bc_n C) * INR (bc_n C) * a / 2 ^ 51 < 2 * (m * INR d))%R).
  { apply Rmult_lt_reg_r with (2 ^ 51)%R; [apply pow_lt; lra|]. unfold Rdiv. rewrite Rmult_assoc, Rinv_l, Rmult_1_r by (apply pow_nonzero; lra). change (2 ^ 52)%R with (2 * 2 ^ 51)%R in G. lra. }
  lra.
Qed.
(* Fixed-point samples: the metrics are exact, and the decoder is the ideal one of C33. *)
Theorem C118_exhaustive_fixed_point : forall C npsum e ks, valid_code C -> any_order npsum -> (-1074 <= e)%Z -> (fold_right Z.add 0 (map Z.abs ks) < 2 ^ 53)%Z ->
  let r := fixed_point e ks in
  exists j, j < 2 ^ bc_k C /\ float_exhaustive npsum C r = message (bc_k C) j /\
    (forall c, is_codeword C c -> (real_correlation r c <= real_correlation r (bc_encode C (message (bc_k C) j)))%R) /\
    (forall i, i < j -> (real_correlation r (bc_encode C (message (bc_k C) i)) < real_correlation r (bc_encode C (message (bc_k C) j)))%R).
Proof.
  intros C npsum e ks V S He B r. pose proof (ok_encoder C V) as OE.
  assert (B' : (FloatSoft_Proof.zabs_sum ks < 2 ^ 53)%Z).
  { enough (FloatSoft_Proof.zabs_sum ks = fold_right Z.add 0 (map Z.abs ks))%Z by lia. clear. unfold FloatSoft_Proof.zabs_sum. induction ks as [|k ks IH]; cbn [map fold_right]; lia. }
  destruct (FloatSoft_Proof.exhaustive_pick npsum C r OE) as (j & Hj & E & M & T). exists j. split; [exact Hj|]. split; [exact E|]. unfold r in *. split.
  - intros c Hc. specialize (M c Hc). rewrite !(FloatSoft_Proof.signed_fixed npsum e ks) in M by auto. lra.
  - intros i Hi. specialize (T i Hi). rewrite !(FloatSoft_Proof.signed_fixed npsum e ks) in T by auto. lra.
Qed.

(* ================= Wagner *)
(* Wagner decoding makes no rounding errors at all: the decoded word has the largest correlation. *)
Theorem C118_wagner : forall n C r, ClassicCodes_Model.SingleParityCheckCode n = Some C -> length r = n -> Forall is_binary64 r ->
  length (float_wagner C r) = bc_k C /\
  forall c, is_codeword C c -> (real_correlation r c <= real_correlation r (bc_encode C (float_wagner C r)))%R.
Proof.
  intros n C r E L F. destruct (FloatSoft_Wagner.rational_list r F) as (q & ->). rewrite map_length in L.
  destruct (Props_Polar.C45_wagner n C q E L) as [L1 M]. rewrite FloatSoft_Wagner.wagner_Q2R. split; [exact L1|].
  intros c Hc. rewrite !FloatSoft_Wagner.correlation_Q2R. apply Qle_Rle. apply M, Hc.
Qed.

(* ================= Reed *)
(* As C41_soft, with the rounding error of the decision variables added to the mass of the wrong positions. *)
Theorem C118_reed : forall rho mu C npdot u r m a, ReedMullerCode rho mu = Some C -> any_order npdot ->
  length u = bc_k C -> length r = bc_n C -> (0 <= m)%R -> (0 <= a)%R -> mu <= 52 ->
  Forall is_binary64 r -> Forall (fun x => (Rabs x <= a)%R) r ->
  let c := bc_encode C u in
  let wrong := filter (wrong_sign c r) (seq 0 (2 ^ mu)) in
  (forall p, p < 2 ^ mu -> wrong_sign c r p = false -> (m <= Rabs (nth p r 0))%R) ->
  (total (map (fun p => Rabs (nth p r 0%R)) wrong) + INR (2 ^ mu) * INR (2 ^ mu) * a / 2 ^ 52 < INR (2 ^ (mu - rho) - length wrong) * m)%R ->
  float_reed_soft npdot rho mu r = u.
Proof.
  intros rho mu C npdot u r m a E S Lu Lr Hm Ha Hmu F B c wrong HG HB. destruct (Nat.lt_ge_cases rho mu) as [H|H]; [|rewrite Props_ReedMuller.C40_rejected in E by auto; discriminate].
  destruct (Props_ReedMuller.rm_code rho mu H) as (C' & E' & A & Bk & G & V & W). assert (C' = C) by congruence. subst C'. unfold wrong, c in *. clear c wrong.
  rewrite (ok_encode C V u Lu), A, G in *. set (cw := vecmat _ u _) in *. set (wrong := filter _ _) in *.
  assert (Lc : length cw = 2 ^ mu) by (apply Vec_Proof.vecmat_length; rewrite ReedMuller_Proof.generator_spec; apply ReedMuller_Proof.monos_wf).
  set (e := vxor cw (map neg r)).
  assert (Le : length e = 2 ^ mu) by (unfold e; rewrite Vec_Proof.vxor_length; rewrite ?map_length; congruence).
  assert (At : forall p, p < 2 ^ mu -> ReedMuller_Proof.at_ e p = wrong_sign cw r p).
  { intros p Hp. unfold ReedMuller_Proof.at_, e. rewrite Vec_Proof.nth_vxor by (rewrite map_length; congruence). unfold wrong_sign.
    rewrite (nth_indep (map neg r) false (neg 0)) by (rewrite map_length; lia). rewrite map_nth. unfold neg. destruct (Rlt_dec _ 0); [apply xorb_true_r|apply xorb_false_r]. }
  assert (FE : filter (ReedMuller_Proof.at_ e) (seq 0 (2 ^ mu)) = wrong).
  { apply filter_ext_in. intros p Hp. apply in_seq in Hp. apply At. lia. }
  apply (FloatSoft_Reed.float_reed rho mu npdot H r e Le); auto; [|congruence].
  apply (FloatSoft_Reed.sign_margin rho mu npdot r e m a); auto.
  - intros p Hp Ep. apply HG; auto. rewrite <- At; auto.
  - unfold FloatSoft_Reed.rmass. rewrite FE. replace (weight e) with (length wrong).
    + unfold FloatSoft_Reed.rrel. unfold Rdiv in HB. lra.
    + rewrite <- FE, <- ReedMuller_Proof.weight_map_filter, <- Le, ReedMuller_Proof.map_at_seq. auto.
Qed.
(* Received values with the signs of the sent word, of any magnitudes, are decoded without error: no rounding can spoil it. *)
Theorem C118_reed_noiseless : forall rho mu C npdot u r, ReedMullerCode rho mu = Some C -> any_order npdot -> length u = bc_k C -> Forall is_binary64 r ->
  Forall2 (fun x (b : bool) => if b then (x < 0)%R else (0 < x)%R) r (bc_encode C u) ->
  float_reed_soft npdot rho mu r = u.
Proof.
  intros rho mu C npdot u r E S Lu F CW. destruct (Nat.lt_ge_cases rho mu) as [H|H]; [|rewrite Props_ReedMuller.C40_rejected in E by auto; discriminate].
  destruct (Props_ReedMuller.rm_code rho mu H) as (C' & E' & A & Bk & G & V & W). assert (C' = C) by congruence. subst C'.
  assert (Lr : length r = 2 ^ mu) by (rewrite (SC_Proof.Forall2_len _ _ _ CW), <- A; apply (ok_encode_length C (ok_encoder C V)); auto).
  rewrite (ok_encode C V u Lu), A, G in CW. set (cw := vecmat _ u _) in *.
  assert (EN : map neg r = cw).
  { clear - CW. induction CW as [|x b r v H CW IH]; cbn [map]; [reflexivity|]. rewrite IH. f_equal. unfold neg. destruct (Rlt_dec x 0), b; auto; lra. }
  assert (Lc : length cw = 2 ^ mu) by (rewrite <- EN, map_length; exact Lr).
  apply (FloatSoft_Reed.float_reed rho mu npdot H r (repeat false (2 ^ mu))); auto; [apply repeat_length| |congruence|].
  - intros I b HI LI. apply (FloatSoft_Reed.sign_noiseless rho mu npdot r); auto.
    clear - CW. induction CW as [|x b r v H CW IH]; constructor; auto. destruct b; lra.
  - fold cw. rewrite EN, Vec_Proof.vxor_self, Lc. reflexivity.
Qed.

(* ================= successive cancellation *)
(* what is assumed of the C library: exp maps non-positive numbers, and log1p maps [0, 1], into [0, 1] *)
Definition sane_library (fexp flog1p : R -> R) : Prop :=
  (forall x, (x <= 0)%R -> (0 <= fexp x <= 1)%R) /\ (forall p, (0 <= p <= 1)%R -> (0 <= flog1p p <= 1)%R).
(* The decoder finishes on every input. *)
Theorem C118_sc_terminates : forall fexp flog1p mu frozen li fuel, length li = 2 ^ mu -> 4 * 2 ^ mu <= fuel ->
  exists out, float_sc_soft fexp flog1p mu frozen fuel li = Some out /\ length out = length (polar_active mu frozen).
Proof.
  intros fexp flog1p mu frozen li fuel L Hf. eexists. split; [apply FloatSoft_SC.fdecode_rec; auto|]. apply map_length.
Qed.
(* L-values with the signs of the sent word and magnitudes of at least mu + 1 + k are decoded without error, and the
   L-values returned have a magnitude of at least 1 + k. *)
Theorem C118_sc_clear : forall fexp flog1p mu frozen C u li fuel k, PolarCode mu frozen = Some C -> sane_library fexp flog1p ->
  length u = bc_k C -> 4 * 2 ^ mu <= fuel -> (Z.of_nat (mu + 1 + k) < 2 ^ 53)%Z -> clear_word (INR (mu + 1 + k)) li (bc_encode C u) ->
  float_sc_hard fexp flog1p mu frozen fuel li = Some u /\
  exists out, float_sc_soft fexp flog1p mu frozen fuel li = Some out /\ clear_word (INR (1 + k)) out u.
Proof.
  intros fexp flog1p mu frozen C u li fuel k E [HE HL] Lu Hf HN CW. unfold PolarCode in E. destruct (_ && _ && _); [|discriminate].
  unfold code_of_generator in E. destruct (null_matrix _ _); [|discriminate]. injection E as <-. cbn [bc_k bc_encode matrix_code] in *. rewrite map_length in Lu.
  replace (mu + 1 + k) with (mu + S k) in * by lia. replace (1 + k) with (S k) by lia.
  destruct (FloatSoft_SC.fnoiseless_decode fexp flog1p mu frozen HE HL k u li fuel HN Lu Hf CW) as (out & E & A). split; [|exists out; auto].
  unfold float_sc_hard. rewrite E. cbn [option_map]. f_equal. unfold clear_word in A. clear - A. induction A as [|x b l v H A IH]; cbn [map]; auto. f_equal; auto.
  eapply FloatSoft_SC.clear_neg; eauto.
Qed.
(* Correctly rounded exp and log1p are sane. *)
Theorem C118_rounded_library : sane_library (fun x => binary64 (exp x)) (fun x => binary64 (ln (1 + x))).
Proof.
  pose proof FloatFano_Proof.b64_0 as B0. assert (B1 : binary64 1 = 1%R) by apply (FloatShannon_Proof.binary64_pow 0). split; intros x Hx.
  - rewrite <- B0, <- B1. pose proof (exp_pos x). split; apply FloatShannon_Proof.binary64_mono; [lra|].
    rewrite <- exp_0. destruct Hx as [Hx|Hx]; [left; apply exp_increasing; lra|rewrite Hx, exp_0; lra].
  - rewrite <- B0, <- B1. destruct FloatSoft_SC.ln2_bounds as [_ L2]. split; apply FloatShannon_Proof.binary64_mono.
    + rewrite <- ln_1. apply Coquelicot.Rcomplements.ln_le; lra.
    + apply Rle_trans with (ln 2); [apply Coquelicot.Rcomplements.ln_le; lra|lra].
Qed.
(* Weak L-values are not decoded, although their signs are right and the exact decoder (C42) recovers the message:
   boxplus returns 0 for every pair of values of magnitude 2^-60, and 0 is decided as the bit 0. *)
Theorem C118_sc_weak_refuted : exists mu frozen C u li, PolarCode mu frozen = Some C /\ length u = bc_k C /\
  Forall is_binary64 li /\ Forall2 (fun x (b : bool) => if b then (x < 0)%R else (0 < x)%R) li (bc_encode C u) /\
  sc_decode_hard mu frozen (4 * 2 ^ mu) li = Some u /\
  float_sc_hard (fun x => binary64 (exp x)) (fun x => binary64 (ln (1 + x))) mu frozen (4 * 2 ^ mu) li <> Some u.
Proof.
  set (t := (/ 2 ^ 60)%R). assert (Pt : (0 < t)%R) by (apply Rinv_0_lt_compat, pow_lt; lra).
  set (li := [(- t)%R; (- t)%R; t; t]).
  assert (EC : exists C, PolarCode 2 [0] = Some C /\ bc_k C = 3 /\ bc_encode C [true; false; false] = [true; true; false; false]) by (eexists; split; [vm_compute; reflexivity|split; vm_compute; reflexivity]).
  destruct EC as (C & EC & Kc & Ec). exists 2, [0], C, [true; false; false], li.
  assert (NL : Forall2 (fun x (b : bool) => if b then (x < 0)%R else (0 < x)%R) li (bc_encode C [true; false; false])).
  { rewrite Ec. unfold li. repeat constructor; lra. }
  split; [exact EC|]. split; [rewrite Kc; reflexivity|]. split; [|split; [exact NL|split]].
  - assert (Ft : is_binary64 t). { unfold t. rewrite <- (FloatFano_Proof.bpow_neg 60). apply generic_format_bpow. unfold FLT_exp. lia. }
    unfold li. repeat constructor; auto; apply FloatSoft_Proof.opp_format; auto.
  - apply (Props_Polar.C42_sc_noiseless 2 [0] C); auto; rewrite Kc; auto.
  - assert (Z : forall a b, Rabs a = t -> Rabs b = t -> float_boxplus (fun x => binary64 (exp x)) (fun x => binary64 (ln (1 + x))) a b = 0%R) by exact FloatSoft_SC.weak_boxplus.
    assert (At : Rabs t = t) by (apply Rabs_right; lra). assert (An : Rabs (- t) = t) by (rewrite Rabs_Ropp; exact At).
    intros Q. unfold float_sc_hard in Q. rewrite FloatSoft_SC.fdecode_rec in Q by (auto; reflexivity). cbn [option_map] in Q. apply (f_equal (fun o => match o with Some (b :: _) => b | _ => false end)) in Q.
    change (polar_active 2 [0]) with [1; 2; 3] in Q. cbn [map] in Q. unfold li in Q. cbn [FloatSoft_SC.frec Nat.pow firstn skipn Nat.mul Nat.add map2] in Q. rewrite (Z (- t)%R t) in Q by assumption.
    cbn [existsb Nat.eqb orb] in Q. cbn [firstn skipn map2 float_g_node combine] in Q.
    assert (B0 : binary64 (0 + 1 * 0) = 0%R) by (rewrite Rmult_0_r, Rplus_0_r; apply FloatFano_Proof.b64_0). rewrite B0 in Q. cbn [map vxor app nth snd] in Q.
    rewrite FloatSoft_Reed.neg_false in Q by lra. discriminate.
Qed.

(* ================= non-vacuity *)
Lemma ints_format ks : Forall (fun k => (Z.abs k < 2 ^ 53)%Z) ks -> Forall is_binary64 (map IZR ks).
Proof. induction 1; cbn [map]; constructor; auto. apply FloatViterbi_Proof.int_format; auto. Qed.
(* a (5, 2) code of minimum distance 3, decoded by exhaustive search; RM(1, 3) with one wrong sign; a polar code *)
Theorem C118_satisfiable :
  (exists C, code_of_generator 5 Props_Codes.ex_G = Some C /\ valid_code C /\ is_minimum_distance C 3 /\
     let r := [(-1)%R; 1%R; (-3)%R; (-2)%R; 2%R] in
     clear_word 1 r (bc_encode C [true; false]) /\ Forall is_binary64 r /\ Forall (fun x => (Rabs x <= 3)%R) r /\ (INR (bc_n C) * INR (bc_n C) * 3 < INR 3 * 1 * 2 ^ 52)%R /\
     float_exhaustive (fun l => fold_left (fun a x => binary64 (a + x)) l 0%R) C r = [true; false]) /\
  (exists C, let u := [true; false; true; false] in let r := [1%R; (-2)%R; (-1)%R; (-3)%R; (-2)%R; 3%R; (-2)%R; 1%R] in
     ReedMullerCode 1 3 = Some C /\ length u = bc_k C /\ length r = bc_n C /\ Forall is_binary64 r /\ Forall (fun x => (Rabs x <= 3)%R) r /\
     (forall p, p < 2 ^ 3 -> wrong_sign (bc_encode C u) r p = false -> (1 <= Rabs (nth p r 0))%R) /\
     exists p, filter (wrong_sign (bc_encode C u) r) (seq 0 (2 ^ 3)) = [p] /\
     (total (map (fun p => Rabs (nth p r 0%R)) [p]) + INR (2 ^ 3) * INR (2 ^ 3) * 3 / 2 ^ 52 < INR (2 ^ (3 - 1) - 1) * 1)%R) /\
  (exists C, PolarCode 2 [0] = Some C /\ clear_word (INR (2 + 1 + 0)) [(-3)%R; (-4)%R; 5%R; 3%R] (bc_encode C [true; false; false])).
Proof.
  assert (P52 : (1000 <= 2 ^ 52)%R). { apply Rle_trans with (2 ^ 10)%R; [cbn; lra|apply Rle_pow; [lra|lia]]. }
  split; [|split].
  - destruct (Props_Codes.C29_generator_constructor 5 Props_Codes.ex_G) as (C & E & Ln & Lk & EG & V & _).
    + exact (proj1 Props_Codes.C28_example).
    + exact (proj1 (proj2 Props_Codes.C28_example)).
    + discriminate.
    + exists C. split; [exact E|]. split; [exact V|].
      assert (MD : is_minimum_distance C 3). { apply (Props_Codes.C30_minimum_distance C false V). destruct Props_Codes.C30_example as (C' & E' & D & _). congruence. }
      split; [exact MD|]. intros r.
      assert (Ec : bc_encode C [true; false] = [true; false; true; true; false]) by (rewrite (ok_encode C V) by (rewrite Lk; reflexivity); rewrite EG, Ln; reflexivity).
      assert (Cw : clear_word 1 r (bc_encode C [true; false])) by (rewrite Ec; unfold r, clear_word, received_for; repeat constructor; lra).
      assert (Fr : Forall is_binary64 r) by (apply (ints_format [-1; 1; -3; -2; 2]%Z); repeat constructor; reflexivity).
      assert (Br : Forall (fun x => (Rabs x <= 3)%R) r) by (unfold r; repeat constructor; unfold Rabs; destruct (Rcase_abs _); lra).
      assert (Gr : (INR (bc_n C) * INR (bc_n C) * 3 < INR 3 * 1 * 2 ^ 52)%R) by (rewrite Ln; cbn [INR]; lra).
      repeat (split; [assumption|]).
      apply (C118_exhaustive_signs C _ 1 3 r [true; false] 3); auto using C118_left_to_right; [lra|rewrite Ln; cbn [INR]; lra].
  - assert (EC : exists C, ReedMullerCode 1 3 = Some C /\ bc_k C = 4 /\ bc_n C = 8 /\ bc_encode C [true; false; true; false] = [false; true; false; true; true; false; true; false]).
    { eexists. split; [vm_compute; reflexivity|]. split; [reflexivity|]. split; [reflexivity|]. vm_compute. reflexivity. }
    destruct EC as (C & E & Kc & Nc & Ec). exists C. intros u r. split; [exact E|]. split; [rewrite Kc; reflexivity|]. split; [rewrite Nc; reflexivity|].
    split; [apply (ints_format [1; -2; -1; -3; -2; 3; -2; 1]%Z); repeat constructor; reflexivity|].
    split; [unfold r; repeat constructor; unfold Rabs; destruct (Rcase_abs _); lra|]. unfold u. rewrite Ec. split.
    + intros p Hp _. unfold r. do 8 (destruct p as [|p]; [cbn [nth]; unfold Rabs; destruct (Rcase_abs _); lra|]). cbn in Hp. lia.
    + exists 2. split.
      * cbn [Nat.pow Nat.mul Nat.add seq filter]. unfold wrong_sign, r. cbn [nth]. repeat (destruct (Rlt_dec _ _); try (exfalso; lra)); reflexivity.
      * unfold total, r. cbn [map nth fold_right]. replace (2 ^ 3) with 8 by reflexivity. replace (2 ^ (3 - 1) - 1) with 3 by reflexivity. cbn [INR].
        rewrite (Rabs_left (-1)) by lra. assert (X : ((1 + 1 + 1 + 1 + 1 + 1 + 1 + 1) * (1 + 1 + 1 + 1 + 1 + 1 + 1 + 1) * 3 / 2 ^ 52 < 1)%R); [|lra].
        apply Rmult_lt_reg_r with (2 ^ 52)%R; [lra|]. unfold Rdiv. rewrite Rmult_assoc, Rinv_l by lra. lra.
  - assert (EC : exists C, PolarCode 2 [0] = Some C /\ bc_encode C [true; false; false] = [true; true; false; false]) by (eexists; split; vm_compute; reflexivity).
    destruct EC as (C & E & Ec). exists C. split; [exact E|]. rewrite Ec. unfold clear_word, received_for. cbn [Nat.add INR]. repeat constructor; lra.
Qed.
