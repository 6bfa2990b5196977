(** Proofs about soft decoding in double precision. *)
Set Warnings "-ambiguous-paths".
From Coq Require Import Reals Lra Permutation.
From Flocq Require Import Core.
From Verif Require Import Common Vec_Model Vec_Proof LinAlg_Model Linear_Spec Code_Spec BlockCode_Model BlockCode_Proof Decoders_Proof
  Float_Model FloatViterbi_Spec FloatSoft_Model FloatSoft_Spec.
From Verif Require FloatViterbi_Proof FloatShannon_Proof FloatFano_Proof FloatConst_Proof.
Local Open Scope nat_scope.

Lemma b64_opp x : binary64 (- x) = (- binary64 x)%R.
Proof. apply FloatConst_Proof.b64_opp. Qed.
Lemma total_app l1 l2 : total (l1 ++ l2) = (total l1 + total l2)%R.
Proof. induction l1 as [|x l1 IH]; cbn [app]; unfold total in *; cbn [fold_right] in *; [lra|]. rewrite IH. lra. Qed.
Lemma total_perm l l' : Permutation l l' -> total l = total l'.
Proof. unfold total. induction 1; cbn [fold_right] in *; lra. Qed.
Lemma total_opp l : total (map Ropp l) = (- total l)%R.
Proof. unfold total. induction l as [|x l IH]; cbn [map fold_right]; [lra|]. rewrite IH. lra. Qed.
Lemma total_abs a l : Forall (fun x => (Rabs x <= a)%R) l -> (Rabs (total l) <= INR (length l) * a)%R.
Proof.
  unfold total. induction 1 as [|x l Hx F IH]; cbn [fold_right].
  - rewrite Rabs_R0. cbn. lra.
  - change (length (x :: l)) with (S (length l)). rewrite S_INR. eapply Rle_trans; [apply Rabs_triang|]. lra.
Qed.
Lemma rounded_format l x : rounded_sum l x -> Forall is_binary64 l -> is_binary64 x.
Proof.
  induction 1 as [|x|l1 l2 l x1 x2 S1 IH1 S2 IH2 P]; intros F.
  - apply generic_format_0.
  - inversion F; auto.
  - apply generic_format_round; [apply FLT_exp_valid; unfold Prec_gt_0; lia|apply valid_rnd_N].
Qed.
Lemma binary64_id x : is_binary64 x -> binary64 x = x.
Proof. intros H. apply round_generic; [apply valid_rnd_N|exact H]. Qed.
Lemma perm_split {A} (Q : A -> Prop) l1 l2 l : Permutation (l1 ++ l2) l -> Forall Q l -> Forall Q l1 /\ Forall Q l2.
Proof. intros P F. apply Permutation_sym in P. apply (Permutation_Forall P) in F. apply Forall_app in F. exact F. Qed.
(** the error of a sum of n numbers of magnitude at most a *)
Lemma rounded_error a l x : (0 <= a)%R -> rounded_sum l x -> Forall is_binary64 l -> Forall (fun x => (Rabs x <= a)%R) l ->
  (INR (length l) <= 2 ^ 52)%R -> (Rabs (x - total l) <= / 2 ^ 52 * (INR (length l) * INR (length l)) * a)%R.
Proof.
  intros Ha. assert (U0 : (0 < / 2 ^ 52)%R) by (apply Rinv_0_lt_compat, pow_lt; lra).
  assert (U1 : (/ 2 ^ 53 = / 2 ^ 52 / 2)%R) by (change (2 ^ 53)%R with (2 * 2 ^ 52)%R; field; apply pow_nonzero; lra).
  induction 1 as [|x|l1 l2 l x1 x2 S1 IH1 S2 IH2 P]; intros F B N.
  - unfold total. cbn [fold_right length INR]. rewrite Rminus_0_r, Rabs_R0. nra.
  - unfold total. cbn [fold_right length INR]. replace (x - (x + 0))%R with 0%R by ring. rewrite Rabs_R0. nra.
  - destruct (perm_split _ _ _ _ P F) as [F1 F2]. destruct (perm_split _ _ _ _ P B) as [B1 B2].
    pose proof (Permutation_length P) as L. rewrite app_length in L. rewrite <- L, plus_INR in N. rewrite <- (total_perm _ _ P), total_app, <- L, plus_INR.
    pose proof (pos_INR (length l1)) as P1. pose proof (pos_INR (length l2)) as P2.
    specialize (IH1 F1 B1 ltac:(lra)). specialize (IH2 F2 B2 ltac:(lra)).
    pose proof (total_abs a l1 B1) as T1. pose proof (total_abs a l2 B2) as T2.
    assert (Z : forall l' y, rounded_sum l' y -> length l' = 0 -> y = 0%R).
    { clear. induction 1 as [|x|l1 l2 l x1 x2 S1 IH1 S2 IH2 P]; intros L; auto; [discriminate|].
      apply Permutation_length in P. rewrite app_length in P. rewrite IH1, IH2 by lia. rewrite Rplus_0_r. apply FloatFano_Proof.b64_0. }
    assert (T0 : forall l', length l' = 0 -> total l' = 0%R) by (intros [|? ?] ?; [reflexivity|discriminate]).
    pose proof (rounded_format _ _ S1 F1) as G1. pose proof (rounded_format _ _ S2 F2) as G2.
    destruct (Nat.eq_dec (length l1) 0) as [E1|E1].
    { rewrite (Z _ _ S1 E1), (T0 _ E1), E1 in *. cbn [INR] in *. rewrite !Rplus_0_l. rewrite (binary64_id _ G2). exact IH2. }
    destruct (Nat.eq_dec (length l2) 0) as [E2|E2].
    { rewrite (Z _ _ S2 E2), (T0 _ E2), E2 in *. cbn [INR] in *. rewrite !Rplus_0_r. rewrite (binary64_id _ G1). exact IH1. }
    assert (Q1 : (1 <= INR (length l1))%R) by (apply (le_INR 1); lia). assert (Q2 : (1 <= INR (length l2))%R) by (apply (le_INR 1); lia).
    destruct (FloatViterbi_Proof.plus_error x1 x2 G1 G2) as [_ E]. rewrite U1 in E.
    set (n1 := INR (length l1)) in *. set (n2 := INR (length l2)) in *. set (t1 := total l1) in *. set (t2 := total l2) in *. set (u := (/ 2 ^ 52)%R) in *.
    assert (Un : (u * (n1 + n2) <= 1)%R). { unfold u. apply Rmult_le_reg_l with (2 ^ 52)%R; [apply pow_lt; lra|]. rewrite <- Rmult_assoc, Rinv_r by (apply pow_nonzero; lra). lra. }
    assert (M1 : (Rabs x1 <= 2 * (n1 * a))%R).
    { replace x1 with ((x1 - t1) + t1)%R by ring. eapply Rle_trans; [apply Rabs_triang|]. assert (u * (n1 * n1) * a <= n1 * a)%R; [|lra].
      replace (u * (n1 * n1) * a)%R with ((u * n1) * (n1 * a))%R by ring. assert (0 <= n1 * a)%R by nra. assert (u * n1 <= 1)%R by nra. nra. }
    assert (M2 : (Rabs x2 <= 2 * (n2 * a))%R).
    { replace x2 with ((x2 - t2) + t2)%R by ring. eapply Rle_trans; [apply Rabs_triang|]. assert (u * (n2 * n2) * a <= n2 * a)%R; [|lra].
      replace (u * (n2 * n2) * a)%R with ((u * n2) * (n2 * a))%R by ring. assert (0 <= n2 * a)%R by nra. assert (u * n2 <= 1)%R by nra. nra. }
    replace (binary64 (x1 + x2) - (t1 + t2))%R with ((binary64 (x1 + x2) - (x1 + x2)) + ((x1 - t1) + (x2 - t2)))%R by ring.
    eapply Rle_trans; [apply Rabs_triang|]. pose proof (Rabs_triang (x1 - t1) (x2 - t2)) as R3. pose proof (Rabs_triang x1 x2) as R4.
    assert (R5 : (u / 2 * Rabs (x1 + x2) <= u / 2 * (2 * (n1 * a) + 2 * (n2 * a)))%R) by (apply Rmult_le_compat_l; lra).
    assert (R6 : (0 <= u * a * (2 * n1 * n2 - n1 - n2))%R) by (apply Rmult_le_pos; [apply Rmult_le_pos; lra|nra]).
    lra.
Qed.
(** no error if every partial sum is a multiple of 2^e below 2^53 units *)
Lemma fixed_format e k : (-1074 <= e)%Z -> (Z.abs k < 2 ^ 53)%Z -> is_binary64 (IZR k * bpow radix2 e).
Proof.
  intros He H. unfold is_binary64. apply generic_format_FLT. exists (Float radix2 k e); cbn [Fnum Fexp]; [unfold F2R; cbn [Fnum Fexp]; reflexivity|exact H|exact He].
Qed.
Definition zabs_sum (ks : list Z) : Z := fold_right (fun k s => (Z.abs k + s)%Z) 0%Z ks.
Lemma zabs_app a b : zabs_sum (a ++ b) = (zabs_sum a + zabs_sum b)%Z.
Proof. unfold zabs_sum. induction a as [|x a IH]; cbn [app fold_right]; lia. Qed.
Lemma zabs_perm a b : Permutation a b -> zabs_sum a = zabs_sum b.
Proof. unfold zabs_sum. induction 1; cbn [fold_right] in *; lia. Qed.
Lemma rounded_exact e l x : (-1074 <= e)%Z -> rounded_sum l x -> forall ks, l = map (fun k => (IZR k * bpow radix2 e)%R) ks -> (zabs_sum ks < 2 ^ 53)%Z ->
  exists k, x = (IZR k * bpow radix2 e)%R /\ x = total l /\ (Z.abs k <= zabs_sum ks)%Z.
Proof.
  intros He. induction 1 as [|x|l1 l2 l x1 x2 S1 IH1 S2 IH2 P]; intros ks E B.
  - exists 0%Z. destruct ks; [|discriminate]. cbn. split; [lra|]. split; [reflexivity|lia].
  - destruct ks as [|k [|? ?]]; try discriminate. exists k. injection E as ->. split; [reflexivity|]. unfold total. cbn. split; [lra|lia].
  - rewrite E in P. apply Permutation_map_inv in P as (ks' & E' & P). symmetry in E'. apply map_eq_app in E' as (k1 & k2 & -> & E1 & E2).
    rewrite (zabs_perm _ _ P), zabs_app in B. rewrite (zabs_perm _ _ P), zabs_app.
    assert (N : forall a, (0 <= zabs_sum a)%Z) by (unfold zabs_sum; induction a; cbn [fold_right]; lia).
    pose proof (N k1). pose proof (N k2).
    destruct (IH1 k1 (eq_sym E1) ltac:(lia)) as (a & A1 & A2 & A3). destruct (IH2 k2 (eq_sym E2) ltac:(lia)) as (b & B1 & B2 & B3).
    exists (a + b)%Z. assert (X : (x1 + x2 = IZR (a + b) * bpow radix2 e)%R) by (rewrite plus_IZR, A1, B1; lra).
    rewrite X, binary64_id by (apply fixed_format; lia). split; [reflexivity|]. split; [|lia].
    rewrite <- X, A2, B2, <- total_app, <- E1, <- E2, <- map_app, E. apply total_perm, Permutation_map. apply Permutation_sym. exact P.
Qed.
(** a rounded sum of numbers that are not negative is at least each of them *)
Lemma rounded_pos l x : rounded_sum l x -> Forall is_binary64 l -> Forall (fun y => (0 <= y)%R) l -> (0 <= x)%R /\ forall y, In y l -> (y <= x)%R.
Proof.
  induction 1 as [|x|l1 l2 l x1 x2 S1 IH1 S2 IH2 P]; intros F B.
  - split; [lra|intros y []].
  - inversion B; subst. split; [auto|]. intros y [->|[]]. lra.
  - destruct (perm_split _ _ _ _ P F) as [F1 F2]. destruct (perm_split _ _ _ _ P B) as [B1 B2].
    destruct (IH1 F1 B1) as [N1 M1]. destruct (IH2 F2 B2) as [N2 M2].
    assert (G1 : (x1 <= binary64 (x1 + x2))%R). { rewrite <- (binary64_id x1) at 1 by (eapply rounded_format; eauto). apply FloatShannon_Proof.binary64_mono. lra. }
    assert (G2 : (x2 <= binary64 (x1 + x2))%R). { rewrite <- (binary64_id x2) at 1 by (eapply rounded_format; eauto). apply FloatShannon_Proof.binary64_mono. lra. }
    split; [lra|]. intros y I. apply (Permutation_in y (Permutation_sym P)) in I. apply in_app_iff in I as [I|I]; [specialize (M1 y I)|specialize (M2 y I)]; lra.
Qed.
Lemma rounded_opp l x : rounded_sum l x -> rounded_sum (map Ropp l) (- x).
Proof.
  induction 1 as [|x|l1 l2 l x1 x2 S1 IH1 S2 IH2 P].
  - rewrite Ropp_0. constructor.
  - constructor.
  - rewrite <- b64_opp. replace (- (x1 + x2))%R with (- x1 + - x2)%R by ring. eapply sum_add; eauto. rewrite <- map_app. apply Permutation_map. exact P.
Qed.
Lemma opp_format x : is_binary64 x -> is_binary64 (- x).
Proof. apply generic_format_opp. Qed.

(** ** exhaustive search *)
Lemma leR_iff x y : leR x y = true <-> (x <= y)%R.
Proof. unfold leR. destruct (Rle_dec x y); split; auto; discriminate. Qed.
Lemma signed_length r c : length r = length c -> length (signed r c) = length r.
Proof. intros L. unfold signed. rewrite map_length, combine_length. lia. Qed.
Lemma signed_total r c : total (signed r c) = (- real_correlation r c)%R.
Proof.
  unfold signed, real_correlation, total. revert c. induction r as [|x r IH]; intros [|b c]; cbn [combine map fold_right]; try lra.
  rewrite IH. destruct b; lra.
Qed.
Lemma signed_Forall (P : R -> Prop) r c : (forall x, P x -> P (- x)%R) -> Forall P r -> Forall P (signed r c).
Proof.
  intros O F. unfold signed. apply Forall_forall. intros y I. apply in_map_iff in I as ([x b] & <- & I). apply in_combine_l in I.
  rewrite Forall_forall in F. destruct b; auto.
Qed.
Lemma exhaustive_pick npsum C r : encoder_ok C ->
  exists j, j < 2 ^ bc_k C /\ float_exhaustive npsum C r = message (bc_k C) j /\
    (forall c, is_codeword C c -> (npsum (signed r (bc_encode C (message (bc_k C) j))) <= npsum (signed r c))%R) /\
    (forall i, i < j -> (npsum (signed r (bc_encode C (message (bc_k C) j))) < npsum (signed r (bc_encode C (message (bc_k C) i))))%R).
Proof.
  intros OE. destruct (exhaustive_generic leR (fun c => npsum (signed r c)) 0%R C OE) as (j & H1 & H2 & H3 & H4).
  - intros x y. rewrite !leR_iff. lra.
  - intros x y z. rewrite !leR_iff. lra.
  - exists j. split; auto. split; auto. split.
    + intros c Hc. apply leR_iff, H3, Hc.
    + intros i Hi. specialize (H4 i Hi). unfold leR in H4. destruct (Rle_dec _ _); [discriminate|lra].
Qed.
Lemma signed_error npsum a r c : any_order npsum -> (0 <= a)%R -> length r = length c -> Forall is_binary64 r -> Forall (fun x => (Rabs x <= a)%R) r ->
  (INR (length r) <= 2 ^ 52)%R -> (Rabs (npsum (signed r c) - - real_correlation r c) <= / 2 ^ 52 * (INR (length r) * INR (length r)) * a)%R.
Proof.
  intros S Ha L F B N. rewrite <- signed_total. rewrite <- (signed_length r c L). apply rounded_error; auto.
  - apply signed_Forall; [apply opp_format|auto].
  - apply signed_Forall; [intros x; rewrite Rabs_Ropp; auto|auto].
  - rewrite signed_length; auto.
Qed.
Lemma signed_inj e ks c : signed (map (fun k => (IZR k * bpow radix2 e)%R) ks) c =
  map (fun k => (IZR k * bpow radix2 e)%R) (map (fun '(k, b) => if b : bool then k else (- k)%Z) (combine ks c)).
Proof.
  unfold signed. revert c. induction ks as [|k ks IH]; intros [|b c]; cbn [map combine]; auto. rewrite IH. destruct b; [auto|]. f_equal. rewrite opp_IZR. lra.
Qed.
Lemma signed_zabs ks : forall c, (zabs_sum (map (fun '(k, b) => if b : bool then k else (- k)%Z) (combine ks c)) <= zabs_sum ks)%Z.
Proof.
  unfold zabs_sum. induction ks as [|k ks IH]; intros [|b c]; cbn [map combine fold_right]; try lia.
  - assert (0 <= fold_right (fun k s => Z.abs k + s) 0 ks)%Z by (clear; induction ks; cbn [fold_right]; lia). lia.
  - specialize (IH c). destruct b; lia.
Qed.
Lemma powerRZ_bpow e : powerRZ 2 e = bpow radix2 e.
Proof. symmetry. apply (bpow_powerRZ radix2). Qed.
Lemma signed_fixed npsum e ks c : any_order npsum -> (-1074 <= e)%Z -> (zabs_sum ks < 2 ^ 53)%Z ->
  npsum (signed (fixed_point e ks) c) = (- real_correlation (fixed_point e ks) c)%R.
Proof.
  intros S He B. rewrite <- signed_total. unfold fixed_point. rewrite (map_ext _ (fun k => (IZR k * bpow radix2 e)%R)) by (intros; rewrite powerRZ_bpow; reflexivity).
  pose proof (signed_zabs ks c) as Z. rewrite signed_inj.
  destruct (rounded_exact e _ _ He (S _) _ eq_refl ltac:(eapply Z.le_lt_trans; [exact Z|exact B])) as (k & _ & E & _). exact E.
Qed.

(** ** clear words *)
Lemma corr_gap lo r : forall v v', (0 <= lo)%R -> clear_word lo r v -> length v' = length v ->
  (real_correlation r v' + 2 * lo * INR (hdist v v') <= real_correlation r v)%R.
Proof.
  unfold real_correlation, total. intros v v' Hlo F. revert v'. induction F as [|x b r v H F IH]; intros [|b' v'] L; try discriminate.
  - cbn. lra.
  - cbn [combine map fold_right]. specialize (IH v' ltac:(cbn in L; lia)). unfold received_for in H.
    assert (E : hdist (b :: v) (b' :: v') = (if xorb b b' then 1 else 0) + hdist v v') by (unfold hdist, weight; cbn [vxor filter]; destruct (xorb b b'); reflexivity). rewrite E, plus_INR.
    destruct b, b'; cbn [xorb INR] in *; lra.
Qed.
