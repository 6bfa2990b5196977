From Coq Require Import Reals Lra QArith Permutation Sorted.
From Flocq Require Import Core Relative.
From Verif Require Import Common HuffmanOpt_Proof Spec_Lossless Huffman_Proof Prefix_Model Prefix_Proof PmfCodes_Model PmfCodes_Proof Canonical_Proof Kraft_Proof Float_Model Float_Proof FloatShannon_Model FloatShannon_Spec FloatShannon_Proof FloatCodes_Model FloatCodes_Spec FloatCodes_Proof.
Local Open Scope R_scope.

Definition safe (x : R) : Prop := x = 0 \/ / 2 ^ 1001 <= x.
Definition U : R := / 2 ^ 53.
Lemma U_val : U = / 9007199254740992.
Proof. unfold U. f_equal. lra. Qed.
Lemma pow_small a b : (a <= b)%nat -> / 2 ^ b <= / 2 ^ a.
Proof. intros H. apply Rinv_le_contravar; [apply pow_lt; lra|apply Rle_pow; [lra|exact H]]. Qed.
Lemma inv_pow_pos a : 0 < / 2 ^ a.
Proof. apply Rinv_0_lt_compat, pow_lt. lra. Qed.
Lemma safe_nonneg x : safe x -> 0 <= x.
Proof. pose proof (inv_pow_pos 1001). unfold safe. lra. Qed.
Lemma b64_0 : binary64 0 = 0.
Proof. apply round_0. apply valid_rnd_N. Qed.
Lemma bpow_neg k : bpow radix2 (- Z.of_nat k) = / 2 ^ k.
Proof. rewrite bpow_opp, bpow_pow. reflexivity. Qed.
(* half of a safe value still has full relative precision *)
Lemma b64_err x : x = 0 \/ / 2 ^ 1003 <= x -> (1 - U) * x <= binary64 x <= (1 + U) * x.
Proof.
  intros [->|H]; [rewrite b64_0; lra|]. pose proof (inv_pow_pos 1003).
  assert (E : Rabs (binary64 x - x) <= U * Rabs x).
  { unfold binary64. eapply Rle_trans; [apply relative_error_N_FLT; [lia|]|].
    - rewrite Rabs_right by lra. eapply Rle_trans; [|exact H]. rewrite <- bpow_neg. apply bpow_le. lia.
    - right. rewrite U_val. change (bpow radix2 (- (53) + 1)) with (/ IZR (2 ^ 52)). change (IZR (2 ^ 52)) with 4503599627370496. assert (E52 : / 2 * / 4503599627370496 = / 9007199254740992) by lra. rewrite E52. reflexivity. }
  rewrite (Rabs_right x) in E by lra. revert E. unfold Rabs. destruct (Rcase_abs _); lra.
Qed.
Lemma b64_pow_neg k : (k <= 1074)%nat -> binary64 (/ 2 ^ k) = / 2 ^ k.
Proof. intros H. rewrite <- bpow_neg. apply binary64_bpow. lia. Qed.
Lemma safe_add a p : safe a -> safe p -> safe (binary64 (a + p)) /\ (1 - U) * (a + p) <= binary64 (a + p) <= (1 + U) * (a + p).
Proof.
  intros Ha Hp. pose proof (safe_nonneg _ Ha). pose proof (safe_nonneg _ Hp).
  assert (C : a + p = 0 \/ / 2 ^ 1001 <= a + p) by (unfold safe in *; lra).
  split; [|apply b64_err; pose proof (pow_small 1001 1003 ltac:(lia)); lra].
  destruct C as [->|C]; [left; apply b64_0|right]. rewrite <- (b64_pow_neg 1001) at 1 by lia. apply binary64_mono. exact C.
Qed.
Lemma b64_idem x : binary64 (binary64 x) = binary64 x.
Proof. apply round_generic; [apply valid_rnd_N|]. apply generic_format_round; [apply FLT_exp_valid; red; lia|apply valid_rnd_N]. Qed.

Fixpoint tot (a : R) (r : list R) : R := match r with [] => a | p :: r' => tot (binary64 (a + p)) r' end.
Lemma tot_snoc r : forall a x, tot a (r ++ [x]) = binary64 (tot a r + x).
Proof. induction r as [|p r IH]; intros a x; cbn [app tot]; [reflexivity|apply IH]. Qed.
Lemma cumsum_last r : forall a, exists cs, a :: fcumsum_from a r = cs ++ [tot a r] /\ length cs = length r.
Proof.
  induction r as [|p r IH]; intros a; cbn [fcumsum_from tot]; [exists []; split; reflexivity|].
  destruct (IH (binary64 (a + p))) as (cs & E & L). exists (a :: cs). cbn [app length]. rewrite <- E. split; [reflexivity|lia].
Qed.
Lemma fcumsum_from_snoc r : forall a x, fcumsum_from a (r ++ [x]) = fcumsum_from a r ++ [binary64 (tot a r + x)].
Proof. induction r as [|p r IH]; intros a x; cbn [app fcumsum_from tot]; [reflexivity|]. rewrite IH. reflexivity. Qed.
Lemma fcumsum_last2 p r x : exists cs, fcumsum (p :: r ++ [x]) = cs ++ [tot p r] ++ [binary64 (tot p r + x)] /\ length cs = length r.
Proof.
  cbn [fcumsum]. rewrite fcumsum_from_snoc. destruct (cumsum_last r p) as (cs & E & L). exists cs. split; [|exact L].
  rewrite app_assoc, <- E. reflexivity.
Qed.
Lemma rsum_nonneg l : Forall safe l -> 0 <= rsum l.
Proof. unfold rsum. induction 1 as [|x l H _ IH]; cbn [fold_right]; [lra|]. pose proof (safe_nonneg _ H). lra. Qed.
Lemma tot_error r : forall a, safe a -> Forall safe r -> INR (length r) * U <= 1 ->
  safe (tot a r) /\ (1 - INR (length r) * U) * (a + rsum r) <= tot a r.
Proof.
  assert (U0 : 0 < U) by (rewrite U_val; lra).
  induction r as [|p r IH]; intros a Ha Hr HL.
  - cbn [tot length INR]. unfold rsum. cbn [fold_right]. split; [exact Ha|]. pose proof (safe_nonneg _ Ha). lra.
  - inversion Hr as [|? ? Hp Hr']; subst. cbn [tot]. destruct (safe_add a p Ha Hp) as (S & B).
    cbn [length] in HL |- *. rewrite S_INR in HL |- *. pose proof (pos_INR (length r)) as P0.
    assert (HL' : INR (length r) * U <= 1) by nra.
    destruct (IH _ S Hr' HL') as (S' & B'). split; [exact S'|]. eapply Rle_trans; [|exact B'].
    pose proof (safe_nonneg _ Ha). pose proof (safe_nonneg _ Hp). pose proof (rsum_nonneg _ Hr') as R0.
    change (rsum (p :: r)) with (p + rsum r). set (n := INR (length r)) in *. set (s := rsum r) in *.
    apply Rle_trans with ((1 - n * U) * ((1 - U) * (a + p) + s)).
    + apply Rle_trans with ((1 - n * U) * ((1 - U) * (a + p + s))); [|apply Rmult_le_compat_l; [lra|]].
      * replace ((1 - n * U) * ((1 - U) * (a + p + s))) with (((1 - n * U) * (1 - U)) * (a + p + s)) by ring.
        replace (a + (p + s)) with (a + p + s) by ring. apply Rmult_le_compat_r; [lra|]. assert (0 <= n * U * U) by (apply Rmult_le_pos; [apply Rmult_le_pos|]; lra). lra.
      * assert (0 <= U * s) by (apply Rmult_le_pos; lra). lra.
    + apply Rmult_le_compat_l; lra.
Qed.
Lemma tot_format r : forall a, binary64 a = a -> binary64 (tot a r) = tot a r.
Proof. induction r as [|p r IH]; intros a H; cbn [tot]; [exact H|]. apply IH, b64_idem. Qed.
Lemma tot_ge r : forall a, binary64 a = a -> Forall safe r -> a <= tot a r.
Proof.
  induction r as [|p r IH]; intros a H F; cbn [tot]; [lra|]. inversion F as [|? ? Hp F']; subst. apply Rle_trans with (binary64 (a + p)).
  - rewrite <- H at 1. apply binary64_mono. pose proof (safe_nonneg _ Hp). lra.
  - apply IH; [apply b64_idem|exact F'].
Qed.
Lemma double_safe p : double_prob p -> safe p.
Proof. intros [_ [->|[H _]]]; [left; reflexivity|right]. pose proof (pow_small 1000 1001 ltac:(lia)). lra. Qed.

Lemma fargmin_not_last l : forall best bv i a b, (best < i)%nat -> (bv <= a \/ In a l) -> a <= b -> (fargmin_from best bv i (l ++ [b]) < i + length l)%nat.
Proof.
  induction l as [|x l IH]; intros best bv i a b Hb Ha Hab; cbn [app fargmin_from length].
  - destruct Ha as [Ha|[]]. unfold rle. destruct (Rle_dec bv b) as [_|N]; [lia|exfalso; lra].
  - unfold rle. destruct (Rle_dec bv x) as [L|L].
    + specialize (IH best bv (S i) a b ltac:(lia)). cbn in Ha. destruct Ha as [Ha|[Ha|Ha]].
      * specialize (IH (or_introl Ha) Hab). lia.
      * subst x. specialize (IH (or_introl L) Hab). lia.
      * specialize (IH (or_intror Ha) Hab). lia.
    + apply Rnot_le_lt in L. specialize (IH i x (S i) a b ltac:(lia)). cbn in Ha. destruct Ha as [Ha|[Ha|Ha]].
      * assert (XA : x <= a) by lra. specialize (IH (or_introl XA) Hab). lia.
      * subst x. specialize (IH (or_introl (Rle_refl a)) Hab). lia.
      * specialize (IH (or_intror Ha) Hab). lia.
Qed.
Lemma fargmin_bound l (a b : R) : a <= b -> (fargmin (l ++ [a] ++ [b]) < S (length l))%nat.
Proof.
  intros H. destruct l as [|x l]; cbn [app fargmin].
  - pose proof (fargmin_not_last [] 0 a 1 a b ltac:(lia) (or_introl (Rle_refl a)) H) as B. cbn [app length] in B. exact B.
  - replace (l ++ a :: [b]) with ((l ++ [a]) ++ [b]) by (rewrite <- app_assoc; reflexivity).
    assert (IA : In a (l ++ [a])) by (apply in_or_app; right; left; reflexivity).
    pose proof (fargmin_not_last (l ++ [a]) 0 x 1 a b ltac:(lia) (or_intror IA) H) as B.
    rewrite app_length in B. cbn [length] in *. lia.
Qed.
Lemma b64_abs_mono x y : Rabs x <= Rabs y -> Rabs (binary64 x) <= Rabs (binary64 y).
Proof.
  intros H. assert (A : forall z, Rabs (binary64 z) = binary64 (Rabs z)).
  { intros z. unfold binary64. symmetry. apply round_NE_abs. apply FLT_exp_valid. red; lia. }
  rewrite !A. apply binary64_mono. exact H.
Qed.
Lemma float_fano_split_bound npsum p r x : sum_like npsum -> Forall double_prob (p :: r ++ [x]) -> x <= p ->
  (Z.of_nat (length (p :: r ++ [x])) <= 2 ^ 48)%Z ->
  (S (float_fano_split npsum (p :: r ++ [x])) < length (p :: r ++ [x]))%nat.
Proof.
  intros SL FD XP LN. set (probs := p :: r ++ [x]) in *.
  assert (FS : Forall safe probs) by (eapply Forall_impl; [|exact FD]; intros; apply double_safe; assumption).
  pose proof (SL probs FD LN) as SE.
  inversion FD as [|? ? DP _]; subst. inversion FS as [|? ? SP FR]; subst. apply Forall_app in FR as [FR FX]. inversion FX as [|? ? SX _]; subst.
  unfold float_fano_split. set (half := binary64 (npsum probs / 2)). unfold probs at 1. destruct (fcumsum_last2 p r x) as (cs & EC & LC).
  rewrite EC, !map_app. cbn [map]. set (c1 := tot p r). set (c2 := binary64 (c1 + x)).
  assert (LL : length probs = S (S (length r))) by (unfold probs; cbn [length]; rewrite app_length; cbn; lia).
  assert (UV := U_val).
  assert (NL : INR (length r) * U <= / 32).
  { assert (INR (length r) <= 281474976710656) by (rewrite INR_IZR_INZ; apply IZR_le; lia). rewrite UV. lra. }
  destruct (tot_error r p SP FR ltac:(lra)) as (S1 & E1). fold c1 in S1, E1.
  destruct (safe_add c1 x S1 SX) as (S2 & B2). fold c2 in S2, B2.
  assert (P0 := safe_nonneg _ SP). assert (X0 := safe_nonneg _ SX). assert (R0 := rsum_nonneg _ FR).
  assert (C1P : p <= c1) by (apply tot_ge; [apply DP|exact FR]).
  assert (C12 : c1 <= c2). { assert (F1 : binary64 c1 = c1) by (apply tot_format; apply DP). unfold c2. rewrite <- F1 at 1. apply binary64_mono. lra. }
  assert (RS : rsum probs = p + rsum r + x).
  { unfold probs, rsum. cbn [fold_right]. rewrite fold_right_app. cbn [fold_right].
    assert (G : forall l z, fold_right Rplus z l = fold_right Rplus 0 l + z) by (induction l as [|y l IH]; intros z; cbn; [lra|rewrite IH; lra]).
    rewrite (G r (x + 0)). lra. }
  set (s := rsum probs) in *.
  assert (SC : s * (1 - / 16) <= c2).
  { assert ((1 - / 32) * (p + rsum r) <= c1). { eapply Rle_trans; [|exact E1]. apply Rmult_le_compat_r; lra. }
    apply Rle_trans with ((1 - U) * (c1 + x)); [|lra]. apply Rle_trans with ((1 - U) * ((1 - / 32) * s)).
    - rewrite UV. assert (0 <= s) by lra. lra.
    - apply Rmult_le_compat_l; [rewrite UV; lra|]. rewrite RS. lra. }
  assert (HF : 2 * half <= (1 + U) * npsum probs).
  { assert (D : npsum probs / 2 = 0 \/ / 2 ^ 1003 <= npsum probs / 2).
    { destruct (Req_dec s 0) as [Z|Z].
      - left. rewrite Z in SE. revert SE. unfold Rabs. destruct (Rcase_abs _); lra.
      - right. assert (/ 2 ^ 1001 <= s).
        { assert (/ 2 ^ 1001 <= p \/ p = 0) as [G|G] by (unfold safe in SP; lra); [lra|].
          assert (G2 : exists y, In y probs /\ y <> 0).
          { clear -Z. unfold s, rsum in Z. induction probs as [|y l IH]; cbn in Z; [lra|]. destruct (Req_dec y 0) as [->|N]; [|exists y; split; [left; reflexivity|exact N]].
            destruct IH as (w & A & B); [lra|]. exists w. split; [right; exact A|exact B]. }
          destruct G2 as (y & Iy & Ny). assert (Sy : / 2 ^ 1001 <= y). { rewrite Forall_forall in FS. destruct (FS y Iy); [contradiction|assumption]. }
          eapply Rle_trans; [exact Sy|]. unfold s, rsum. clear -Iy FS.
          induction probs as [|w l IH]; cbn in Iy; [contradiction|]. inversion FS as [|? ? Sw Fl]; subst. cbn [fold_right].
          pose proof (rsum_nonneg l Fl) as N0. unfold rsum in N0. destruct Iy as [->|Iy]; [lra|]. specialize (IH Fl Iy). pose proof (safe_nonneg _ Sw). lra. }
        assert (7 / 8 * s <= npsum probs) by (revert SE; unfold Rabs; destruct (Rcase_abs _); lra).
        assert (/ 2 ^ 1003 = / 2 ^ 1001 / 4). { replace 1003%nat with (1001 + 2)%nat by lia. rewrite pow_add, Rinv_mult. lra. } lra. }
    pose proof (b64_err _ D) as [_ B]. fold half in B. lra. }
  assert (NS : npsum probs <= 9 / 8 * s) by (revert SE; unfold Rabs; destruct (Rcase_abs _); lra).
  assert (KEY : 2 * half <= c1 + c2).
  { assert (S0 : 0 <= s) by lra. assert (C2U : c2 <= (1 + U) * (2 * c1)). { destruct B2 as [_ B2]. eapply Rle_trans; [exact B2|]. apply Rmult_le_compat_l; [rewrite UV; lra|lra]. }
    rewrite UV in *. lra. }
  assert (CMP : Rabs (binary64 (c1 - half)) <= Rabs (binary64 (c2 - half))).
  { apply b64_abs_mono. unfold Rabs. destruct (Rcase_abs _), (Rcase_abs _); lra. }
  pose proof (fargmin_bound (map (fun c => Rabs (binary64 (c - half))) cs) _ _ CMP) as FB. rewrite map_length, LC in FB.
  rewrite LL. lia.
Qed.

(* ---------- the loop *)
Local Open Scope nat_scope.
Definition descending (items : list (nat * R)) : Prop :=
  forall i j, i <= j < length items -> (nth j (map snd items) 0 <= nth i (map snd items) 0)%R.
Definition fslice {A} (lo m : nat) (items : list A) := firstn m (skipn lo items).
Lemma fslice_app {A} lo a b (items : list A) : fslice lo (a + b) items = fslice lo a items ++ fslice (lo + a) b items.
Proof. unfold fslice. rewrite firstn_add, skipn_skipn'. reflexivity. Qed.
Lemma fslice_length {A} lo m (items : list A) : lo + m <= length items -> length (fslice lo m items) = m.
Proof. intros H. unfold fslice. rewrite firstn_length, skipn_length. lia. Qed.
Lemma fslice_nth {A} lo m (items : list A) i d : i < m -> lo + m <= length items -> nth i (fslice lo m items) d = nth (lo + i) items d.
Proof.
  intros H B. unfold fslice. revert lo items i H B. intros lo. induction lo as [|lo IH]; intros items i H B.
  - cbn [skipn Nat.add]. revert items m H B. induction i as [|i IHi]; intros [|x items] [|m] H B; cbn in *; try lia; auto. apply IHi; lia.
  - destruct items as [|x items]; cbn [length] in B; [lia|]. cbn [skipn Nat.add nth]. apply IH; lia.
Qed.
Lemma fslice_In {A} lo m (items : list A) x : In x (fslice lo m items) -> In x items.
Proof.
  intros H. rewrite <- (firstn_skipn lo items). apply in_or_app; right.
  rewrite <- (firstn_skipn m (skipn lo items)). apply in_or_app; left. exact H.
Qed.
Lemma fslice_map {A B} (f : A -> B) lo m items : map f (fslice lo m items) = fslice lo m (map f items).
Proof. unfold fslice. rewrite skipn_map, firstn_map. reflexivity. Qed.

Section FF.
  Variable npsum : list R -> R.
  Hypothesis SL : sum_like npsum.
  Variable items : list (nat * R).
  Hypothesis HD : Forall (fun xp => double_prob (snd xp)) items.
  Hypothesis HO : descending items.
  Hypothesis HN : (Z.of_nat (length items) <= 2 ^ 48)%Z.
  Lemma slice_split lo m : 2 <= m -> lo + m <= length items -> S (float_fano_split npsum (map snd (fslice lo m items))) < m.
  Proof.
    intros Hm Hlo. set (probs := map snd (fslice lo m items)).
    assert (LP : length probs = m) by (unfold probs; rewrite map_length; apply fslice_length; exact Hlo).
    destruct probs as [|p q] eqn:EP; [cbn in LP; lia|]. destruct (exists_last (l := q)) as (r & x & Eq); [intros ->; cbn in LP; lia|]. subst q.
    rewrite <- LP. apply float_fano_split_bound; [exact SL| | |].
    - rewrite <- EP. unfold probs. rewrite Forall_map. rewrite Forall_forall in *. intros y Hy. apply HD. eapply fslice_In; eauto.
    - assert (N0 : nth 0 probs 0%R = p) by (rewrite EP; reflexivity).
      assert (N1 : nth (m - 1) probs 0%R = x).
      { rewrite EP. replace (m - 1) with (S (length r)) by (cbn [length] in LP; rewrite app_length in LP; cbn in LP; lia). cbn [nth]. rewrite app_nth2, Nat.sub_diag by lia. reflexivity. }
      rewrite <- N0, <- N1. unfold probs. rewrite fslice_map. rewrite !fslice_nth by (rewrite ?map_length; lia). apply HO. lia.
    - rewrite LP. lia.
  Qed.
  Lemma float_fano_segment m : forall lo len, 1 <= m -> lo + m <= length items ->
    exists ds, length ds = m /\ (kraft_sum 2 ds == kterm 2 len)%Q /\ Forall (fun d => len <= d /\ (2 <= m -> len < d)) ds /\
      forall f rest lengths, float_fano_loop npsum (2 * m - 1 + f) items ((lo, lo + m, len) :: rest) lengths =
        float_fano_loop npsum f items rest (set_all (map fst (fslice lo m items)) ds lengths).
  Proof.
    induction m as [m IH] using lt_wf_ind. intros lo len Hm Hlo.
    destruct (Nat.eq_dec m 1) as [->|Hne].
    - exists [len]. split; [reflexivity|]. split; [rewrite kraft_cons, kraft_nil; ring|].
      split; [repeat constructor; lia|]. intros f rest lengths.
      change (2 * 1 - 1 + f) with (S f). cbn [float_fano_loop].
      replace (lo + 1 - lo) with 1 by lia. cbn [Nat.eqb].
      destruct (nth_error items lo) as [[x p]|] eqn:E; [|apply nth_error_None in E; lia].
      replace (fslice lo 1 items) with [(x, p)]; [reflexivity|].
      unfold fslice. destruct (nth_error_split _ _ E) as (l1 & l2 & -> & <-). rewrite skipn_app_exact. reflexivity.
    - set (s := float_fano_split npsum (map snd (fslice lo m items))).
      assert (Hs : S s < m) by (apply slice_split; lia).
      destruct (IH (S s) Hs lo (S len)) as (d1 & L1 & K1 & F1 & R1); [lia|lia|].
      destruct (IH (m - S s) ltac:(lia) (lo + S s) (S len)) as (d2 & L2 & K2 & F2 & R2); [lia|lia|].
      exists (d1 ++ d2). rewrite app_length, kraft_app, K1, K2, kterm_S. split; [lia|]. split; [field|]. split.
      + apply Forall_app; split; eapply Forall_impl; try eassumption; cbn; intros d [Hd _]; lia.
      + intros f rest lengths. replace (2 * m - 1 + f) with (S (2 * m - 2 + f)) by lia. cbn [float_fano_loop].
        replace (lo + m - lo) with m by lia. destruct (Nat.eqb_spec m 1) as [|_]; [lia|].
        fold (fslice lo m items). fold s.
        replace (lo + s + 1) with (lo + S s) by lia.
        replace (2 * m - 2 + f) with (2 * S s - 1 + (2 * (m - S s) - 1 + f)) by lia.
        rewrite R1. replace (lo + m) with (lo + S s + (m - S s)) by lia. rewrite R2. f_equal.
        rewrite <- set_all_app by (rewrite map_length, fslice_length; lia).
        rewrite <- map_app, <- fslice_app. do 2 f_equal. f_equal. lia.
  Qed.
End FF.

Lemma finsert_perm x l : Permutation (x :: l) (finsert_desc x l).
Proof.
  induction l as [|y l IH]; cbn [finsert_desc]; auto. destruct (rle (snd y) (snd x)); auto.
  rewrite perm_swap. constructor. exact IH.
Qed.
Lemma fsort_perm l : Permutation l (fsort_desc l).
Proof.
  unfold fsort_desc. induction l as [|x l IH]; cbn [fold_right]; auto.
  eapply Permutation_trans; [|apply finsert_perm]. constructor. exact IH.
Qed.
Definition ge2 (a b : nat * R) : Prop := (snd b <= snd a)%R.
Lemma finsert_sorted x l : StronglySorted ge2 l -> StronglySorted ge2 (finsert_desc x l).
Proof.
  induction 1 as [|y l S IH F]; cbn [finsert_desc]; [repeat constructor|]. unfold rle. destruct (Rle_dec (snd y) (snd x)) as [L|L].
  - constructor; [constructor; assumption|]. constructor; [exact L|]. eapply Forall_impl; [|exact F]. unfold ge2. intros a Ha. lra.
  - constructor; [exact IH|]. rewrite <- finsert_perm. constructor; [unfold ge2; lra|exact F].
Qed.
Lemma fsort_sorted l : StronglySorted ge2 (fsort_desc l).
Proof. unfold fsort_desc. induction l as [|x l IH]; cbn [fold_right]; [constructor|apply finsert_sorted; exact IH]. Qed.
Lemma sorted_descending l : StronglySorted ge2 l -> descending l.
Proof.
  unfold descending. induction 1 as [|x l S IH F]; intros i j H; cbn [length] in H; [lia|]. cbn [map]. destruct i as [|i], j as [|j]; cbn [nth]; [lra| |lia|apply IH; lia].
  rewrite Forall_forall in F. assert (I : In (nth j (map snd l) 0%R) (map snd l)) by (apply nth_In; rewrite map_length; lia).
  apply in_map_iff in I as (y & <- & Iy). apply (F y Iy).
Qed.

Lemma float_fano_lengths_spec npsum pmf : sum_like npsum -> 1 <= length pmf -> (Z.of_nat (length pmf) <= 2 ^ 48)%Z -> Forall double_prob pmf ->
  exists ls, float_fano_lengths npsum pmf = Some ls /\ length ls = length pmf /\ (kraft_sum 2 ls == 1)%Q /\
    (2 <= length pmf -> Forall (fun l => 0 < l) ls).
Proof.
  intros SL H1 HN HP. unfold float_fano_lengths. set (items := fsort_desc (combine (seq 0 (length pmf)) pmf)).
  pose proof (fsort_perm (combine (seq 0 (length pmf)) pmf)) as P. fold items in P.
  assert (LI : length items = length pmf).
  { rewrite <- (Permutation_length P), combine_length, seq_length. lia. }
  assert (XP : Permutation (map fst items) (seq 0 (length pmf))).
  { rewrite <- P. rewrite map_fst_combine_seq. reflexivity. }
  destruct (float_fano_segment npsum SL items) with (m := length pmf) (lo := 0) (len := 0) as (ds & LD & K & F & R); auto; [| |lia|lia|].
  { rewrite Forall_forall in *. intros y Hy. apply HP. rewrite <- (map_snd_combine_seq pmf). apply in_map.
    eapply Permutation_in; [symmetry; exact P|exact Hy]. }
  { apply sorted_descending, fsort_sorted. }
  set (xs := map fst (fslice 0 (length pmf) items)) in *.
  assert (EX : xs = map fst items).
  { unfold xs, fslice. cbn [skipn]. rewrite firstn_all_ge by lia. reflexivity. }
  assert (ND : NoDup xs). { rewrite EX. eapply Permutation_NoDup; [symmetry; exact XP|apply seq_NoDup]. }
  assert (LX : length xs = length ds). { rewrite EX, map_length. lia. }
  set (ls := set_all xs ds (repeat 0 (length pmf))).
  assert (LL : length ls = length pmf) by (unfold ls; rewrite set_all_length, repeat_length; reflexivity).
  assert (PL : Permutation ls ds).
  { rewrite <- (set_all_nth xs ds (repeat 0 (length pmf)) ND LX).
    - fold ls. rewrite EX, XP. rewrite (list_ext 0 ls (map (fun x => nth x ls 0) (seq 0 (length pmf)))) at 1; auto.
      + rewrite map_length, seq_length. exact LL.
      + intros i Hi. rewrite nth_map_seq by lia. reflexivity.
    - intros x Hx. rewrite repeat_length. rewrite EX in Hx. apply (Permutation_in _ XP) in Hx. apply in_seq in Hx. lia. }
  exists ls. split; [|split; [exact LL|split]].
  - replace (2 * length pmf) with (2 * length pmf - 1 + 1) by lia. exact (R 1 [] (repeat 0 (length pmf))).
  - rewrite (kraft_perm _ _ _ PL), K. reflexivity.
  - intros H2. rewrite PL. eapply Forall_impl; [|exact F]. cbn. intros d Hd. lia.
Qed.
Lemma float_fano_spec npsum pmf k : sum_like npsum -> 2 <= length pmf -> 1 <= k -> (Z.of_nat (length pmf ^ k) <= 2 ^ 48)%Z ->
  Forall double_prob (float_products pmf k) ->
  exists c ws, float_fano_make npsum pmf k = Some c /\ good_code c (N.of_nat (length pmf)) k ws /\
    (kraft_sum 2 (map (@length N) (f2v_codewords c)) == 1)%Q.
Proof.
  intros SL H2 Hk HN HP. assert (L := float_products_length pmf k Hk). assert (G := pow_ge_2 _ k H2 Hk).
  destruct (float_fano_lengths_spec npsum (float_products pmf k) SL) as (ls & E & LL & K & Pos); [lia|rewrite L; exact HN|exact HP|].
  assert (Hpos := Pos ltac:(lia)).
  destruct (proj2 (canonical_kraft 2 ls ltac:(lia) ltac:(intros ->; cbn in LL; lia) Hpos)) as [ws Ews].
  { rewrite K. apply Qle_refl. }
  pose proof (canonical_lengths 2 ltac:(lia) _ ws Ews) as WL.
  assert (LW : length ws = length ls) by (rewrite <- WL, map_length; reflexivity).
  destruct (make_good (N.of_nat (length pmf)) k ws) as (c & Ec & Gc); auto; [lia|lia| | | |].
  - exact (canonical_range 2 ltac:(lia) ls ws Ews).
  - rewrite <- WL, Forall_map in Hpos. eapply Forall_impl; [|exact Hpos]. intros [|x w] Hw; [cbn in Hw; lia|discriminate].
  - exact (canonical_PF 2 ltac:(lia) ls ws Ews Hpos).
  - exists c, ws. unfold float_fano_make. rewrite E, Ews. split; [exact Ec|]. split; [exact Gc|].
    rewrite (gc_words _ _ _ _ Gc). change (map (@length N) ws) with (map wlen ws). rewrite WL. exact K.
Qed.
(* sequential summation in double precision qualifies *)
Definition seq_sum (l : list R) : R := match l with [] => 0%R | p :: r => tot p r end.
Lemma tot_upper r : forall a, safe a -> Forall safe r -> (INR (length r) * U <= / 32)%R -> (tot a r <= (1 + 2 * INR (length r) * U) * (a + rsum r))%R.
Proof.
  assert (U0 : (0 < U)%R) by (rewrite U_val; lra).
  induction r as [|p r IH]; intros a Ha Hr HL.
  - cbn [tot length INR]. unfold rsum. cbn [fold_right]. lra.
  - inversion Hr as [|? ? Hp Hr']; subst. cbn [tot]. destruct (safe_add a p Ha Hp) as (S & B).
    cbn [length] in HL |- *. rewrite S_INR in HL |- *. pose proof (pos_INR (length r)) as P0.
    assert (HL' : (INR (length r) * U <= / 32)%R) by nra.
    pose proof (IH _ S Hr' HL') as B'. eapply Rle_trans; [exact B'|].
    pose proof (safe_nonneg _ Ha). pose proof (safe_nonneg _ Hp). pose proof (rsum_nonneg _ Hr') as R0.
    change (rsum (p :: r)) with (p + rsum r)%R. set (n := INR (length r)) in *. set (s := rsum r) in *.
    assert (NU : (0 <= n * U)%R) by (apply Rmult_le_pos; lra).
    apply Rle_trans with ((1 + 2 * n * U) * ((1 + U) * (a + p + s)))%R.
    + apply Rmult_le_compat_l; [lra|]. assert (0 <= U * s)%R by (apply Rmult_le_pos; lra). lra.
    + replace ((1 + 2 * n * U) * ((1 + U) * (a + p + s)))%R with (((1 + 2 * n * U) * (1 + U)) * (a + p + s))%R by ring.
      replace (a + (p + s))%R with (a + p + s)%R by ring. apply Rmult_le_compat_r; [lra|].
      assert (n * U * U <= / 32 * U)%R by (apply Rmult_le_compat_r; lra). lra.
Qed.
Lemma seq_sum_like : sum_like seq_sum.
Proof.
  intros [|p r] F L; [unfold seq_sum, rsum; cbn [fold_right]; rewrite Rminus_0_r, Rabs_R0; lra|].
  assert (FS : Forall safe (p :: r)) by (eapply Forall_impl; [|exact F]; intros; apply double_safe; assumption).
  inversion FS as [|? ? SP FR]; subst.
  assert (NL : (INR (length r) * U <= / 32)%R).
  { assert (INR (length r) <= 281474976710656)%R by (rewrite INR_IZR_INZ; apply IZR_le; cbn [length] in L; lia). rewrite U_val. lra. }
  destruct (tot_error r p SP FR ltac:(lra)) as (_ & E1). pose proof (tot_upper r p SP FR NL) as E2.
  change (rsum (p :: r)) with (p + rsum r)%R. cbn [seq_sum]. pose proof (safe_nonneg _ SP). pose proof (rsum_nonneg _ FR).
  set (s := (p + rsum r)%R) in *. assert (0 <= s)%R by (unfold s; lra). set (x := (INR (length r) * U)%R) in *.
  replace (1 + 2 * INR (length r) * U)%R with (1 + 2 * x)%R in E2 by (unfold x; ring).
  assert (x * s <= / 32 * s)%R by (apply Rmult_le_compat_r; lra).
  unfold Rabs. destruct (Rcase_abs _); lra.
Qed.
