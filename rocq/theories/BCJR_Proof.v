From Coq Require Import Reals Lra Permutation.
From Verif Require Import Common Bits_Model Vec_Model Linear_Spec LinAlg_Model FSM_Model FSM_Spec Conv_Model Conv_Spec FB_Model FB_Spec Labeling_Model BCJR_Model BCJR_Spec.
From Verif Require Import Vec_Proof Conv_Proof ConvTerm_Proof FB_Proof.
From Verif Require Bits_Proof ConvViterbi_Proof FreeDist_Proof.
Local Open Scope nat_scope.

(* ---- sums ---- *)
Lemma Rsum_perm l l' : Permutation l l' -> Rsum l = Rsum l'.
Proof. induction 1; rewrite ?Rsum_cons; try lra; congruence. Qed.
Lemma Rsum_filter {A} (f : A -> R) p l : Rsum (map f (filter p l)) = Rsum (map (fun a => if p a then f a else 0%R) l).
Proof. induction l; cbn [filter map]; auto. destruct (p a); cbn [map]; rewrite ?Rsum_cons, IHl; lra. Qed.
Lemma Rsum_pos {A} (f : A -> R) l : l <> [] -> (forall x, In x l -> (0 < f x)%R) -> (0 < Rsum (map f l))%R.
Proof.
  destruct l as [|a l]; [congruence|]. intros _ H. cbn [map]. rewrite Rsum_cons. pose proof (H a (or_introl eq_refl)).
  assert (0 <= Rsum (map f l))%R; [|lra]. apply Rsum_nonneg. intros x I. apply in_map_iff in I as (y & <- & I). left. apply H. right; auto.
Qed.

(* ---- input words ---- *)
Lemma in_input_words K L xs : In xs (input_words K L) <-> length xs = L /\ Forall (fun x => x < K) xs.
Proof.
  revert xs; induction L as [|L IH]; intros xs; cbn [input_words].
  - cbn. split; [intros [<-|[]]; auto|]. intros [H _]. destruct xs; [auto|cbn in H; lia].
  - rewrite in_flat_map. split.
    + intros (x & Ix & I). apply in_seq in Ix. apply in_map_iff in I as (ys & <- & I). apply IH in I as [L' F]. split; [cbn; lia|]. constructor; auto; lia.
    + intros [L' F]. destruct xs as [|x xs]; cbn in L'; [lia|]. inversion F; subst. exists x. split; [apply in_seq; lia|]. apply in_map, IH. split; auto; lia.
Qed.
Lemma input_words_NoDup K L : NoDup (input_words K L).
Proof.
  induction L as [|L IH]; cbn [input_words]; [repeat constructor; auto|]. pose proof (seq_NoDup K 0) as ND. induction (seq 0 K) as [|x l IHl]; cbn [flat_map]; [constructor|].
  inversion ND; subst. apply NoDup_app_intro; auto.
  - apply NoDup_map_inj_in; auto. intros a b _ _ E. congruence.
  - intros a I J. apply in_map_iff in I as (b & <- & _). apply in_flat_map in J as (y & Iy & J). apply in_map_iff in J as (b' & E & _). congruence.
Qed.
Lemma all_words_eq K : all_words K = words K.
Proof. induction K; cbn; congruence. Qed.

Lemma masked_sum_seq mat row j b : length mat = length row ->
  masked_sum mat row j b = Rsum (map (fun x => if Bool.eqb (nth j (nth x mat []) false) b then nth x row 0%R else 0%R) (seq 0 (length row))).
Proof.
  unfold masked_sum. revert mat; induction row as [|p row IH]; intros [|l mat] L; cbn in L; try lia; [reflexivity|].
  cbn [combine map length seq nth]. rewrite !Rsum_cons, IH, <- seq_shift, map_map by lia. f_equal. destruct (Bool.eqb _ _); lra.
Qed.
Lemma xlog_pos p : (0 < p)%R -> xlog p = Some (ln p).
Proof. intros H. unfold xlog. destruct (Rlt_dec 0 p); [auto|lra]. Qed.
Lemma concat_nth_gen {A} (dflt : A) ls w t j : Forall (fun l => length l = w) ls -> t < length ls -> j < w -> nth (t * w + j) (concat ls) dflt = nth j (nth t ls []) dflt.
Proof.
  intros B. revert t; induction B as [|u us Lu B IH]; intros t Ht Hj; cbn in Ht; [lia|]. destruct t; cbn [concat nth].
  - rewrite app_nth1 by lia. reflexivity.
  - rewrite app_nth2 by lia. replace (S t * w + j - length u) with (t * w + j) by lia. apply IH; lia.
Qed.

Section W.
Context (c : conv) (OK : conv_ok c).
Local Notation d := (cv_deg c).
Local Notation k := (cv_k c).
Local Notation n := (cv_n c).
Local Notation mu := (cv_mem c).
Local Notation M := (conv_fsm c).
Context (INJ : forall s u u', length s = d -> length u = k -> length u' = k -> conv_next c s u = conv_next c s u' -> u = u').
Local Notation met := (bcjr_metric n).
Local Notation unif := (uniform_dist (num_input_symbols M)).

Definition corr (v : vec) (l : list R) : R := Rsum (map (fun '(b, x) => if b : bool then (- x)%R else x) (combine v l)).
Lemma corr_app v v' l l' : length v = length l -> corr (v ++ v') (l ++ l') = (corr v l + corr v' l')%R.
Proof.
  unfold corr. revert l; induction v as [|b v IH]; intros [|x l] L; cbn in L; try lia; cbn [app combine map]; [rewrite Rsum_nil; lra|].
  rewrite !Rsum_cons, IH by lia. lra.
Qed.

Definition blk (L : nat) (w : vec) : list vec := reshape_rows L k w.
Lemma blk_spec L w : length w = L * k -> concat (blk L w) = w /\ length (blk L w) = L /\ blocks k (blk L w).
Proof. apply reshape_rows_spec. Qed.

Lemma unif_nth x : x < 2 ^ k -> nth x unif 0%R = (/ INR (2 ^ k))%R.
Proof. intros H. unfold uniform_dist. rewrite fsm_num_inputs. rewrite (nth_indep _ 0%R (/ INR (2 ^ k))%R) by (rewrite repeat_length; auto). apply nth_repeat. Qed.

Lemma run_weight_spec final zs us s : blocks k us -> length us = length zs -> length s = d -> Forall (fun z => length z = n) zs ->
  run_weight M met final (combine zs (repeat unif (length zs))) (bitsn s) (map bitsn us) =
  ((/ INR (2 ^ k)) ^ length zs * exp (1 / 2 * corr (concat (fst (conv_run c us s))) (concat zs)) * nth (bitsn (snd (conv_run c us s))) final 0)%R.
Proof.
  intros B. revert zs s; induction B as [|u us Lu B IH]; intros [|z zs] s L Ls F; cbn in L; try lia.
  - cbn. unfold corr. cbn. rewrite Rmult_0_r, exp_0. lra.
  - inversion F as [|? ? Lz F']; subst. cbn [length repeat combine map run_weight fst snd conv_run].
    assert (Hs : bitsn s < 2 ^ d) by (rewrite <- Ls; apply bitsn_bound).
    assert (Hu : bitsn u < 2 ^ k) by (rewrite <- Lu; apply bitsn_bound).
    rewrite unif_nth, fsm_next_spec, fsm_out_spec by auto. rewrite !nbits_bitsn by auto.
    rewrite IH by (auto; try lia; apply next_length; auto).
    destruct (conv_run c us (conv_next c s u)) as [vs s'] eqn:Er. cbn [fst snd concat].
    rewrite corr_app by (rewrite output_length; auto). unfold bcjr_metric. cbn [xexp]. rewrite nbits_bitsn by (apply output_length; auto). fold (corr (conv_output c s u) z).
    rewrite (Rmult_plus_distr_l (1/2)), exp_plus. cbn [pow]. ring.
Qed.

(* the sum over runs, as a sum over bit sequences *)
Definition outs (L : nat) (w : vec) : vec := concat (fst (conv_run c (blk L w) (zeros d))).
Definition fin (L : nat) (w : vec) : vec := snd (conv_run c (blk L w) (zeros d)).
Definition symw (L : nat) (w : vec) : list nat := map bitsn (blk L w).

Lemma symw_perm L : Permutation (map (symw L) (words (L * k))) (input_words (num_input_symbols M) L).
Proof.
  rewrite fsm_num_inputs. apply NoDup_Permutation.
  - apply NoDup_map_inj_in; [|apply words_NoDup]. intros x y Ix Iy E. apply in_words in Ix, Iy. destruct (blk_spec L x Ix) as (Cx & Lx & Bx). destruct (blk_spec L y Iy) as (Cy & Ly & By).
    rewrite <- Cx, <- Cy. f_equal. unfold symw in E. clear -E Bx By Lx Ly. assert (L1 : length (blk L x) = length (blk L y)) by congruence. clear Lx Ly.
    revert E By L1. generalize (blk L y) as b. induction Bx as [|u a Lu Ba IH]; intros [|v b] E Bb L1; cbn in L1; try lia; auto. inversion Bb; subst. cbn [map] in E. injection E as E1 E2.
    f_equal; [apply FreeDist_Proof.bitsn_inj; congruence|]. apply IH; auto.
  - apply input_words_NoDup.
  - intros xs. rewrite in_input_words, in_map_iff. split.
    + intros (w & <- & I). apply in_words in I. destruct (blk_spec L w I) as (_ & Lb & Bb). unfold symw. rewrite map_length. split; auto.
      apply Forall_forall. intros x J. apply in_map_iff in J as (u & <- & J). unfold blocks in Bb. rewrite Forall_forall in Bb. rewrite <- (Bb u J). apply bitsn_bound.
    + intros [Lx F]. exists (concat (map (nbits k) xs)).
      assert (Bm : blocks k (map (nbits k) xs)) by (apply Forall_forall; intros u J; apply in_map_iff in J as (x & <- & _); apply nbits_length).
      split; [|apply in_words; rewrite (blocks_concat_length k _ Bm), map_length; auto].
      unfold symw, blk. rewrite <- Lx, <- (map_length (nbits k) xs), reshape_rows_concat by exact Bm. rewrite map_map. clear -F.
      induction F; cbn [map]; auto. rewrite bitsn_nbits by auto. congruence.
Qed.

Lemma init_sum (f : nat -> R) : Rsum (map (fun s => (nth s (unit_dist (num_states M)) 0 * f s)%R) (seq 0 (num_states M))) = f 0.
Proof.
  assert (P : 0 < num_states M) by (rewrite fsm_num_states; apply pow2_pos).
  rewrite (Rsum_ext _ (fun s => if Nat.eqb s 0 then f s else 0%R)).
  - rewrite (Rsum_indicator f); auto; [apply seq_NoDup|apply in_seq; lia].
  - intros s I. apply in_seq in I. unfold unit_dist. rewrite nth_map_seq by lia. destruct (s =? 0); lra.
Qed.

Lemma total_spec final (zs : list (list R)) cond : Forall (fun z => length z = n) zs ->
  total_weight M met (unit_dist (num_states M)) final (combine zs (repeat unif (length zs))) cond =
  ((/ INR (2 ^ k)) ^ length zs * Rsum (map (fun w => if cond (symw (length zs) w) then exp (1 / 2 * corr (outs (length zs) w) (concat zs)) * nth (bitsn (fin (length zs) w)) final 0 else 0) (words (length zs * k))))%R.
Proof.
  intros F. unfold total_weight. rewrite (init_sum (fun s => Rsum (map (run_weight M met final (combine zs (repeat unif (length zs))) s) _))).
  rewrite combine_length, repeat_length, Nat.min_id, Rsum_filter.
  rewrite <- (Rsum_perm _ _ (Permutation_map _ (symw_perm (length zs)))), map_map, <- Rsum_scal. apply Rsum_ext. intros w I. apply in_words in I.
  destruct (blk_spec _ w I) as (Cw & Lw & Bw). destruct (cond (symw (length zs) w)); [|lra].
  pose proof (run_weight_spec final zs (blk (length zs) w) (zeros d) Bw Lw (zeros_length d) F) as E. rewrite (FreeDist_Proof.bitsn_zeros d) in E.
  unfold symw. rewrite E. unfold outs, fin. ring.
Qed.

(* splitting a sum over runs by the symbol at time t *)
Lemma total_split {Z} (metric : nat -> Z -> option R) init final steps t (P : nat -> bool) : t < length steps ->
  Rsum (map (fun x => if P x then total_weight M metric init final steps (fun xs => nth t xs 0 =? x) else 0%R) (seq 0 (num_input_symbols M))) =
  total_weight M metric init final steps (fun xs => P (nth t xs 0)).
Proof.
  intros Ht. unfold total_weight.
  transitivity (Rsum (map (fun x => Rsum (map (fun s => (nth s init 0 * Rsum (map (fun xs => if P x && (nth t xs 0%nat =? x)%nat then run_weight M metric final steps s xs else 0) (input_words (num_input_symbols M) (length steps))))%R) (seq 0 (num_states M)))) (seq 0 (num_input_symbols M)))).
  - apply Rsum_ext. intros x I. destruct (P x); cbn [andb].
    + apply Rsum_ext. intros s _. rewrite Rsum_filter. reflexivity.
    + symmetry. transitivity (Rsum (map (fun _ : nat => 0%R) (seq 0 (num_states M)))); [|apply Rsum_zero]. apply Rsum_ext. intros s _. rewrite Rsum_zero. lra.
  - rewrite Rsum_swap. apply Rsum_ext. intros s _. rewrite Rsum_scal. f_equal. rewrite Rsum_swap, Rsum_filter. apply Rsum_ext. intros xs I.
    apply in_input_words in I as [Lx F]. set (x0 := nth t xs 0). assert (Hx : x0 < num_input_symbols M) by (rewrite Forall_forall in F; apply F, nth_In; lia).
    rewrite (Rsum_ext _ (fun x => if Nat.eqb x x0 then (if P x then run_weight M metric final steps s xs else 0) else 0)%R).
    + rewrite (Rsum_indicator (fun x => if P x then run_weight M metric final steps s xs else 0)%R); auto; [apply seq_NoDup|apply in_seq; lia].
    + intros x _. rewrite (Nat.eqb_sym x x0). destruct (P x), (x0 =? x); reflexivity.
Qed.

Lemma natural_row x : x < 2 ^ k -> nth x (matrix (NaturalLabeling k)) [] = rev (nbits k x).
Proof. intros H. cbn [matrix]. unfold natural_matrix. rewrite nth_map_seq by auto. apply Bits_Proof.int_to_bits_msb. Qed.
Lemma natural_length : length (matrix (NaturalLabeling k)) = 2 ^ k.
Proof. cbn [matrix]. unfold natural_matrix. rewrite map_length, seq_length. reflexivity. Qed.

Lemma masked_spec row j b : length row = 2 ^ k -> j < k ->
  masked_sum (matrix (NaturalLabeling k)) row j b = Rsum (map (fun x => if Bool.eqb (nth (k - 1 - j) (nbits k x) false) b then nth x row 0%R else 0%R) (seq 0 (2 ^ k))).
Proof.
  intros L Hj. rewrite masked_sum_seq by (rewrite natural_length; auto). rewrite L. apply Rsum_ext. intros x I. apply in_seq in I.
  rewrite natural_row, rev_nth by (rewrite ?nbits_length; lia). rewrite nbits_length. replace (k - S j) with (k - 1 - j) by lia. reflexivity.
Qed.


(* bit j of the symbol at time t *)
Definition tbit (L t j : nat) (b : bool) (w : vec) : bool := Bool.eqb (nth (t * k + j) w false) b.
Lemma concat_nth_bit us t j : blocks k us -> t < length us -> j < k -> nth (t * k + j) (concat us) false = nth j (nth t us []) false.
Proof.
  intros B. revert t; induction B as [|u us Lu B IH]; intros t Ht Hj; cbn in Ht; [lia|]. destruct t; cbn [concat nth].
  - rewrite app_nth1 by lia. reflexivity.
  - rewrite app_nth2 by (rewrite Lu; lia). rewrite Lu. replace (S t * k + j - k) with (t * k + j) by lia. apply IH; lia.
Qed.
Lemma tbit_spec L t j w : length w = L * k -> t < L -> j < k -> nth (t * k + j) w false = nth j (nbits k (nth t (symw L w) 0)) false.
Proof.
  intros Lw Ht Hj. destruct (blk_spec L w Lw) as (Cw & Lb & Bb). rewrite <- Cw at 1. rewrite concat_nth_bit by (auto; lia). f_equal.
  unfold symw. rewrite (nth_indep _ 0 (bitsn [])) by (rewrite map_length; lia). rewrite map_nth, nbits_bitsn; auto.
  unfold blocks in Bb. rewrite Forall_forall in Bb. apply Bb, nth_In. lia.
Qed.

(* weight of the bit sequences whose bit i is b *)
Definition Wt (final : list R) (li : list R) (L i : nat) (b : bool) : R :=
  Rsum (map (fun w => if Bool.eqb (nth i w false) b then (exp (1 / 2 * corr (outs L w) li) * nth (bitsn (fin L w)) final 0)%R else 0%R) (words (L * k))).


Lemma rows_spec final (li : list R) L : length li = L * n -> 0 < L -> length final = num_states M -> (forall s, s < num_states M -> (0 <= nth s final 0)%R) ->
  (exists i b, (0 < Wt final li L i b)%R) ->
  let rows := forward_backward M met (reshape n li) (repeat unif (length (reshape n li))) (unit_dist (num_states M)) final in
  length rows = L /\ forall t, t < L -> (forall j b, j < k -> (0 < Wt final li L (t * k + j) b)%R) -> exists p, nth t rows None = Some p /\
    length (marginalize_row (matrix (NaturalLabeling k)) k p) = k /\
    forall j, j < k -> nth j (marginalize_row (matrix (NaturalLabeling k)) k p) NaN =
      Fin (ln (Wt final li L (t * k + (k - 1 - j)) false / Wt final li L (t * k + (k - 1 - j)) true)).
Proof.
  intros Ll PL LF NF (i0 & b0 & PW0) rows. assert (Pn : 0 < n) by (destruct OK; auto). assert (Pk : 0 < k) by (destruct OK; auto).
  assert (Rm : length li mod n = 0) by (rewrite Ll; apply Nat.mod_mul; lia). destruct (reshape_spec n li Pn Rm) as (Cr & Lr & Fr). rewrite Ll, Nat.div_mul in Lr by lia.
  unfold rows. set (zs := reshape n li) in *. rewrite Lr.
  set (total := total_weight M met (unit_dist (num_states M)) final (combine zs (repeat unif L))).
  assert (TS : forall cond, total cond = ((/ INR (2 ^ k)) ^ L * Rsum (map (fun w => if cond (symw L w) then exp (1 / 2 * corr (outs L w) li) * nth (bitsn (fin L w)) final 0 else 0) (words (L * k))))%R).
  { intros cond. unfold total. rewrite <- Lr, total_spec, Cr by auto. reflexivity. }
  assert (K0 : (0 < (/ INR (2 ^ k)) ^ L)%R) by (apply pow_lt, Rinv_0_lt_compat, lt_0_INR, pow2_pos).
  assert (TB : forall t j b, t < L -> j < k -> total (fun xs => Bool.eqb (nth j (nbits k (nth t xs 0)) false) b) = ((/ INR (2 ^ k)) ^ L * Wt final li L (t * k + j) b)%R).
  { intros t j b Ht Hj. rewrite TS. f_equal. unfold Wt. apply Rsum_ext. intros w I. apply in_words in I. rewrite (tbit_spec L t j w) by auto. reflexivity. }
  assert (bound : forall t j, t < L -> j < k -> t * k + j < L * k). { intros t j Ht Hj. nia. }
  assert (T1 : (0 < total (fun _ => true))%R).
  { rewrite TS. apply Rmult_lt_0_compat; auto. eapply Rlt_le_trans; [exact PW0|]. unfold Wt.
    assert (G : forall w, (0 <= exp (1 / 2 * corr (outs L w) li) * nth (bitsn (fin L w)) final 0)%R).
    { intros w. apply Rmult_le_pos; [left; apply exp_pos|]. apply NF. rewrite fsm_num_states. unfold fin.
      rewrite <- (run_state_length c OK (blk L w) (zeros d) (zeros_length d)) at 2. apply bitsn_bound. }
    clear -G. induction (words (L * k)) as [|w l IH]; cbn [map]; [rewrite Rsum_nil; lra|]. rewrite !Rsum_cons. specialize (G w). destruct (Bool.eqb (nth i0 w false) b0); lra. }
  destruct (forward_backward_spec M met (fsm_mealy_ok c OK) (ConvViterbi_Proof.no_parallel c OK INJ) zs (repeat unif L) (unit_dist (num_states M)) final) as [Lrows RS]; auto.
  - unfold unit_dist. rewrite map_length, seq_length. auto.
  - rewrite repeat_length. auto.
  - intros s Hs. unfold unit_dist. rewrite nth_map_seq by auto. destruct (s =? 0); lra.
  - apply Forall_forall. intros p I. apply repeat_spec in I. subst p. intros x Hx. rewrite fsm_num_inputs in Hx. rewrite unif_nth by auto. left. apply Rinv_0_lt_compat, lt_0_INR, pow2_pos.
  - rewrite Lr in RS, Lrows. split; auto. intros t Ht PW. destruct (RS t Ht) as (e & Ee & Le & Ne). exists e. split; auto.
    fold total in Ne. rewrite fsm_num_inputs in Le, Ne.
    assert (MS : forall j b, j < k -> masked_sum (matrix (NaturalLabeling k)) e j b = ((/ INR (2 ^ k)) ^ L * Wt final li L (t * k + (k - 1 - j)) b / total (fun _ => true))%R).
    { intros j b Hj. rewrite masked_spec by auto. rewrite <- TB by (auto; lia). unfold Rdiv.
      pose proof (total_split met (unit_dist (num_states M)) final (combine zs (repeat unif L)) t (fun x => Bool.eqb (nth (k - 1 - j) (nbits k x) false) b)) as SP. fold total in SP. rewrite <- SP by (rewrite combine_length, repeat_length; lia).
      rewrite <- Rsum_scal_r, fsm_num_inputs. apply Rsum_ext. intros x I. apply in_seq in I. rewrite Ne by lia. destruct (Bool.eqb _ _); [reflexivity|lra]. }
    unfold marginalize_row. rewrite map_length, seq_length. split; auto. intros j Hj. rewrite nth_map_seq by auto. rewrite !MS by auto.
    assert (P0 := PW (k - 1 - j) false ltac:(lia)). assert (P1 := PW (k - 1 - j) true ltac:(lia)).
    assert (Q : forall x, (0 < x -> 0 < (/ INR (2 ^ k)) ^ L * x / total (fun _ => true))%R).
    { intros x Hx. unfold Rdiv. apply Rmult_lt_0_compat; [apply Rmult_lt_0_compat; auto|apply Rinv_0_lt_compat; auto]. }
    rewrite !xlog_pos by (apply Q; auto). cbn [lsub]. f_equal.
    assert (LD : forall a b, (0 < a -> 0 < b -> ln (a / b) = ln a - ln b)%R).
    { intros a b Ha Hb. unfold Rdiv. rewrite ln_mult, ln_Rinv by (auto; apply Rinv_0_lt_compat; auto). lra. }
    rewrite <- LD by (apply Q; auto). f_equal. field. repeat split; lra.
Qed.
End W.

(* ---- likelihoods ---- *)
Definition scale (w : nat -> bool -> R) (from N : nat) : R := fold_right Rmult 1%R (map (fun j => sqrt (w j false * w j true)) (seq from N)).
Lemma likelihood_corr w v li from : length v = length li ->
  (forall j, j < length li -> (0 < w (from + j)%nat false)%R /\ (0 < w (from + j)%nat true)%R /\ nth j li 0%R = ln (w (from + j)%nat false / w (from + j)%nat true)) ->
  fold_right Rmult 1%R (map (fun j => w (from + j)%nat (nth j v false)) (seq 0 (length v))) = (scale w from (length li) * exp (1 / 2 * corr v li))%R.
Proof.
  revert li from; induction v as [|b v IH]; intros [|x li] from L H; cbn in L; try lia.
  - cbn. unfold corr, scale. cbn. rewrite Rmult_0_r, exp_0. lra.
  - cbn [length seq map fold_right nth]. rewrite <- seq_shift, map_map. cbn [nth].
    rewrite (map_ext _ (fun j => w (S from + j)%nat (nth j v false))) by (intros j; f_equal; lia).
    rewrite (IH li (S from)); [|lia|].
    2:{ intros j Hj. destruct (H (S j)) as (A & B & E); [cbn; lia|]. cbn [nth] in E. replace (S from + j)%nat with (from + S j)%nat by lia. auto. }
    destruct (H 0) as (A & B & E); [cbn; lia|]. rewrite Nat.add_0_r in *. cbn [nth] in E. unfold scale. cbn [length seq map fold_right]. fold (scale w (S from) (length li)).
    unfold corr. cbn [combine map]. rewrite Rsum_cons. fold (corr v li). rewrite Rmult_plus_distr_l, exp_plus.
    enough (w from b = sqrt (w from false * w from true) * exp (1 / 2 * (if b then - x else x)))%R as -> by ring.
    set (p := w from false) in *. set (q := w from true) in *.
    assert (SE : forall r, (0 < r)%R -> exp (1 / 2 * ln r) = sqrt r).
    { intros r Hr. pose proof (sqrt_lt_R0 r Hr) as P. assert (E2 : ln r = (ln (sqrt r) + ln (sqrt r))%R) by (rewrite <- ln_mult, sqrt_sqrt by lra; reflexivity).
      rewrite E2. replace (1 / 2 * (ln (sqrt r) + ln (sqrt r)))%R with (ln (sqrt r)) by lra. apply exp_ln, P. }
    assert (Pq : (0 < p / q)%R) by (apply Rdiv_lt_0_compat; auto).
    assert (Pq' : (0 < q / p)%R) by (apply Rdiv_lt_0_compat; auto).
    destruct b.
    + replace (- x)%R with (ln (q / p)). 2:{ rewrite E. rewrite <- ln_Rinv by auto. f_equal. field. lra. }
      rewrite SE, <- sqrt_mult by (auto; try lra; left; apply Rmult_lt_0_compat; auto). replace (p * q * (q / p))%R with (q * q)%R by (field; lra). rewrite sqrt_square by lra; reflexivity.
    + rewrite E, SE, <- sqrt_mult by (auto; try lra; left; apply Rmult_lt_0_compat; auto). replace (p * q * (p / q))%R with (p * p)%R by (field; lra). rewrite sqrt_square by lra; reflexivity.
Qed.
Lemma likelihood_spec w v li : llrs w li -> length v = length li -> likelihood w v = (scale w 0 (length li) * exp (1 / 2 * corr v li))%R.
Proof. intros H L. unfold likelihood. apply (likelihood_corr w v li 0); auto. Qed.
Lemma scale_pos w (li : list R) from : (forall j, j < length li -> (0 < w (from + j)%nat false)%R /\ (0 < w (from + j)%nat true)%R) -> (0 < scale w from (length li))%R.
Proof.
  revert from; induction li as [|x li IH]; intros from H; unfold scale; cbn [length seq map fold_right]; [lra|]. apply Rmult_lt_0_compat.
  - destruct (H 0) as [A B]; [cbn; lia|]. rewrite Nat.add_0_r in *. apply sqrt_lt_R0, Rmult_lt_0_compat; auto.
  - apply IH. intros j Hj. replace (S from + j)%nat with (from + S j)%nat by lia. apply H. cbn. lia.
Qed.
Lemma likelihood_pos w v li : llrs w li -> length v = length li -> (0 < likelihood w v)%R.
Proof.
  intros H L. rewrite (likelihood_spec w v li) by auto. apply Rmult_lt_0_compat; [|apply exp_pos]. apply scale_pos. intros j Hj. destruct (H j Hj) as (A & B & _). auto.
Qed.
Lemma bit_likelihood_pos w li enc K i b : llrs w li -> i < K -> (forall u, length u = K -> length (enc u) = length li) -> (0 < bit_likelihood w enc K i b)%R.
Proof.
  intros H Hi E. unfold bit_likelihood. apply Rsum_pos.
  - assert (I : In (repeat b K) (filter (fun u => Bool.eqb (nth i u false) b) (all_words K))).
    { apply filter_In. split; [rewrite all_words_eq; apply in_words, repeat_length|]. rewrite (nth_indep _ false b) by (rewrite repeat_length; auto). rewrite nth_repeat. apply eqb_reflx. }
    intros N. rewrite N in I. destruct I.
  - intros u I. apply filter_In in I as [I _]. rewrite all_words_eq in I. apply in_words in I. apply (likelihood_pos w _ li); auto.
Qed.

Section F.
Context (c : conv) (OK : conv_ok c).
Local Notation d := (cv_deg c).
Local Notation k := (cv_k c).
Local Notation n := (cv_n c).
Local Notation mu := (cv_mem c).
Local Notation M := (conv_fsm c).
Context (INJ : forall s u u', length s = d -> length u = k -> length u' = k -> conv_next c s u = conv_next c s u' -> u = u').

(* assembling the rows *)
Lemma assemble (rows : list (option (list R))) f : (forall t, t < length rows -> exists p, nth t rows None = Some p /\ length (marginalize_row (matrix (NaturalLabeling k)) k p) = k /\
     forall j, j < k -> nth j (marginalize_row (matrix (NaturalLabeling k)) k p) NaN = f t j) ->
  let out := concat (map (fun row => match row with Some p => marginalize_row (matrix (NaturalLabeling k)) k p | None => repeat NaN k end) rows) in
  length out = length rows * k /\ forall t j, t < length rows -> j < k -> nth (t * k + j) out NaN = f t j.
Proof.
  intros H out. set (G := fun row : option (list R) => match row with Some p => marginalize_row (matrix (NaturalLabeling k)) k p | None => repeat NaN k end) in *.
  assert (FG : Forall (fun l => length l = k) (map G rows)).
  { apply Forall_forall. intros l I. apply in_map_iff in I as (r & <- & I). apply (In_nth _ _ None) in I as (t & Ht & <-). destruct (H t Ht) as (p & -> & L & _). exact L. }
  split.
  - unfold out. rewrite <- (map_length G rows). clear -FG. induction FG; cbn [concat length]; auto. rewrite app_length. lia.
  - intros t j Ht Hj. unfold out. rewrite (concat_nth_gen NaN _ k) by (auto; rewrite map_length; auto).
    rewrite (nth_indep _ [] (G None)) by (rewrite map_length; auto). rewrite map_nth. destruct (H t Ht) as (p & -> & _ & E). apply E, Hj.
Qed.

Lemma Wt_likelihood final li L K i b w (enc : vec -> vec) a : (0 < a)%R -> llrs w li -> 
  (forall u, length u = K -> length (enc u) = length li) ->
  Wt c final li L i b = (a * Rsum (map (fun u => if Bool.eqb (nth i u false) b then exp (1 / 2 * corr (enc u) li) else 0) (words K)))%R ->
  Wt c final li L i b = (a / scale w 0 (length li) * bit_likelihood w enc K i b)%R.
Proof.
  intros Pa H E ->. unfold bit_likelihood. rewrite (all_words_eq K). rewrite (Rsum_filter (fun u => likelihood w (enc u))) . unfold Rdiv. rewrite (Rmult_assoc a). f_equal.
  assert (P : (0 < scale w 0 (length li))%R) by (apply scale_pos; intros j Hj; destruct (H j Hj) as (A & B & _); auto).
  rewrite <- Rsum_scal. apply Rsum_ext. intros u I. apply in_words in I. destruct (Bool.eqb _ _); [|lra]. rewrite (likelihood_spec w _ li) by auto. unfold Rdiv. field. lra.
Qed.

Lemma direct_soft h li w : length li = h * n -> 0 < h -> llrs w li ->
  exists out, bcjr_soft c DirectTruncation li = Some out /\ length out = h * k /\
  forall t j, t < h -> j < k -> nth (t * k + j) out NaN =
    Fin (ln (bit_likelihood w (terminated_encode c h DirectTruncation) (h * k) (t * k + (k - 1 - j)) false /
             bit_likelihood w (terminated_encode c h DirectTruncation) (h * k) (t * k + (k - 1 - j)) true)).
Proof.
  intros Ll Hh HL. set (enc := terminated_encode c h DirectTruncation). set (final := uniform_dist (num_states M)).
  assert (LE : forall u, length u = h * k -> length (enc u) = length li) by (intros u Lu; unfold enc; rewrite encode_length by (cbn; auto); cbn; auto).
  assert (PM : (0 < / INR (2 ^ d))%R) by (apply Rinv_0_lt_compat, lt_0_INR, pow2_pos).
  assert (NF : forall s, s < num_states M -> nth s final 0%R = (/ INR (2 ^ d))%R).
  { intros s Hs. unfold final, uniform_dist. rewrite fsm_num_states in *. rewrite (nth_indep _ 0%R (/ INR (2 ^ d))%R) by (rewrite repeat_length; auto). apply nth_repeat. }
  assert (PS : (0 < scale w 0 (length li))%R) by (apply scale_pos; intros j Hj; destruct (HL j Hj) as (A & B & _); auto).
  assert (WL : forall i b, Wt c final li h i b = (/ INR (2 ^ d) / scale w 0 (length li) * bit_likelihood w enc (h * k) i b)%R).
  { intros i b. apply Wt_likelihood; auto. unfold Wt. rewrite <- Rsum_scal. apply Rsum_ext. intros u I. apply in_words in I. destruct (Bool.eqb _ _); [|lra].
    rewrite NF. 2:{ rewrite fsm_num_states. unfold fin. rewrite <- (run_state_length c OK (blk c h u) (zeros d) (zeros_length d)) at 2. apply bitsn_bound. }
    rewrite Rmult_comm. f_equal. f_equal. f_equal. f_equal. unfold outs, enc. destruct (blk_spec c h u I) as (Cu & Lu & Bu). rewrite <- Cu at 2. symmetry. apply ConvViterbi_Proof.enc_direct; auto. }
  assert (PB : forall i b, i < h * k -> (0 < bit_likelihood w enc (h * k) i b)%R) by (intros i b Hi; apply (bit_likelihood_pos w li); auto).
  unfold bcjr_soft. cbn [bcjr_distributions bcjr_post_process]. fold final.
  destruct (rows_spec c OK INJ final li h Ll Hh) as [Lr RS].
  - unfold final, uniform_dist. apply repeat_length.
  - intros s Hs. rewrite NF by auto. lra.
  - exists 0, false. rewrite WL. apply Rmult_lt_0_compat; [apply Rdiv_lt_0_compat; auto|]. apply PB. destruct OK; nia.
  - eexists. split; [reflexivity|].
    destruct (assemble (forward_backward M (bcjr_metric n) (reshape n li) (repeat (uniform_dist (num_input_symbols M)) (length (reshape n li))) (unit_dist (num_states M)) final) (fun t j => Fin (ln (Wt c final li h (t * k + (k - 1 - j)) false / Wt c final li h (t * k + (k - 1 - j)) true)))) as [A B].
    { rewrite Lr. intros t Ht. apply RS; auto. intros j b Hj. rewrite WL. apply Rmult_lt_0_compat; [apply Rdiv_lt_0_compat; auto|]. apply PB. nia. }
    rewrite Lr in A, B. split; [exact A|]. intros t j Ht Hj. rewrite B by auto. f_equal. f_equal. rewrite !WL.
    assert (t * k + (k - 1 - j) < h * k) by nia. pose proof (PB _ false H). pose proof (PB _ true H). field. repeat split; try lra. apply not_0_INR. pose proof (pow2_pos d). lia.
Qed.

Context (REACH : forall h s, reachable c (h + mu) s -> reachable c mu s).
Context (UNIQ : forall us us' s, blocks k us -> blocks k us' -> length us = mu -> length us' = mu -> length s = d ->
  snd (conv_run c us s) = snd (conv_run c us' s) -> us = us').

Lemma zero_path h u : 0 < h -> 0 < mu -> length u = h * k ->
  let w := u ++ tail_of c h u in
  length w = (h + mu) * k /\ fin c (h + mu) w = zeros d /\ outs c (h + mu) w = terminated_encode c h ZeroTermination u.
Proof.
  intros Hh Hm Lu w. destruct (zero_tail c OK h u Hh Hm Lu (REACH h)) as (Lt & Er & Zr). fold w in Er, Zr.
  assert (Lw : length w = (h + mu) * k) by (unfold w; rewrite app_length; lia). split; auto.
  destruct (blk_spec c (h + mu) w Lw) as (Cw & Lb & Bb). unfold fin, outs. rewrite (reach_spec c OK _ Bb), Cw, Lb. split; auto.
  unfold terminated_encode. rewrite Er. rewrite <- Cw at 2. rewrite (encode_with_state_blocks c OK) by (auto; apply zeros_length). reflexivity.
Qed.
Lemma zero_paths h : 0 < h -> 0 < mu -> forall w, length w = (h + mu) * k -> fin c (h + mu) w = zeros d -> exists u, length u = h * k /\ w = u ++ tail_of c h u.
Proof.
  intros Hh Hm w Lw Z. exists (firstn (h * k) w). assert (Lu : length (firstn (h * k) w) = h * k) by (rewrite firstn_length; nia). split; auto.
  destruct (zero_path h _ Hh Hm Lu) as (Lw' & Z' & _). set (w' := firstn (h * k) w ++ tail_of c h (firstn (h * k) w)) in *.
  destruct (blk_spec c (h + mu) w Lw) as (Cw & Lb & Bb). destruct (blk_spec c (h + mu) w' Lw') as (Cw' & Lb' & Bb').
  set (us := blk c (h + mu) w) in *. set (us' := blk c (h + mu) w') in *. unfold fin in Z, Z'. fold us in Z. fold us' in Z'.
  assert (Sp : forall a : list vec, blocks k a -> blocks k (firstn h a) /\ blocks k (skipn h a)).
  { intros a Ba. rewrite <- (firstn_skipn h a) in Ba. apply Forall_app in Ba. auto. }
  assert (Fc : forall a : list vec, blocks k a -> length a = h + mu -> concat (firstn h a) = firstn (h * k) (concat a)).
  { intros a Ba La. destruct (Sp a Ba) as [B1 _]. rewrite <- (firstn_skipn h a) at 2. rewrite concat_app. symmetry.
    replace (h * k) with (length (concat (firstn h a))); [apply firstn_app_exact|]. rewrite (blocks_concat_length k _ B1), firstn_length. f_equal. lia. }
  assert (E1 : firstn h us = firstn h us').
  { apply (concat_blocks_inj k); try (apply Sp; auto); [rewrite !firstn_length; lia|]. rewrite !Fc by auto. rewrite Cw, Cw'. unfold w'. rewrite <- Lu at 2. rewrite firstn_app_exact. reflexivity. }
  rewrite <- Cw, <- Cw'. f_equal. rewrite <- (firstn_skipn h us), <- (firstn_skipn h us'), <- E1. f_equal.
  apply (UNIQ _ _ (snd (conv_run c (firstn h us) (zeros d)))); try (apply Sp; auto); try (rewrite skipn_length; lia); [apply run_state_length; auto; apply zeros_length|].
  rewrite <- (firstn_skipn h us), run_app in Z. rewrite <- (firstn_skipn h us'), <- E1, run_app in Z'. cbn [snd] in Z, Z'. congruence.
Qed.

Lemma zero_soft h li w : length li = (h + mu) * n -> 0 < h -> 0 < mu -> llrs w li ->
  exists out, bcjr_soft c ZeroTermination li = Some out /\ length out = h * k /\
  forall t j, t < h -> j < k -> nth (t * k + j) out NaN =
    Fin (ln (bit_likelihood w (terminated_encode c h ZeroTermination) (h * k) (t * k + (k - 1 - j)) false /
             bit_likelihood w (terminated_encode c h ZeroTermination) (h * k) (t * k + (k - 1 - j)) true)).
Proof.
  intros Ll Hh Hm HL. set (enc := terminated_encode c h ZeroTermination). set (final := unit_dist (num_states M)).
  assert (NF : forall s, s < num_states M -> nth s final 0%R = if s =? 0 then 1%R else 0%R) by (intros s Hs; unfold final, unit_dist; rewrite nth_map_seq by auto; reflexivity).
  assert (LE : forall u, length u = h * k -> length (enc u) = length li).
  { intros u Lu. destruct (zero_path h u Hh Hm Lu) as (Lw & _ & Eo). unfold enc. rewrite <- Eo. unfold outs. destruct (blk_spec c (h + mu) _ Lw) as (_ & Lb & Bb).
    rewrite (blocks_concat_length n) by (apply run_blocks; auto). rewrite run_length, Lb. auto. }
  assert (PS : (0 < scale w 0 (length li))%R) by (apply scale_pos; intros j Hj; destruct (HL j Hj) as (A & B & _); auto).
  set (nz := fun x : vec => bitsn (fin c (h + mu) x) =? 0).
  assert (PERM : Permutation (filter nz (words ((h + mu) * k))) (map (fun u => u ++ tail_of c h u) (words (h * k)))).
  { apply NoDup_Permutation.
    - apply NoDup_filter, words_NoDup.
    - apply NoDup_map_inj_in; [|apply words_NoDup]. intros x y Ix Iy E. apply in_words in Ix, Iy. apply app_inj_len in E as [E _]; congruence.
    - intros x. rewrite filter_In, in_words, in_map_iff. unfold nz. rewrite Nat.eqb_eq. split.
      + intros [Lx Z]. rewrite <- (FreeDist_Proof.bitsn_zeros d) in Z. apply FreeDist_Proof.bitsn_inj in Z; [|rewrite zeros_length; apply run_state_length; auto; apply zeros_length].
        destruct (zero_paths h Hh Hm x Lx Z) as (u & Lu & ->). exists u. split; auto. apply in_words; auto.
      + intros (u & <- & I). apply in_words in I. destruct (zero_path h u Hh Hm I) as (Lw & Z & _). split; auto. rewrite Z. apply FreeDist_Proof.bitsn_zeros. }
  assert (WL : forall i b, i < h * k -> Wt c final li (h + mu) i b = (1 / scale w 0 (length li) * bit_likelihood w enc (h * k) i b)%R).
  { intros i b Hi. apply Wt_likelihood; auto; [lra|]. unfold Wt. rewrite Rmult_1_l.
    transitivity (Rsum (map (fun x => if nz x then (if Bool.eqb (nth i x false) b then exp (1 / 2 * corr (outs c (h + mu) x) li) else 0)%R else 0%R) (words ((h + mu) * k)))).
    - apply Rsum_ext. intros x _. rewrite NF. 2:{ rewrite fsm_num_states. unfold fin. rewrite <- (run_state_length c OK (blk c (h + mu) x) (zeros d) (zeros_length d)) at 2. apply bitsn_bound. }
      unfold nz. destruct (Bool.eqb _ _), (bitsn _ =? 0); lra.
    - rewrite <- Rsum_filter, (Rsum_perm _ _ (Permutation_map _ PERM)), map_map. apply Rsum_ext. intros u I. apply in_words in I.
      destruct (zero_path h u Hh Hm I) as (_ & _ & ->). rewrite app_nth1 by lia. reflexivity. }
  assert (PB : forall i b, i < h * k -> (0 < bit_likelihood w enc (h * k) i b)%R) by (intros i b Hi; apply (bit_likelihood_pos w li); auto).
  assert (PW : forall i b, i < h * k -> (0 < Wt c final li (h + mu) i b)%R).
  { intros i b Hi. rewrite WL by auto. apply Rmult_lt_0_compat; auto. apply Rdiv_lt_0_compat; auto. lra. }
  unfold bcjr_soft. cbn [bcjr_distributions bcjr_post_process]. fold final.
  destruct (rows_spec c OK INJ final li (h + mu) Ll ltac:(lia)) as [Lr RS].
  - unfold final, unit_dist. rewrite map_length, seq_length. reflexivity.
  - intros s Hs. rewrite NF by auto. destruct (s =? 0); lra.
  - exists 0, false. apply PW. destruct OK; nia.
  - eexists. split; [reflexivity|]. destruct (Nat.eqb_spec mu 0); [lia|]. unfold final at 1. set (rows := forward_backward _ _ _ _ _ _) in *.
    assert (Lf : length (firstn (length rows - mu) rows) = h) by (rewrite firstn_length; lia).
    destruct (assemble (firstn (length rows - mu) rows) (fun t j => Fin (ln (Wt c final li (h + mu) (t * k + (k - 1 - j)) false / Wt c final li (h + mu) (t * k + (k - 1 - j)) true)))) as [A B].
    { rewrite Lf. intros t Ht. destruct (RS t ltac:(lia)) as (p & Ep & Q); [intros j b Hj; apply PW; nia|]. exists p. split; auto. rewrite Lr.
      replace (h + mu - mu) with h by lia. rewrite <- Ep. rewrite <- (firstn_skipn h rows) at 2. rewrite app_nth1; auto. rewrite firstn_length; lia. }
    rewrite Lf in A, B. split; [exact A|]. intros t j Ht Hj. rewrite B by auto. f_equal. f_equal.
    assert (t * k + (k - 1 - j) < h * k) by nia. rewrite !WL by auto. pose proof (PB _ false H). pose proof (PB _ true H). field. repeat split; lra.
Qed.
End F.
