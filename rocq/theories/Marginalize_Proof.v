From Coq Require Import Reals Lra.
From Verif Require Import Common Bits_Model Vec_Model FB_Model Labeling_Model Labeling_Spec Conv_Model BCJR_Model.
From Verif Require Import FB_Proof BCJR_Proof.
From Verif Require Conv_Proof Labeling_Proof.
Local Open Scope nat_scope.

Lemma masked_nonneg mat row j b : Forall (fun p => (0 <= p)%R) row -> (0 <= masked_sum mat row j b)%R.
Proof.
  intros F. unfold masked_sum. apply Rsum_nonneg. intros x I. apply in_map_iff in I as ([l p] & <- & I). apply in_combine_r in I. rewrite Forall_forall in F. specialize (F p I). destruct (Bool.eqb _ _); lra.
Qed.
Lemma masked_pos mat row j b m : label_table m mat -> length row = 2 ^ m -> j < m -> Forall (fun p => (0 < p)%R) row -> (0 < masked_sum mat row j b)%R.
Proof.
  intros T L Hj F. pose proof T as (Lm & FL & ND).
  assert (I : In (repeat b m) mat) by (apply (Labeling_Proof.table_complete m mat T), repeat_length).
  apply (In_nth _ _ []) in I as (x & Hx & Ex). rewrite masked_sum_seq by congruence.
  rewrite Forall_forall in F. assert (G : forall y, y < length row -> (0 < nth y row 0)%R) by (intros y Hy; apply F, nth_In; auto).
  rewrite <- Rsum_filter. apply Rsum_pos.
  - assert (I : In x (filter (fun a => Bool.eqb (nth j (nth a mat []) false) b) (seq 0 (length row)))).
    { apply filter_In. split; [apply in_seq; lia|]. rewrite Ex. rewrite (nth_indep _ false b) by (rewrite repeat_length; auto). rewrite nth_repeat. apply Bool.eqb_reflx. }
    intros N. rewrite N in I. destruct I.
  - intros y I. apply filter_In in I as [I _]. apply in_seq in I. apply G. lia.
Qed.

(* products *)
Definition outer (p q : list R) : list R := flat_map (fun a => map (Rmult a) q) p.
Lemma outer_length p q : length (outer p q) = length p * length q.
Proof. induction p; cbn [outer flat_map length]; auto. rewrite app_length, map_length. unfold outer in IHp. lia. Qed.
Lemma outer_pos p q : Forall (fun x => (0 < x)%R) p -> Forall (fun x => (0 < x)%R) q -> Forall (fun x => (0 < x)%R) (outer p q).
Proof.
  intros P Q. apply Forall_forall. intros x I. apply in_flat_map in I as (a & Ia & I). apply in_map_iff in I as (y & <- & I). rewrite Forall_forall in P, Q. apply Rmult_lt_0_compat; auto.
Qed.
Lemma combine_app {A B} (a a' : list A) (b b' : list B) : length a = length b -> combine (a ++ a') (b ++ b') = combine a b ++ combine a' b'.
Proof. revert b; induction a; intros [|y b] L; cbn in L; try lia; cbn [app combine]; auto. f_equal. apply IHa. lia. Qed.
Lemma masked_outer mat mat' p q m j b : length mat = length p -> length mat' = length q -> Forall (fun r => length r = m) mat ->
  masked_sum (flat_map (fun r => map (fun s => r ++ s) mat') mat) (outer p q) j b =
  if j <? m then (masked_sum mat p j b * Rsum q)%R else (Rsum p * masked_sum mat' q (j - m) b)%R.
Proof.
  intros L L' F. unfold masked_sum, outer.
  set (g := fun (f : list bool) (x : R) => (x * (if Bool.eqb (nth j f false) b then 1 else 0))%R).
  assert (In1 : forall r a, length r = m -> Rsum (map (fun '(label, x) => g label x) (combine (map (fun s => r ++ s) mat') (map (Rmult a) q))) =
     if j <? m then (a * (if Bool.eqb (nth j r false) b then 1 else 0) * Rsum q)%R else (a * Rsum (map (fun '(label, x) => (x * (if Bool.eqb (nth (j - m) label false) b then 1 else 0))%R) (combine mat' q)))%R).
  { intros r a Lr. clear L. revert q L'. induction mat' as [|s mat' IH]; intros [|y q] L'; cbn in L'; try lia; cbn [map combine].
    - rewrite !Rsum_nil. destruct (j <? m); lra.
    - rewrite !Rsum_cons, IH by lia. unfold g. destruct (Nat.ltb_spec j m).
      + rewrite app_nth1 by lia. lra.
      + rewrite app_nth2, Lr by lia. lra. }
  unfold g in In1. revert p L. induction F as [|r mat Lr F IH]; intros [|a p] L; cbn in L; try lia; cbn [flat_map map combine].
  - rewrite Rsum_nil. destruct (j <? m); lra.
  - rewrite combine_app, map_app, Rsum_app by (rewrite !map_length; auto). rewrite IH, In1 by (auto; lia). rewrite !Rsum_cons. destruct (j <? m); lra.
Qed.

Lemma ln_scale a b t : (0 < a)%R -> (0 < b)%R -> (0 < t)%R -> lsub (xlog (a * t)) (xlog (b * t)) = lsub (xlog a) (xlog b).
Proof.
  intros A B T. assert (Pa : (0 < a * t)%R) by (apply Rmult_lt_0_compat; auto). assert (Pb : (0 < b * t)%R) by (apply Rmult_lt_0_compat; auto). rewrite !xlog_pos by assumption. cbn [lsub]. rewrite !ln_mult by assumption. f_equal. lra.
Qed.
Lemma Rsum_pos_list l : l <> [] -> Forall (fun x => (0 < x)%R) l -> (0 < Rsum l)%R.
Proof. intros N F. rewrite <- (map_id l). apply Rsum_pos; auto. apply Forall_forall; auto. Qed.
Lemma row_outer m m' mat mat' p q : label_table m mat -> label_table m' mat' -> length p = 2 ^ m -> length q = 2 ^ m' ->
  Forall (fun x => (0 < x)%R) p -> Forall (fun x => (0 < x)%R) q ->
  marginalize_row (flat_map (fun r => map (fun s => r ++ s) mat') mat) (m + m') (outer p q) = marginalize_row mat m p ++ marginalize_row mat' m' q.
Proof.
  intros T T' Lp Lq Pp Pq. pose proof T as (Lm & FL & _). pose proof T' as (Lm' & FL' & _). unfold marginalize_row. rewrite seq_app, map_app, Nat.add_0_l.
  assert (N : forall k (l : list R), length l = 2 ^ k -> l <> []). { intros k l E ->. cbn in E. pose proof (Conv_Proof.pow2_pos k). lia. }
  pose proof (Rsum_pos_list p (N _ _ Lp) Pp). pose proof (Rsum_pos_list q (N _ _ Lq) Pq).
  f_equal.
  - apply map_ext_in. intros j I. apply in_seq in I. rewrite !(masked_outer _ _ _ _ m) by (auto; congruence). destruct (Nat.ltb_spec j m); [|lia].
    apply ln_scale; auto; apply (masked_pos mat p j _ m); auto; lia.
  - replace (seq m m') with (map (fun i => m + i) (seq 0 m')). 2:{ clear. revert m. induction m' as [|m' IH]; intros m; auto. rewrite !seq_S, map_app, IH. reflexivity. }
    rewrite map_map. apply map_ext_in. intros j I. apply in_seq in I. rewrite !(masked_outer _ _ _ _ m) by (auto; congruence). destruct (Nat.ltb_spec (m + j) m); [lia|].
    replace (m + j - m) with j by lia. rewrite !(Rmult_comm (Rsum p)). apply ln_scale; auto; apply (masked_pos mat' q j _ m'); auto; lia.
Qed.
Fixpoint outer_all (ps : list (list R)) : list R := match ps with [] => [1%R] | p :: ps => outer p (outer_all ps) end.
Lemma outer_all_length ms ps : Forall2 (fun m p => length p = 2 ^ m) ms ps -> length (outer_all ps) = 2 ^ fold_right Nat.add 0 ms.
Proof. induction 1; cbn [outer_all fold_right]; auto. rewrite outer_length, IHForall2, H, Nat.pow_add_r. reflexivity. Qed.
Lemma outer_all_pos ps : Forall (Forall (fun x => (0 < x)%R)) ps -> Forall (fun x => (0 < x)%R) (outer_all ps).
Proof. induction 1; cbn [outer_all]; [repeat constructor; lra|]. apply outer_pos; auto. Qed.
Lemma row_product ms mats ps : Forall2 label_table ms mats -> Forall2 (fun m p => length p = 2 ^ m) ms ps -> Forall (Forall (fun x => (0 < x)%R)) ps ->
  marginalize_row (product_rows mats) (fold_right Nat.add 0 ms) (outer_all ps) = concat (map (fun '(m, (mat, p)) => marginalize_row mat m p) (combine ms (combine mats ps))).
Proof.
  intros T. revert ps. induction T as [|m mat ms mats T1 T IH]; intros ps L P; inversion L; subst; [reflexivity|]. inversion P; subst.
  cbn [product_rows fold_right outer_all combine map concat]. rewrite <- IH by auto. apply row_outer; auto.
  - apply Labeling_Proof.product_rows_table; auto.
  - apply outer_all_length; auto.
  - apply outer_all_pos; auto.
Qed.
