(** Wagner decoding of binary64 values: they are rational numbers, and the decoder only compares them. *)
Set Warnings "-ambiguous-paths".
From Coq Require Import Reals Lra QArith Qabs Qreals Qround.
From Flocq Require Import Core.
From Verif Require Import Common Vec_Model Linear_Spec Code_Spec LinAlg_Model BlockCode_Model ReedMuller_Model Wagner_Model SC_Model Float_Model FloatViterbi_Spec FloatSoft_Model FloatSoft_Proof.
Local Open Scope nat_scope.

Lemma binary64_rational x : is_binary64 x -> exists q : Q, x = Q2R q.
Proof.
  intros H. unfold is_binary64, generic_format, F2R in H. cbn [Fnum Fexp] in H. set (m := Ztrunc _) in H. set (e := cexp _ _ x) in H. rewrite H.
  destruct (Z.le_gt_cases 0 e) as [E|E].
  - exists (inject_Z (m * 2 ^ e)). rewrite <- (IZR_Zpower radix2) by exact E. rewrite <- mult_IZR. unfold Q2R, inject_Z. cbn [Qnum Qden]. change (Zpower radix2 e) with (2 ^ e)%Z. field.
  - exists (inject_Z m * / inject_Z (2 ^ (- e)))%Q.
    assert (P : (0 < 2 ^ (- e))%Z) by (apply Z.pow_pos_nonneg; lia).
    rewrite Q2R_mult, Q2R_inv; [|intros Q; unfold Qeq, inject_Z in Q; cbn [Qnum Qden] in Q; lia].
    replace (bpow radix2 e) with (/ IZR (2 ^ (- e)))%R.
    + unfold Q2R, inject_Z. cbn [Qnum Qden]. field. apply not_0_IZR. lia.
    + replace e with (- - e)%Z at 2 by lia. rewrite bpow_opp. f_equal. rewrite <- (IZR_Zpower radix2) by lia. reflexivity.
Qed.
Lemma rational_list r : Forall is_binary64 r -> exists q, r = map Q2R q.
Proof.
  induction 1 as [|x r H F (q & IH)]; [exists []; reflexivity|]. destruct (binary64_rational x H) as (p & ->). exists (p :: q). cbn [map]. congruence.
Qed.
Lemma neg_Q2R q : neg (Q2R q) = Qneg q.
Proof.
  unfold neg, Qneg. destruct (Rlt_dec (Q2R q) 0) as [L|L]; destruct (Qle_bool 0 q) eqn:E; auto.
  - apply Qle_bool_iff, Qle_Rle in E. rewrite RMicromega.Q2R_0 in E. lra.
  - exfalso. apply L. rewrite <- RMicromega.Q2R_0. apply Qlt_Rlt. apply Qnot_le_lt. intros G. apply Qle_bool_iff in G. congruence.
Qed.
Lemma abs_Q2R q : Rabs (Q2R q) = Q2R (Qabs q).
Proof.
  destruct (Qlt_le_dec q 0) as [L|L].
  - rewrite (Qeq_eqR _ _ (Qabs_neg q (Qlt_le_weak _ _ L))), Q2R_opp. apply Rabs_left. rewrite <- RMicromega.Q2R_0. apply Qlt_Rlt, L.
  - rewrite (Qeq_eqR _ _ (Qabs_pos q L)). apply Rabs_right, Rle_ge. rewrite <- RMicromega.Q2R_0. apply Qle_Rle, L.
Qed.
Lemma leR_Q2R p q : leR (Q2R p) (Q2R q) = Qle_bool p q.
Proof.
  unfold leR. destruct (Rle_dec _ _) as [L|L]; destruct (Qle_bool p q) eqn:E; auto.
  - apply Rle_Qle, Qle_bool_iff in L. congruence.
  - apply Qle_bool_iff, Qle_Rle in E. contradiction.
Qed.
Lemma argmin_map {A B} (le : A -> A -> bool) (le' : B -> B -> bool) (f : A -> B) : (forall x y, le' (f x) (f y) = le x y) -> forall l, argmin_by le' (map f l) = argmin_by le l.
Proof.
  intros E. induction l as [|x l IH]; [reflexivity|]. cbn [argmin_by map]. destruct l as [|y l]; [reflexivity|]. rewrite IH. cbn [map]. 
  change (f y :: map f l) with (map f (y :: l)). rewrite map_nth, E. reflexivity.
Qed.
Lemma wagner_Q2R C q : float_wagner C (map Q2R q) = wagner_decode C q.
Proof.
  unfold float_wagner, wagner_decode. rewrite !map_map. rewrite (map_ext _ Qneg) by apply neg_Q2R.
  rewrite (map_ext (fun x => Rabs (Q2R x)) (fun x => Q2R (Qabs x))) by apply abs_Q2R. rewrite <- (map_map Qabs Q2R).
  rewrite (argmin_map Qle_bool leR Q2R leR_Q2R). reflexivity.
Qed.
Lemma correlation_Q2R q : forall c, real_correlation (map Q2R q) c = Q2R (correlation q c).
Proof.
  unfold real_correlation, total. induction q as [|x q IH]; intros [|b c]; cbn [combine map fold_right correlation]; try (symmetry; apply RMicromega.Q2R_0).
  rewrite IH, Q2R_plus, Q2R_mult. destruct b.
  - replace (Q2R (-1)) with (-1)%R by (unfold Q2R; cbn; lra). lra.
  - replace (Q2R 1) with 1%R by (unfold Q2R; cbn; lra). lra.
Qed.
