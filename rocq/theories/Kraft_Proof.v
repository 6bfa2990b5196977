From Verif Require Import Common Prefix_Model Prefix_Proof Cover_Proof Canonical_Proof Parse_Proof Spec_Lossless.
From Coq Require Import QArith Qfield Lqa.
Local Open Scope nat_scope.

Lemma inject_pow_nz (b : N) l : (2 <= b)%N -> ~ (inject_Z (Z.of_N b ^ Z.of_nat l) == 0)%Q.
Proof.
  intros H E. change 0%Q with (inject_Z 0) in E. rewrite inject_Z_injective in E.
  assert (0 < Z.of_N b ^ Z.of_nat l)%Z by (apply Z.pow_pos_nonneg; lia). lia.
Qed.

Lemma kraft_scale b L ls : (2 <= b)%N -> Forall (fun l => l <= L) ls ->
  (kraft_sum b ls * inject_Z (Z.of_N b ^ Z.of_nat L) == inject_Z (Z.of_N (ksum b L ls)))%Q.
Proof.
  intros Hb. induction 1 as [|l ls Hl Hls IH]; [cbn; ring|].
  cbn [kraft_sum ksum fold_right]. fold (kraft_sum b ls). fold (ksum b L ls).
  rewrite N2Z.inj_add, inject_Z_plus, <- IH, N2Z.inj_pow.
  replace (Z.of_nat L) with (Z.of_nat l + Z.of_nat (L - l))%Z at 1 by lia.
  rewrite Z.pow_add_r by lia. rewrite inject_Z_mult.
  replace (Z.of_N (N.of_nat (L - l))) with (Z.of_nat (L - l)) by lia.
  pose proof (inject_pow_nz b l Hb) as NZ.
  rewrite Qmult_plus_distr_l. rewrite Qmult_assoc, (Qmult_comm (/ _)), Qmult_inv_r by exact NZ.
  rewrite <- inject_Z_mult, <- Z.pow_add_r by lia.
  replace (Z.of_nat l + Z.of_nat (L - l))%Z with (Z.of_nat L) by lia. ring.
Qed.

Lemma kraft_iff b L ls : (2 <= b)%N -> Forall (fun l => l <= L) ls ->
  (kraft_sum b ls <= 1)%Q <-> (ksum b L ls <= b ^ N.of_nat L)%N.
Proof.
  intros Hb Hl. pose proof (kraft_scale b L ls Hb Hl) as E.
  assert (P : (0 < inject_Z (Z.of_N b ^ Z.of_nat L))%Q).
  { change 0%Q with (inject_Z 0). rewrite <- Zlt_Qlt. apply Z.pow_pos_nonneg; lia. }
  rewrite <- (Qmult_le_r (kraft_sum b ls) 1 _ P). rewrite E, Qmult_1_l, <- Zle_Qle.
  rewrite N2Z.inj_le, N2Z.inj_pow. replace (Z.of_N (N.of_nat L)) with (Z.of_nat L) by lia. reflexivity.
Qed.

Lemma filter_pos_id ls : Forall (fun l => 0 < l) ls -> filter (fun x => Nat.ltb 0 x) ls = ls.
Proof. induction 1 as [|l ls H Hs IH]; cbn [filter]; auto. rewrite (proj2 (Nat.ltb_lt 0 l) H), IH. reflexivity. Qed.

Lemma canonical_kraft b ls : (2 <= b)%N -> ls <> [] -> Forall (fun l => 0 < l) ls ->
  (exists ws, canonical_code ls b = Some ws) <-> (kraft_sum b ls <= 1)%Q.
Proof.
  intros Hb NE Hp. rewrite canonical_kraft_iff, filter_pos_id by auto.
  rewrite (kraft_iff b (list_max ls)); auto; [reflexivity|]. apply list_max_le. lia.
Qed.

Lemma from_lengths_correct lengths src tgt k : (2 <= src)%N -> (2 <= tgt)%N -> 1 <= k ->
  N.of_nat (length lengths) = (src ^ N.of_nat k)%N -> Forall (fun l => 0 < l) lengths ->
  ((exists c, f2v_from_lengths lengths (Some src) tgt = Some c) <-> (kraft_sum tgt lengths <= 1)%Q) /\
  (forall c, f2v_from_lengths lengths (Some src) tgt = Some c ->
     map (@length N) (f2v_codewords c) = lengths /\ prefix_free_words (f2v_codewords c) /\
     f2v_is_prefix_free c = true /\ Forall (Forall (fun x => (x < tgt)%N)) (f2v_codewords c) /\
     map fst (f2v_map c) = tuples src k).
Proof.
  intros H1 H2 H3 H4 H5.
  assert (NE : lengths <> []).
  { intros ->. cbn in H4. symmetry in H4. apply N.pow_nonzero in H4; lia. }
  pose proof (from_lengths_spec lengths src tgt k H1 H2 H3 H4 H5) as S.
  pose proof (canonical_kraft tgt lengths H2 NE H5) as K.
  destruct (canonical_code lengths tgt) as [ws|] eqn:E.
  - destruct S as [S SL]. split.
    + rewrite <- K. split; intros _; eauto.
    + intros c Hc. rewrite S in Hc. inversion Hc; subst c. unfold f2v_is_prefix_free, f2v_codewords; cbn [f2v_map].
      fold (values (combine (tuples src k) ws)). rewrite values_combine by auto.
      fold (keys (combine (tuples src k) ws)). rewrite keys_combine by auto.
      pose proof (canonical_PF tgt H2 lengths ws E H5) as P.
      assert (EL : map wlen ws = lengths) by (apply (canonical_lengths tgt H2); auto).
      assert (NEw : Forall (fun w => w <> []) ws).
      { apply Forall_forall. intros w Hw ->. rewrite Forall_forall in H5.
        assert (0 < wlen []) as X; [|cbn in X; lia]. apply H5. rewrite <- EL. apply in_map; auto. }
      repeat split; auto.
      * intros i j a b Hij Ha Hb. exact (proj1 (PF_positions ws) P i j a b Hij Ha Hb).
      * apply is_prefix_free_PF. rewrite filter_non_empty_id; auto.
      * apply (canonical_range tgt H2 lengths); auto.
  - split.
    + rewrite S. rewrite <- K. split; intros [? ?]; discriminate.
    + rewrite S; discriminate.
Qed.
