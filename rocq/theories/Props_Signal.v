(* Sampling rate conversion: C59. *)
From Verif Require Import Common Signal_Model.
From Verif Require Signal_Proof.
Local Open Scope nat_scope.

(* accepted exactly for 0 <= offset < factor *)
Theorem C59_accepts : forall A (zero : A) x f o,
  (sampling_rate_expand zero x f o <> None <-> (0 <= o < f)%Z) /\ (sampling_rate_compress zero x f o <> None <-> (0 <= o < f)%Z).
Proof.
  intros A zero x f o. split; split.
  - intros H. destruct (sampling_rate_expand zero x f o) eqn:E; [|congruence]. now apply Signal_Proof.expand_inv in E.
  - intros H. destruct (Signal_Proof.expand_some zero x f o H) as (y & ->). discriminate.
  - unfold sampling_rate_compress. destruct (Z.ltb_spec 0 f); cbn [negb]; [|congruence]. destruct (Z.leb_spec 0 o), (Z.ltb_spec o f); cbn [negb andb]; try congruence. lia.
  - intros H. unfold sampling_rate_compress. destruct (Z.ltb_spec 0 f); [|lia]. destruct (Z.leb_spec 0 o); [|lia]. destruct (Z.ltb_spec o f); [|lia]. discriminate.
Qed.
(* the expanded signal: factor times as long, sample k at position k * factor + offset, zero elsewhere *)
Theorem C59_expand : forall A (zero : A) x f o y, sampling_rate_expand zero x f o = Some y ->
  length y = length x * Z.to_nat f /\
  forall k r, k < length x -> r < Z.to_nat f -> nth (k * Z.to_nat f + r) y zero = if r =? Z.to_nat o then nth k x zero else zero.
Proof. intros. eapply Signal_Proof.expand_nth; eauto. Qed.
(* the compressed signal: exactly the samples at offset, offset + factor, ... *)
Theorem C59_compress : forall A (zero : A) x f o y, sampling_rate_compress zero x f o = Some y ->
  forall k, (k < length y <-> Z.to_nat o + k * Z.to_nat f < length x) /\ (k < length y -> nth k y zero = nth (Z.to_nat o + k * Z.to_nat f) x zero).
Proof.
  intros A zero x f o y H k. unfold sampling_rate_compress in H. destruct (0 <? f)%Z eqn:E1; cbn [negb] in H; [|discriminate]. destruct ((0 <=? o)%Z && (o <? f)%Z) eqn:E2; cbn [negb] in H; [|discriminate].
  destruct (Signal_Proof.range_inv _ _ E1 E2) as [Hf Ho]. inversion H; subst y. unfold strided. rewrite map_length, seq_length. split; [now apply Signal_Proof.slots_eq'|].
  intros Hk. now rewrite nth_map_seq.
Qed.
Theorem C59_round_trip : forall A (zero : A) x f o, (0 <= o < f)%Z ->
  exists y, sampling_rate_expand zero x f o = Some y /\ sampling_rate_compress zero y f o = Some x.
Proof.
  intros A zero x f o H. destruct (Signal_Proof.expand_some zero x f o H) as (y & E). exists y. split; auto.
  destruct (C59_expand _ _ _ _ _ _ E) as [L N]. destruct (sampling_rate_compress zero y f o) as [z|] eqn:C.
  2:{ exfalso. apply (proj2 (proj2 (C59_accepts A zero y f o)) H C). }
  pose proof (C59_compress _ _ _ _ _ _ C) as P. assert (Lz : length z = length x).
  { assert (T : forall k, k < length z <-> k < length x). { intros k. rewrite (proj1 (P k)), L. split; intros Hk; nia. }
    destruct (Nat.lt_trichotomy (length z) (length x)) as [H1|[H1|H1]]; auto; apply T in H1; lia. }
  f_equal. apply (list_ext zero); auto. intros i Hi. rewrite (proj2 (P i)) by auto. rewrite Nat.add_comm, N by lia. now rewrite Nat.eqb_refl.
Qed.
(* expansion keeps any sum of a per-sample quantity that is 0 at 0, such as the energy *)
Theorem C59_energy : forall A (zero : A) (e : A -> Z) x f o y, e zero = 0%Z -> sampling_rate_expand zero x f o = Some y ->
  fold_right Z.add 0%Z (map e y) = fold_right Z.add 0%Z (map e x).
Proof.
  intros A zero e x f o y E0 H. pose proof (Signal_Proof.expand_inv _ _ _ _ _ H) as (Hf & Ho & Hr & _). destruct (C59_expand _ _ _ _ _ _ H) as [L N]. clear H.
  set (F := Z.to_nat f) in *. set (O := Z.to_nat o) in *. clearbody F O. clear f o Hr. revert y L N. induction x as [|a x IH]; intros y L N.
  - destruct y; cbn in *; [auto|lia].
  - assert (Ey : y = firstn F y ++ skipn F y) by (symmetry; apply firstn_skipn). assert (LF : length (firstn F y) = F) by (rewrite firstn_length; cbn [length] in L; nia).
    assert (fold_app : forall a b, fold_right Z.add 0%Z (a ++ b) = (fold_right Z.add 0%Z a + fold_right Z.add 0%Z b)%Z) by (induction a0; intros; cbn [app fold_right]; rewrite ?IHa0; lia).
    rewrite Ey, map_app, fold_app. rewrite (IH (skipn F y)).
    + cbn [map fold_right]. f_equal. assert (EF : firstn F y = repeat zero O ++ a :: repeat zero (F - 1 - O)).
      { apply (list_ext zero); [rewrite LF, app_length; cbn [length]; rewrite !repeat_length; lia|]. intros i Hi. rewrite LF in Hi.
        assert (Ei : nth i (firstn F y) zero = nth (0 * F + i) y zero) by (rewrite Ey at 2; cbn [Nat.mul Nat.add]; rewrite app_nth1 by lia; reflexivity).
        rewrite Ei, N by (cbn [length]; lia). destruct (Nat.eqb_spec i O) as [->|Ne].
        - rewrite app_nth2; rewrite repeat_length; [|lia]. now rewrite Nat.sub_diag.
        - destruct (Nat.lt_ge_cases i O); [rewrite app_nth1 by (now rewrite repeat_length); symmetry; apply Signal_Proof.nth_repeat'|].
          rewrite app_nth2; rewrite repeat_length; [|lia]. destruct (i - O) eqn:Eio; [lia|]. cbn [nth]. symmetry; apply Signal_Proof.nth_repeat'. }
      assert (Z0 : forall n, fold_right Z.add 0%Z (map e (repeat zero n)) = 0%Z) by (induction n; cbn [repeat map fold_right]; rewrite ?E0, ?IHn; auto).
      rewrite EF, map_app, fold_app. cbn [map fold_right]. rewrite !Z0. lia.
    + rewrite skipn_length. cbn [length] in L. lia.
    + intros k r Hk Hr. specialize (N (S k) r). cbn [length nth] in N. rewrite <- N by lia. rewrite Ey at 2. rewrite app_nth2 by (rewrite LF; nia). f_equal. rewrite LF. nia.
Qed.
Example C59_satisfiable : sampling_rate_expand 0%Z [111; 112; 113]%Z 4 1 = Some [0; 111; 0; 0; 0; 112; 0; 0; 0; 113; 0; 0]%Z /\
  sampling_rate_compress 0%Z [0; 111; 0; 0; 0; 112; 0; 0; 0; 113; 0; 0]%Z 4 1 = Some [111; 112; 113]%Z /\ sampling_rate_expand 0%Z [1]%Z 2 2 = None.
Proof. repeat split. Qed.
