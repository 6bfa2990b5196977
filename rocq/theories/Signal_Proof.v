From Verif Require Import Common Signal_Model.
Local Open Scope nat_scope.
Section S.
Context {A : Type} (d : A).
Lemma set_nth_length (l : list A) : forall i a, length (set_nth l i a) = length l.
Proof. induction l; intros [|i] x; cbn; auto. Qed.
Lemma nth_set_nth (l : list A) : forall i a j, i < length l -> nth j (set_nth l i a) d = if j =? i then a else nth j l d.
Proof. induction l as [|x l IH]; intros [|i] a [|j] H; cbn in *; try lia; auto. apply IH. lia. Qed.
Lemma write_length input : forall (out : list A) pos f, length (write_strided out pos f input) = length out.
Proof. induction input as [|a input IH]; intros; cbn; auto. rewrite IH. apply set_nth_length. Qed.
Lemma nth_write input : forall (out : list A) pos f j, 0 < f -> (forall k, k < length input -> pos + k * f < length out) ->
  nth j (write_strided out pos f input) d =
  if (pos <=? j) && ((j - pos) mod f =? 0) && ((j - pos) / f <? length input) then nth ((j - pos) / f) input d else nth j out d.
Proof.
  induction input as [|a input IH]; intros out pos f j Hf Hb.
  - cbn. now rewrite andb_false_r.
  - cbn [write_strided]. rewrite IH; auto.
    2:{ intros k Hk. rewrite set_nth_length. specialize (Hb (S k)). cbn [length] in Hb. lia. }
    assert (H0 : pos < length out) by (specialize (Hb 0); cbn [length] in Hb; lia). rewrite nth_set_nth by auto.
    destruct (Nat.leb_spec (pos + f) j) as [H|H].
    + assert (E : (j - pos) = (j - (pos + f)) + 1 * f) by lia. destruct (Nat.leb_spec pos j); [|lia].
      assert (Em : (j - pos) mod f = (j - (pos + f)) mod f) by (rewrite E; apply Nat.mod_add; lia). assert (Ed : (j - pos) / f = S ((j - (pos + f)) / f)) by (rewrite E, Nat.div_add by lia; lia).
      rewrite Em, Ed. cbn [andb nth length]. destruct (Nat.eqb_spec j pos); [lia|]. reflexivity.
    + cbn [andb]. destruct (Nat.eqb_spec j pos) as [->|Hne].
      * rewrite Nat.leb_refl, Nat.sub_diag, Nat.mod_0_l, Nat.div_0_l by lia. reflexivity.
      * destruct (Nat.leb_spec pos j); auto. cbn [andb]. rewrite Nat.mod_small by lia. destruct (Nat.eqb_spec (j - pos) 0); [lia|]. reflexivity.
Qed.
Lemma slots_eq n f o : 0 < f -> o < f -> (n * f - o + f - 1) / f = n.
Proof.
  intros Hf Ho. destruct n as [|n]; [cbn; apply Nat.div_small; lia|]. symmetry. apply (Nat.div_unique _ f (S n) (f - 1 - o)); [lia|]. nia.
Qed.
Lemma slots_eq' n f o : 0 < f -> forall k, k < (n - o + f - 1) / f <-> o + k * f < n.
Proof.
  intros Hf k. split; intros H.
  - pose proof (Nat.mul_div_le (n - o + f - 1) f ltac:(lia)). assert (f * S k <= f * ((n - o + f - 1) / f)) by (apply Nat.mul_le_mono_l; lia). nia.
  - assert (S k <= (n - o + f - 1) / f); [|lia]. apply Nat.div_le_lower_bound; [lia|]. nia.
Qed.
End S.
Lemma range_inv f o : (0 <? f)%Z = true -> (0 <=? o)%Z && (o <? f)%Z = true -> 0 < Z.to_nat f /\ Z.to_nat o < Z.to_nat f.
Proof. intros H1 H2. apply andb_true_iff in H2 as [H2 H3]. apply Z.ltb_lt in H1, H3. apply Z.leb_le in H2. lia. Qed.
Lemma expand_inv {A} (zero : A) x f o y : sampling_rate_expand zero x f o = Some y ->
  0 < Z.to_nat f /\ Z.to_nat o < Z.to_nat f /\ (0 <= o < f)%Z /\ y = write_strided (repeat zero (length x * Z.to_nat f)) (Z.to_nat o) (Z.to_nat f) x.
Proof.
  unfold sampling_rate_expand. destruct (0 <? f)%Z eqn:E1; cbn [negb]; [|discriminate]. destruct ((0 <=? o)%Z && (o <? f)%Z) eqn:E2; cbn [negb]; [|discriminate].
  destruct (negb _); [discriminate|]. intros H; inversion H. destruct (range_inv _ _ E1 E2). apply andb_true_iff in E2 as [E2 E3]. apply Z.leb_le in E2. apply Z.ltb_lt in E3. auto.
Qed.
Lemma expand_some {A} (zero : A) x f o : (0 <= o < f)%Z -> exists y, sampling_rate_expand zero x f o = Some y.
Proof.
  intros H. unfold sampling_rate_expand. destruct (Z.ltb_spec 0 f); [|lia]. destruct (Z.leb_spec 0 o); [|lia]. destruct (Z.ltb_spec o f); [|lia]. cbn [negb andb].
  rewrite slots_eq by lia. rewrite Nat.eqb_refl. eexists; reflexivity.
Qed.
Lemma nth_repeat' {A} (a : A) n j : nth j (repeat a n) a = a.
Proof. revert j. induction n; intros [|j]; cbn; auto. Qed.
Lemma expand_nth {A} (zero : A) x f o y : sampling_rate_expand zero x f o = Some y ->
  length y = length x * Z.to_nat f /\
  forall k r, k < length x -> r < Z.to_nat f -> nth (k * Z.to_nat f + r) y zero = if r =? Z.to_nat o then nth k x zero else zero.
Proof.
  intros H. apply expand_inv in H as (Hf & Ho & _ & ->). set (F := Z.to_nat f) in *. set (O := Z.to_nat o) in *. split; [now rewrite write_length, repeat_length|].
  intros k r Hk Hr. rewrite nth_write; auto. 2:{ intros k' Hk'. rewrite repeat_length. nia. }
  rewrite nth_repeat'. destruct (Nat.eqb_spec r O) as [->|Hne].
  - destruct (Nat.leb_spec O (k * F + O)); [|lia]. replace (k * F + O - O) with (k * F) by lia. rewrite Nat.mod_mul, Nat.div_mul by lia. cbn [Nat.eqb andb]. destruct (Nat.ltb_spec k (length x)); [reflexivity|lia].
  - destruct (Nat.leb_spec O (k * F + r)); auto. cbn [andb]. destruct (Nat.eqb_spec ((k * F + r - O) mod F) 0) as [E|]; auto.
    exfalso. apply Nat.mod_divides in E as (q & E); [|lia]. assert (k * F + r = q * F + O) by lia. apply Hne.
    assert (k = q) by (destruct (Nat.lt_trichotomy k q) as [|[|]]; auto; nia). subst. lia.
Qed.
