(* Proofs about LempelZiv_Model. *)
From Verif Require Import Common Prefix_Model Canonical_Proof LempelZiv_Model.
Local Open Scope nat_scope.

Lemma word_eqb_true a b : word_eqb a b = true <-> a = b.
Proof. unfold word_eqb. destruct (list_eq_dec N.eq_dec a b); split; congruence. Qed.
Lemma word_eqb_rfl a : word_eqb a a = true.
Proof. apply word_eqb_true; reflexivity. Qed.

Lemma in_range_spec h s : in_range h s = true <-> Forall (fun x => (x < h)%N) s.
Proof.
  unfold in_range. rewrite forallb_forall, Forall_forall. split; intros H x Hx; specialize (H x Hx); lia.
Qed.

(* encoder dictionary: values are the positions *)
Definition edk (ks : list word) : enc_dict := combine ks (map N.of_nat (seq 0 (length ks))).

Lemma combine_app' {A B} (a1 a2 : list A) (b1 b2 : list B) : length a1 = length b1 ->
  combine (a1 ++ a2) (b1 ++ b2) = combine a1 b1 ++ combine a2 b2.
Proof. revert b1; induction a1 as [|x a1 IH]; intros [|y b1] H; cbn in *; try lia; auto. rewrite IH; auto. Qed.

Lemma edk_length ks : length (edk ks) = length ks.
Proof. unfold edk. rewrite combine_length, map_length, seq_length. lia. Qed.

Lemma edk_add w ks : ed_add w (edk ks) = edk (ks ++ [w]).
Proof.
  unfold ed_add. rewrite edk_length. unfold edk. rewrite app_length. cbn [length].
  rewrite seq_app, map_app, combine_app' by (rewrite map_length, seq_length; auto). reflexivity.
Qed.

Lemma ed_get_gen w ks s p : ed_get w (combine ks (map N.of_nat (seq s (length ks)))) = Some p ->
  exists i, p = N.of_nat (s + i) /\ nth_error ks i = Some w.
Proof.
  revert s; induction ks as [|k ks IH]; intros s H; cbn in H; [discriminate|].
  destruct (word_eqb w k) eqn:E.
  - apply word_eqb_true in E; subst. exists 0. split; [injection H as <-; f_equal; lia|reflexivity].
  - destruct (IH _ H) as [i [-> Hi]]. exists (S i). split; [f_equal; lia|exact Hi].
Qed.
Lemma ed_get_edk w ks p : ed_get w (edk ks) = Some p -> nth_error ks (N.to_nat p) = Some w.
Proof. intros H. apply ed_get_gen in H as [i [-> Hi]]. rewrite Nat2N.id. exact Hi. Qed.
Lemma ed_get_in w ks s : In w ks -> exists p, ed_get w (combine ks (map N.of_nat (seq s (length ks)))) = Some p.
Proof.
  revert s; induction ks as [|k ks IH]; intros s H; [destruct H|]. cbn.
  destruct (word_eqb w k) eqn:E; [eauto|]. destruct H as [->|H]; [rewrite word_eqb_rfl in E; discriminate|].
  apply IH; auto.
Qed.
Lemma edk_in w ks : In w ks -> exists p, ed_get w (edk ks) = Some p.
Proof. apply ed_get_in. Qed.
Lemma edk_some_in w ks p : ed_get w (edk ks) = Some p -> In w ks.
Proof. intros H. apply ed_get_edk in H. eapply nth_error_In; eauto. Qed.

Lemma nth_some_lt {A} (l : list A) i x : nth_error l i = Some x -> i < length l.
Proof. intros H. apply nth_error_Some. rewrite H; discriminate. Qed.

Section W.
Variables (width : N -> nat) (calY : N).
Hypothesis HY : (2 <= calY)%N.
Hypothesis HW : forall n, (1 <= n)%N -> (n <= calY ^ N.of_nat (width n))%N.

Lemma width_pos n : (2 <= n)%N -> 1 <= width n.
Proof. intros H. specialize (HW n ltac:(lia)). destruct (width n); [cbn in HW; lia|lia]. Qed.

Lemma pack_unpack n p : (p < n)%N -> symbols_to_integer (integer_to_symbols p calY (width n)) calY = p.
Proof. intros H. rewrite s2i_its by lia. apply N.mod_small. specialize (HW n ltac:(lia)). lia. Qed.

Lemma firstn_its p k rest : firstn k (integer_to_symbols p calY k ++ rest) = integer_to_symbols p calY k.
Proof. rewrite <- (its_length p calY k) at 1. apply firstn_app_exact. Qed.
Lemma skipn_its p k rest : skipn k (integer_to_symbols p calY k ++ rest) = rest.
Proof. rewrite <- (its_length p calY k) at 1. apply skipn_app_exact. Qed.

(* ---------- LZ78 *)
Variable calX : N.
Hypothesis HX : (2 <= calX)%N.

Inductive good78 : nat -> list token78 -> Prop :=
| g_nil i : good78 i []
| g_last i p : (1 <= p)%N -> (p <= N.of_nat i)%N -> good78 i [(p, (-1)%Z)]
| g_cons i p x ts : (p <= N.of_nat i)%N -> (x < calX)%N -> good78 (S i) ts -> good78 i ((p, Z.of_N x) :: ts).

Lemma lz78_scan_spec source : forall (ks : list word) (wd : word), nth_error ks 0 = Some ([] : word) -> In wd ks ->
  Forall (fun x => (x < calX)%N) source ->
  exists ts, lz78_scan (edk ks) wd source = Some ts /\ good78 (length ks - 1) ts /\
    lz78_unscan (map (map Z.of_N) ks) ts = Some (map Z.of_N (wd ++ source)).
Proof.
  induction source as [|s r IH]; intros ks wd H0 Hin HF; cbn [lz78_scan].
  - destruct wd as [|c wd']; [exists []; repeat split; constructor|].
    destruct (edk_in _ _ Hin) as [p Hp]. rewrite Hp. eexists; split; [reflexivity|].
    pose proof (ed_get_edk _ _ _ Hp) as Hn.
    assert (N.to_nat p < length ks) by exact (nth_some_lt _ _ _ Hn).
    assert (N.to_nat p <> 0) by (intros E; rewrite E, H0 in Hn; discriminate Hn).
    split; [constructor; lia|]. cbn [lz78_unscan].
    rewrite (map_nth_error (map Z.of_N) _ _ Hn). rewrite !app_nil_r. reflexivity.
  - inversion HF as [|? ? Hs HF']; subst.
    destruct (ed_get (wd ++ [s]) (edk ks)) as [q|] eqn:E.
    + destruct (IH ks (wd ++ [s]) H0 (edk_some_in _ _ _ E) HF') as [ts [H1 [H2 H3]]].
      exists ts. rewrite <- app_assoc in H3. auto.
    + destruct (edk_in _ _ Hin) as [p Hp]. rewrite Hp, edk_add.
      pose proof (ed_get_edk _ _ _ Hp) as Hn.
      assert (N.to_nat p < length ks) by exact (nth_some_lt _ _ _ Hn).
      assert (H0' : nth_error (ks ++ [wd ++ [s]]) 0 = Some ([] : word)) by (rewrite nth_error_app1 by lia; auto).
      destruct (IH (ks ++ [wd ++ [s]]) [] H0' (nth_error_In _ _ H0') HF') as [ts [H1 [H2 H3]]].
      rewrite H1. eexists; split; [reflexivity|]. split.
      * constructor; [lia|auto|]. rewrite app_length in H2; cbn [length] in H2.
        replace (S (length ks - 1)) with (length ks + 1 - 1) by lia. exact H2.
      * cbn [lz78_unscan]. rewrite (map_nth_error (map Z.of_N) _ _ Hn).
        rewrite map_app in H3. cbn [map app] in H3. rewrite map_app in H3. cbn [map] in H3. rewrite H3.
        destruct (Z.leb_spec 0 (Z.of_N s)); [|lia]. rewrite map_app. reflexivity.
Qed.

Lemma lz78_pack_unpack ts : forall i fuel, good78 i ts ->
  length (lz78_pack width calX calY i ts) <= fuel ->
  lz78_unpack fuel width calX calY i (lz78_pack width calX calY i ts) = Some ts.
Proof.
  induction ts as [|[p x] ts IH]; intros i fuel G HL; [destruct fuel; reflexivity|].
  pose proof (width_pos calX HX) as HM.
  inversion G as [|? ? Hp1 Hp2|? ? x' ? Hp Hx G']; subst.
  - cbn [lz78_pack] in *. destruct (Z.leb_spec 0 (-1)); [lia|]. cbn [app] in *. rewrite app_nil_r in *.
    set (k := width (N.of_nat i + 1)%N) in *.
    assert (Hk : 1 <= k) by (apply width_pos; lia).
    rewrite its_length in HL. destruct fuel as [|f]; [lia|].
    destruct (integer_to_symbols p calY k) as [|c t] eqn:E.
    { pose proof (its_length p calY k) as L. rewrite E in L; cbn in L; lia. }
    cbn [lz78_unpack]. rewrite <- E. fold k.
    rewrite (firstn_all_ge k), (skipn_all_ge k) by (rewrite its_length; lia).
    rewrite skipn_nil. destruct f; cbn [lz78_unpack]; unfold k; rewrite pack_unpack by lia; reflexivity.
  - cbn [lz78_pack] in *. destruct (Z.leb_spec 0 (Z.of_N x')); [|lia]. rewrite N2Z.id in *.
    set (k := width (N.of_nat i + 1)%N) in *. set (M := width calX) in *.
    rewrite !app_length, !its_length in HL. destruct fuel as [|f]; [lia|].
    set (rest := lz78_pack width calX calY (S i) ts) in *.
    destruct (integer_to_symbols p calY k ++ integer_to_symbols x' calY M ++ rest) as [|c t] eqn:E.
    { apply (f_equal (@length N)) in E. rewrite !app_length, !its_length in E. cbn in E. lia. }
    cbn [lz78_unpack]. rewrite <- E. fold k. fold M. rewrite firstn_its, skipn_its.
    destruct (integer_to_symbols x' calY M ++ rest) as [|c' t'] eqn:E'.
    { apply (f_equal (@length N)) in E'. rewrite !app_length, !its_length in E'. cbn in E'. lia. }
    rewrite <- E', firstn_its, skipn_its. unfold rest. rewrite IH by (auto; fold rest; lia).
    unfold k, M. rewrite !pack_unpack by lia. reflexivity.
Qed.

Lemma lz78_pack_range ts : forall i, Forall (fun y => (y < calY)%N) (lz78_pack width calX calY i ts).
Proof.
  induction ts as [|[p x] ts IH]; intros i; cbn [lz78_pack]; [constructor|].
  apply Forall_app; split; [apply its_range; lia|]. apply Forall_app; split; auto.
  destruct (0 <=? x)%Z; [apply its_range; lia|constructor].
Qed.

Theorem lz78_round_trip xs : Forall (fun x => (x < calX)%N) xs ->
  exists bits, lz78_encode width calX calY xs = Some bits /\ Forall (fun y => (y < calY)%N) bits /\
    lz78_decode width calX calY bits = Some (map Z.of_N xs).
Proof.
  intros H. unfold lz78_encode, lz78_source_to_tokens. rewrite (proj2 (in_range_spec _ _) H).
  destruct (lz78_scan_spec xs [[]] [] eq_refl (or_introl eq_refl) H) as [ts [H1 [H2 H3]]].
  change (edk [[]]) with [(@nil N, 0%N)] in H1. rewrite H1. eexists; split; [reflexivity|].
  split; [apply lz78_pack_range|].
  unfold lz78_decode, lz78_target_to_tokens, lz78_tokens_to_target. rewrite lz78_pack_unpack; [exact H3|exact H2|lia].
Qed.

Theorem lz78_tokens_round_trip xs : Forall (fun x => (x < calX)%N) xs ->
  exists ts, lz78_source_to_tokens calX xs = Some ts /\
    lz78_tokens_to_source ts = Some (map Z.of_N xs) /\
    lz78_target_to_tokens width calX calY (lz78_tokens_to_target width calX calY ts) = Some ts.
Proof.
  intros H. unfold lz78_source_to_tokens. rewrite (proj2 (in_range_spec _ _) H).
  destruct (lz78_scan_spec xs [[]] [] eq_refl (or_introl eq_refl) H) as [ts [H1 [H2 H3]]].
  change (edk [[]]) with [(@nil N, 0%N)] in H1. exists ts. repeat split; auto.
  unfold lz78_target_to_tokens, lz78_tokens_to_target. rewrite lz78_pack_unpack; auto.
Qed.

(* ---------- LZW *)
Definition alpha : list word := map (fun s => [s]) (range_N calX).
Lemma alpha_length : length alpha = N.to_nat calX.
Proof. unfold alpha, range_N. rewrite !map_length, seq_length. reflexivity. Qed.
Lemma lzw_init_edk : lzw_init calX = edk alpha.
Proof.
  unfold lzw_init, edk. rewrite alpha_length. unfold alpha. fold (range_N calX).
  induction (range_N calX) as [|x l IH]; cbn; auto. rewrite IH; reflexivity.
Qed.
Lemma alpha_in s : (s < calX)%N -> In [s] alpha.
Proof.
  intros H. unfold alpha, range_N. apply in_map_iff. exists s. split; auto.
  apply in_map_iff. exists (N.to_nat s). split; [lia|]. apply in_seq. lia.
Qed.
Lemma alpha_single w : In w alpha -> length w = 1.
Proof. unfold alpha. intros H. apply in_map_iff in H as [s [<- _]]. reflexivity. Qed.

Lemma lzw_main input : forall (ks : list word) (old : word) s t fuel,
  old <> [] -> In (s :: t) (ks ++ [old ++ [s]]) -> incl alpha ks ->
  1 <= length ks -> Forall (fun x => (x < calX)%N) input ->
  exists out, lzw_scan width calY (edk (ks ++ [old ++ [s]])) (s :: t) input = Some out /\
    Forall (fun y => (y < calY)%N) out /\
    (length out <= fuel -> lzw_unscan fuel width calY ks old out = Some ((s :: t) ++ input)).
Proof.
  induction input as [|x r IH]; intros ks old s t fuel Ho Hin Hal Hlen HF.
  - cbn [lzw_scan]. destruct (edk_in _ _ Hin) as [p Hp]. rewrite Hp. rewrite edk_length, app_length. cbn [length].
    set (k := width (N.of_nat (length ks + 1))). eexists; split; [reflexivity|]. split; [apply its_range; lia|]. intros HL.
    assert (Hk : 1 <= k) by (apply width_pos; lia).
    pose proof (ed_get_edk _ _ _ Hp) as Hn.
    assert (N.to_nat p < length (ks ++ [old ++ [s]])) as Hlt by exact (nth_some_lt _ _ _ Hn).
    rewrite app_length in Hlt; cbn [length] in Hlt.
    rewrite its_length in HL. destruct fuel as [|f]; [lia|]. cbn [lzw_unscan].
    replace (width (N.of_nat (length ks) + 1)%N) with k by (unfold k; f_equal; lia).
    rewrite its_length. destruct (Nat.ltb_spec k k); [lia|].
    rewrite firstn_all_ge, skipn_all_ge by (rewrite its_length; lia).
    unfold k at 1. rewrite pack_unpack by lia.
    destruct old as [|o old']; [congruence|].
    assert (E : match nth_error ks (N.to_nat p) with Some wd => wd | None => (o :: old') ++ [o] end = s :: t).
    { destruct (Nat.lt_ge_cases (N.to_nat p) (length ks)).
      - rewrite nth_error_app1 in Hn by lia. rewrite Hn. reflexivity.
      - rewrite nth_error_app2 in Hn by lia. replace (N.to_nat p - length ks) with 0 in Hn by lia.
        cbn [nth_error] in Hn. assert (En : (o :: old') ++ [s] = s :: t) by congruence.
        assert (o = s) by (cbn in En; congruence). subst s.
        assert (nth_error ks (N.to_nat p) = None) as -> by (apply nth_error_None; lia). exact En. }
    rewrite E.
    assert (Hend : forall f d w, 1 <= length d -> lzw_unscan f width calY d w [] = Some []).
    { intros f' d w Hd. destruct f'; cbn [lzw_unscan length];
      (destruct (Nat.ltb_spec 0 (width (N.of_nat (length d) + 1)%N)) as [|Hc]; [reflexivity|];
       exfalso; pose proof (width_pos (N.of_nat (length d) + 1) ltac:(lia)); lia). }
    rewrite Hend by (rewrite app_length; lia). reflexivity.
  - inversion HF as [|? ? Hx HF']; subst. cbn [lzw_scan].
    destruct (ed_get ((s :: t) ++ [x]) (edk (ks ++ [old ++ [s]]))) as [q|] eqn:E.
    + pose proof (edk_some_in _ _ _ E) as Hin'. cbn [app] in *.
      destruct (IH ks old s (t ++ [x]) fuel Ho Hin' Hal Hlen HF') as [out [H1 [H1' H2]]].
      exists out. split; [exact H1|]. split; [exact H1'|]. intros HL. rewrite (H2 HL). rewrite <- app_assoc. reflexivity.
    + destruct (edk_in _ _ Hin) as [p Hp]. rewrite Hp, edk_add. rewrite edk_length, app_length. cbn [length].
      set (ks' := ks ++ [old ++ [s]]) in *.
      set (k := width (N.of_nat (length ks + 1))).
      assert (Hal' : incl alpha ks') by (intros a Ha; apply in_or_app; left; apply Hal; auto).
      destruct (IH ks' (s :: t) x [] (pred fuel) ltac:(discriminate)) as [out [H1 [H1' H2]]];
        [apply in_or_app; left; apply Hal', alpha_in; auto|auto|unfold ks'; rewrite app_length; cbn; lia|auto|].
      cbn [app] in H1 |- *. rewrite H1. eexists; split; [reflexivity|].
      split; [apply Forall_app; split; [apply its_range; lia|exact H1']|].
      intros HL. assert (Hk : 1 <= k) by (apply width_pos; lia).
      rewrite app_length, its_length in HL. fold k in HL. destruct fuel as [|f]; [lia|]. cbn [pred] in *.
      pose proof (ed_get_edk _ _ _ Hp) as Hn.
      assert (N.to_nat p < length ks') as Hlt by exact (nth_some_lt _ _ _ Hn).
      unfold ks' in Hlt. rewrite app_length in Hlt; cbn [length] in Hlt.
      cbn [lzw_unscan].
      replace (width (N.of_nat (length ks) + 1)%N) with k by (unfold k; f_equal; lia).
      fold k. rewrite app_length, its_length. destruct (Nat.ltb_spec (k + length out) k); [lia|].
      rewrite firstn_its, skipn_its. unfold k at 1. rewrite pack_unpack by lia.
      destruct old as [|o old']; [congruence|].
      assert (E' : match nth_error ks (N.to_nat p) with Some wd => wd | None => (o :: old') ++ [o] end = s :: t).
      { destruct (Nat.lt_ge_cases (N.to_nat p) (length ks)).
        - unfold ks' in Hn. rewrite nth_error_app1 in Hn by lia. rewrite Hn. reflexivity.
        - unfold ks' in Hn. rewrite nth_error_app2 in Hn by lia. replace (N.to_nat p - length ks) with 0 in Hn by lia.
          cbn [nth_error] in Hn. assert (En : (o :: old') ++ [s] = s :: t) by congruence.
          assert (o = s) by (cbn in En; congruence). subst s.
          assert (nth_error ks (N.to_nat p) = None) as -> by (apply nth_error_None; lia). exact En. }
      rewrite E'. fold ks'. rewrite H2 by lia. reflexivity.
Qed.

Theorem lzw_round_trip xs : Forall (fun x => (x < calX)%N) xs ->
  exists bits, lzw_encode width calX calY xs = Some bits /\ Forall (fun y => (y < calY)%N) bits /\
    lzw_decode width calX calY bits = Some xs.
Proof.
  intros H. unfold lzw_encode. rewrite (proj2 (in_range_spec _ _) H), lzw_init_edk.
  pose proof (width_pos calX HX) as HM. pose proof alpha_length as HLa.
  destruct xs as [|s r]; [exists []; repeat split; constructor|].
  inversion H as [|? ? Hs HF]; subst. cbn [lzw_scan app].
  pose proof (alpha_in s Hs) as Hin. destruct (edk_in _ _ Hin) as [p Hp]. rewrite Hp.
  pose proof (ed_get_edk _ _ _ Hp) as Hn.
  assert (N.to_nat p < length alpha) as Hlt by exact (nth_some_lt _ _ _ Hn).
  destruct r as [|x r].
  - cbn [lzw_scan]. rewrite Hp, edk_length, HLa, N2Nat.id. eexists; split; [reflexivity|].
    split; [apply its_range; lia|]. unfold lzw_decode. fold alpha.
    destruct (integer_to_symbols p calY (width calX)) as [|c t] eqn:E.
    { apply (f_equal (@length N)) in E. rewrite its_length in E. cbn in E. lia. }
    rewrite <- E. rewrite firstn_all_ge, skipn_all_ge by (rewrite its_length; lia).
    rewrite pack_unpack by lia. rewrite Hn, its_length.
    pose proof (width_pos (N.of_nat (length alpha) + 1) ltac:(lia)) as Hw.
    destruct (width calX) as [|m] eqn:Ew; [lia|]. cbn [lzw_unscan length].
    destruct (Nat.ltb_spec 0 (width (N.of_nat (length alpha) + 1)%N)); [reflexivity|lia].
  - inversion HF as [|? ? Hx HF']; subst. cbn [lzw_scan app].
    destruct (ed_get [s; x] (edk alpha)) as [q|] eqn:E.
    { apply edk_some_in, alpha_single in E. discriminate. }
    rewrite Hp, edk_add, edk_length, HLa, N2Nat.id.
    set (fuel := length (integer_to_symbols p calY (width calX)) +
       match lzw_scan width calY (edk (alpha ++ [[s; x]])) [x] r with Some o => length o | None => 0 end).
    destruct (lzw_main r alpha [s] x [] fuel ltac:(discriminate)) as [out [H1 [H1' H2]]];
      [apply in_or_app; left; apply alpha_in; auto|apply incl_refl|lia|auto|].
    cbn [app] in H1. unfold fuel in H2. rewrite H1 in *. eexists; split; [reflexivity|].
    split; [apply Forall_app; split; [apply its_range; lia|exact H1']|].
    unfold lzw_decode. fold alpha. rewrite <- app_length in H2.
    destruct (integer_to_symbols p calY (width calX) ++ out) as [|c t] eqn:E'.
    { apply (f_equal (@length N)) in E'. rewrite app_length, its_length in E'. cbn in E'. lia. }
    rewrite <- E', firstn_its, skipn_its, pack_unpack by lia. rewrite Hn, E'.
    rewrite H2 by (rewrite <- E', app_length; lia). reflexivity.
Qed.
End W.

Lemma ceil_log_ok base n : (2 <= base)%N -> (1 <= n)%N -> (n <= base ^ N.of_nat (ceil_log base n))%N.
Proof.
  intros Hb Hn. unfold ceil_log.
  set (F := fix go (fuel : nat) (k : nat) (pw : N) : nat :=
     match fuel with
     | O => k
     | S f => if (n <=? pw)%N then k else go f (S k) (pw * base)%N
     end).
  assert (G : forall fuel k, (n <= base ^ N.of_nat (k + fuel))%N -> (n <= base ^ N.of_nat (F fuel k (base ^ N.of_nat k)%N))%N).
  { induction fuel as [|f IH]; intros k H; cbn.
    - rewrite Nat.add_0_r in H. exact H.
    - destruct (N.leb_spec n (base ^ N.of_nat k)%N); [auto|].
      replace (base ^ N.of_nat k * base)%N with (base ^ N.of_nat (S k))%N
        by (rewrite Nat2N.inj_succ, N.pow_succ_r'; lia).
      apply IH. replace (S k + f) with (k + S f) by lia. exact H. }
  apply (G (S (N.size_nat n)) 0).
  cbn [Nat.add]. assert (n < 2 ^ N.of_nat (N.size_nat n))%N.
  { clear. destruct n as [|q]; [reflexivity|]. unfold N.size_nat. induction q as [q IH|q IH|]; cbn [Pos.size_nat];
    rewrite ?Nat2N.inj_succ, ?N.pow_succ_r'; [| |cbn; lia]; set (P := (2 ^ N.of_nat (Pos.size_nat q))%N) in *; lia. }
  rewrite Nat2N.inj_succ, N.pow_succ_r'.
  assert (2 ^ N.of_nat (N.size_nat n) <= base ^ N.of_nat (N.size_nat n))%N by (apply N.pow_le_mono_l; lia). nia.
Qed.
