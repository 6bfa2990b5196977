(* Proofs about LempelZivWindow_Model. *)
From Verif Require Import Common Prefix_Model Canonical_Proof LempelZiv_Model LempelZiv_Proof LempelZivWindow_Model.
Local Open Scope nat_scope.

Lemma rfind_from_spec k hay needle p : rfind_from k hay needle = Some p ->
  p <= k /\ firstn (length needle) (skipn p hay) = needle.
Proof.
  induction k as [|k IH]; cbn [rfind_from]; intros H.
  - destruct (word_eqb _ _) eqn:E; [|discriminate]. apply word_eqb_true in E. injection H as <-. split; [lia|exact E].
  - destruct (word_eqb _ _) eqn:E.
    + apply word_eqb_true in E. injection H as <-. split; [lia|exact E].
    + apply IH in H as [H1 H2]. split; [lia|exact H2].
Qed.
Lemma rfind_spec hay needle p : rfind hay needle = Some p ->
  p + length needle <= length hay /\ firstn (length needle) (skipn p hay) = needle.
Proof.
  unfold rfind. destruct (Nat.ltb_spec (length hay) (length needle)); [discriminate|].
  intros E. apply rfind_from_spec in E as [H1 H2]. split; [lia|exact H2].
Qed.
Lemma rfind_nil hay : rfind hay [] = Some (length hay).
Proof.
  unfold rfind. cbn [length]. destruct (Nat.ltb_spec (length hay) 0); [lia|]. rewrite Nat.sub_0_r.
  destruct (length hay) eqn:E; reflexivity.
Qed.
(* it is the last occurrence *)
Lemma rfind_from_last k hay needle : forall q, q <= k -> firstn (length needle) (skipn q hay) = needle ->
  exists p, rfind_from k hay needle = Some p /\ q <= p.
Proof.
  induction k as [|k IH]; intros q Hq H; cbn [rfind_from].
  - assert (q = 0) by lia; subst. rewrite H, word_eqb_rfl. eauto.
  - destruct (word_eqb _ _) eqn:E; [eauto|]. destruct (Nat.eq_dec q (S k)).
    + subst. rewrite H, word_eqb_rfl in E. discriminate.
    + apply IH; auto; lia.
Qed.

Lemma slice_length a b l : b <= length l -> length (slice a b l) = b - a.
Proof. intros H. unfold slice. rewrite firstn_length, skipn_length. lia. Qed.
Lemma nth_skipn {A} (l : list A) n i d : nth i (skipn n l) d = nth (n + i) l d.
Proof. revert l; induction n as [|n IH]; intros [|x l]; cbn; auto. destruct i; auto. Qed.
Lemma nth_firstn {A} (l : list A) n i d : i < n -> nth i (firstn n l) d = nth i l d.
Proof. revert l i; induction n as [|n IH]; intros [|x l] i H; cbn; try lia; auto. destruct i; auto. apply IH; lia. Qed.
Lemma slice_nth a b l j : j < b - a -> nth j (slice a b l) 0%N = nth (a + j) l 0%N.
Proof. intros H. unfold slice. rewrite nth_firstn, nth_skipn by lia. reflexivity. Qed.

Lemma longest_match_spec buffer s i l0 : 1 <= s -> s <= i -> i + l0 <= length buffer ->
  exists p l, longest_match buffer s i l0 = Some (p, l) /\ l <= l0 /\ p < s /\
    forall j, j < l -> nth (i - s + p + j) buffer 0%N = nth (i + j) buffer 0%N.
Proof.
  intros Hs Hi. induction l0 as [|l0 IH]; intros HL.
  - cbn [longest_match]. rewrite !Nat.add_0_r.
    assert (slice i i buffer = []) as -> by (unfold slice; rewrite Nat.sub_diag; reflexivity).
    rewrite rfind_nil, slice_length by lia. exists (i - 1 - (i - s)), 0. repeat split; lia.
  - cbn [longest_match]. destruct (rfind _ _) as [p|] eqn:E.
    + apply rfind_spec in E as [E1 E2]. rewrite !slice_length in E1 by lia. rewrite slice_length in E2 by lia.
      exists p, (S l0). repeat split; try lia. intros j Hj.
      rewrite <- (slice_nth i (i + S l0)) by lia. rewrite <- E2, nth_firstn, nth_skipn, slice_nth by lia.
      f_equal; lia.
    + destruct IH as [p [l [H1 [H2 H3]]]]; [lia|]. exists p, l. repeat split; try tauto; lia.
Qed.

(* greedy: no longer match exists at this position *)
Lemma longest_match_longest buffer s i l0 p l : s <= i -> i + l0 <= length buffer ->
  longest_match buffer s i l0 = Some (p, l) ->
  forall l' q, l < l' <= l0 -> q < s -> exists j, j < l' /\ nth (i - s + q + j) buffer 0%N <> nth (i + j) buffer 0%N.
Proof.
  intros Hi. induction l0 as [|l0 IH]; intros HL H l' q Hl' Hq; [lia|].
  cbn [longest_match] in H. destruct (rfind _ _) as [p'|] eqn:E; [injection H as -> <-; lia|].
  destruct (Nat.eq_dec l' (S l0)) as [->|]; [|apply (IH ltac:(lia) H); lia].
  destruct (Forall_Exists_dec (fun j => nth (i - s + q + j) buffer 0%N = nth (i + j) buffer 0%N)
    (fun j => N.eq_dec _ _) (seq 0 (S l0))) as [F|F].
  - exfalso. unfold rfind in E. rewrite !slice_length in E by lia.
    destruct (Nat.ltb_spec (i + S l0 - 1 - (i - s)) (i + S l0 - i)); [lia|].
    destruct (rfind_from_last (i + S l0 - 1 - (i - s) - (i + S l0 - i)) (slice (i - s) (i + S l0 - 1) buffer)
      (slice i (i + S l0) buffer) q) as [p' [Hp' _]]; [lia| |congruence].
    rewrite slice_length by lia. apply (list_ext 0%N).
    + rewrite firstn_length, skipn_length, !slice_length by lia. lia.
    + rewrite firstn_length, skipn_length, slice_length by lia. intros j Hj.
      rewrite nth_firstn, nth_skipn, !slice_nth by lia. rewrite Forall_forall in F.
      rewrite <- F by (apply in_seq; lia). f_equal; lia.
  - apply Exists_exists in F as [j [Hj Hne]]. apply in_seq in Hj. exists j. split; [lia|exact Hne].
Qed.

Lemma firstn_snoc (l : word) i x : nth_error l i = Some x -> firstn i l ++ [x] = firstn (S i) l.
Proof.
  revert i; induction l as [|y l IH]; intros [|i] H; cbn in *; try discriminate.
  - injection H as ->; reflexivity.
  - f_equal; auto.
Qed.
Lemma nth_error_nth_N (l : word) i : i < length l -> nth_error l i = Some (nth i l 0%N).
Proof. intros H. apply nth_error_nth'; auto. Qed.

Lemma copy77 (full : word) l : forall i start, start < i -> i + l <= length full ->
  (forall j, j < l -> nth (start + j) full 0%N = nth (i + j) full 0%N) ->
  lz77_copy l start (firstn i full) = Some (firstn (i + l) full).
Proof.
  induction l as [|l IH]; intros i start Hs HL H; cbn [lz77_copy]; [rewrite Nat.add_0_r; reflexivity|].
  rewrite nth_error_nth_N by (rewrite firstn_length; lia). rewrite nth_firstn by lia.
  rewrite firstn_snoc.
  - rewrite IH; [f_equal; f_equal; lia|lia|lia|]. intros j Hj. specialize (H (S j) ltac:(lia)).
    rewrite <- !plus_n_Sm in H. exact H.
  - rewrite nth_error_nth_N by lia. specialize (H 0 ltac:(lia)). rewrite !Nat.add_0_r in H. congruence.
Qed.

Lemma copySS (full : word) p l : forall i, 1 <= p -> p <= i -> i + l <= length full ->
  (forall j, j < l -> nth (i - p + j) full 0%N = nth (i + j) full 0%N) ->
  lzss_copy l p (firstn i full) = Some (firstn (i + l) full).
Proof.
  induction l as [|l IH]; intros i Hp Hi HL H; cbn [lzss_copy]; [rewrite Nat.add_0_r; reflexivity|].
  assert (E : from_end p (firstn i full) = Some (nth i full 0%N)).
  { unfold from_end. rewrite firstn_length, Nat.min_l by lia.
    destruct (Nat.eqb_spec p 0); [lia|]. destruct (Nat.ltb_spec i p); [lia|].
    rewrite nth_error_nth_N by (rewrite firstn_length; lia). rewrite nth_firstn by lia.
    specialize (H 0 ltac:(lia)). rewrite !Nat.add_0_r in H. congruence. }
  rewrite E, firstn_snoc by (apply nth_error_nth_N; lia).
  rewrite IH; [f_equal; f_equal; lia|lia|lia|lia|]. intros j Hj. specialize (H (S j) ltac:(lia)).
  replace (S i - p + j) with (i - p + S j) by lia. replace (S i + j) with (i + S j) by lia. exact H.
Qed.

Section P.
Variables (width : N -> nat) (c : lz_params).
Hypothesis HV : lz_valid c = true.
Hypothesis HW : forall n, (1 <= n)%N -> (n <= calY c ^ N.of_nat (width n))%N.

Lemma valid_facts : 1 <= ss c /\ 1 <= ls c /\ (2 <= calX c)%N /\ (2 <= calY c)%N /\ length (search_buffer c) = ss c.
Proof. unfold lz_valid in HV. rewrite !andb_true_iff in HV. lia. Qed.

Definition tok77_ok (t : token77) : Prop :=
  let '(p, l, x) := t in (p < N.of_nat (ss c))%N /\ (l < N.of_nat (ls c))%N /\ (x < calX c)%N.

Lemma lz77_scan_spec (src : list N) : Forall (fun x => (x < calX c)%N) src ->
  forall fuel i, let full := search_buffer c ++ src in
  ss c <= i <= length full -> length full - i <= fuel ->
  exists ts, lz77_scan fuel c full i = Some ts /\ Forall tok77_ok ts /\
    lz77_unscan (ss c) (firstn i full) ts = Some full.
Proof.
  intros HF. pose proof valid_facts as (Hss & Hls & HX & HY & HB).
  induction fuel as [|fuel IH]; intros i full Hi HL; cbn [lz77_scan];
    (destruct (Nat.ltb_spec i (length full)) as [Hlt|Hge];
     [|exists []; repeat split; [constructor|cbn [lz77_unscan lzss_unscan]; rewrite firstn_all_ge by lia; reflexivity]]); [lia|].
  set (l0 := Nat.min (ls c) (length full - i) - 1).
  destruct (longest_match_spec full (ss c) i l0) as (p & l & E & Hl & Hp & HM); [lia|lia|lia|].
  rewrite E. rewrite nth_error_nth_N by lia.
  destruct (IH (i + (l + 1))) as (ts & E2 & Hok & Hun); [fold full; lia|fold full; lia|]. fold full in E2, Hun.
  rewrite E2. eexists; split; [reflexivity|]. split.
  - constructor; [|exact Hok]. repeat split; try lia.
    assert (In (nth (i + l) full 0%N) src).
    { unfold full. rewrite app_nth2 by lia. apply nth_In. assert (i + l < length full) by lia. unfold full in *. rewrite app_length in *. lia. }
    rewrite Forall_forall in HF. apply HF; auto.
  - cbn [lz77_unscan]. rewrite !Nat2N.id, firstn_length, Nat.min_l by lia.
    rewrite copy77; [|lia|lia|exact HM]. rewrite firstn_snoc by (apply nth_error_nth_N; lia).
    replace (S (i + l)) with (i + (l + 1)) by lia. exact Hun.
Qed.

Lemma pu n p : (p < n)%N -> symbols_to_integer (integer_to_symbols p (calY c) (width n)) (calY c) = p.
Proof. intros H. pose proof valid_facts. apply pack_unpack; auto; tauto. Qed.
Lemma xw_pos : 1 <= x_width width c.
Proof. pose proof valid_facts. apply (width_pos width (calY c)); auto; tauto. Qed.

Lemma lz77_pack_unpack ts : forall fuel, Forall tok77_ok ts ->
  length (lz77_tokens_to_target width c ts) <= fuel ->
  lz77_unpack fuel width c (lz77_tokens_to_target width c ts) = Some ts.
Proof.
  pose proof xw_pos as Hx. pose proof valid_facts as (_ & _ & _ & HY & _).
  induction ts as [|[[p l] x] ts IH]; intros fuel HF HL.
  - cbn. destruct fuel; cbn [lz77_unpack length]; (destruct (Nat.leb_spec (p_width width c + l_width width c + x_width width c) 0); [lia|reflexivity]).
  - inversion HF as [|? ? Ht HF']; subst. unfold tok77_ok in Ht. destruct Ht as (Hp & Hl & Hxx). cbn [lz77_tokens_to_target] in *.
    rewrite !app_length, !its_length in HL. destruct fuel as [|f]; [lia|]. cbn [lz77_unpack].
    rewrite !app_length, !its_length. match goal with |- (if ?b then _ else _) = _ => destruct b eqn:Eb end; [|lia].
    repeat first [rewrite firstn_its | rewrite skipn_its].
    rewrite IH by (auto; lia). unfold p_width, l_width, x_width. rewrite !pu by auto. reflexivity.
Qed.

Lemma lz77_pack_range ts : Forall (fun y => (y < calY c)%N) (lz77_tokens_to_target width c ts).
Proof.
  pose proof valid_facts as (_ & _ & _ & HY & _).
  induction ts as [|[[p l] x] ts IH]; cbn [lz77_tokens_to_target]; [constructor|].
  repeat (apply Forall_app; split); auto; apply its_range; lia.
Qed.

Theorem lz77_round_trip xs : Forall (fun x => (x < calX c)%N) xs -> Forall (fun x => (x < 256)%N) (search_buffer c ++ xs) ->
  exists ts bits, lz77_source_to_tokens c xs = Some ts /\ lz77_encode width c xs = Some bits /\
    Forall (fun y => (y < calY c)%N) bits /\ lz77_tokens_to_source c ts = Some xs /\
    lz77_target_to_tokens width c bits = Some ts /\ lz77_decode width c bits = Some xs.
Proof.
  intros HF H256. pose proof valid_facts as (Hss & Hls & HX & HY & HB).
  destruct (lz77_scan_spec xs HF (length (search_buffer c ++ xs)) (ss c)) as (ts & E & Hok & Hun);
    [rewrite app_length; lia|lia|].
  assert (Es : lz77_source_to_tokens c xs = Some ts).
  { unfold lz77_source_to_tokens. rewrite (proj2 (in_range_spec _ _) HF), (proj2 (in_range_spec _ _) H256). exact E. }
  assert (Et : lz77_tokens_to_source c ts = Some xs).
  { unfold lz77_tokens_to_source. rewrite <- HB in Hun at 2. rewrite firstn_app_exact in Hun. rewrite Hun.
    rewrite <- HB. rewrite skipn_app_exact. reflexivity. }
  assert (Ed : lz77_target_to_tokens width c (lz77_tokens_to_target width c ts) = Some ts)
    by (apply lz77_pack_unpack; auto).
  exists ts, (lz77_tokens_to_target width c ts). unfold lz77_encode, lz77_decode. rewrite Es, Ed.
  repeat split; auto. apply lz77_pack_range.
Qed.

(* ---------- LZSS *)
Definition tokSS_ok (t : tokenSS) : Prop :=
  match t with
  | Lit x => (x < calX c)%N
  | Ref p l => (1 <= p <= N.of_nat (ss c))%N /\ (1 <= l <= N.of_nat (ls c))%N
  end.

Lemma break_even_pos : 1 <= break_even width c.
Proof. unfold break_even. apply Nat.div_le_lower_bound; lia. Qed.

Lemma lzss_scan_spec (src : list N) : Forall (fun x => (x < calX c)%N) src ->
  forall fuel i, let full := search_buffer c ++ src in
  ss c <= i <= length full -> length full - i <= fuel ->
  exists ts, lzss_scan fuel (break_even width c) c full i = Some ts /\ Forall tokSS_ok ts /\
    lzss_unscan (firstn i full) ts = Some full.
Proof.
  intros HF. pose proof valid_facts as (Hss & Hls & HX & HY & HB). pose proof break_even_pos as Hbe.
  induction fuel as [|fuel IH]; intros i full Hi HL; cbn [lzss_scan];
    (destruct (Nat.ltb_spec i (length full)) as [Hlt|Hge];
     [|exists []; repeat split; [constructor|cbn [lz77_unscan lzss_unscan]; rewrite firstn_all_ge by lia; reflexivity]]); [lia|].
  set (l0 := Nat.min (ls c) (length full - i)).
  destruct (longest_match_spec full (ss c) i l0) as (p & l & E & Hl & Hp & HM); [lia|lia|lia|].
  rewrite E. destruct (Nat.leb_spec (break_even width c) l).
  - destruct (IH (i + l)) as (ts & E2 & Hok & Hun); [fold full; lia|fold full; lia|]. fold full in E2, Hun.
    rewrite E2. eexists; split; [reflexivity|]. split.
    + constructor; [|exact Hok]. cbn. lia.
    + cbn [lzss_unscan]. rewrite !Nat2N.id. rewrite copySS; [exact Hun|lia|lia|lia|].
      intros j Hj. rewrite <- HM by lia. f_equal; lia.
  - rewrite nth_error_nth_N by lia.
    destruct (IH (i + 1)) as (ts & E2 & Hok & Hun); [fold full; lia|fold full; lia|]. fold full in E2, Hun.
    rewrite E2. eexists; split; [reflexivity|]. split.
    + constructor; [|exact Hok]. cbn.
      assert (In (nth i full 0%N) src).
      { unfold full. rewrite app_nth2 by lia. apply nth_In. unfold full in *. rewrite app_length in *. lia. }
      rewrite Forall_forall in HF. apply HF; auto.
    + cbn [lzss_unscan]. rewrite firstn_snoc by (apply nth_error_nth_N; lia).
      replace (S i) with (i + 1) by lia. exact Hun.
Qed.

Lemma lzss_pack_unpack ts : forall fuel, Forall tokSS_ok ts ->
  length (lzss_tokens_to_target width c ts) <= fuel ->
  lzss_unpack fuel width c (lzss_tokens_to_target width c ts) = Some ts.
Proof.
  pose proof valid_facts as (_ & _ & _ & HY & _).
  induction ts as [|t ts IH]; intros fuel HF HL; [destruct fuel; reflexivity|].
  inversion HF as [|? ? Ht HF']; subst. destruct t as [x|p l]; cbn [lzss_tokens_to_target] in *; cbn [length] in HL;
  rewrite !app_length, !its_length in HL; (destruct fuel as [|f]; [lia|]); cbn [lzss_unpack].
  - change ((0 =? 1)%N) with false. cbv beta iota. rewrite app_length, its_length.
    match goal with |- (if ?b then _ else _) = _ => destruct b eqn:Eb end; [|lia].
    rewrite firstn_its, skipn_its, IH by (auto; lia). unfold x_width. rewrite pu by exact Ht. reflexivity.
  - change ((1 =? 1)%N) with true. cbv beta iota. rewrite !app_length, !its_length.
    match goal with |- (if ?b then _ else _) = _ => destruct b eqn:Eb end; [|lia].
    repeat first [rewrite firstn_its | rewrite skipn_its]. rewrite IH by (auto; lia).
    cbn in Ht. unfold p_width, l_width. rewrite !pu by lia.
    repeat f_equal; lia.
Qed.

Lemma lzss_pack_range ts : Forall (fun y => (y < calY c)%N) (lzss_tokens_to_target width c ts).
Proof.
  pose proof valid_facts as (_ & _ & _ & HY & _).
  induction ts as [|[x|p l] ts IH]; cbn [lzss_tokens_to_target]; constructor; try lia;
  repeat (apply Forall_app; split); auto; apply its_range; lia.
Qed.

Theorem lzss_round_trip xs : Forall (fun x => (x < calX c)%N) xs -> Forall (fun x => (x < 256)%N) (search_buffer c ++ xs) ->
  exists ts bits, lzss_source_to_tokens width c xs = Some ts /\ lzss_encode width c xs = Some bits /\
    Forall (fun y => (y < calY c)%N) bits /\ lzss_tokens_to_source c ts = Some xs /\
    lzss_target_to_tokens width c bits = Some ts /\ lzss_decode width c bits = Some xs.
Proof.
  intros HF H256. pose proof valid_facts as (Hss & Hls & HX & HY & HB).
  destruct (lzss_scan_spec xs HF (length (search_buffer c ++ xs)) (ss c)) as (ts & E & Hok & Hun);
    [rewrite app_length; lia|lia|].
  assert (Es : lzss_source_to_tokens width c xs = Some ts).
  { unfold lzss_source_to_tokens. rewrite (proj2 (in_range_spec _ _) HF), (proj2 (in_range_spec _ _) H256). exact E. }
  assert (Et : lzss_tokens_to_source c ts = Some xs).
  { unfold lzss_tokens_to_source. rewrite <- HB in Hun at 1. rewrite firstn_app_exact in Hun. rewrite Hun.
    rewrite <- HB. rewrite skipn_app_exact. reflexivity. }
  assert (Ed : lzss_target_to_tokens width c (lzss_tokens_to_target width c ts) = Some ts)
    by (apply lzss_pack_unpack; auto).
  exists ts, (lzss_tokens_to_target width c ts). unfold lzss_encode, lzss_decode. rewrite Es, Ed.
  repeat split; auto. apply lzss_pack_range.
Qed.
End P.

(* symbols that do not fit a byte are rejected by the encoder although the alphabet contains them *)
Lemma lz77_large_symbol c xs : Exists (fun x => (256 <= x)%N) xs -> lz77_source_to_tokens c xs = None.
Proof.
  intros H. unfold lz77_source_to_tokens. destruct (in_range 256 (search_buffer c ++ xs)) eqn:E.
  - apply in_range_spec in E. rewrite Forall_app in E. destruct E as [_ E]. apply Exists_exists in H as [x [Hx H]].
    rewrite Forall_forall in E. specialize (E x Hx). cbn in E. lia.
  - rewrite andb_false_r. reflexivity.
Qed.
Lemma lzss_large_symbol width c xs : Exists (fun x => (256 <= x)%N) xs -> lzss_source_to_tokens width c xs = None.
Proof.
  intros H. unfold lzss_source_to_tokens. destruct (in_range 256 (search_buffer c ++ xs)) eqn:E.
  - apply in_range_spec in E. rewrite Forall_app in E. destruct E as [_ E]. apply Exists_exists in H as [x [Hx H]].
    rewrite Forall_forall in E. specialize (E x Hx). cbn in E. lia.
  - rewrite andb_false_r. reflexivity.
Qed.
