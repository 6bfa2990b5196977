From Verif Require Import Common Prefix_Model Prefix_Proof Cover_Proof Canonical_Proof Parse_Proof LosslessCons_Model LosslessCons_Spec.
Local Open Scope nat_scope.

Lemma max_symbol_ge ws w x : In w ws -> In x w -> (x <= max_symbol ws)%N.
Proof.
  intros Hw Hx. unfold max_symbol. assert (In x (concat ws)) as H by (apply in_concat; eauto). clear -H.
  induction (concat ws) as [|y l IH]; [easy|]. cbn [fold_right]. destruct H as [->|H]; [lia|]. specialize (IH H). lia.
Qed.
Lemma max_symbol_in ws : concat ws <> [] -> exists w, In w ws /\ In (max_symbol ws) w.
Proof.
  intros H. unfold max_symbol. assert (In (fold_right N.max 0%N (concat ws)) (concat ws)) as G.
  { revert H. induction (concat ws) as [|y l IH]; [easy|]. intros _. cbn [fold_right].
    destruct l as [|z l]; [cbn; left; lia|]. specialize (IH ltac:(discriminate)).
    destruct (N.max_spec y (fold_right N.max 0%N (z :: l))) as [[_ E]|[_ E]]; rewrite E; [right; auto|left; auto]. }
  apply in_concat in G. destruct G as (w & A & B). eauto.
Qed.
Lemma largest_symbol_unique a b ws : largest_symbol a ws -> largest_symbol b ws -> a = b.
Proof. intros [(w & A & B) C] [(w' & A' & B') C']. specialize (C _ _ A' B'). specialize (C' _ _ A B). lia. Qed.
Lemma max_symbol_largest ws : concat ws <> [] -> largest_symbol (max_symbol ws) ws.
Proof. intros H. split; [apply max_symbol_in; auto|]. intros; eapply max_symbol_ge; eauto. Qed.
Lemma concat_nonempty (ws : list word) : ws <> [] -> Forall (fun w => w <> []) ws -> concat ws <> [].
Proof. destruct ws as [|w l]; [easy|]. intros _ H. inversion H. cbn. destruct w; easy. Qed.
Lemma largest_max m ws : largest_symbol m ws -> max_symbol ws = m.
Proof.
  intros L. eapply largest_symbol_unique; [|exact L]. apply max_symbol_largest. destruct L as [(w & A & B) _].
  intros E. assert (In m (concat ws)) as H by (apply in_concat; eauto). rewrite E in H. easy.
Qed.

Lemma existsb_nonempty_false ws : existsb (fun w => negb (non_empty w)) ws = false <-> Forall (fun w => w <> []) ws.
Proof.
  rewrite Forall_forall. split.
  - intros H w Hw ->. assert (existsb (fun w => negb (non_empty w)) ws = true) as G; [|congruence].
    apply existsb_exists. exists []. auto.
  - intros H. destruct (existsb _ ws) eqn:E; auto. apply existsb_exists in E as (w & Hw & E).
    destruct w; [|discriminate]. destruct (H _ Hw). reflexivity.
Qed.

Lemma v2f_make_ok tgt src n m : (2 <= tgt)%N -> (2 <= src)%N -> 1 <= n -> (forall w, In w (keys m) -> In w (tuples tgt n)) ->
  Forall (fun w : word => Forall (fun x => (x < src)%N) w /\ w <> []) (values m) ->
  v2f_make tgt src n m = Some {| v2f_tgt := tgt; v2f_src := src; v2f_n := n; v2f_map := m |}.
Proof.
  intros H1 H2 H3 H4 H5. unfold v2f_make. destruct (N.ltb_spec tgt 2); [lia|]. destruct (N.ltb_spec src 2); [lia|].
  destruct (Nat.ltb_spec n 1); [lia|].
  assert (incl_b (map fst m) (tuples tgt n) = true) as ->.
  { apply forallb_forall. intros w Hw. apply mem_In, H4; auto. }
  match goal with |- context [forallb ?f (map snd m)] => assert (forallb f (map snd m) = true) as -> end; [|reflexivity].
  apply forallb_forall. intros w Hw. rewrite Forall_forall in H5. destruct (H5 _ Hw) as [G1 G2].
  apply andb_true_intro. split; [|destruct w; [congruence|reflexivity]].
  rewrite Forall_forall in G1. apply forallb_forall. intros x Hx. apply N.ltb_lt; auto.
Qed.

(* constructors: exact acceptance *)
Lemma f2v_make_iff src tgt k m c : f2v_make src tgt k m = Some c <->
  (2 <= src)%N /\ (2 <= tgt)%N /\ 1 <= k /\
  (forall w, In w (map fst m) <-> length w = k /\ Forall (fun x => (x < src)%N) w) /\
  Forall (Forall (fun x => (x < tgt)%N)) (map snd m) /\
  f2v_src c = src /\ f2v_tgt c = tgt /\ f2v_k c = k /\ f2v_map c = m.
Proof.
  split.
  - intros H. apply f2v_make_inv in H as (A & B & D & E & F & ->). repeat (split; [now auto|]). split; [|easy].
    intros w. unfold keys in E. rewrite E. apply in_tuples.
  - destruct c as [s t k' m']; cbn. intros (A & B & D & E & F & -> & -> & -> & ->). apply f2v_make_ok; auto.
    intros w. unfold keys. rewrite E. symmetry. apply in_tuples.
Qed.
Lemma v2f_make_iff tgt src n m c : v2f_make tgt src n m = Some c <->
  (2 <= tgt)%N /\ (2 <= src)%N /\ 1 <= n /\
  (forall w, In w (map fst m) -> length w = n /\ Forall (fun x => (x < tgt)%N) w) /\
  Forall (fun w => w <> [] /\ Forall (fun x => (x < src)%N) w) (map snd m) /\
  v2f_tgt c = tgt /\ v2f_src c = src /\ v2f_n c = n /\ v2f_map c = m.
Proof.
  split.
  - intros H. apply v2f_make_inv in H as (A & B & D & E & F & ->). repeat (split; [now auto|]). split.
    + intros w Hw. apply in_tuples. apply E. exact Hw.
    + split; [|easy]. eapply Forall_impl; [|exact F]. cbn. tauto.
  - destruct c as [t s n' m']; cbn. intros (A & B & D & E & F & -> & -> & -> & ->). apply v2f_make_ok; auto.
    + intros w Hw. apply in_tuples. apply E. exact Hw.
    + eapply Forall_impl; [|exact F]. cbn. tauto.
Qed.

(* from_enc_mapping *)
Lemma from_enc_mapping_inv m c : f2v_from_enc_mapping m = Some c ->
  Forall (fun w => w <> []) (map fst m) /\ Forall (fun w => w <> []) (map snd m) /\ m <> [] /\
  f2v_make (max_symbol (map fst m) + 1) (max_symbol (map snd m) + 1) (length (hd [] (map fst m))) m = Some c.
Proof.
  unfold f2v_from_enc_mapping. destruct m as [|[k0 v0] m]; [discriminate|].
  destruct (existsb _ (map fst _)) eqn:E1; [discriminate|]. destruct (existsb _ (map snd _)) eqn:E2; [discriminate|].
  apply existsb_nonempty_false in E1, E2. intros H. repeat (split; [now auto|]). exact H.
Qed.
Lemma from_enc_mapping_ok m : Forall (fun w => w <> []) (map fst m) -> Forall (fun w => w <> []) (map snd m) -> m <> [] ->
  f2v_from_enc_mapping m = f2v_make (max_symbol (map fst m) + 1) (max_symbol (map snd m) + 1) (length (hd [] (map fst m))) m.
Proof.
  intros A B D. unfold f2v_from_enc_mapping. destruct m as [|[k0 v0] m]; [easy|].
  rewrite (proj2 (existsb_nonempty_false _) A), (proj2 (existsb_nonempty_false _) B). reflexivity.
Qed.
Lemma map_nonnil {A B} (f : A -> B) l : l <> [] -> map f l <> [].
Proof. destruct l; easy. Qed.

Lemma full_block_largest s k ws : (2 <= s)%N -> 1 <= k -> (forall w, In w ws <-> length w = k /\ Forall (fun x => (x < s)%N) w) ->
  largest_symbol (s - 1) ws.
Proof.
  intros Hs Hk H. split.
  - exists (repeat (s - 1)%N k). split.
    + apply H. rewrite repeat_length. split; auto. apply Forall_forall. intros x Hx. apply repeat_spec in Hx. lia.
    + destruct k; [lia|]. left. reflexivity.
  - intros w x Hw Hx. apply H in Hw as [_ Hw]. rewrite Forall_forall in Hw. specialize (Hw _ Hx). lia.
Qed.

Lemma from_enc_mapping_iff m c : f2v_from_enc_mapping m = Some c <->
  exists s t k, (2 <= s)%N /\ 1 <= k /\
    (forall w, In w (map fst m) <-> length w = k /\ Forall (fun x => (x < s)%N) w) /\
    Forall (fun w => w <> []) (map snd m) /\ (1 <= t)%N /\ largest_symbol t (map snd m) /\
    f2v_src c = s /\ f2v_tgt c = (t + 1)%N /\ f2v_k c = k /\ f2v_map c = m.
Proof.
  split.
  - intros H. apply from_enc_mapping_inv in H as (A & B & D & H). apply f2v_make_iff in H as (H1 & H2 & H3 & H4 & H5 & H6).
    exists (max_symbol (map fst m) + 1)%N, (max_symbol (map snd m)), (length (hd [] (map fst m))).
    repeat (split; [first [now auto|lia]|]). split; [|exact H6].
    apply max_symbol_largest, concat_nonempty; auto. apply map_nonnil; auto.
  - intros (s & t & k & A & B & D & E & F & G & H). 
    pose proof (full_block_largest s k _ A B D) as L.
    assert (m <> []) as NE. { intros ->. destruct L as [(w & X & _) _]. easy. }
    assert (Forall (fun w => w <> []) (map fst m)) as NK.
    { apply Forall_forall. intros w Hw. apply D in Hw as [Hw _]. intros ->. cbn in Hw. lia. }
    rewrite from_enc_mapping_ok by auto. rewrite (largest_max _ _ L), (largest_max _ _ G).
    replace (length (hd [] (map fst m))) with k.
    + replace (s - 1 + 1)%N with s by lia. apply f2v_make_iff. split; [auto|]. split; [lia|]. split; [auto|]. split; [auto|]. split; [|exact H].
      apply Forall_forall. intros w Hw. apply Forall_forall. intros x Hx. destruct G as [_ G]. specialize (G _ _ Hw Hx). lia.
    + destruct m as [|[k0 v0] m]; [easy|]. cbn. symmetry. apply (D k0). left. reflexivity.
Qed.

Lemma from_dec_mapping_inv m c : v2f_from_dec_mapping m = Some c ->
  Forall (fun w => w <> []) (map fst m) /\ Forall (fun w => w <> []) (map snd m) /\ m <> [] /\
  v2f_make (max_symbol (map fst m) + 1) (max_symbol (map snd m) + 1) (length (hd [] (map fst m))) m = Some c.
Proof.
  unfold v2f_from_dec_mapping. destruct m as [|[k0 v0] m]; [discriminate|].
  destruct (existsb _ (map fst _)) eqn:E1; [discriminate|]. destruct (existsb _ (map snd _)) eqn:E2; [discriminate|].
  apply existsb_nonempty_false in E1, E2. intros H. repeat (split; [now auto|]). exact H.
Qed.
Lemma from_dec_mapping_iff m c : v2f_from_dec_mapping m = Some c <->
  exists s t n, 1 <= n /\ Forall (fun w => length w = n) (map fst m) /\ (1 <= t)%N /\ largest_symbol t (map fst m) /\
    Forall (fun w => w <> []) (map snd m) /\ (1 <= s)%N /\ largest_symbol s (map snd m) /\
    v2f_tgt c = (t + 1)%N /\ v2f_src c = (s + 1)%N /\ v2f_n c = n /\ v2f_map c = m.
Proof.
  split.
  - intros H. apply from_dec_mapping_inv in H as (A & B & D & H). apply v2f_make_iff in H as (H1 & H2 & H3 & H4 & H5 & H6).
    exists (max_symbol (map snd m)), (max_symbol (map fst m)), (length (hd [] (map fst m))).
    split; [auto|]. split; [apply Forall_forall; intros w Hw; apply H4; auto|]. split; [lia|].
    split; [apply max_symbol_largest, concat_nonempty; auto; apply map_nonnil; auto|]. split; [auto|]. split; [lia|].
    split; [apply max_symbol_largest, concat_nonempty; auto; apply map_nonnil; auto|]. exact H6.
  - intros (s & t & n & A & B & D & E & F & G & H & I').
    assert (m <> []) as NE. { intros ->. destruct E as [(w & X & _) _]. easy. }
    rewrite Forall_forall in B.
    assert (Forall (fun w => w <> []) (map fst m)) as NK.
    { apply Forall_forall. intros w Hw. specialize (B _ Hw). intros ->. cbn in B. lia. }
    unfold v2f_from_dec_mapping. destruct m as [|[k0 v0] m'] eqn:Em; [easy|]. rewrite <- Em in *.
    rewrite (proj2 (existsb_nonempty_false _) NK), (proj2 (existsb_nonempty_false _) F).
    rewrite (largest_max _ _ E), (largest_max _ _ H). rewrite (B k0) by (rewrite Em; left; reflexivity).
    apply v2f_make_iff. split; [lia|]. split; [lia|]. split; [auto|]. split; [|split; [|exact I']].
    + intros w Hw. split; [auto|]. apply Forall_forall. intros x Hx. destruct E as [_ E]. specialize (E _ _ Hw Hx). lia.
    + rewrite Forall_forall in F |- *. intros w Hw. split; [auto|]. apply Forall_forall. intros x Hx. destruct H as [_ H]. specialize (H _ _ Hw Hx). lia.
Qed.

(* from_codewords *)
Lemma from_codewords_iff ws src c : f2v_from_codewords ws src = Some c <->
  exists s t k, s = match src with Some s => s | None => N.of_nat (length ws) end /\
    (2 <= s)%N /\ 1 <= k /\ N.of_nat (length ws) = (s ^ N.of_nat k)%N /\
    Forall (fun w => w <> []) ws /\ (1 <= t)%N /\ largest_symbol t ws /\
    f2v_src c = s /\ f2v_tgt c = (t + 1)%N /\ f2v_k c = k /\ f2v_map c = combine (tuples s k) ws.
Proof.
  unfold f2v_from_codewords. set (s := match src with Some s => s | None => _ end). split.
  - destruct (existsb _ ws) eqn:E1; [discriminate|]. apply existsb_nonempty_false in E1.
    destruct (N.ltb_spec s 2); [discriminate|]. destruct ws as [|w0 l] eqn:Ew; [discriminate|]. rewrite <- Ew in *.
    destruct (infer_block_size _ s) as [k|] eqn:EI; [|discriminate]. apply infer_block_size_iff in EI as [K1 K2]; [|auto].
    intros H'. apply f2v_make_iff in H' as (H1 & H2 & H3 & H4 & H5 & H6).
    exists s, (max_symbol ws), k. repeat (split; [first [now auto|lia]|]). split; [|exact H6].
    apply max_symbol_largest, concat_nonempty; auto. rewrite Ew. discriminate.
  - intros (s' & t & k & -> & A & B & D & E & F & G & H). rewrite (proj2 (existsb_nonempty_false _) E).
    destruct (N.ltb_spec s 2); [lia|]. destruct ws as [|w0 l] eqn:Ew; [destruct G as [(w & X & _) _]; easy|]. rewrite <- Ew in *.
    rewrite (proj2 (infer_block_size_iff _ _ k A)) by auto. rewrite (largest_max _ _ G).
    assert (length (tuples s k) = length ws) as L by (pose proof (tuples_length s k); lia).
    apply f2v_make_iff. split; [auto|]. split; [lia|]. split; [auto|]. split; [|split; [|exact H]].
    + intros w. change (map fst (combine (tuples s k) ws)) with (keys (combine (tuples s k) ws)). rewrite keys_combine by auto. apply in_tuples.
    + change (map snd (combine (tuples s k) ws)) with (values (combine (tuples s k) ws)). rewrite values_combine by auto.
      apply Forall_forall. intros w Hw. apply Forall_forall. intros x Hx. destruct G as [_ G]. specialize (G _ _ Hw Hx). lia.
Qed.

(* from_sourcewords: the block size is the least one that gives enough target words *)
Lemma least_block_sound fuel tgt size n r : least_block fuel tgt size n = Some r ->
  n <= r /\ (size <= tgt ^ N.of_nat r)%N /\ (forall j, n <= j < r -> (tgt ^ N.of_nat j < size)%N).
Proof.
  revert n; induction fuel as [|f IH]; intros n; cbn [least_block]; destruct (N.leb_spec size (tgt ^ N.of_nat n)); try discriminate.
  - intros E; injection E as <-. repeat split; auto. lia.
  - intros E; injection E as <-. repeat split; auto. lia.
  - intros E. apply IH in E as (A & B & D). repeat split; auto; [lia|]. intros j Hj. destruct (Nat.eq_dec j n) as [->|]; [auto|]. apply D. lia.
Qed.
Lemma least_block_complete fuel tgt size n : (2 <= tgt)%N -> (size <= 2 ^ N.of_nat (n + fuel))%N -> exists r, least_block fuel tgt size n = Some r.
Proof.
  intros Ht. revert n; induction fuel as [|f IH]; intros n H; cbn [least_block]; destruct (N.leb_spec size (tgt ^ N.of_nat n)); eauto.
  - exfalso. assert (2 ^ N.of_nat n <= tgt ^ N.of_nat n)%N by (apply N.pow_le_mono_l; auto). rewrite Nat.add_0_r in H. lia.
  - apply IH. replace (S n + f) with (n + S f) by lia. exact H.
Qed.
Lemma size_nat_bound s : (s < 2 ^ N.of_nat (N.size_nat s))%N.
Proof.
  destruct s as [|p]; [reflexivity|].
  assert (E: N.of_nat (N.size_nat (N.pos p)) = N.size (N.pos p)).
  { clear. cbn. induction p as [p IH|p IH|]; cbn [Pos.size_nat Pos.size]; try reflexivity; lia. }
  rewrite E. apply N.size_gt.
Qed.
Lemma keys_combine_le (a b : list word) : length b <= length a -> keys (combine a b) = firstn (length b) a.
Proof. unfold keys. revert b; induction a as [|x a IH]; intros [|y b] H; cbn in *; try lia; auto. f_equal. apply IH. lia. Qed.
Lemma values_combine_le (a b : list word) : length b <= length a -> values (combine a b) = b.
Proof. unfold values. revert b; induction a as [|x a IH]; intros [|y b] H; cbn in *; try lia; auto. f_equal. apply IH. lia. Qed.

Lemma from_sourcewords_iff ws tgt c : v2f_from_sourcewords ws tgt = Some c <->
  exists s n, (2 <= tgt)%N /\ 1 <= n /\ (N.of_nat (length ws) <= tgt ^ N.of_nat n)%N /\
    (forall j, 1 <= j < n -> (tgt ^ N.of_nat j < N.of_nat (length ws))%N) /\
    Forall (fun w => w <> []) ws /\ (1 <= s)%N /\ largest_symbol s ws /\
    v2f_tgt c = tgt /\ v2f_src c = (s + 1)%N /\ v2f_n c = n /\ v2f_map c = combine (tuples tgt n) ws.
Proof.
  unfold v2f_from_sourcewords. split.
  - destruct (existsb _ ws) eqn:E1; [discriminate|]. apply existsb_nonempty_false in E1.
    destruct (N.ltb_spec tgt 2); [discriminate|]. destruct ws as [|w0 l] eqn:Ew; [discriminate|]. rewrite <- Ew in *.
    destruct (least_block _ tgt _ 1) as [n|] eqn:EI; [|discriminate]. apply least_block_sound in EI as (K1 & K2 & K3).
    intros H'. apply v2f_make_iff in H' as (H1 & H2 & H3 & H4 & H5 & H6).
    exists (max_symbol ws), n. repeat (split; [first [now auto|lia]|]). split; [|exact H6].
    apply max_symbol_largest, concat_nonempty; auto. rewrite Ew. discriminate.
  - intros (s & n & A & B & D & D' & E & F & G & H). rewrite (proj2 (existsb_nonempty_false _) E).
    destruct (N.ltb_spec tgt 2); [lia|]. destruct ws as [|w0 l] eqn:Ew; [destruct G as [(w & X & _) _]; easy|]. rewrite <- Ew in *.
    destruct (least_block_complete (N.size_nat (N.of_nat (length ws))) tgt (N.of_nat (length ws)) 1 A) as [r R].
    { pose proof (size_nat_bound (N.of_nat (length ws))) as Hs.
      assert (2 ^ N.of_nat (N.size_nat (N.of_nat (length ws))) <= 2 ^ N.of_nat (1 + N.size_nat (N.of_nat (length ws))))%N by (apply N.pow_le_mono_r; lia). lia. }
    rewrite R. apply least_block_sound in R as (R1 & R2 & R3). 
    assert (r = n) as ->.
    { destruct (lt_eq_lt_dec r n) as [[X|X]|X]; auto; exfalso.
      - specialize (D' r ltac:(lia)). lia.
      - specialize (R3 n ltac:(lia)). lia. }
    rewrite (largest_max _ _ G).
    assert (length ws <= length (tuples tgt n)) as L by (pose proof (tuples_length tgt n); lia).
    apply v2f_make_iff. split; [auto|]. split; [lia|]. split; [auto|]. split; [|split; [|exact H]].
    + intros w. change (map fst (combine (tuples tgt n) ws)) with (keys (combine (tuples tgt n) ws)). rewrite keys_combine_le by auto.
      intros Hw. apply in_tuples. rewrite <- (firstn_skipn (length ws)). apply in_or_app. auto.
    + change (map snd (combine (tuples tgt n) ws)) with (values (combine (tuples tgt n) ws)). rewrite values_combine_le by auto.
      rewrite Forall_forall in E |- *. intros w Hw. split; [auto|]. apply Forall_forall. intros x Hx. destruct G as [_ G]. specialize (G _ _ Hw Hx). lia.
Qed.

Lemma range_grid (q : nat) (f : nat -> nat -> N) (g : nat -> N) : forall p off, (forall a r, r < q -> f a r = g (a * q + r)) ->
  flat_map (fun a => map (f a) (seq 0 q)) (seq off p) = map g (seq (off * q) (p * q)).
Proof.
  induction p as [|p IH]; intros off H; [reflexivity|]. cbn [seq flat_map Nat.mul]. rewrite (IH (S off) H), seq_app, map_app. f_equal.
  - replace (seq (off * q) q) with (map (fun r => off * q + r) (seq 0 q)).
    + rewrite map_map. apply map_ext_in. intros r Hr. apply in_seq in Hr. apply H. lia.
    + clear. apply (list_ext 0); [rewrite map_length, !seq_length; reflexivity|].
      intros i Hi. rewrite map_length, seq_length in Hi. rewrite nth_map_seq, seq_nth by auto. reflexivity.
  - f_equal. f_equal. lia.
Qed.
Lemma tuples_values s k : map (block_value s) (tuples s k) = map N.of_nat (seq 0 (N.to_nat s ^ k)).
Proof.
  induction k as [|k IH]; [reflexivity|]. cbn [tuples]. rewrite flat_map_concat_map, concat_map, map_map.
  rewrite (map_ext_in _ (fun a => map (fun r => (a * s ^ N.of_nat k + N.of_nat r)%N) (seq 0 (N.to_nat s ^ k)))).
  - unfold range_N. rewrite map_map, <- flat_map_concat_map.
    pose proof (range_grid (N.to_nat s ^ k) (fun a r => (N.of_nat a * s ^ N.of_nat k + N.of_nat r)%N) N.of_nat (N.to_nat s) 0) as G.
    cbn [Nat.mul] in G. rewrite G; [reflexivity|]. intros a r Hr. rewrite Nat2N.inj_add, Nat2N.inj_mul, Nat2N.inj_pow, N2Nat.id. reflexivity.
  - intros a _. rewrite map_map. 
    transitivity (map (fun v => (a * s ^ N.of_nat k + v)%N) (map (block_value s) (tuples s k))).
    + rewrite map_map. apply map_ext_in. intros w Hw. cbn [block_value]. apply in_tuples in Hw as [-> _]. reflexivity.
    + rewrite IH, map_map. reflexivity.
Qed.
Lemma nth_tuples_value s k i : i < N.to_nat s ^ k -> exists b, nth_error (tuples s k) i = Some b /\
  length b = k /\ Forall (fun x => (x < s)%N) b /\ block_value s b = N.of_nat i.
Proof.
  intros Hi. assert (length (tuples s k) = N.to_nat s ^ k) as L.
  { apply Nat2N.inj. rewrite tuples_length, Nat2N.inj_pow, N2Nat.id. reflexivity. }
  destruct (nth_error (tuples s k) i) as [b|] eqn:E; [|apply nth_error_None in E; lia].
  exists b. split; [reflexivity|]. pose proof (nth_error_In _ _ E) as Hb. apply in_tuples in Hb as [A B]. repeat split; auto.
  pose proof (map_nth_error (block_value s) _ _ E) as X. rewrite tuples_values in X.
  rewrite (map_nth_error N.of_nat i (seq 0 (N.to_nat s ^ k)) (d := i)) in X; [congruence|].
  rewrite (nth_error_nth' _ 0) by (rewrite seq_length; auto). rewrite seq_nth by auto. reflexivity.
Qed.
Lemma combine_get (a b : list word) i x y : NoDup a -> nth_error a i = Some x -> nth_error b i = Some y -> dict_get x (combine a b) = Some y.
Proof.
  revert b i; induction a as [|x0 a IH]; intros b i ND Ha Hb; [destruct i; discriminate|].
  destruct b as [|y0 b]; [destruct i; discriminate|]. inversion ND; subst. cbn [combine dict_get].
  destruct i as [|i]; cbn in Ha, Hb.
  - injection Ha as ->. injection Hb as ->. unfold word_eqb. destruct (list_eq_dec N.eq_dec x x); [reflexivity|congruence].
  - unfold word_eqb. destruct (list_eq_dec N.eq_dec x x0) as [->|]; [|eapply IH; eauto].
    exfalso. apply nth_error_In in Ha. auto.
Qed.
Lemma tuples_combine_get s k ws i w : (N.of_nat (length ws) <= s ^ N.of_nat k)%N -> nth_error ws i = Some w ->
  exists b, dict_get b (combine (tuples s k) ws) = Some w /\ length b = k /\ Forall (fun x => (x < s)%N) b /\ block_value s b = N.of_nat i.
Proof.
  intros L E. destruct (nth_tuples_value s k i) as (b & B & R).
  - assert (i < length ws) as Hi by (apply nth_error_Some; congruence). apply Nat.lt_le_trans with (1 := Hi).
    assert (N.of_nat (length ws) <= N.of_nat (N.to_nat s ^ k))%N; [|lia]. rewrite Nat2N.inj_pow, N2Nat.id. exact L.
  - exists b. split; [|exact R]. eapply combine_get; eauto. apply tuples_NoDup.
Qed.

Lemma encode_blocks c s k ws bs : 1 <= k -> (N.of_nat (length ws) = s ^ N.of_nat k)%N -> f2v_k c = k -> f2v_map c = combine (tuples s k) ws ->
  f2v_is_uniquely_decodable c = Some true -> Forall (fun b => length b = k /\ Forall (fun x => (x < s)%N) b) bs ->
  f2v_encode c (concat bs) = Some (concat (map (fun b => nth (N.to_nat (block_value s b)) ws []) bs)).
Proof.
  intros Hk L Ek Em U HB. unfold f2v_encode. rewrite U, Ek, Em.
  assert (length (tuples s k) = length ws) as LT by (pose proof (tuples_length s k); lia).
  assert (forall b, In b (tuples s k) -> In (b, nth (N.to_nat (block_value s b)) ws []) (combine (tuples s k) ws)) as G.
  { intros b Hb. destruct (In_nth_error _ _ Hb) as [i Hi].
    assert (i < length ws) as Li by (rewrite <- LT; apply nth_error_Some; congruence).
    destruct (nth_tuples_value s k i) as (b' & Hb' & _ & _ & V).
    { assert (N.of_nat i < N.of_nat (N.to_nat s ^ k))%N; [|lia]. rewrite Nat2N.inj_pow, N2Nat.id. lia. }
    rewrite Hi in Hb'. injection Hb' as <-. rewrite V, Nat2N.id.
    destruct (nth_error ws i) as [w|] eqn:Ew; [|apply nth_error_None in Ew; lia].
    rewrite (nth_error_nth _ _ [] Ew). apply dict_get_In; [|eapply combine_get; eauto; apply tuples_NoDup].
    unfold keys. fold (keys (combine (tuples s k) ws)). rewrite keys_combine by auto. apply tuples_NoDup. }
  set (kvs := map (fun b => (b, nth (N.to_nat (block_value s b)) ws [])) bs).
  replace (concat bs) with (concat (map fst kvs)) by (unfold kvs; rewrite map_map, map_id; reflexivity).
  replace (map (fun b => nth (N.to_nat (block_value s b)) ws []) bs) with (map snd kvs) by (unfold kvs; rewrite map_map; reflexivity).
  apply parse_fixed_concat; auto.
  - fold (keys (combine (tuples s k) ws)). rewrite keys_combine by auto. apply tuples_NoDup.
  - intros kv Hkv. unfold kvs in Hkv. apply in_map_iff in Hkv as (b & <- & Hb). apply G, in_tuples. rewrite Forall_forall in HB. auto.
  - unfold kvs. rewrite map_map, map_id. eapply Forall_impl; [|exact HB]. cbn. tauto.
Qed.
