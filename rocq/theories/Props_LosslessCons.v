(* Property theorems C108: what the constructors of the lossless codes accept, and the code they build. *)
From Verif Require Import Common Prefix_Model Prefix_Proof Parse_Proof Canonical_Proof Spec_Lossless Kraft_Proof
  LosslessCons_Model LosslessCons_Spec LosslessCons_Proof.
From Coq Require Import QArith.
Local Open Scope nat_scope.

(* FixedToVariableCode(source_cardinality, target_cardinality, source_block_size, enc_mapping) *)
Theorem C108_f2v_constructor : forall src tgt k m c, f2v_make src tgt k m = Some c <->
  (2 <= src)%N /\ (2 <= tgt)%N /\ 1 <= k /\
  (forall w, In w (map fst m) <-> length w = k /\ Forall (fun x => (x < src)%N) w) /\
  Forall (Forall (fun x => (x < tgt)%N)) (map snd m) /\
  f2v_src c = src /\ f2v_tgt c = tgt /\ f2v_k c = k /\ f2v_map c = m.
Proof. exact f2v_make_iff. Qed.

(* VariableToFixedCode(target_cardinality, source_cardinality, target_block_size, dec_mapping) *)
Theorem C108_v2f_constructor : forall tgt src n m c, v2f_make tgt src n m = Some c <->
  (2 <= tgt)%N /\ (2 <= src)%N /\ 1 <= n /\
  (forall w, In w (map fst m) -> length w = n /\ Forall (fun x => (x < tgt)%N) w) /\
  Forall (fun w => w <> [] /\ Forall (fun x => (x < src)%N) w) (map snd m) /\
  v2f_tgt c = tgt /\ v2f_src c = src /\ v2f_n c = n /\ v2f_map c = m.
Proof. exact v2f_make_iff. Qed.

(* FixedToVariableCode.from_enc_mapping *)
Theorem C108_from_enc_mapping : forall m c, f2v_from_enc_mapping m = Some c <->
  exists s t k, (2 <= s)%N /\ 1 <= k /\
    (forall w, In w (map fst m) <-> length w = k /\ Forall (fun x => (x < s)%N) w) /\
    Forall (fun w => w <> []) (map snd m) /\ (1 <= t)%N /\ largest_symbol t (map snd m) /\
    f2v_src c = s /\ f2v_tgt c = (t + 1)%N /\ f2v_k c = k /\ f2v_map c = m.
Proof. exact from_enc_mapping_iff. Qed.

(* VariableToFixedCode.from_dec_mapping *)
Theorem C108_from_dec_mapping : forall m c, v2f_from_dec_mapping m = Some c <->
  exists s t n, 1 <= n /\ Forall (fun w => length w = n) (map fst m) /\ (1 <= t)%N /\ largest_symbol t (map fst m) /\
    Forall (fun w => w <> []) (map snd m) /\ (1 <= s)%N /\ largest_symbol s (map snd m) /\
    v2f_tgt c = (t + 1)%N /\ v2f_src c = (s + 1)%N /\ v2f_n c = n /\ v2f_map c = m.
Proof. exact from_dec_mapping_iff. Qed.

(* FixedToVariableCode.from_codewords *)
Theorem C108_from_codewords : forall ws src c, f2v_from_codewords ws src = Some c <->
  exists s t k, s = match src with Some s => s | None => N.of_nat (length ws) end /\
    (2 <= s)%N /\ 1 <= k /\ N.of_nat (length ws) = (s ^ N.of_nat k)%N /\
    Forall (fun w => w <> []) ws /\ (1 <= t)%N /\ largest_symbol t ws /\
    f2v_src c = s /\ f2v_tgt c = (t + 1)%N /\ f2v_k c = k /\ f2v_map c = combine (tuples s k) ws.
Proof. exact from_codewords_iff. Qed.

(* its observable effect: the codewords are the given list, and a sequence of blocks is encoded, each block b by the
   word at the position given by b read as a number in base s *)
Theorem C108_from_codewords_encodes : forall ws src c, f2v_from_codewords ws src = Some c ->
  f2v_codewords c = ws /\
  (forall bs, uniquely_decodable ws -> Forall (fun b => length b = f2v_k c /\ Forall (fun x => (x < f2v_src c)%N) b) bs ->
     f2v_encode c (concat bs) = Some (message ws (map (fun b => N.to_nat (block_value (f2v_src c) b)) bs))).
Proof.
  intros ws src c H. apply from_codewords_iff in H as (s & t & k & _ & A & B & D & E & _ & _ & F & _ & G & K).
  assert (length (tuples s k) = length ws) as L by (pose proof (tuples_length s k); lia).
  assert (f2v_codewords c = ws) as W.
  { unfold f2v_codewords. rewrite K. fold (values (combine (tuples s k) ws)). apply values_combine; auto. }
  split; [exact W|]. intros bs U HB. rewrite F, G in *. rewrite (encode_blocks c s k ws bs); auto.
  - unfold message. rewrite map_map. reflexivity.
  - unfold f2v_is_uniquely_decodable. rewrite W. apply is_uniquely_parsable_iff; auto.
Qed.

(* VariableToFixedCode.from_sourcewords: the target block is as short as the number of sourcewords allows *)
Theorem C108_from_sourcewords : forall ws tgt c, v2f_from_sourcewords ws tgt = Some c <->
  exists s n, (2 <= tgt)%N /\ 1 <= n /\ (N.of_nat (length ws) <= tgt ^ N.of_nat n)%N /\
    (forall j, 1 <= j < n -> (tgt ^ N.of_nat j < N.of_nat (length ws))%N) /\
    Forall (fun w => w <> []) ws /\ (1 <= s)%N /\ largest_symbol s ws /\
    v2f_tgt c = tgt /\ v2f_src c = (s + 1)%N /\ v2f_n c = n /\ v2f_map c = combine (tuples tgt n) ws.
Proof. exact from_sourcewords_iff. Qed.
Theorem C108_from_sourcewords_blocks : forall ws tgt c, v2f_from_sourcewords ws tgt = Some c ->
  v2f_sourcewords c = ws /\
  forall i w, nth_error ws i = Some w -> exists b, dict_get b (v2f_map c) = Some w /\
    length b = v2f_n c /\ Forall (fun x => (x < tgt)%N) b /\ block_value tgt b = N.of_nat i.
Proof.
  intros ws tgt c H. apply from_sourcewords_iff in H as (s & n & A & B & D & _ & E & _ & _ & _ & _ & F & G).
  assert (length ws <= length (tuples tgt n)) as L by (pose proof (tuples_length tgt n); lia).
  rewrite F. unfold v2f_sourcewords. rewrite G. split.
  - fold (values (combine (tuples tgt n) ws)). apply values_combine_le; auto.
  - intros i w Hw. apply tuples_combine_get; auto.
Qed.

(* FixedToVariableCode.from_lengths: accepted exactly for a power of the source cardinality of positive lengths with
   Kraft sum at most 1 (the codewords it builds are described by C06_from_lengths) *)
Theorem C108_from_lengths : forall lengths src tgt,
  let s := match src with Some s => s | None => N.of_nat (length lengths) end in
  (exists c, f2v_from_lengths lengths src tgt = Some c) <->
  (2 <= s)%N /\ (2 <= tgt)%N /\ (exists k, 1 <= k /\ N.of_nat (length lengths) = (s ^ N.of_nat k)%N) /\
  Forall (fun l => 0 < l) lengths /\ (kraft_sum tgt lengths <= 1)%Q.
Proof.
  intros lengths src tgt s.
  assert (f2v_from_lengths lengths src tgt = f2v_from_lengths lengths (Some s) tgt) as -> by reflexivity. clearbody s. split.
  - intros (c & H). assert (f2v_from_lengths lengths (Some s) tgt = Some c) as H0 by exact H. unfold f2v_from_lengths in H.
    destruct (N.ltb_spec s 2); [discriminate|]. destruct (N.ltb_spec tgt 2); [discriminate|].
    destruct (infer_block_size _ s) as [k|] eqn:EI; [|discriminate]. apply infer_block_size_iff in EI as [K1 K2]; [|auto].
    destruct (canonical_code lengths tgt) as [ws|] eqn:EC; [|discriminate].
    destruct (existsb _ ws) eqn:EE; [discriminate|]. apply existsb_nonempty_false in EE.
    assert (Forall (fun l => 0 < l) lengths) as P.
    { rewrite <- (canonical_lengths tgt ltac:(auto) lengths ws EC). apply Forall_map. eapply Forall_impl; [|exact EE].
      intros w Hw. cbn. destruct w; [congruence|cbn; lia]. }
    repeat split; auto; [eauto|]. apply (proj1 (from_lengths_correct lengths s tgt k ltac:(auto) ltac:(auto) K1 K2 P)). eauto.
  - intros (A & B & (k & C1 & C2) & D & E). apply (proj1 (from_lengths_correct lengths s tgt k A B C1 C2 D)). exact E.
Qed.

(* reading a code's own mapping back rebuilds the code when every target symbol below the last is optional but the last is used *)
Theorem C108_enc_mapping_round_trip : forall src tgt k m c, f2v_make src tgt k m = Some c ->
  Forall (fun w => w <> []) (map snd m) -> (exists w, In w (map snd m) /\ In (tgt - 1)%N w) ->
  f2v_from_enc_mapping (f2v_map c) = Some c.
Proof.
  intros src tgt k m c H NE (w & Hw & Hx). apply f2v_make_iff in H as (A & B & D & E & F & G1 & G2 & G3 & G4).
  rewrite G4. apply from_enc_mapping_iff. exists src, (tgt - 1)%N, k. repeat (split; [first [now auto|lia]|]).
  split; [|repeat split; auto; lia]. split; [eauto|]. intros w' x Hw' Hx'. rewrite Forall_forall in F. specialize (F _ Hw').
  rewrite Forall_forall in F. specialize (F _ Hx'). lia.
Qed.
(* otherwise it rebuilds a code with fewer target symbols: here the ternary code becomes a binary one *)
Theorem C108_enc_mapping_smaller : exists c c', f2v_make 2 3 1 [([0], [0]); ([1], [1])]%N = Some c /\
  f2v_from_enc_mapping (f2v_map c) = Some c' /\ f2v_tgt c' = 2%N.
Proof. eexists; eexists. repeat split; vm_compute; reflexivity. Qed.
(* from_enc_mapping refuses the empty codeword that the class constructor accepts (C05_empty_codeword_refuted) *)
Theorem C108_empty_codeword : f2v_from_enc_mapping [([0], []); ([1], [1])]%N = None /\
  exists c, f2v_make 2 2 1 [([0], []); ([1], [1])]%N = Some c.
Proof. split; [reflexivity|eexists; vm_compute; reflexivity]. Qed.
Theorem C108_satisfiable :
  (exists c, f2v_from_codewords [[0]; [1; 0]; [1; 1; 0]; [1; 1; 2]]%N (Some 2%N) = Some c /\ f2v_k c = 2 /\ f2v_tgt c = 3%N /\
     f2v_encode c [1; 0; 0; 1; 1; 1]%N = Some [1; 1; 0; 1; 0; 1; 1; 2]%N) /\
  (exists c, f2v_from_enc_mapping [([1], [1; 0]); ([0], [0])]%N = Some c) /\
  (exists c, v2f_from_sourcewords [[0; 0; 0]; [0; 0; 1]; [0; 1]; [1]; [2]]%N 2%N = Some c /\ v2f_n c = 3 /\ v2f_src c = 3%N) /\
  (exists c, v2f_from_dec_mapping [([0], [0; 0]); ([1], [1]); ([2], [0; 1])]%N = Some c) /\
  (exists c, f2v_from_lengths [2; 1; 3; 3] (Some 2%N) 2 = Some c).
Proof. repeat split; eexists; repeat split; vm_compute; reflexivity. Qed.
