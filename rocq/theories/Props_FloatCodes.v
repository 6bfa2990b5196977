(** C114: HuffmanCode, FanoCode and TunstallCode as they run, in double precision. *)
From Coq Require Import Reals Lra QArith Qreals Permutation.
From Flocq Require Import Core.
From Verif Require Import Common Spec_Lossless Prefix_Model PmfCodes_Model PmfCodes_Proof Float_Model FloatShannon_Model FloatShannon_Spec FloatShannon_Proof FloatCodes_Model FloatCodes_Spec FloatCodes_Proof FloatFano_Proof FloatHuffman_Proof.
Local Open Scope nat_scope.

(* whatever the rounding does to the probabilities, a Huffman code is a complete prefix-free code *)
Theorem C114_huffman : forall pmf k pol asg, 2 <= length pmf -> 1 <= k ->
  exists c, float_huffman_make pmf k pol asg = Some c /\
    f2v_src c = N.of_nat (length pmf) /\ f2v_tgt c = 2%N /\ f2v_k c = k /\ map fst (f2v_map c) = tuples (N.of_nat (length pmf)) k /\
    prefix_free_words (f2v_codewords c) /\ f2v_is_prefix_free c = true /\
    Forall (fun w => w <> []) (f2v_codewords c) /\ Forall (Forall (fun x => (x < 2)%N)) (f2v_codewords c) /\
    (kraft_sum 2 (map (@length N) (f2v_codewords c)) == 1)%Q.
Proof.
  intros pmf k pol asg H2 Hk. destruct (float_huffman_spec pmf k pol asg H2 Hk) as (c & ws & E & [G1 G2 G3 G4 G5 G6 G7 G8 G9] & K).
  exists c. repeat (split; [assumption|]). exact K.
Qed.
(* when every block probability is a multiple of 2^-53, nothing is rounded: the code is the one of exact arithmetic, and optimal *)
Theorem C114_huffman_exact : forall pmf k pol asg, 1 <= k -> Forall (fun p => (0 <= p)%Q) pmf -> (fold_right Qplus 0 pmf <= 1)%Q ->
  (forall j, 1 <= j <= k -> Forall grid53 (outer_power pmf j)) ->
  float_huffman_make (map Q2R pmf) k pol asg = huffman_make pmf k pol asg.
Proof. intros pmf k pol asg Hk N S G. exact (huffman_toR pmf k pol asg Hk N S G). Qed.
Theorem C114_huffman_optimal : forall pmf k pol asg c ws, 2 <= length pmf -> 1 <= k -> Forall (fun p => (0 <= p)%Q) pmf -> (fold_right Qplus 0 pmf <= 1)%Q ->
  (forall j, 1 <= j <= k -> Forall grid53 (outer_power pmf j)) ->
  float_huffman_make (map Q2R pmf) k pol asg = Some c -> length ws = length (f2v_codewords c) ->
  Forall (Forall (fun x => (x < 2)%N)) ws -> uniquely_decodable ws ->
  (expected_length (outer_power pmf k) (f2v_codewords c) <= expected_length (outer_power pmf k) ws)%Q.
Proof.
  intros pmf k pol asg c ws H2 Hk N S G E L B UD. rewrite (C114_huffman_exact pmf k pol asg Hk N S G) in E.
  exact (huffman_make_optimal pmf k pol asg c ws H2 Hk N E L B UD).
Qed.
Theorem C114_huffman_optimal_met : let pmf := [1 # 2; 1 # 4; 1 # 8; 1 # 8]%Q in
  Forall (fun p => (0 <= p)%Q) pmf /\ (fold_right Qplus 0 pmf <= 1)%Q /\ (forall j, 1 <= j <= 2 -> Forall grid53 (outer_power pmf j)) /\
  exists c, float_huffman_make (map Q2R pmf) 2 High Tree = Some c /\ length (f2v_codewords c) = 16.
Proof.
  cbn zeta. set (pmf := [1 # 2; 1 # 4; 1 # 8; 1 # 8]%Q).
  assert (N : Forall (fun p => (0 <= p)%Q) pmf) by (repeat constructor; discriminate).
  assert (S : (fold_right Qplus 0 pmf <= 1)%Q) by (vm_compute; discriminate).
  assert (G : forall j, 1 <= j <= 2 -> Forall grid53 (outer_power pmf j)).
  { assert (GR : forall d, In d [2; 4; 8; 16; 32; 64]%positive -> grid53 (1 # d)).
    { intros d Hd. exists (2 ^ 53 / Zpos d)%Z. cbn in Hd. repeat (destruct Hd as [<-|Hd]; [vm_compute; reflexivity|]). contradiction. }
    intros j Hj. assert (j = 1 \/ j = 2) as [->| ->] by lia; cbn [outer_power pmf map flat_map app];
    repeat (apply Forall_cons; [apply GR; cbn; tauto|]); apply Forall_nil. }
  split; [exact N|]. split; [exact S|]. split; [exact G|]. rewrite (C114_huffman_exact pmf 2 High Tree ltac:(lia) N S G).
  eexists. split; vm_compute; reflexivity.
Qed.

(* Fano: the splitting loop ends, never with an empty part, and the code is a complete prefix-free code *)
Theorem C114_fano : forall npsum pmf k, sum_like npsum -> 2 <= length pmf -> 1 <= k -> (Z.of_nat (length pmf ^ k) <= 2 ^ 48)%Z ->
  Forall double_prob (float_products pmf k) ->
  exists c, float_fano_make npsum pmf k = Some c /\
    f2v_src c = N.of_nat (length pmf) /\ f2v_tgt c = 2%N /\ f2v_k c = k /\ map fst (f2v_map c) = tuples (N.of_nat (length pmf)) k /\
    prefix_free_words (f2v_codewords c) /\ f2v_is_prefix_free c = true /\
    Forall (fun w => w <> []) (f2v_codewords c) /\ Forall (Forall (fun x => (x < 2)%N)) (f2v_codewords c) /\
    (kraft_sum 2 (map (@length N) (f2v_codewords c)) == 1)%Q.
Proof.
  intros npsum pmf k SL H2 Hk HN HD. destruct (float_fano_spec npsum pmf k SL H2 Hk HN HD) as (c & ws & E & [G1 G2 G3 G4 G5 G6 G7 G8 G9] & K).
  exists c. repeat (split; [assumption|]). exact K.
Qed.
(* the hypotheses are met: sequential summation in double precision, and pmfs such as (1/2, 1/4, 1/4) *)
Theorem C114_fano_met : sum_like (fun l => match l with [] => 0%R | p :: r => fold_left (fun a x => binary64 (a + x)) r p end) /\
  Forall double_prob (float_products [(/ 2 ^ 1)%R; (/ 2 ^ 2)%R; (/ 2 ^ 2)%R] 1).
Proof.
  split.
  - intros l F L. replace (match l with [] => 0%R | p :: r => fold_left (fun a x => binary64 (a + x)) r p end) with (seq_sum l); [apply seq_sum_like; assumption|].
    destruct l as [|p r]; [reflexivity|]. cbn [seq_sum]. clear F L. revert p. induction r as [|x r IH]; intros p; [reflexivity|]. cbn [tot fold_left]. apply IH.
  - cbn [float_products]. assert (R : forall a, 1 <= a <= 2 -> double_prob (/ 2 ^ a)%R).
    { intros a Ha. split; [apply b64_pow_neg; lia|right]. split; [apply pow_small; lia|].
      pose proof (pow_small 0 a ltac:(lia)) as X. cbn in X. lra. }
    repeat (apply Forall_cons; [apply R; lia|]). apply Forall_nil.
Qed.

(* Tunstall: whichever node the heap returns, the dictionary is prefix-free, fully covering and fits *)
Theorem C114_tunstall : forall pop, heap_like pop -> forall pmf n, 2 <= length pmf -> (N.of_nat (length pmf) <= 2 ^ N.of_nat n)%N ->
  exists c, float_tunstall_make pop pmf n = Some c /\
    v2f_src c = N.of_nat (length pmf) /\ v2f_tgt c = 2%N /\ v2f_n c = n /\
    (N.of_nat (length (v2f_sourcewords c)) <= 2 ^ N.of_nat n)%N /\
    (2 ^ N.of_nat n < N.of_nat (length (v2f_sourcewords c)) + N.of_nat (length pmf))%N /\
    prefix_free_words (v2f_sourcewords c) /\ covers_every_sequence (v2f_sourcewords c) (N.of_nat (length pmf)) /\
    v2f_is_prefix_free c = true /\ v2f_is_fully_covering c = Some true /\
    forall input, Forall (fun x => (x < N.of_nat (length pmf))%N) input ->
      exists out pad, v2f_encode c input = Some out /\ v2f_decode c out = Some (input ++ pad).
Proof. intros pop HP pmf n H2 Hn. exact (float_tunstall_spec pop HP pmf H2 n Hn). Qed.
Theorem C114_tunstall_met : heap_like (fun h : list ftnode => match h with [] => None | x :: r => Some (x, r) end).
Proof. intros [|x r] H; [congruence|]. exists x, r. split; reflexivity. Qed.
(* the number a sourceword carries in the heap is its probability, computed with one rounding per multiplication; together with
   a pop that returns a node of greatest number this is the rule of the construction *)
Theorem C114_tunstall_weights : forall pop, heap_like pop -> forall pmf K h, 1 <= length pmf ->
  float_tunstall_grow pop pmf K (map (fun sp => ([fst sp], snd sp)) (combine (range_N (N.of_nat (length pmf))) pmf)) = Some h ->
  Forall (fun x => snd x = computed_prob pmf (fst x)) h.
Proof.
  intros pop HP pmf K h L E. assert (W : TW pmf h).
  { refine (grow_weights pop HP pmf K _ _ (first_weights pmf) E _ L). intros C. apply map_eq_nil in C. apply (f_equal (@length _)) in C.
    rewrite combine_length in C. unfold range_N in C. rewrite map_length, seq_length in C. cbn in C. lia. }
  eapply Forall_impl; [|exact W]. cbn. tauto.
Qed.
Print Assumptions C114_huffman. Print Assumptions C114_fano. Print Assumptions C114_tunstall.
