(* Property theorems C10-C13 (statements only; proofs are in the *_Proof files). *)
From Verif Require Import Common Prefix_Model Prefix_Proof Cover_Proof Canonical_Proof Parse_Proof Spec_Lossless Kraft_Proof
  PmfCodes_Model Huffman_Proof HuffmanOpt_Proof McMillan_Proof PmfCodes_Proof.
From Coq Require Import QArith Qabs Permutation.
Local Open Scope nat_scope.

(* ---- C10 *)
Theorem C10_huffman_complete : forall pmf k pol asg, 2 <= length pmf -> 1 <= k ->
  exists c, huffman_make pmf k pol asg = Some c /\
    f2v_src c = N.of_nat (length pmf) /\ f2v_tgt c = 2%N /\ f2v_k c = k /\
    map fst (f2v_map c) = tuples (N.of_nat (length pmf)) k /\
    prefix_free_words (f2v_codewords c) /\ f2v_is_prefix_free c = true /\
    Forall (fun w => w <> []) (f2v_codewords c) /\ Forall (Forall (fun x => (x < 2)%N)) (f2v_codewords c) /\
    (kraft_sum 2 (map (@length N) (f2v_codewords c)) == 1)%Q.
Proof.
  intros pmf k pol asg H2 Hk. destruct (huffman_make_spec pmf k pol asg H2 Hk) as (c & ws & E & [] & K).
  exists c. repeat (split; [assumption|]). exact K.
Qed.
(* hence decode inverts encode *)
Theorem C10_huffman_round_trip : forall pmf k pol asg input, 2 <= length pmf -> 1 <= k ->
  length input mod k = 0 -> Forall (fun x => (x < N.of_nat (length pmf))%N) input ->
  exists c out, huffman_make pmf k pol asg = Some c /\ f2v_encode c input = Some out /\ f2v_decode c out = Some input.
Proof.
  intros pmf k pol asg input H2 Hk Hl Hr. destruct (huffman_make_spec pmf k pol asg H2 Hk) as (c & ws & E & G & _).
  assert (E' := E). unfold huffman_make in E'. destruct (huffman_codewords (outer_power pmf k) pol asg) as [cs|]; [|discriminate].
  destruct (f2v_make_inv _ _ _ _ _ E') as (_ & _ & _ & _ & _ & Ec). destruct G as [_ _ _ Gk _ _ Gf Gn _].
  destruct (f2v_round_trip _ _ _ _ _ input E') as (out & A & B); auto.
  - rewrite Ec in Gk. cbn [f2v_map] in Gk. unfold keys. rewrite Gk. apply tuples_NoDup.
  - rewrite Ec in Gn. exact Gn.
  - exists c, out. auto.
Qed.
Example C10_example :
  option_map f2v_codewords (huffman_make [8 # 10; 1 # 10; 1 # 10]%Q 2 High Tree) =
    Some [[0]; [1; 0; 1]; [1; 1; 0]; [1; 1; 1]; [1; 0; 0; 1; 0; 0]; [1; 0; 0; 1; 0; 1]; [1; 0; 0; 0]; [1; 0; 0; 1; 1; 0]; [1; 0; 0; 1; 1; 1]]%N
  /\ option_map f2v_codewords (huffman_make [8 # 10; 1 # 10; 1 # 10]%Q 2 High Canonical) =
    Some [[0]; [1; 0; 0]; [1; 0; 1]; [1; 1; 0]; [1; 1; 1; 1; 0; 0]; [1; 1; 1; 1; 0; 1]; [1; 1; 1; 0]; [1; 1; 1; 1; 1; 0]; [1; 1; 1; 1; 1; 1]]%N.
Proof. split; vm_compute; reflexivity. Qed.

(* ---- C11: [block_prob pmf t] is the probability of the source block t *)
Theorem C11_huffman_optimal : forall pmf k pol asg c ws, 2 <= length pmf -> 1 <= k -> Forall (fun p => (0 <= p)%Q) pmf ->
  huffman_make pmf k pol asg = Some c -> length ws = length (f2v_codewords c) ->
  Forall (Forall (fun x => (x < 2)%N)) ws -> uniquely_decodable ws ->
  (expected_length (map (block_prob pmf) (tuples (N.of_nat (length pmf)) k)) (f2v_codewords c) <=
   expected_length (map (block_prob pmf) (tuples (N.of_nat (length pmf)) k)) ws)%Q.
Proof.
  intros pmf k pol asg c ws H2 Hk Hp E L B U.
  rewrite <- !(expected_length_wd _ _ _ (outer_power_blocks pmf k Hk)). eapply huffman_make_optimal; eauto.
Qed.
(* in particular among prefix-free codes without empty codewords *)
Corollary C11_huffman_optimal_prefix_free : forall pmf k pol asg c ws, 2 <= length pmf -> 1 <= k -> Forall (fun p => (0 <= p)%Q) pmf ->
  huffman_make pmf k pol asg = Some c -> length ws = length (f2v_codewords c) ->
  Forall (Forall (fun x => (x < 2)%N)) ws -> Forall (fun w => w <> []) ws -> prefix_free_words ws ->
  (expected_length (map (block_prob pmf) (tuples (N.of_nat (length pmf)) k)) (f2v_codewords c) <=
   expected_length (map (block_prob pmf) (tuples (N.of_nat (length pmf)) k)) ws)%Q.
Proof.
  intros pmf k pol asg c ws H2 Hk Hp E L B Hn U. eapply C11_huffman_optimal; eauto.
  apply is_uniquely_parsable_iff; auto. apply PF_uniquely_parsable; auto.
  apply is_prefix_free_iff in U; auto. apply is_prefix_free_PF in U. rewrite filter_non_empty_id in U; auto.
Qed.
Example C11_example : exists c, huffman_make [8 # 10; 1 # 10; 1 # 10]%Q 1 High Tree = Some c /\
  (expected_length (map (block_prob [8 # 10; 1 # 10; 1 # 10]%Q) (tuples 3 1)) (f2v_codewords c) == 12 # 10)%Q /\
  (expected_length (map (block_prob [8 # 10; 1 # 10; 1 # 10]%Q) (tuples 3 1)) [[1; 0]; [0]; [1; 1]]%N == 19 # 10)%Q.
Proof. eexists. repeat split; vm_compute; reflexivity. Qed.

(* ---- C12 *)
Theorem C12_fano : forall pmf k, 2 <= length pmf -> 1 <= k -> Forall (fun p => (0 <= p)%Q) pmf ->
  exists c, fano_make pmf k = Some c /\
    f2v_src c = N.of_nat (length pmf) /\ f2v_tgt c = 2%N /\ f2v_k c = k /\
    map fst (f2v_map c) = tuples (N.of_nat (length pmf)) k /\
    prefix_free_words (f2v_codewords c) /\ f2v_is_prefix_free c = true /\
    Forall (fun w => w <> []) (f2v_codewords c) /\ Forall (Forall (fun x => (x < 2)%N)) (f2v_codewords c) /\
    (kraft_sum 2 (map (@length N) (f2v_codewords c)) == 1)%Q.
Proof.
  intros pmf k H2 Hk HP. destruct (fano_make_spec pmf k H2 Hk HP) as (c & ws & E & [] & K & _).
  exists c. repeat (split; [assumption|]). exact K.
Qed.
(* the codeword of block t has the least length l >= 1 with block_prob t * 2^l >= 1 *)
Theorem C12_shannon : forall pmf k, 2 <= length pmf -> 1 <= k -> Forall (fun p => (0 < p)%Q) pmf ->
  (fold_right Qplus 0 pmf <= 1)%Q ->
  exists c, shannon_make pmf k = Some c /\
    f2v_src c = N.of_nat (length pmf) /\ f2v_tgt c = 2%N /\ f2v_k c = k /\
    map fst (f2v_map c) = tuples (N.of_nat (length pmf)) k /\
    prefix_free_words (f2v_codewords c) /\ f2v_is_prefix_free c = true /\
    Forall (fun w => w <> []) (f2v_codewords c) /\ Forall (Forall (fun x => (x < 2)%N)) (f2v_codewords c) /\
    (forall i t w, nth_error (f2v_map c) i = Some (t, w) ->
       (1 <= block_prob pmf t * inject_Z (2 ^ Z.of_nat (length w)))%Q /\
       forall m, 1 <= m < length w -> (block_prob pmf t * inject_Z (2 ^ Z.of_nat m) < 1)%Q).
Proof.
  intros pmf k H2 Hk HP HS. destruct (shannon_make_spec pmf k H2 Hk HP HS) as (c & ws & E & [G1 G2 G3 G4 G5 G6 G7 G8 G9] & K).
  exists c. repeat (split; [assumption|]).
  intros i t w Hi. assert (Ht := map_nth_error fst _ _ Hi). assert (Hw := map_nth_error snd _ _ Hi). cbn [fst snd] in *.
  rewrite G4 in Ht. assert (Hl := map_nth_error (@length N) _ _ Hw). fold (f2v_codewords c) in Hl. rewrite K in Hl.
  rewrite nth_error_map in Hl. destruct (nth_error (outer_power pmf k) i) as [q|] eqn:Eq; [|discriminate]. cbn [option_map] in Hl.
  injection Hl as Hl. assert (Hp := outer_power_blocks pmf k Hk).
  assert (Hb := map_nth_error (block_prob pmf) _ _ Ht).
  assert (EQ : (q == block_prob pmf t)%Q).
  { revert Eq Hb. generalize (outer_power pmf k), (map (block_prob pmf) (tuples (N.of_nat (length pmf)) k)), Hp. clear.
    intros a b F. revert i. induction F as [|x y a b Hx _ IH]; intros [|i] E1 E2; cbn in *; try discriminate; [congruence|eauto]. }
  assert (Q0 : (0 < q)%Q).
  { assert (F : Forall (fun p => (0 < p)%Q) (outer_power pmf k)).
    { apply Forall_outer; auto. intros a b Ha Hb'. rewrite <- (Qmult_0_l b). apply Qmult_lt_compat_r; auto. }
    rewrite Forall_forall in F. apply F. eapply nth_error_In; eauto. }
  destruct (shannon_length_spec q Q0) as (_ & A & B). rewrite Hl in *. split.
  - rewrite <- EQ. exact A.
  - intros m Hm. rewrite <- EQ. apply B. exact Hm.
Qed.
Example C12_example :
  option_map f2v_codewords (fano_make [8 # 10; 1 # 10; 1 # 10]%Q 1) = Some [[0]; [1; 0]; [1; 1]]%N /\
  option_map f2v_codewords (shannon_make [8 # 10; 1 # 10; 1 # 10]%Q 1) = Some [[0]; [1; 0; 0; 0]; [1; 0; 0; 1]]%N.
Proof. split; vm_compute; reflexivity. Qed.
(* validate_pmf tolerates |sum - 1| <= 1e-5; with such a pmf the constructor can reject *)
Theorem C12_shannon_tolerance_refuted : exists pmf, 2 <= length pmf /\ Forall (fun p => (0 < p)%Q) pmf /\
  (Qabs (fold_right Qplus 0 pmf - 1) <= 1 # 100000)%Q /\ shannon_make pmf 1 = None.
Proof.
  exists [1 # 2; 1 # 2; 1 # 131072]%Q. split; [cbn; lia|]. split; [repeat constructor|]. split; vm_compute; congruence.
Qed.

(* ---- C13: the heap is any structure whose pop returns an element of greatest probability *)
Definition max_heap_pop (pop : list tnode -> option (tnode * list tnode)) : Prop :=
  forall h, h <> [] -> exists x r, pop h = Some (x, r) /\ Permutation h (x :: r) /\ Forall (fun y => (snd y <= snd x)%Q) r.
Theorem C13_tunstall : forall pop, max_heap_pop pop -> forall pmf n, 2 <= length pmf ->
  (N.of_nat (length pmf) <= 2 ^ N.of_nat n)%N ->
  exists c, tunstall_make pop pmf n = Some c /\
    v2f_src c = N.of_nat (length pmf) /\ v2f_tgt c = 2%N /\ v2f_n c = n /\
    (N.of_nat (length (v2f_sourcewords c)) <= 2 ^ N.of_nat n)%N /\
    (2 ^ N.of_nat n < N.of_nat (length (v2f_sourcewords c)) + N.of_nat (length pmf))%N /\
    prefix_free_words (v2f_sourcewords c) /\ covers_every_sequence (v2f_sourcewords c) (N.of_nat (length pmf)) /\
    v2f_is_prefix_free c = true /\ v2f_is_fully_covering c = Some true /\
    forall input, Forall (fun x => (x < N.of_nat (length pmf))%N) input ->
      exists out pad, v2f_encode c input = Some out /\ v2f_decode c out = Some (input ++ pad).
Proof.
  intros pop Hp pmf n H2 Hn. apply tunstall_spec; auto.
  intros h Hh. destruct (Hp h Hh) as (x & r & A & B & _). eauto.
Qed.
(* such a pop exists: the first element of greatest probability *)
Fixpoint first_max (h : list tnode) : option (tnode * list tnode) :=
  match h with
  | [] => None
  | x :: r => match first_max r with
              | None => Some (x, [])
              | Some (y, r') => if Qle_bool (snd y) (snd x) then Some (x, r) else Some (y, x :: r')
              end
  end.
Lemma C13_pop_exists : max_heap_pop first_max.
Proof.
  unfold max_heap_pop. induction h as [|a h IH]; [congruence|]. intros _. cbn [first_max]. destruct h as [|b h].
  - exists a, []. repeat split; auto.
  - destruct IH as (x & r & E & P & F); [discriminate|]. rewrite E. destruct (Qle_bool (snd x) (snd a)) eqn:L.
    + apply Qle_bool_iff in L. exists a, (b :: h). repeat split; auto. rewrite P. constructor; auto.
      eapply Forall_impl; [|exact F]. cbn. intros y Hy. eapply Qle_trans; eauto.
    + exists x, (a :: r). repeat split; auto.
      * rewrite P. apply perm_swap.
      * constructor; auto. apply Qlt_le_weak, Qnot_le_lt. intros C. apply Qle_bool_iff in C. congruence.
Qed.
Example C13_example : option_map v2f_map (tunstall_make first_max [8 # 10; 1 # 10; 1 # 10]%Q 3) =
  Some [([0; 0; 0], [0; 0; 0]); ([0; 0; 1], [0; 0; 1]); ([0; 1; 0], [0; 0; 2]); ([0; 1; 1], [0; 1]);
        ([1; 0; 0], [0; 2]); ([1; 0; 1], [1]); ([1; 1; 0], [2])]%N.
Proof. vm_compute. reflexivity. Qed.
(* the dictionary is not always the largest possible: a fourth word would fit here *)
Theorem C13_not_maximal_refuted : exists c, tunstall_make first_max [1 # 2; 1 # 2]%Q 2 = Some c /\
  length (v2f_sourcewords c) = 3 /\ (N.of_nat (length (v2f_sourcewords c) + (2 - 1)) <= 2 ^ N.of_nat 2)%N.
Proof. eexists. repeat split; vm_compute; congruence. Qed.

Print Assumptions C10_huffman_complete. Print Assumptions C10_huffman_round_trip. Print Assumptions C11_huffman_optimal.
Print Assumptions C11_huffman_optimal_prefix_free. Print Assumptions C12_fano. Print Assumptions C12_shannon.
Print Assumptions C13_tunstall.
