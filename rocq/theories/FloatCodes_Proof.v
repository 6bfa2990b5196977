From Coq Require Import Reals Lra QArith Permutation.
From Flocq Require Import Core Relative.
From Verif Require Import Common HuffmanOpt_Proof Spec_Lossless Huffman_Proof Prefix_Model Prefix_Proof PmfCodes_Model PmfCodes_Proof Canonical_Proof Kraft_Proof Float_Model Float_Proof FloatShannon_Model FloatShannon_Spec FloatShannon_Proof FloatCodes_Model.
Local Open Scope nat_scope.

(* ---------- Huffman *)
Lemma fheappop_perm pol h : h <> [] -> exists x r, fheappop pol h = Some (x, r) /\ Permutation h (x :: r).
Proof.
  induction h as [|a h IH]; [congruence|]. intros _. cbn [fheappop]. destruct h as [|b h].
  - exists a, []. split; reflexivity.
  - destruct IH as (x & r & E & P); [discriminate|]. rewrite E. destruct (flt pol x a).
    + exists x, (a :: r). split; [reflexivity|]. rewrite P. apply perm_swap.
    + exists a, (b :: h). split; reflexivity.
Qed.
Definition zeros (n : nat) : list Q := repeat 0%Q n.
Definition eidx (e : hnode * btree) : nat := nidx (fst e).
Lemma float_loop_spec pol m fuel : forall links heap F, heap <> [] -> length heap <= fuel + 1 -> Inv (zeros m) links F ->
  map fidx heap = map eidx F ->
  exists links' n T, float_huffman_loop fuel pol links heap = Some links' /\ Inv (zeros m) links' [(n, T)].
Proof.
  induction fuel as [|fuel IH]; intros links heap F NE HL HI HM.
  - destruct heap as [|a [|b heap]]; cbn in HL; try lia; [congruence|].
    destruct F as [|[n t] [|? ?]]; try discriminate. exists links, n, t. split; [reflexivity|exact HI].
  - destruct heap as [|a [|b heap]]; [congruence| |].
    { destruct F as [|[n t] [|? ?]]; try discriminate. exists links, n, t. split; [reflexivity|exact HI]. }
    set (G := a :: b :: heap) in *.
    destruct (fheappop_perm pol G ltac:(discriminate)) as (x1 & h1 & E1 & P1).
    assert (N1 : h1 <> []). { intros ->. apply Permutation_length in P1. cbn in P1. lia. }
    destruct (fheappop_perm pol h1 N1) as (x0 & h0 & E0 & P0).
    assert (PG : Permutation G (x1 :: x0 :: h0)) by (rewrite P1; constructor; exact P0).
    assert (PF0 : Permutation (fidx x1 :: fidx x0 :: map fidx h0) (map eidx F)).
    { rewrite <- HM. symmetry. apply (Permutation_map fidx) in PG. exact PG. }
    destruct (Permutation_map_inv _ _ PF0) as (F' & EF & PF1).
    destruct F' as [|e1 [|e0 F']]; try discriminate. cbn [map] in EF. injection EF as I1 I0 IR.
    pose proof (Inv_perm _ _ _ _ PF1 HI) as HI'.
    pose proof (Inv_step _ _ _ _ _ HI') as HI2.
    destruct (IH (relinked links (fst e0) (fst e1)) ({| fidx := length links; fprob := binary64 (fprob x0 + fprob x1); fleaf := false |} :: h0)
                 (merged links e0 e1 :: F')) as (links' & n & T & EL & HIf); [discriminate| |exact HI2| |].
    { apply Permutation_length in PG. cbn [length] in *. lia. }
    { cbn [map fidx]. f_equal. exact IR. }
    exists links', n, T. split; [|exact HIf]. unfold G. cbn [float_huffman_loop]. fold G. rewrite E1, E0. cbn [fidx].
    unfold relinked in EL. unfold eidx in I1, I0. rewrite I1, I0. exact EL.
Qed.
Lemma float_huffman_tree_spec ext pol : ext <> [] -> exists links n T, float_huffman_tree ext pol = Some links /\ Inv (zeros (length ext)) links [(n, T)].
Proof.
  intros NE. unfold float_huffman_tree. apply (float_loop_spec pol (length ext) (length ext) _ _ (start (zeros (length ext)))).
  - destruct ext; [congruence|discriminate].
  - unfold float_leaf_nodes. rewrite map_length, combine_length, seq_length. lia.
  - replace (map (fun _ => None) ext) with (map (fun _ : Q => @None (nat * N)) (zeros (length ext))); [apply start_Inv|].
    unfold zeros. clear NE. induction ext as [|x ext IH]; cbn; [reflexivity|f_equal; exact IH].
  - unfold float_leaf_nodes, start, zeros. rewrite repeat_length, !map_map. unfold eidx. cbn [fidx fst nidx].
    change (fun x : nat * R => fst x) with (@fst nat R). rewrite map_fst_combine_seq, map_id. reflexivity.
Qed.
Lemma float_huffman_spec pmf k pol asg : 2 <= length pmf -> 1 <= k ->
  exists c ws, float_huffman_make pmf k pol asg = Some c /\ good_code c (N.of_nat (length pmf)) k ws /\
    (kraft_sum 2 (map (@length N) (f2v_codewords c)) == 1)%Q.
Proof.
  intros H2 Hk. assert (L := float_products_length pmf k Hk). assert (G := pow_ge_2 _ k H2 Hk).
  set (ext := float_products pmf k) in *.
  destruct (float_huffman_tree_spec ext pol) as (links & n & T & E & I); [intros Z; rewrite Z in L; cbn in L; lia|].
  assert (LZ : length (zeros (length ext)) = length ext) by apply repeat_length.
  pose proof (Inv_single_perm _ _ _ _ I) as P. rewrite LZ in P.
  destruct (tree_words_facts (length ext) T ltac:(lia) P) as (LT & PFt & NEt & Bt & K).
  unfold float_huffman_make. fold ext. rewrite E. destruct asg.
  - pose proof (tree_codewords_spec _ _ _ _ I) as TC. rewrite LZ in TC. rewrite TC.
    destruct (make_good (N.of_nat (length pmf)) k (tree_words (length ext) T)) as (c & Ec & Gc); auto; [lia|lia|].
    exists c, (tree_words (length ext) T). split; [exact Ec|]. split; [exact Gc|]. rewrite (gc_words _ _ _ _ Gc). exact K.
  - pose proof (tree_lengths_spec _ _ _ _ I) as TL. rewrite LZ in TL. rewrite TL.
    assert (Hpos : Forall (fun l => 0 < l) (map wlen (tree_words (length ext) T))).
    { rewrite Forall_map. eapply Forall_impl; [|exact NEt]. intros [|x w] Hw; cbn; [congruence|lia]. }
    destruct (proj2 (canonical_kraft 2 (map wlen (tree_words (length ext) T)) ltac:(lia)
       ltac:(intros Ez; apply (f_equal (@length nat)) in Ez; rewrite map_length, LT in Ez; cbn in Ez; lia) Hpos)) as [ws Ews].
    { rewrite K. apply Qle_refl. }
    pose proof (canonical_lengths 2 ltac:(lia) _ ws Ews) as WL. rewrite Ews.
    assert (LW : length ws = length ext) by (apply (f_equal (@length nat)) in WL; rewrite !map_length in WL; lia).
    destruct (make_good (N.of_nat (length pmf)) k ws) as (c & Ec & Gc); auto; [lia|lia| | | |].
    + exact (canonical_range 2 ltac:(lia) _ ws Ews).
    + rewrite <- WL, Forall_map in Hpos. eapply Forall_impl; [|exact Hpos]. intros [|x w] Hw; [cbn in Hw; lia|discriminate].
    + exact (canonical_PF 2 ltac:(lia) _ ws Ews Hpos).
    + exists c, ws. split; [exact Ec|]. split; [exact Gc|]. rewrite (gc_words _ _ _ _ Gc). change (map (@length N) ws) with (map wlen ws). rewrite WL. exact K.
Qed.

(* ---------- Tunstall *)
Definition ghost (h : list ftnode) : list tnode := map (fun x => (fst x, 0%Q)) h.
Lemma ghost_fst h : map fst (ghost h) = map fst h.
Proof. unfold ghost. rewrite map_map. reflexivity. Qed.
Lemma TInv_words pmf h h' : map fst h = map fst h' -> TInv pmf h -> TInv pmf h'.
Proof. intros E [A B C D]. split; rewrite <- E; assumption. Qed.
Section FT.
  Variable pop : list ftnode -> option (ftnode * list ftnode).
  Hypothesis Hpop : forall h, h <> [] -> exists x r, pop h = Some (x, r) /\ Permutation h (x :: r).
  Variable pmf : list R.
  Hypothesis H2 : 2 <= length pmf.
  Notation Z := (zeros (length pmf)).
  Lemma LZ : length Z = length pmf.
  Proof. apply repeat_length. Qed.
  Definition fexpand (x : ftnode) : list ftnode :=
    map (fun sq => (fst x ++ [fst sq], binary64 (snd x * snd sq))) (combine (range_N (N.of_nat (length pmf))) pmf).
  Lemma fcombine_fst : map fst (combine (range_N (N.of_nat (length pmf))) pmf) = range_N (N.of_nat (length pmf)).
  Proof. apply map_fst_combine'. rewrite range_N_length. lia. Qed.
  Lemma fexpand_words x : map fst (fexpand x) = map (fun s => fst x ++ [s]) (range_N (N.of_nat (length pmf))).
  Proof. unfold fexpand. rewrite map_map. cbn [fst]. rewrite <- fcombine_fst at 2. rewrite map_map. reflexivity. Qed.
  Lemma fexpand_length x : length (fexpand x) = length pmf.
  Proof. unfold fexpand. rewrite map_length, combine_length, range_N_length. lia. Qed.
  Lemma float_grow_spec K : forall h, h <> [] -> TInv Z (ghost h) ->
    exists h', float_tunstall_grow pop pmf K h = Some h' /\ TInv Z (ghost h') /\ length h' = length h + K * (length pmf - 1).
  Proof.
    induction K as [|K IH]; intros h Hn I; cbn [float_tunstall_grow].
    - exists h. split; [reflexivity|]. split; [exact I|lia].
    - destruct (Hpop h Hn) as ([w p] & r & E & P). rewrite E. fold (fexpand (w, p)).
      assert (PG : Permutation (ghost h) ((w, 0%Q) :: ghost r)) by (apply (Permutation_map (fun x : ftnode => (fst x, 0%Q))) in P; exact P).
      apply (TInv_perm _ _ _ PG) in I. apply (grow_step Z ltac:(rewrite LZ; exact H2)) in I.
      assert (I' : TInv Z (ghost (r ++ fexpand (w, p)))).
      { eapply TInv_words; [|exact I]. rewrite ghost_fst, !map_app, ghost_fst, fexpand_words, expand_words by (rewrite LZ; exact H2). rewrite LZ. reflexivity. }
      destruct (IH (r ++ fexpand (w, p))) as (h' & E' & I2 & L'); auto.
      { intros C. apply (f_equal (@length ftnode)) in C. rewrite app_length, fexpand_length in C. cbn in C. lia. }
      exists h'. split; [exact E'|]. split; [exact I2|]. rewrite L', app_length, fexpand_length.
      apply Permutation_length in P. cbn [length] in P. lia.
  Qed.
  Lemma float_tunstall_spec n : (N.of_nat (length pmf) <= 2 ^ N.of_nat n)%N ->
    exists c, float_tunstall_make pop pmf n = Some c /\
      v2f_src c = N.of_nat (length pmf) /\ v2f_tgt c = 2%N /\ v2f_n c = n /\
      (N.of_nat (length (v2f_sourcewords c)) <= 2 ^ N.of_nat n)%N /\
      (2 ^ N.of_nat n < N.of_nat (length (v2f_sourcewords c)) + N.of_nat (length pmf))%N /\
      prefix_free_words (v2f_sourcewords c) /\ covers_every_sequence (v2f_sourcewords c) (N.of_nat (length pmf)) /\
      v2f_is_prefix_free c = true /\ v2f_is_fully_covering c = Some true /\
      forall input, Forall (fun x => (x < N.of_nat (length pmf))%N) input ->
        exists out pad, v2f_encode c input = Some out /\ v2f_decode c out = Some (input ++ pad).
  Proof.
    intros Hn. pose proof (tunstall_K_bounds Z ltac:(rewrite LZ; exact H2) n ltac:(rewrite LZ; exact Hn)) as [B1 B2]. rewrite LZ in B1, B2.
    set (h0 := map (fun sp : N * R => ([fst sp], snd sp)) (combine (range_N (N.of_nat (length pmf))) pmf) : list ftnode).
    assert (L0 : length h0 = length pmf) by (unfold h0; rewrite map_length, combine_length, range_N_length; lia).
    destruct (float_grow_spec (tunstall_K (length pmf) n) h0) as (h & E & I & L).
    { intros C. rewrite C in L0. cbn in L0. lia. }
    { eapply TInv_words; [|apply (first_TInv Z ltac:(rewrite LZ; exact H2))]. rewrite first_words by (rewrite LZ; exact H2). rewrite LZ, ghost_fst. unfold h0. rewrite map_map. cbn [fst].
      rewrite <- fcombine_fst at 1. rewrite map_map. reflexivity. }
    rewrite L0 in L. rewrite <- L in B1, B2.
    assert (LG : length (ghost h) = length h) by apply map_length.
    destruct (tunstall_finish Z ltac:(rewrite LZ; exact H2) (ghost h) n ltac:(rewrite LZ; exact Hn) I ltac:(rewrite LG; exact B1) ltac:(rewrite LG, LZ; lia)) as (c & Ec & R).
    rewrite LZ, ghost_fst in Ec. rewrite LZ in R. exists c. split; [|exact R].
    unfold float_tunstall_make. destruct (N.ltb_spec (2 ^ N.of_nat n) (N.of_nat (length pmf))) as [|_]; [lia|].
    destruct (Nat.leb_spec (length pmf) 1) as [|_]; [lia|]. fold h0. rewrite E. exact Ec.
  Qed.
End FT.

From Verif Require Import FloatCodes_Spec.
Section FTW.
  Variable pop : list ftnode -> option (ftnode * list ftnode).
  Hypothesis Hpop : heap_like pop.
  Variable pmf : list R.
  Lemma combine_range_nth sq : In sq (combine (range_N (N.of_nat (length pmf))) pmf) -> snd sq = nth (N.to_nat (fst sq)) pmf 0%R.
  Proof.
    unfold range_N. rewrite Nat2N.id. intros H. apply (In_nth _ _ (0%N, 0%R)) in H as (i & Hi & <-).
    rewrite combine_length, map_length, seq_length in Hi. rewrite combine_nth by (rewrite map_length, seq_length; reflexivity). cbn [fst snd].
    rewrite (map_nth N.of_nat (seq 0 (length pmf)) 0), seq_nth by lia. rewrite Nat2N.id. reflexivity.
  Qed.
  Definition TW (h : list ftnode) : Prop := Forall (fun x => fst x <> [] /\ snd x = computed_prob pmf (fst x)) h.
  Lemma grow_weights K : forall h h', TW h -> float_tunstall_grow pop pmf K h = Some h' -> h <> [] -> 1 <= length pmf -> TW h'.
  Proof.
    induction K as [|K IH]; intros h h' H E NE L1; cbn [float_tunstall_grow] in E.
    - injection E as <-. exact H.
    - destruct (Hpop h NE) as ([w p] & r & EP & P). rewrite EP in E. unfold TW in H. rewrite P in H. inversion H as [|? ? [W1 W2] H']; subst. cbn [fst snd] in *.
      eapply IH; [|exact E| |exact L1].
      + apply Forall_app. split; [exact H'|]. rewrite Forall_map, Forall_forall. intros sq Hsq. cbn [fst snd]. split; [destruct w; discriminate|].
        rewrite (combine_range_nth sq Hsq). rewrite W2. destruct w as [|s w]; [congruence|]. cbn [app computed_prob]. rewrite fold_left_app. reflexivity.
      + intros C. apply app_eq_nil in C as [_ C]. apply map_eq_nil in C. apply (f_equal (@length _)) in C.
        rewrite combine_length in C. unfold range_N in C. rewrite map_length, seq_length in C. cbn in C. lia.
  Qed.
  Lemma first_weights : TW (map (fun sp => ([fst sp], snd sp)) (combine (range_N (N.of_nat (length pmf))) pmf)).
  Proof. unfold TW. rewrite Forall_map, Forall_forall. intros sq H. cbn [fst snd]. split; [discriminate|]. exact (combine_range_nth sq H). Qed.
End FTW.
