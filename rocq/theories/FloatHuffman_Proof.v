From Coq Require Import Reals Lra QArith Qreals Permutation Lqa.
From Flocq Require Import Core Relative.
From Verif Require Import Common HuffmanOpt_Proof Spec_Lossless Huffman_Proof Prefix_Model Prefix_Proof PmfCodes_Model PmfCodes_Proof Float_Model FloatShannon_Model FloatShannon_Spec FloatShannon_Proof FloatCodes_Model FloatCodes_Spec FloatCodes_Proof.
Local Open Scope nat_scope.

Lemma Qlt_Rlt_iff a b : (a < b)%Q <-> (Q2R a < Q2R b)%R.
Proof. split; [apply Qlt_Rlt|apply Rlt_Qlt]. Qed.
Definition toR (n : hnode) : fnode := {| fidx := nidx n; fprob := Q2R (nprob n); fleaf := nleaf n |}.
Lemma flt_toR pol a b : flt pol (toR a) (toR b) = hlt pol a b.
Proof.
  unfold flt, hlt, rlt, toR, fkey, hkey. cbn [fprob fidx fleaf fst snd].
  destruct (Qcompare_spec (nprob a) (nprob b)) as [E|L|G].
  - apply Qeq_eqR in E. rewrite E. destruct (Rlt_dec _ _) as [C|_]; [exfalso; apply (Rlt_irrefl _ C)|reflexivity].
  - apply Qlt_Rlt in L. destruct (Rlt_dec _ _) as [_|C]; [reflexivity|contradiction].
  - apply Qlt_Rlt in G. destruct (Rlt_dec (Q2R (nprob a)) (Q2R (nprob b))) as [C|_]; [exfalso; apply (Rlt_irrefl _ (Rlt_trans _ _ _ G C))|].
    destruct (Rlt_dec _ _) as [_|C]; [reflexivity|contradiction].
Qed.
Lemma fheappop_toR pol h : fheappop pol (map toR h) = option_map (fun xr => (toR (fst xr), map toR (snd xr))) (heappop pol h).
Proof.
  induction h as [|a h IH]; [reflexivity|]. cbn [map fheappop heappop]. rewrite IH. destruct (heappop pol h) as [[y r]|]; [|reflexivity].
  cbn [option_map fst snd]. rewrite flt_toR. destruct (hlt pol y a); reflexivity.
Qed.
Lemma grid_add a b : grid53 a -> grid53 b -> grid53 (a + b).
Proof. intros [x X] [y Y]. exists (x + y)%Z. rewrite inject_Z_plus, <- X, <- Y. ring. Qed.
Lemma grid_exact q : grid53 q -> (0 <= q)%Q -> (q <= 1)%Q -> binary64 (Q2R q) = Q2R q.
Proof.
  intros [z E] H0 H1. assert (B0 : (0 <= z)%Z).
  { rewrite Zle_Qle. rewrite <- E. apply Qmult_le_0_compat; [exact H0|discriminate]. }
  assert (B1 : (z <= 2 ^ 53)%Z).
  { rewrite Zle_Qle. rewrite <- E. rewrite <- (Qmult_1_l (inject_Z (2 ^ 53))) at 2. apply Qmult_le_compat_r; [exact H1|discriminate]. }
  assert (ER : (Q2R q * IZR (2 ^ 53) = IZR z)%R).
  { apply Qeq_eqR in E. rewrite Q2R_mult in E. unfold inject_Z in E. unfold Q2R at 2 3 in E. cbn [Qnum Qden] in E. rewrite !Rinv_1, !Rmult_1_r in E. exact E. }
  assert (NZ : IZR (2 ^ 53) <> 0%R) by (apply not_0_IZR; discriminate).
  assert (EQ : (Q2R q = IZR z * / IZR (2 ^ 53))%R) by (rewrite <- ER; field; exact NZ).
  destruct (Z.eq_dec z (2 ^ 53)) as [->|N].
  - rewrite EQ, Rinv_r by exact NZ. apply (binary64_pow 0).
  - apply round_generic; [apply valid_rnd_N|]. apply generic_format_FLT. exists (Float radix2 z (-53)); cbn [Fnum Fexp]; [|change (radix2 ^ 53)%Z with (2 ^ 53)%Z; lia|lia].
    rewrite EQ. unfold F2R. cbn [Fnum Fexp]. reflexivity.
Qed.
Definition okheap (h : list hnode) : Prop := Forall (fun n => grid53 (nprob n) /\ (0 <= nprob n)%Q) h /\ (qsum (map nprob h) <= 1)%Q.
Lemma qsum_perm l l' : Permutation l l' -> (qsum l == qsum l')%Q.
Proof. unfold qsum. induction 1; cbn [fold_right]; [reflexivity|rewrite IHPermutation; reflexivity|ring|etransitivity; eassumption]. Qed.
Lemma okheap_perm h h' : Permutation h h' -> okheap h -> okheap h'.
Proof. intros P [A B]. split; [rewrite <- P; exact A|]. rewrite <- (qsum_perm _ _ (Permutation_map nprob P)). exact B. Qed.
Lemma loop_toR pol fuel : forall links h, okheap h -> float_huffman_loop fuel pol links (map toR h) = huffman_loop fuel pol links h.
Proof.
  induction fuel as [|fuel IH]; intros links h OK.
  - destruct h as [|a [|b h]]; reflexivity.
  - destruct h as [|a [|b h]]; [reflexivity|reflexivity|]. set (G := a :: b :: h) in *.
    destruct (heappop_spec pol G ltac:(discriminate)) as (x1 & h1 & E1 & P1 & _).
    assert (N1 : h1 <> []) by (intros ->; apply Permutation_length in P1; cbn in P1; lia).
    destruct (heappop_spec pol h1 N1) as (x0 & h0 & E0 & P0 & _).
    assert (PG : Permutation G (x1 :: x0 :: h0)) by (rewrite P1; constructor; exact P0).
    apply (okheap_perm _ _ PG) in OK. destruct OK as [A B].
    inversion A as [|? ? [G1 Z1] A1]; subst. inversion A1 as [|? ? [G0 Z0] A0]; subst.
    assert (SR : (0 <= qsum (map nprob h0))%Q) by (apply qsum_nonneg; rewrite Forall_map; eapply Forall_impl; [|exact A0]; cbn; tauto).
    unfold qsum in B, SR. cbn [map fold_right] in B. fold (qsum (map nprob h0)) in B, SR.
    assert (S1 : (nprob x0 + nprob x1 <= 1)%Q) by (clear -B SR; Lqa.lra).
    assert (S0 : (0 <= nprob x0 + nprob x1)%Q) by (clear -Z0 Z1; Lqa.lra).
    unfold G at 1 2. cbn [map float_huffman_loop huffman_loop]. change (toR a :: toR b :: map toR h) with (map toR G). fold G.
    rewrite fheappop_toR, E1. cbn [option_map fst snd]. rewrite fheappop_toR, E0. cbn [option_map fst snd].
    change (fprob (toR x0)) with (Q2R (nprob x0)). change (fprob (toR x1)) with (Q2R (nprob x1)). rewrite <- Q2R_plus.
    rewrite (grid_exact (nprob x0 + nprob x1)%Q (grid_add _ _ G0 G1) S0 S1).
    cbn [fidx nidx]. change (fidx (toR x1)) with (nidx x1). change (fidx (toR x0)) with (nidx x0).
    rewrite <- IH; [reflexivity|]. split.
    + constructor; [cbn [nprob]; split; [apply grid_add; assumption|exact S0]|exact A0].
    + unfold qsum. cbn [map fold_right nprob]. fold (qsum (map nprob h0)). clear -B. Lqa.lra.
Qed.
Lemma leaf_toR pmf : float_leaf_nodes (map Q2R pmf) = map toR (leaf_nodes pmf).
Proof.
  unfold float_leaf_nodes, leaf_nodes. rewrite map_length, map_map. generalize 0 at 1 2. induction pmf as [|q pmf IH]; intros s; [reflexivity|].
  cbn [length seq map combine]. f_equal. apply IH.
Qed.
Lemma leaf_ok pmf : Forall grid53 pmf -> Forall (fun p => (0 <= p)%Q) pmf -> (qsum pmf <= 1)%Q -> okheap (leaf_nodes pmf).
Proof.
  intros G N S. assert (E : map nprob (leaf_nodes pmf) = pmf). { unfold leaf_nodes. rewrite map_map. cbn [nprob]. change (fun x : nat * Q => snd x) with (@snd nat Q). apply map_snd_combine_seq. }
  split; [|rewrite E; exact S]. rewrite Forall_forall in *. intros n Hn. assert (I : In (nprob n) pmf) by (rewrite <- E; apply in_map; exact Hn). split; auto.
Qed.
Lemma tree_toR pmf pol : Forall grid53 pmf -> Forall (fun p => (0 <= p)%Q) pmf -> (qsum pmf <= 1)%Q ->
  float_huffman_tree (map Q2R pmf) pol = huffman_tree pmf pol.
Proof.
  intros G N S. unfold float_huffman_tree, huffman_tree. rewrite map_length, leaf_toR, map_map. apply loop_toR. apply leaf_ok; assumption.
Qed.
Lemma Forall_le1 l : Forall (fun p => (0 <= p)%Q) l -> (qsum l <= 1)%Q -> Forall (fun p => (p <= 1)%Q) l.
Proof.
  intros N S. rewrite Forall_forall. intros p Hp. eapply Qle_trans; [|exact S]. clear S. induction N as [|x l Hx Hl IH]; [contradiction|].
  unfold qsum. cbn [fold_right]. fold (qsum l). pose proof (qsum_nonneg l Hl). destruct Hp as [->|Hp]; [|specialize (IH Hp)]; Lqa.lra.
Qed.
Lemma products_toR pmf k : 1 <= k -> Forall (fun p => (0 <= p)%Q) pmf -> (qsum pmf <= 1)%Q -> (forall j, 1 <= j <= k -> Forall grid53 (outer_power pmf j)) ->
  float_products (map Q2R pmf) k = map Q2R (outer_power pmf k).
Proof.
  intros Hk N S G. destruct k as [|k]; [lia|]. induction k as [|k IH]; [reflexivity|].
  change (float_products (map Q2R pmf) (Datatypes.S (Datatypes.S k))) with (flat_map (fun a => map (fun b => binary64 (a * b)) (map Q2R pmf)) (float_products (map Q2R pmf) (Datatypes.S k))).
  rewrite IH by (try lia; intros j Hj; apply G; lia).
  pose proof (G (Datatypes.S (Datatypes.S k)) ltac:(lia)) as GK. rewrite outer_power_S in GK |- *.
  assert (N1 : Forall (fun p => (0 <= p)%Q) (outer_power pmf (Datatypes.S k))) by (apply Forall_outer; [lia|exact N|intros; apply Qmult_le_0_compat; auto]).
  assert (L1 : Forall (fun p => (p <= 1)%Q) pmf) by (apply Forall_le1; assumption).
  assert (L2 : Forall (fun p => (p <= 1)%Q) (outer_power pmf (Datatypes.S k))).
  { apply Forall_le1; [exact N1|]. apply qsum_outer_le; auto. lia. }
  revert GK N1 L2. generalize (outer_power pmf (Datatypes.S k)) as l. induction l as [|a l IHl]; intros GK N1 L2; [reflexivity|].
  cbn [map flat_map] in *. rewrite map_app. apply Forall_app in GK as [GA GL]. inversion N1 as [|? ? Na N1']; subst. inversion L2 as [|? ? La L2']; subst.
  f_equal; [|apply IHl; assumption]. rewrite !map_map. apply map_ext_in. intros b Hb. rewrite <- Q2R_mult. apply grid_exact.
  - rewrite Forall_map, Forall_forall in GA. apply (GA b Hb).
  - rewrite Forall_forall in N. apply Qmult_le_0_compat; auto.
  - rewrite Forall_forall in N, L1. specialize (N b Hb). specialize (L1 b Hb). apply Qle_trans with (1 * b)%Q; [apply Qmult_le_compat_r; assumption|]. rewrite Qmult_1_l. exact L1.
Qed.
Lemma huffman_toR pmf k pol asg : 1 <= k -> Forall (fun p => (0 <= p)%Q) pmf -> (qsum pmf <= 1)%Q -> (forall j, 1 <= j <= k -> Forall grid53 (outer_power pmf j)) ->
  float_huffman_make (map Q2R pmf) k pol asg = huffman_make pmf k pol asg.
Proof.
  intros Hk N S G. unfold float_huffman_make, huffman_make, huffman_codewords. rewrite (products_toR pmf k Hk N S G), !map_length.
  assert (N1 : Forall (fun p => (0 <= p)%Q) (outer_power pmf k)) by (apply Forall_outer; auto; intros; apply Qmult_le_0_compat; auto).
  rewrite tree_toR; [|apply G; lia|exact N1|apply qsum_outer_le; auto]. destruct (huffman_tree (outer_power pmf k) pol); [|reflexivity]. destruct asg; reflexivity.
Qed.
