From Coq Require Import String Ascii.
From Verif Require Import Common Repr_Spec Repr_Builtin Prefix_Model BinPoly_Model Cyclic_Model BCH_Model LFSR_Model Walsh_Model Parse_Proof Repr_Model Repr_Spec2.
From Verif Require Import Prefix_Proof Repr_Proof Repr_Proof2.
From Verif Require Algebra_Proof Algebra_Spec Props_Walsh.
Local Open Scope string_scope.
Local Open Scope nat_scope.

Lemma inv_Poly a o : new_Poly a = Some o -> inv o.
Proof. intros H. unfold new_Poly in H. b1 H. destruct (required as_poly v); [|discriminate]. inversion H. exact I. Qed.
Lemma inv_Frac a o : new_Frac a = Some o -> inv o.
Proof. intros H. unfold new_Frac in H. b2 H. ob H. ob H. destruct (mk_frac a0 a1) as [[n d]|] eqn:F; [|discriminate]. inversion H; subst. cbn. eauto using frac_again. Qed.
Lemma inv_Integer a o : new_Integer a = Some o -> inv o.
Proof. intros H. unfold new_Integer in H. b1 H. destruct (required as_int v); [|discriminate]. inversion H. exact I. Qed.
Lemma inv_Field a o : new_Field a = Some o -> inv o.
Proof. intros H. unfold new_Field in H. b2 H. ob H. ob H. destruct (Z.ltb_spec a0 1); [discriminate|]. destruct (gf_make _ a1) as [p|] eqn:F; [|discriminate]. inversion H; subst. cbn. eauto using field_again. Qed.
Lemma inv_Block a o : new_Block a = Some o -> inv o.
Proof.
  intros H. unfold new_Block in H. b2 H. ob H. ob H. destruct a0 as [[M c]|], a1 as [[M' c']|]; try discriminate; inversion H; subst; cbn; eauto using opt_arr2.
Qed.
Lemma inv_Systematic a o : new_Systematic a = Some o -> inv o.
Proof.
  intros H. unfold new_Systematic in H. b2 H. ob H. destruct a0 as [P c]. cbv zeta in H. apply req_arr2 in E.
  assert (L : inv (OSystematic P c (zrange 0 (Z.of_nat (List.length P))))).
  { cbn. split; [exact E|]. rewrite zrange_length. split; [lia|]. apply Forall_forall. intros x Hx. apply zrange_bounds in Hx. lia. }
  assert (R : inv (OSystematic P c (zrange (Z.of_nat c) (Z.of_nat (List.length P) + Z.of_nat c)))).
  { cbn. split; [exact E|]. rewrite zrange_length. split; [lia|]. apply Forall_forall. intros x Hx. apply zrange_bounds in Hx. lia. }
  assert (K : forall w, (let? l := as_arr1 w in guard ((Z.of_nat (List.length l) =? Z.of_nat (List.length P))%Z && (0 <? List.length l) &&
     forallb (fun x => (0 <=? x)%Z && (x <=? Z.of_nat (List.length P) + Z.of_nat c)%Z) l) (OSystematic P c l)) = Some o -> inv o).
  { intros w HK. ob HK. gu HK. destruct B as [[B1 B2] B3]. cbn. split; [exact E|]. split; [apply Z.eqb_eq in B1; lia|].
    rewrite forallb_forall in B3. apply Forall_forall. intros x Hx. specialize (B3 x Hx). apply Bool.andb_true_iff in B3 as [X1 X2]. apply Z.leb_le in X1, X2. lia. }
  destruct v0 as [w|]; [|inversion H; subst; exact L].
  destruct w; try (exact (K _ H)). destruct (String.eqb s "left"); [inversion H; subst; exact L|]. destruct (String.eqb s "right"); [inversion H; subst; exact R|discriminate].
Qed.
Lemma polys_gen n g g' h : cyclic_polys n (Generator g) = Some (g', h) -> g' = g.
Proof. unfold cyclic_polys. destruct (pdivmod _ g) as [[q r]|]; [|discriminate]. destruct (r =? 0)%N; [|discriminate]. intros H. now inversion H. Qed.
Lemma polys_chk n h g h' : cyclic_polys n (Check h) = Some (g, h') -> h' = h.
Proof. unfold cyclic_polys. destruct (pdivmod _ h) as [[q r]|]; [|discriminate]. destruct (r =? 0)%N; [|discriminate]. intros H. now inversion H. Qed.
Lemma inv_Cyclic a o : new_Cyclic a = Some o -> inv o.
Proof.
  intros H. unfold new_Cyclic in H. b4 H. ob H. ob H. ob H. ob H. destruct (Z.ltb_spec a0 0); [discriminate|]. destruct a1 as [g|], a2 as [h|]; try discriminate.
  - inversion H; exact I.
  - destruct (cyclic_polys _ (Generator g)) as [[g' h']|] eqn:P; [|discriminate]. inversion H; subst. cbn. split; [lia|]. pose proof (polys_gen _ _ _ _ P); subst. exact P.
  - destruct (cyclic_polys _ (Check h)) as [[g' h']|] eqn:P; [|discriminate]. inversion H; subst. cbn. split; [lia|]. pose proof (polys_chk _ _ _ _ P); subst. exact P.
Qed.
Ltac leb := repeat match goal with B : (_ <=? _)%Z = true |- _ => apply Z.leb_le in B | B : (_ <? _)%Z = true |- _ => apply Z.ltb_lt in B | B : _ /\ _ |- _ => destruct B end.
Lemma inv_Hamming a o : new_Hamming a = Some o -> inv o. Proof. intros H. unfold new_Hamming in H. b2 H. ob H. ob H. gu H. leb. exact B. Qed.
Lemma inv_Simplex a o : new_Simplex a = Some o -> inv o. Proof. intros H. unfold new_Simplex in H. b2 H. ob H. ob H. gu H. leb. exact B. Qed.
Lemma inv_Golay a o : new_Golay a = Some o -> inv o. Proof. intros H. unfold new_Golay in H. b1 H. destruct (or_default _ _ _); [|discriminate]. inversion H. exact I. Qed.
Lemma inv_Repetition a o : new_Repetition a = Some o -> inv o. Proof. intros H. unfold new_Repetition in H. b1 H. ob H. gu H. leb. exact B. Qed.
Lemma inv_SPC a o : new_SPC a = Some o -> inv o. Proof. intros H. unfold new_SPC in H. b1 H. ob H. gu H. leb. exact B. Qed.
Lemma inv_Cordaro a o : new_Cordaro a = Some o -> inv o. Proof. intros H. unfold new_Cordaro in H. b1 H. ob H. gu H. leb. exact B. Qed.
Lemma inv_RM a o : new_RM a = Some o -> inv o. Proof. intros H. unfold new_RM in H. b2 H. ob H. ob H. gu H. leb. cbn. lia. Qed.
Lemma inv_Lexi a o : new_Lexi a = Some o -> inv o. Proof. intros H. unfold new_Lexi in H. b2 H. ob H. ob H. gu H. leb. cbn. lia. Qed.
Lemma insert_cases x l : exists y r, insert x l = y :: r /\ (y = x \/ exists t, l = y :: t).
Proof. destruct l as [|z l]; cbn; [eauto|]. destruct (x <=? z)%Z; eauto 6. Qed.
Lemma sort_sort l : sort (sort l) = sort l.
Proof.
  set (P := fix P (l : list Z) := match l with [] => True | x :: r => match r with [] => True | y :: _ => (x <= y)%Z end /\ P r end).
  assert (S1 : forall x l, P l -> P (insert x l)).
  { intros x. induction l0 as [|y r IH]; intros H; [cbn; auto|]. cbn [insert]. destruct (Z.leb_spec x y); [cbn; cbn in H; tauto|].
    cbn in H. destruct H as [H1 H2]. specialize (IH H2). cbn [P]. split; [|exact IH]. destruct r as [|z r]; cbn; [lia|]. destruct (x <=? z)%Z; lia. }
  assert (S2 : forall l, P (sort l)) by (induction l0 as [|x r IH]; [exact I|apply S1, IH]).
  assert (S3 : forall l, P l -> sort l = l).
  { induction l0 as [|x r IH]; intros H; [reflexivity|]. cbn in H. destruct H as [H1 H2]. unfold sort in *. cbn [fold_right]. rewrite IH by exact H2.
    destruct r as [|y r]; [reflexivity|]. cbn. destruct (Z.leb_spec x y); [reflexivity|lia]. }
  apply S3, S2.
Qed.
Lemma inv_Polar a o : new_Polar a = Some o -> inv o.
Proof. intros H. unfold new_Polar in H. b2 H. ob H. ob H. cbv zeta in H. apply guard_some in H as [B ->]. cbn. split; [apply sort_sort|exact B]. Qed.
Lemma inv_BCH a o : new_BCH a = Some o -> inv o.
Proof. intros H. unfold new_BCH in H. b2 H. ob H. ob H. destruct (BCHCode _ _) eqn:F; try discriminate. gu H. leb. cbn. eauto. Qed.
Lemma all_some_rows {A B} (f : A -> option B) (M : list (list A)) r n : Forall (fun r => List.length r = n) M -> all_some (map (fun r => all_some (map f r)) M) = Some r -> Forall (fun r => List.length r = n) r.
Proof.
  revert r; induction M as [|x M IH]; intros r F H; cbn in H; [inversion H; constructor|]. inversion F; subst. destruct (all_some (map f x)) as [y|] eqn:E; [|discriminate].
  destruct (all_some (map _ M)) as [r'|] eqn:E'; [|discriminate]. inversion H; subst. constructor; [|apply IH; auto]. apply all_some_length in E. rewrite map_length in E. lia.
Qed.
Lemma inv_Conv a o : new_Conv a = Some o -> inv o.
Proof.
  intros H. unfold new_Conv in H. b2 H. ob H. destruct a0 as [M c]. ob H. ob H. ob H. gu H. apply Nat.eqb_eq in B. cbn. split; [exact B|]. exists c.
  eapply all_some_rows; [|exact E1]. exact (req_arr2 _ _ _ E).
Qed.
Lemma inv_Low a o : new_Low a = Some o -> inv o. Proof. intros H. unfold new_Low in H. b1 H. ob H. ob H. inversion H. exact I. Qed.
Lemma inv_High a o : new_High a = Some o -> inv o. Proof. intros H. unfold new_High in H. b1 H. ob H. ob H. inversion H. exact I. Qed.
(* an object passed as an argument need not come from a constructor in the model, so its own invariant is asked for *)
Definition vinv (v : value) : Prop := match v with VObj o => inv o | _ => True end.
Definition ainv (a : args_t) : Prop := Forall (fun p => vinv (snd p)) a.
Lemma lookup_inv p a v : ainv a -> lookup p a = Some v -> vinv v.
Proof. unfold ainv. induction a as [|[[n|] x] a IH]; intros A H; [discriminate| |]; inversion A; subst; cbn in H; [|auto]. destruct (String.eqb p n); [inversion H; subst; assumption|auto]. Qed.
Lemma bind_inv sig a l v : ainv a -> bind sig a = Some l -> In (Some v) l -> vinv v.
Proof.
  revert a l; induction sig as [|p sig IH]; intros a l A H Hv.
  - destruct a as [|[[n|] x] a]; cbn in H; try discriminate. inversion H; subst; destruct Hv.
  - destruct a as [|[[n|] x] a].
    + cbn in H. inversion H; subst. destruct Hv as [Hv|Hv]; [discriminate|]. apply in_map_iff in Hv as (q & Hq & _). discriminate.
    + unfold bind in H. destruct (keywords_ok _ _); [|discriminate]. assert (El : l = map (fun q => lookup q ((Some n, x) :: a)) (p :: sig)) by congruence. rewrite El in Hv. apply in_map_iff in Hv as (q & Hq & _). eauto using lookup_inv.
    + cbn [bind] in H. inversion A; subst. destruct (bind sig a) as [l'|] eqn:E; [|discriminate]. inversion H; subst. destruct Hv as [Hv|Hv]; [inversion Hv; subst; assumption|]. eapply IH; eauto.
Qed.
Lemma inv_Terminated a o : ainv a -> new_Terminated a = Some o -> inv o.
Proof.
  intros A H. unfold new_Terminated, bind3 in H. destruct (bind _ a) as [[|v [|v0 [|v1 [|? ?]]]]|] eqn:Bd; try discriminate. ob H. ob H. ob H. gu H. cbn. split.
  - destruct v as [w|]; [|discriminate]. cbn in E. destruct w; try discriminate. destruct o; try discriminate. inversion E; subst. pose proof (bind_inv _ _ _ (VObj (OConv a0)) A Bd (or_introl eq_refl)) as V. exact V.
  - apply existsb_exists in B as (q & Hq & Eq). apply String.eqb_eq in Eq. subst. exact Hq.
Qed.
Lemma inv_Mealy a o : new_Mealy a = Some o -> inv o.
Proof. intros H. unfold new_Mealy in H. b2 H. ob H. destruct a0 as [M c]. ob H. destruct a0 as [M' c']. inversion H; subst. cbn. eauto using req_arr2. Qed.
Lemma inv_Moore a o : new_Moore a = Some o -> inv o.
Proof. intros H. unfold new_Moore in H. b2 H. ob H. destruct a0 as [M c]. ob H. inversion H; subst. cbn. eauto using req_arr2. Qed.
Lemma inv_Labeling a o : new_Labeling a = Some o -> inv o.
Proof. intros H. unfold new_Labeling in H. b1 H. ob H. destruct a0 as [M c]. apply guard_some in H as [B ->]. cbn [inv]. eauto using req_arr2. Qed.
Lemma inv_Natural a o : new_Natural a = Some o -> inv o. Proof. intros H. unfold new_Natural in H. b2 H. ob H. ob H. gu H. leb. exact B. Qed.
Lemma inv_Reflected a o : new_Reflected a = Some o -> inv o. Proof. intros H. unfold new_Reflected in H. b2 H. ob H. ob H. gu H. leb. exact B. Qed.
Lemma inv_Rect a o : new_Rect a = Some o -> inv o.
Proof.
  intros H. unfold new_Rect in H. b2 H. ob H. destruct v as [w|]; [|discriminate]. destruct w; try discriminate.
  - destruct ((0 <? z)%Z && (z mod 2 =? 0)%Z); [|discriminate]. gu H. leb. cbn. auto.
  - destruct l as [|x [|y [|? ?]]]; try discriminate; destruct x; try discriminate; destruct y; try discriminate. gu H. leb. cbn. auto.
Qed.
Lemma inv_Product a o : new_Product a = Some o -> inv o.
Proof.
  intros H. unfold new_Product in H. destruct (positional a) as [l k]. destruct (bind _ k) as [[|r [|? ?]]|]; try discriminate. ob H. destruct (_ <? 1); [discriminate|]. destruct (_ <? 1)%Z; [discriminate|]. inversion H. exact I.
Qed.
Lemma dict_nodup v d : required as_dict v = Some d -> NoDup (map fst d).
Proof. destruct v as [w|]; [|discriminate]. destruct w; try discriminate. cbn. destruct (all_some _); [|discriminate]. intros H. inversion H. apply keys_of_pairs. Qed.
Lemma f2v_again x y k m c : f2v_make x y k m = Some c -> f2v_map c = m /\ f2v_make (f2v_src c) (f2v_tgt c) (f2v_k c) (f2v_map c) = Some c.
Proof.
  intros H. pose proof H as H'. unfold f2v_make in H.
  destruct (x <? 2)%N; [discriminate|]. destruct (y <? 2)%N; [discriminate|]. destruct (k <? 1); [discriminate|]. destruct (negb _); [discriminate|]. destruct (negb _); [discriminate|]. inversion H; subst. split; [reflexivity|exact H'].
Qed.
Lemma v2f_again x y k m c : v2f_make x y k m = Some c -> v2f_map c = m /\ v2f_make (v2f_tgt c) (v2f_src c) (v2f_n c) (v2f_map c) = Some c.
Proof.
  intros H. pose proof H as H'. unfold v2f_make in H.
  destruct (x <? 2)%N; [discriminate|]. destruct (y <? 2)%N; [discriminate|]. destruct (k <? 1); [discriminate|]. destruct (negb _); [discriminate|]. destruct (negb _); [discriminate|]. inversion H; subst. split; [reflexivity|exact H'].
Qed.
Lemma inv_F2V a o : new_F2V a = Some o -> inv o.
Proof.
  intros H. unfold new_F2V in H. b4 H. ob H. ob H. ob H. ob H. destruct (_ || _); [discriminate|]. destruct (f2v_make _ _ _ _) as [c|] eqn:F; [|discriminate]. inversion H; subst. cbn.
  apply f2v_again in F as [-> F]. split; [eapply dict_nodup; eauto|exact F].
Qed.
Lemma inv_V2F a o : new_V2F a = Some o -> inv o.
Proof.
  intros H. unfold new_V2F in H. b4 H. ob H. ob H. ob H. ob H. destruct (_ || _); [discriminate|]. destruct (v2f_make _ _ _ _) as [c|] eqn:F; [|discriminate]. inversion H; subst. cbn.
  apply v2f_again in F as [-> F]. split; [eapply dict_nodup; eauto|exact F].
Qed.
Lemma inv_LZ b a o : new_LZ b a = Some o -> inv o.
Proof.
  intros H. unfold new_LZ in H. destruct (existsb _ a); [discriminate|]. destruct (bind _ a) as [[|v [|v0 [|v1 [|v2 [|v3 [|? ?]]]]]]|]; try discriminate. do 5 ob H. gu H. leb. cbn. apply Z.eqb_eq in H0. auto.
Qed.
Lemma inv_LZ78 a o : new_LZ78 a = Some o -> inv o. Proof. intros H. unfold new_LZ78 in H. b2 H. ob H. ob H. gu H. leb. cbn. auto. Qed.
Lemma inv_LZW a o : new_LZW a = Some o -> inv o. Proof. intros H. unfold new_LZW in H. b2 H. ob H. ob H. gu H. leb. cbn. auto. Qed.
Lemma inv_BinSeq a o : new_BinSeq a = Some o -> inv o.
Proof.
  intros H. unfold new_BinSeq in H. b2 H. ob H. ob H. destruct a0 as [b|], a1 as [p|]; try discriminate.
  - gu H. cbn. rewrite forallb_forall in B. apply Forall_forall. intros x Hx. now apply Z.leb_le, B.
  - inversion H; subst. cbn. apply Forall_forall. intros x Hx. unfold bits_of_polar in Hx. apply in_map_iff in Hx as (y & <- & _). destruct (y <? 0)%Z; lia.
Qed.
Lemma inv_Walsh a o : new_Walsh a = Some o -> inv o.
Proof.
  intros H. unfold new_Walsh in H. b3 H. ob H. ob H. ob H. ob H. destruct (WalshHadamard a0 a3 a2) as [p|] eqn:W; [|discriminate]. inversion H; subst. cbn. exists a3.
  destruct (Props_Walsh.C54_shape _ _ _ _ W) as [L _]. rewrite L. split; [|exact W]. destruct (String.eqb_spec a1 "natural"); [inversion E2; auto|]. destruct (String.eqb_spec a1 "sequency"); [inversion E2; auto|discriminate].
Qed.
Lemma inv_LFSR a o : new_LFSR a = Some o -> inv o.
Proof. intros H. unfold new_LFSR in H. b2 H. ob H. ob H. destruct (LFSRSequence a0 a1) eqn:F; [|discriminate]. inversion H; subst. cbn. rewrite F. discriminate. Qed.
Lemma inv_Barker a o : new_Barker a = Some o -> inv o.
Proof.
  intros H. unfold new_Barker in H. b1 H. ob H. destruct (Z.ltb_spec a0 0); [discriminate|]. destruct (barker_sequence (Z.to_nat a0)) as [b|] eqn:F; [|discriminate]. inversion H; subst. cbn.
  assert (L : List.length b = Z.to_nat a0). { clear -F. revert F. generalize (Z.to_nat a0). intros n F. do 14 (destruct n as [|n]; [cbn in F; try discriminate; inversion F; reflexivity|]). discriminate. }
  rewrite L. exact F.
Qed.

Lemma call_inv f a o : ainv a -> call f a = Some o -> inv o.
Proof.
  intros A H. unfold call in H. destruct (find _ classes) as [[n new]|] eqn:F; [|discriminate]. apply find_some in F as [Hin _]. cbn [In classes] in Hin.
  repeat (destruct Hin as [Hin|Hin]; [inversion Hin; subst; clear Hin|]); [..|destruct Hin];
  eauto using inv_Poly, inv_Frac, inv_Integer, inv_Field, inv_Block, inv_Systematic, inv_Cyclic, inv_Hamming, inv_Simplex, inv_Golay, inv_Repetition, inv_SPC, inv_Cordaro, inv_RM,
    inv_Lexi, inv_Polar, inv_BCH, inv_Conv, inv_Low, inv_High, inv_Terminated, inv_Mealy, inv_Moore, inv_Labeling, inv_Natural, inv_Reflected, inv_Rect, inv_Product, inv_F2V, inv_V2F, inv_LZ,
    inv_LZ78, inv_LZW, inv_BinSeq, inv_Walsh, inv_LFSR, inv_Barker.
Qed.
