From Coq Require Import String Ascii.
From Verif Require Import Common Repr_Spec Repr_Builtin Prefix_Model BinPoly_Model Cyclic_Model BCH_Model LFSR_Model Walsh_Model Parse_Proof Repr_Model Repr_Spec2.
From Verif Require Import Prefix_Proof Repr_Proof Repr_Proof2 Repr_Proof3 Repr_Proof4.
Local Open Scope string_scope.
Local Open Scope nat_scope.

Lemma built_inv : forall o, built o -> inv o.
Proof.
  induction 1 as [f a o _ IH C]. eapply call_inv; [|exact C]. unfold ainv. apply Forall_forall. intros [n v] Hin. destruct v; try exact I. exact (IH _ _ Hin).
Qed.

(* every printed text is the text of an expression *)
Definition printed (s : string) : Prop := exists e, s = print e /\ wfb e = true.
Definition not_product (o : obj) : Prop := match o with OProduct _ => False | _ => True end.
Ltac ptexts := cbn [repr repr_conv] in *; rewrite ?zl_str, ?zm_str, ?pl_str, ?dc_str in *; reflexivity.
Ltac pe e := exists e; split; [texts|wf].
Lemma text_printed o s : inv o -> not_product o -> repr o = Some s -> printed s.
Proof.
  intros V NP R.
  assert (K : forall t, repr o = Some t -> printed t -> printed s) by congruence.
  destruct o; try destruct NP.
  all: try (eapply K; [reflexivity|]; clear K R).
  - pe (ECall "BinaryPolynomial" [(None, EBin p)]).
  - pe (ECall "BinaryPolynomialFraction" [(None, EBin n); (None, EBin d)]).
  - pe (ECall "Integer" [(None, EInt z)]).
  - cbn [repr] in R. destruct (default_primitive_polynomial k) as [p|]; [|discriminate]. destruct (m =? p)%N; inversion R; [pe (ECall "FiniteBifield" [(None, EInt (Z.of_N k))])|pe (ECall "FiniteBifield" [(None, EInt (Z.of_N k)); (Some "modulus", EBin m)])].
  - exists (ECall "BlockCode" [(Some (if from_generator then "generator_matrix" else "check_matrix"), zm M)]). split; destruct from_generator; [texts|texts|wf|wf].
  - pe (ECall "SystematicBlockCode" [(Some "parity_submatrix", zm P); (Some "information_set", zl info)]).
  - cbn [repr] in R. destruct polys as [[[[] g] h]|]; [inversion R|inversion R|discriminate].
    + pe (ECall "CyclicCode" [(Some "length", EInt n); (Some "generator_polynomial", EBin g); (Some "systematic", EBool systematic)]).
    + pe (ECall "CyclicCode" [(Some "length", EInt n); (Some "check_polynomial", EBin h); (Some "systematic", EBool systematic)]).
  - pe (ECall "HammingCode" [(Some "mu", EInt mu); (Some "extended", EBool extended)]).
  - pe (ECall "SimplexCode" [(Some "kappa", EInt kappa); (Some "extended", EBool extended)]).
  - pe (ECall "GolayCode" [(Some "extended", EBool extended)]).
  - pe (ECall "RepetitionCode" [(Some "n", EInt n)]).
  - pe (ECall "SingleParityCheckCode" [(Some "n", EInt n)]).
  - pe (ECall "CordaroWagnerCode" [(Some "n", EInt n)]).
  - pe (ECall "ReedMullerCode" [(Some "rho", EInt rho); (Some "mu", EInt mu)]).
  - pe (ECall "Lexicode" [(Some "n", EInt n); (Some "d", EInt d)]).
  - pe (ECall "PolarCode" [(Some "mu", EInt mu); (Some "frozen", zl frozen)]).
  - pe (ECall "BCHCode" [(Some "mu", EInt mu); (Some "delta", EInt delta)]).
  - exists (conv_expr c). split; [apply conv_text|apply conv_wf].
  - exists (ECall "TerminatedConvolutionalCode" [(Some "convolutional_code", conv_expr c); (Some "num_blocks", EInt num_blocks); (Some "mode", EStr mode)]). split.
    + rewrite conv_text. reflexivity.
    + cbn [wfb forallb]. rewrite conv_wf. destruct V as [_ M]. cbn in M. destruct M as [<-|[<-|[<-|[]]]]; reflexivity.
  - pe (ECall "MealyMachine" [(Some "transitions", zm transitions); (Some "outputs", zm outputs)]).
  - pe (ECall "MooreMachine" [(Some "transitions", zm transitions); (Some "outputs", zl outputs)]).
  - pe (ECall "Labeling" [(None, zm matrix)]).
  - pe (ECall "NaturalLabeling" [(None, EInt m)]).
  - pe (ECall "ReflectedLabeling" [(None, EInt m)]).
  - pe (ECall "ReflectedRectangularLabeling" [(None, ETuple [EInt mi; EInt mq])]).
  - pe (ECall "FixedToVariableCode" [(Some "source_cardinality", EInt (Z.of_N (f2v_src c))); (Some "target_cardinality", EInt (Z.of_N (f2v_tgt c))); (Some "source_block_size", EInt (Z.of_nat (f2v_k c))); (Some "enc_mapping", dc (f2v_map c))]).
  - pe (ECall "VariableToFixedCode" [(Some "target_cardinality", EInt (Z.of_N (v2f_tgt c))); (Some "source_cardinality", EInt (Z.of_N (v2f_src c))); (Some "target_block_size", EInt (Z.of_nat (v2f_n c))); (Some "dec_mapping", dc (v2f_map c))]).
  - exists (lz_expr is77 search lookahead src tgt). split; destruct is77; [texts|texts|wf|wf].
  - pe (ECall "LempelZiv78Code" [(Some "source_cardinality", EInt src); (Some "target_cardinality", EInt tgt)]).
  - pe (ECall "LempelZivWelchCode" [(Some "source_cardinality", EInt src); (Some "target_cardinality", EInt tgt)]).
  - pe (ECall "BinarySequence" [(Some "bit_sequence", zl bits)]).
  - exists (ECall "WalshHadamardSequence" [(Some "length", EInt (Z.of_nat (List.length polar))); (Some "ordering", EStr ordering); (Some "index", EInt index)]). split; [texts|].
    destruct V as (ord & V1 & V2). destruct V1 as [[-> _]|[-> _]]; reflexivity.
  - pe (ECall "LFSRSequence" [(Some "feedback_polynomial", EBin f); (Some "start_state_polynomial", EBin s0)]).
  - pe (ECall "BarkerSequence" [(Some "length", EInt (Z.of_nat (List.length bits)))]).
Qed.
Lemma product_text ts : Forall printed ts ->
  exists es, mk "ProductLabeling" [match ts with [t] => "(" ++ t ++ ",)" | _ => "(" ++ join ts ++ ")" end] = print (ECall "ProductLabeling" [(None, ETuple es)]) /\ forallb wfb es = true.
Proof.
  intros F. assert (E : exists es, ts = map print es /\ forallb wfb es = true).
  { induction F as [|t ts (e & -> & W) F (es & -> & W')]; [exists []; auto|]. exists (e :: es). cbn [map forallb]. rewrite W, W'. auto. }
  destruct E as (es & -> & W). exists es. split; [|exact W]. destruct es as [|x [|y es]]; reflexivity.
Qed.
(* the parts of a product are among the arguments of the call that built it *)
Lemma positional_in a : forall v, In v (fst (positional a)) -> exists n, In (n, v) a.
Proof.
  induction a as [|[[n|] x] a IH]; intros v H; cbn in H; [destruct H|destruct H|]. destruct (positional a) as [l k]. cbn in H, IH. destruct H as [->|H]; [exists None; now left|].
  destruct (IH v H) as [n Hn]. exists n. now right.
Qed.
Lemma product_parts a l v : new_Product a = Some (OProduct l) -> In v l -> exists n, In (n, v) a.
Proof.
  unfold new_Product. destruct (positional a) as [p k] eqn:E. destruct (bind ["repeat"] k) as [[|r [|? ?]]|]; try discriminate. intros H. ob H. destruct (_ <? _); [discriminate|]. destruct (_ <? _)%Z; [discriminate|].
  inversion H; subst. intros Hv. apply in_concat in Hv as (q & Hq & Hv). apply repeat_spec in Hq. subst q. apply positional_in. now rewrite E.
Qed.
Ltac notprod := intros H; exfalso; revert H;
  unfold new_Poly, new_Frac, new_Integer, new_Field, new_Block, new_Systematic, new_Cyclic, new_Hamming, new_Simplex, new_Golay, new_Repetition, new_SPC, new_Cordaro, new_RM, new_Lexi, new_Polar, new_BCH, new_Conv, new_Low, new_High,
   new_Terminated, new_Mealy, new_Moore, new_Labeling, new_Natural, new_Reflected, new_Rect, new_F2V, new_V2F, new_LZ, new_LZ78, new_LZW, new_BinSeq, new_Walsh, new_LFSR, new_Barker, bind1, bind2, bind3, bind4, obind, guard, option_map;
  repeat match goal with |- context[match ?x with _ => _ end] => destruct x; try discriminate end.
Lemma call_product f a l v : call f a = Some (OProduct l) -> In v l -> exists n, In (n, v) a.
Proof.
  intros H. unfold call in H. destruct (find _ classes) as [[n new]|] eqn:F; [|discriminate]. apply find_some in F as [Hin _]. cbn [In classes] in Hin. revert H.
  repeat (destruct Hin as [Hin|Hin]; [inversion Hin; subst; clear Hin; try (now apply product_parts); notprod|]). destruct Hin.
Qed.
Lemma all_some_each {A} (l : list (option A)) r : all_some l = Some r -> l = map Some r.
Proof. revert r; induction l as [|[x|] l IH]; intros r H; cbn in H; [inversion H; reflexivity| |discriminate]. destruct (all_some l) as [r'|]; [|discriminate]. inversion H. cbn. now rewrite <- (IH r'). Qed.
Lemma built_text : forall o, built o -> forall s, repr o = Some s -> printed s.
Proof.
  induction 1 as [f a o B IH C]. intros s R. assert (V : inv o) by (apply built_inv; econstructor; eauto).
  assert (D : not_product o \/ exists l, o = OProduct l) by (destruct o; cbn; eauto). destruct D as [D|[l ->]]; [now apply (text_printed o)|].
  cbn [repr] in R. apply obind_some in R as (ts & E & R). cbv beta in R. apply all_some_each in E.
  destruct (product_text ts) as (es & Et & W); [|rewrite Et in R; assert (Es : s = print (ECall "ProductLabeling" [(None, ETuple es)])) by congruence; clear R; subst s; exists (ECall "ProductLabeling" [(None, ETuple es)]); split; [reflexivity|]; cbn [wfb forallb]; now rewrite W].
  apply Forall_forall. intros t Ht. apply (in_map Some) in Ht. rewrite <- E in Ht. apply in_map_iff in Ht as (v & Ev & Hv). destruct v; try discriminate.
  destruct (call_product _ _ _ _ C Hv) as [n Hn]. exact (IH _ _ Hn _ Ev).
Qed.
Lemma built_parts l s : built (OProduct l) -> repr (OProduct l) = Some s -> exists es, s = print (ECall "ProductLabeling" [(None, ETuple es)]) /\ forallb wfb es = true.
Proof.
  intros H R. inversion H as [f a o B C]; subst. cbn [repr] in R. apply obind_some in R as (ts & E & R). cbv beta in R. apply all_some_each in E.
  destruct (product_text ts) as (es & Et & W); [|rewrite Et in R; exists es; split; [congruence|exact W]].
  apply Forall_forall. intros t Ht. apply (in_map Some) in Ht. rewrite <- E in Ht. apply in_map_iff in Ht as (v & Ev & Hv). destruct v; try discriminate.
  destruct (call_product _ _ _ _ C Hv) as [n Hn]. exact (built_text _ (B _ _ Hn) _ Ev).
Qed.
Lemma product_eval es o : eval (ECall "ProductLabeling" [(None, ETuple es)]) = Some (VObj o) -> exists t, o = OProduct [VTuple t].
Proof.
  cbn [eval map]. destruct (all_some (map eval es)) as [t|]; [|discriminate]. cbn [option_map all_some obind].
  change (call "ProductLabeling") with new_Product. intros H. exists t. unfold new_Product in H. cbn in H. inversion H. reflexivity.
Qed.
Lemma no_way_back e o : repr o = Some (print e) -> wfb e = true -> eval e <> Some (VObj o) -> ~ prints_back o.
Proof. intros R W E (s & R' & X). rewrite R in R'. inversion R'; subst s. unfold evaluate in X. rewrite read_text_print in X by exact W. contradiction. Qed.
Lemma arr2_nil : as_arr2 (VList (map (fun r => VList (map VInt r)) [])) = None. Proof. reflexivity. Qed.
Lemma arr2_nil' : as_arr2 (VList []) = None. Proof. reflexivity. Qed.
Ltac an := first [rewrite arr2_nil | rewrite arr2_nil'].
Lemma n_Field k m : (24 < k)%N -> ~ prints_back (OField k m).
Proof.
  intros H (s & R & _). cbn [repr] in R. assert (D : default_primitive_polynomial k = None) by (unfold default_primitive_polynomial; destruct (N.ltb_spec 24 k); [|lia]; now rewrite Bool.orb_true_r).
  rewrite D in R. discriminate.
Qed.
Lemma n_Block g c : ~ prints_back (OBlock g [] c).
Proof.
  apply (no_way_back (ECall "BlockCode" [(Some (if g then "generator_matrix" else "check_matrix"), zm [])])); [destruct g; texts|destruct g; wf|].
  run. change (call "BlockCode") with new_Block. unfold new_Block. destruct g; binds; unfold optional; an; cbn [option_map obind]; discriminate.
Qed.
Lemma n_Systematic c l : ~ prints_back (OSystematic [] c l).
Proof.
  apply (no_way_back (ECall "SystematicBlockCode" [(Some "parity_submatrix", zm []); (Some "information_set", zl l)])); [texts|wf|].
  run. change (call "SystematicBlockCode") with new_Systematic. unfold new_Systematic. binds. unfold required. an. cbn [option_map obind]. discriminate.
Qed.
Lemma conv_nil fb : eval (conv_expr (CConv [] fb)) = None.
Proof.
  cbn [conv_expr]. destruct (forallb _ fb); cbn [eval map].
  - change (option_map VList (all_some [])) with (Some (VList (map (fun r => VList (map VInt r)) []))). cbn [all_some option_map obind].
    change (call "ConvolutionalCode") with new_Conv. unfold new_Conv. binds. unfold required. an. reflexivity.
  - change (option_map VList (all_some [])) with (Some (VList (map (fun r => VList (map VInt r)) []))). rewrite pl_eval. cbn [all_some option_map obind].
    change (call "ConvolutionalCode") with new_Conv. unfold new_Conv. binds. unfold required. an. reflexivity.
Qed.
Lemma n_Conv fb : ~ prints_back (OConv (CConv [] fb)).
Proof. apply (no_way_back (conv_expr (CConv [] fb))); [cbn [repr]; now rewrite conv_text|apply conv_wf|]. rewrite conv_nil. discriminate. Qed.
Lemma n_Terminated fb h m : In m ["direct-truncation"; "zero-termination"; "tail-biting"] -> ~ prints_back (OTerminated (CConv [] fb) h m).
Proof.
  intros M. apply (no_way_back (ECall "TerminatedConvolutionalCode" [(Some "convolutional_code", conv_expr (CConv [] fb)); (Some "num_blocks", EInt h); (Some "mode", EStr m)])).
  - cbn [repr]. rewrite conv_text. reflexivity.
  - cbn [wfb forallb]. rewrite conv_wf. cbn in M. destruct M as [<-|[<-|[<-|[]]]]; reflexivity.
  - cbn [eval map]. rewrite conv_nil. cbn [option_map all_some obind]. discriminate.
Qed.
Lemma n_Mealy t o tc oc : t = [] \/ o = [] -> ~ prints_back (OMealy t o tc oc).
Proof.
  intros H. apply (no_way_back (ECall "MealyMachine" [(Some "transitions", zm t); (Some "outputs", zm o)])); [texts|wf|]. run. change (call "MealyMachine") with new_Mealy. unfold new_Mealy. binds. unfold required.
  destruct H as [->| ->]; an; cbn [obind]; [discriminate|]. destruct (as_arr2 _) as [[? ?]|]; cbn [obind option_map]; discriminate.
Qed.
Lemma n_Moore tc o : ~ prints_back (OMoore [] tc o).
Proof.
  apply (no_way_back (ECall "MooreMachine" [(Some "transitions", zm []); (Some "outputs", zl o)])); [texts|wf|]. run. change (call "MooreMachine") with new_Moore. unfold new_Moore. binds. unfold required. an. cbn [obind option_map]. discriminate.
Qed.
Lemma tuple_silent t : repr (OProduct [VTuple t]) = None. Proof. reflexivity. Qed.
Lemma evaluate_print e : wfb e = true -> evaluate (print e) = eval e.
Proof. intros W. unfold evaluate. now rewrite read_text_print. Qed.
Lemma product_evaluate es o : forallb wfb es = true -> evaluate (print (ECall "ProductLabeling" [(None, ETuple es)])) = Some (VObj o) -> exists t, o = OProduct [VTuple t].
Proof. intros W X. apply (product_eval es). rewrite <- X. symmetry. apply evaluate_print. cbn [wfb forallb]. now rewrite W. Qed.
Lemma n_Product l : built (OProduct l) -> ~ prints_back (OProduct l).
Proof.
  intros B (s & R & X). destruct (built_parts _ _ B R) as (es & Es & W). rewrite Es in X.
  destruct (product_evaluate _ _ W X) as [t E]. rewrite E, tuple_silent in R. discriminate R.
Qed.
Lemma n_LZ t s l x y b : inv (OLZ t s l x y b) -> (exists z, In z b /\ z <> 0%Z) -> ~ prints_back (OLZ t s l x y b).
Proof.
  intros V (z & Hz & Nz). apply (no_way_back (lz_expr t s l x y)); [destruct t; texts|destruct t; wf|]. rewrite (lz_eval _ _ _ _ _ b V). intros E. assert (E' : repeat 0%Z (List.length b) = b) by congruence. rewrite <- E' in Hz. apply repeat_spec in Hz. contradiction.
Qed.
Lemma n_BinSeq b p : inv (OBinSeq b p) -> p <> polar_of_bits b -> ~ prints_back (OBinSeq b p).
Proof. intros V H. apply (no_way_back (ECall "BinarySequence" [(Some "bit_sequence", zl b)])); [texts|wf|]. rewrite (binseq_eval b p V). intros E. congruence. Qed.
Lemma never o : built o -> exceptional o -> ~ prints_back o.
Proof.
  intros B H. assert (V := built_inv o B). destruct o; cbn [exceptional] in H; try (now destruct H).
  - now apply n_Field.
  - subst M. apply n_Block.
  - subst P. apply n_Systematic.
  - destruct polys as [?|]; [destruct H|]. intros (s & R & _). cbn [repr] in R. discriminate.
  - destruct c as [ff fb| |]; [|destruct H|destruct H]. subst ff. apply n_Conv.
  - destruct c as [ff fb| |]; [|destruct H|destruct H]. subst ff. apply n_Terminated, V.
  - now apply n_Mealy.
  - subst transitions. apply n_Moore.
  - now apply n_Product.
  - now apply n_LZ.
  - now apply n_BinSeq.
Qed.
Theorem back_iff o : built o -> (prints_back o <-> ~ exceptional o).
Proof. intros B. split; [intros P E; now apply (never o)|]. apply prints, built_inv, B. Qed.
