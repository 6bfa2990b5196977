From Coq Require Import String Ascii.
From Verif Require Import Common Repr_Spec Repr_Builtin Prefix_Model BinPoly_Model Cyclic_Model BCH_Model LFSR_Model Walsh_Model Parse_Proof Repr_Model Repr_Spec2.
From Verif Require Import Prefix_Proof Repr_Proof Repr_Proof2 Repr_Proof3.
From Verif Require Algebra_Proof Algebra_Spec Props_Walsh.
Local Open Scope string_scope.
Local Open Scope nat_scope.

Ltac texts := cbn [repr repr_conv]; rewrite ?zl_str, ?zm_str, ?pl_str, ?dc_str; reflexivity.
Ltac wf := cbn [wfb forallb]; rewrite ?zl_wf, ?zm_wf, ?pl_wf, ?dc_wf; reflexivity.
Ltac run := cbn [eval map]; rewrite ?zl_eval, ?zm_eval, ?pl_eval, ?dc_eval; cbn [all_some option_map obind].
Ltac binds := unfold bind1, bind2, bind3, bind4;
  match goal with |- context[bind ?s ?a] => let r := eval cbn [bind keywords_ok lookup existsb named fst snd String.eqb Ascii.eqb Bool.eqb andb negb orb map option_map] in (bind s a) in change (bind s a) with r end;
  cbv iota beta.
Ltac args := cbn [required or_default optional as_int as_bool as_str obind option_map].
Ltac tr := repeat match goal with
  | |- context[(?a <=? ?b)%Z] => rewrite (proj2 (Z.leb_le a b)) by lia
  | |- context[(?a <? ?b)%Z] => first [rewrite (proj2 (Z.ltb_lt a b)) by lia | rewrite (proj2 (Z.ltb_ge a b)) by lia] end; cbn [andb orb guard option_map].

Definition kwa (n : string) (e : expr) : option string * expr := (Some n, e).
Definition pos (e : expr) : option string * expr := (None, e).

Lemma back2 e o : repr o = Some (print e) -> wfb e = true -> eval e = Some (VObj o) -> prints_back o.
Proof. intros H. now apply (back e o (print e)). Qed.
Lemma p_Poly p : prints_back (OPoly p).
Proof. apply (back2 (ECall "BinaryPolynomial" [(None, EBin p)])); [texts|wf|]. run. change (call "BinaryPolynomial") with new_Poly. unfold new_Poly. binds. args. now rewrite poly_N. Qed.
Lemma p_Frac n d : inv (OFrac n d) -> prints_back (OFrac n d).
Proof.
  intros V. cbn in V. apply (back2 (ECall "BinaryPolynomialFraction" [(None, EBin n); (None, EBin d)])); [texts|wf|]. run.
  change (call "BinaryPolynomialFraction") with new_Frac. unfold new_Frac. binds. args. rewrite !poly_N. cbn [obind]. now rewrite V.
Qed.
Lemma p_Integer z : prints_back (OInteger z).
Proof. apply (back2 (ECall "Integer" [(None, EInt z)])); [texts|wf|]. reflexivity. Qed.
Lemma p_Field k m : inv (OField k m) -> (k <= 24)%N -> prints_back (OField k m).
Proof.
  intros [K V] H. assert (D : exists p, default_primitive_polynomial k = Some p).
  { unfold default_primitive_polynomial. destruct (N.ltb_spec k 1); [lia|]. destruct (N.ltb_spec 24 k); [lia|]. cbn [orb].
    destruct (nth_error _ (N.to_nat (k - 1))) eqn:E; [eauto|]. apply nth_error_None in E. cbn [List.length] in E. lia. }
  destruct D as [p D]. destruct (N.eqb_spec m p) as [->|Hne].
  - apply (back2 (ECall "FiniteBifield" [(None, EInt (Z.of_N k))])); [cbn [repr]; rewrite D, N.eqb_refl; reflexivity|wf|]. run.
    change (call "FiniteBifield") with new_Field. unfold new_Field. binds. args. destruct (Z.ltb_spec (Z.of_N k) 1); [lia|]. rewrite N2Z.id. unfold gf_make in *. rewrite D. now rewrite V.
  - apply (back2 (ECall "FiniteBifield" [(None, EInt (Z.of_N k)); (Some "modulus", EBin m)]));
      [cbn [repr]; rewrite D; apply N.eqb_neq in Hne; rewrite Hne; reflexivity|wf|]. run.
    change (call "FiniteBifield") with new_Field. unfold new_Field. binds. args. rewrite poly_N. cbn [option_map obind]. destruct (Z.ltb_spec (Z.of_N k) 1); [lia|]. rewrite N2Z.id. now rewrite V.
Qed.
Lemma p_Block g M c : inv (OBlock g M c) -> M <> [] -> prints_back (OBlock g M c).
Proof.
  intros V H. apply (back2 (ECall "BlockCode" [(Some (if g then "generator_matrix" else "check_matrix"), zm M)])); [destruct g; texts|destruct g; wf|]. run.
  change (call "BlockCode") with new_Block. unfold new_Block. destruct g; binds; unfold optional; rewrite (arr2_list M c H V); reflexivity.
Qed.
Lemma p_Systematic P c l : inv (OSystematic P c l) -> P <> [] -> prints_back (OSystematic P c l).
Proof.
  intros (V1 & V2 & V3) H. apply (back2 (ECall "SystematicBlockCode" [(Some "parity_submatrix", zm P); (Some "information_set", zl l)])); [texts|wf|]. run.
  change (call "SystematicBlockCode") with new_Systematic. unfold new_Systematic. binds. unfold required. rewrite (arr2_list P c H V1). cbn [obind]. rewrite arr1_list. cbn [obind].
  rewrite V2, Z.eqb_refl. assert (L : 0 < List.length P) by (destruct P; [congruence|cbn; lia]). apply Nat.ltb_lt in L. rewrite L. cbn [andb].
  rewrite (proj2 (forallb_forall _ l)); [reflexivity|]. intros x Hx. rewrite Forall_forall in V3. specialize (V3 x Hx). rewrite (proj2 (Z.leb_le 0 x)), (proj2 (Z.leb_le x _)) by lia. reflexivity.
Qed.
Lemma p_Cyclic n b g h s : inv (OCyclic n (Some (b, g, h)) s) -> prints_back (OCyclic n (Some (b, g, h)) s).
Proof.
  intros V. destruct b; destruct V as [V0 V].
  - apply (back2 (ECall "CyclicCode" [(Some "length", EInt n); (Some "generator_polynomial", EBin g); (Some "systematic", EBool s)])); [texts|wf|]. run.
    change (call "CyclicCode") with new_Cyclic. unfold new_Cyclic. binds. args. rewrite poly_N. cbn [option_map obind]. destruct (Z.ltb_spec n 0); [lia|]. now rewrite V.
  - apply (back2 (ECall "CyclicCode" [(Some "length", EInt n); (Some "check_polynomial", EBin h); (Some "systematic", EBool s)])); [texts|wf|]. run.
    change (call "CyclicCode") with new_Cyclic. unfold new_Cyclic. binds. args. rewrite poly_N. cbn [option_map obind]. destruct (Z.ltb_spec n 0); [lia|]. now rewrite V.
Qed.
Ltac simple_class name new := run; change (call name) with new; unfold new; binds; args; tr; try reflexivity.
Lemma p_Hamming m e : inv (OHamming m e) -> prints_back (OHamming m e).
Proof. intros V; cbn in V. apply (back2 (ECall "HammingCode" [(Some "mu", EInt m); (Some "extended", EBool e)])); [texts|wf|]. simple_class "HammingCode" new_Hamming. Qed.
Lemma p_Simplex m e : inv (OSimplex m e) -> prints_back (OSimplex m e).
Proof. intros V; cbn in V. apply (back2 (ECall "SimplexCode" [(Some "kappa", EInt m); (Some "extended", EBool e)])); [texts|wf|]. simple_class "SimplexCode" new_Simplex. Qed.
Lemma p_Golay e : prints_back (OGolay e).
Proof. apply (back2 (ECall "GolayCode" [(Some "extended", EBool e)])); [texts|wf|]. simple_class "GolayCode" new_Golay. Qed.
Lemma p_Repetition n : inv (ORepetition n) -> prints_back (ORepetition n).
Proof. intros V; cbn in V. apply (back2 (ECall "RepetitionCode" [(Some "n", EInt n)])); [texts|wf|]. simple_class "RepetitionCode" new_Repetition. Qed.
Lemma p_SPC n : inv (OSPC n) -> prints_back (OSPC n).
Proof. intros V; cbn in V. apply (back2 (ECall "SingleParityCheckCode" [(Some "n", EInt n)])); [texts|wf|]. simple_class "SingleParityCheckCode" new_SPC. Qed.
Lemma p_Cordaro n : inv (OCordaro n) -> prints_back (OCordaro n).
Proof. intros V; cbn in V. apply (back2 (ECall "CordaroWagnerCode" [(Some "n", EInt n)])); [texts|wf|]. simple_class "CordaroWagnerCode" new_Cordaro. Qed.
Lemma p_RM r m : inv (ORM r m) -> prints_back (ORM r m).
Proof. intros V; cbn in V. apply (back2 (ECall "ReedMullerCode" [(Some "rho", EInt r); (Some "mu", EInt m)])); [texts|wf|]. simple_class "ReedMullerCode" new_RM. Qed.
Lemma p_Lexi n d : inv (OLexi n d) -> prints_back (OLexi n d).
Proof. intros V; cbn in V. apply (back2 (ECall "Lexicode" [(Some "n", EInt n); (Some "d", EInt d)])); [texts|wf|]. simple_class "Lexicode" new_Lexi. Qed.
Lemma p_Polar m f : inv (OPolar m f) -> prints_back (OPolar m f).
Proof.
  intros [V1 V2]. apply (back2 (ECall "PolarCode" [(Some "mu", EInt m); (Some "frozen", zl f)])); [texts|wf|]. run.
  change (call "PolarCode") with new_Polar. unfold new_Polar. binds. args. rewrite arr1_list. cbn [obind]. cbv zeta. rewrite V1, V2. reflexivity.
Qed.
Lemma p_BCH m d : inv (OBCH m d) -> prints_back (OBCH m d).
Proof.
  intros (V1 & V2 & B & V3). apply (back2 (ECall "BCHCode" [(Some "mu", EInt m); (Some "delta", EInt d)])); [texts|wf|]. run.
  change (call "BCHCode") with new_BCH. unfold new_BCH. binds. args. rewrite V3. tr. reflexivity.
Qed.
(* convolutional codes *)
Definition conv_expr (c : conv_obj) : expr :=
  match c with
  | CConv ff fb => ECall "ConvolutionalCode" ((Some "feedforward_polynomials", EList (map pl ff)) :: (if forallb (N.eqb 1) fb then [] else [(Some "feedback_polynomials", pl fb)]))
  | CLow g => ECall "LowRateConvolutionalCode" [(None, pl g)]
  | CHigh g => ECall "HighRateConvolutionalCode" [(None, pl g)]
  end.
Lemma pls_str ff : brackets (map plist ff) = print (EList (map pl ff)).
Proof. unfold brackets. cbn [print]. rewrite map_map. do 3 f_equal. apply map_ext, pl_str. Qed.
Lemma conv_text c : repr_conv c = print (conv_expr c).
Proof.
  destruct c as [ff fb|g|g]; cbn [repr_conv conv_expr]; [|rewrite pl_str; reflexivity|rewrite pl_str; reflexivity].
  rewrite pls_str, pl_str. destruct (forallb (N.eqb 1) fb); [reflexivity|]. cbv zeta.
  set (A := EList (map pl ff)). set (B := pl fb). clearbody A B.
  change (print (ECall "ConvolutionalCode" [(Some "feedforward_polynomials", A); (Some "feedback_polynomials", B)])) with
    ("ConvolutionalCode(" ++ (("feedforward_polynomials=" ++ print A) ++ ", " ++ ("feedback_polynomials=" ++ print B)) ++ ")").
  reflexivity.
Qed.
Lemma pls_wf ff : wfb (EList (map pl ff)) = true.
Proof. cbn [wfb]. apply forallb_map_true, pl_wf. Qed.
Lemma conv_wf c : wfb (conv_expr c) = true.
Proof. destruct c as [ff fb|g|g]; cbn [conv_expr]; [destruct (forallb _ fb)|..]; cbn [wfb forallb]; rewrite ?pl_wf; rewrite ?forallb_map_true by apply pl_wf; reflexivity. Qed.
Lemma ones_repeat fb : forallb (N.eqb 1) fb = true -> fb = repeat 1%N (List.length fb).
Proof. induction fb as [|x fb IH]; [reflexivity|]. cbn [forallb List.length repeat]. rewrite Bool.andb_true_iff. intros [H1 H2]. apply N.eqb_eq in H1. rewrite <- IH by exact H2. congruence. Qed.
Lemma polys_list g : map (fun x => VInt (Z.of_N x)) g = map VInt (map Z.of_N g).
Proof. now rewrite map_map. Qed.
Lemma pls_eval ff : eval (EList (map pl ff)) = Some (VList (map (fun r => VList (map VInt r)) (map (map Z.of_N) ff))).
Proof. cbn [eval]. rewrite !map_map. rewrite (all_some_map _ (fun r => VList (map VInt (map Z.of_N r)))) by (intros; rewrite pl_eval, polys_list; reflexivity). reflexivity. Qed.
Lemma conv_eval c : conv_inv c -> ~ (match c with CConv ff _ => ff = [] | _ => False end) -> eval (conv_expr c) = Some (VObj (OConv c)).
Proof.
  destruct c as [ff fb|g|g]; intros V H.
  - destruct V as (V1 & n & V2). cbn [conv_expr].
    assert (A2 : as_arr2 (VList (map (fun r => VList (map VInt r)) (map (map Z.of_N) ff))) = Some (map (map Z.of_N) ff, n)).
    { apply arr2_list; [destruct ff; cbn; congruence|]. apply Forall_forall. intros r Hr. apply in_map_iff in Hr as (q & <- & Hq). rewrite map_length. rewrite Forall_forall in V2. auto. }
    assert (P2 : all_some (map (fun r => all_some (map to_poly r)) (map (map Z.of_N) ff)) = Some ff) by (apply all_some_id, polys_row).
    destruct (forallb (N.eqb 1) fb) eqn:E.
    + cbn [eval map]. change (option_map VList (all_some (map eval (map pl ff)))) with (eval (EList (map pl ff))). rewrite pls_eval. cbn [all_some option_map obind].
      change (call "ConvolutionalCode") with new_Conv. unfold new_Conv. binds. unfold required, optional. rewrite A2. cbn [obind]. rewrite P2. cbn [obind]. rewrite <- V1, <- (ones_repeat fb E). rewrite Nat.eqb_refl. reflexivity.
    + cbn [eval map]. change (option_map VList (all_some (map eval (map pl ff)))) with (eval (EList (map pl ff))). rewrite pls_eval. 
      change (eval (pl fb)) with (option_map VList (all_some (map eval (map EBin fb)))). 
      change (option_map VList (all_some (map eval (map EBin fb)))) with (eval (pl fb)). rewrite pl_eval, polys_list. cbn [all_some option_map obind].
      change (call "ConvolutionalCode") with new_Conv. unfold new_Conv. binds. unfold required, optional. rewrite A2. rewrite arr1_list. cbn [option_map obind]. rewrite P2. cbn [obind]. rewrite polys_row. cbn [obind]. rewrite V1, Nat.eqb_refl. reflexivity.
  - cbn [conv_expr]. run. rewrite polys_list. change (call "LowRateConvolutionalCode") with new_Low. unfold new_Low. binds. unfold required. rewrite arr1_list. cbn [obind]. rewrite polys_row. reflexivity.
  - cbn [conv_expr]. run. rewrite polys_list. change (call "HighRateConvolutionalCode") with new_High. unfold new_High. binds. unfold required. rewrite arr1_list. cbn [obind]. rewrite polys_row. reflexivity.
Qed.
Lemma p_Conv c : inv (OConv c) -> ~ exceptional (OConv c) -> prints_back (OConv c).
Proof. intros V H. apply (back2 (conv_expr c)); [cbn [repr]; now rewrite conv_text|apply conv_wf|]. apply conv_eval; [exact V|]. destruct c; exact H. Qed.
Lemma p_Terminated c h m : inv (OTerminated c h m) -> ~ exceptional (OTerminated c h m) -> prints_back (OTerminated c h m).
Proof.
  intros [V M] H. apply (back2 (ECall "TerminatedConvolutionalCode" [(Some "convolutional_code", conv_expr c); (Some "num_blocks", EInt h); (Some "mode", EStr m)])).
  - cbn [repr]. rewrite conv_text. reflexivity.
  - cbn [wfb forallb]. rewrite conv_wf. cbn in M. destruct M as [<-|[<-|[<-|[]]]]; reflexivity.
  - assert (E : eval (conv_expr c) = Some (VObj (OConv c))) by (apply conv_eval; [exact V|destruct c; exact H]). cbn [eval map]. rewrite E. cbn [all_some option_map obind].
    change (call "TerminatedConvolutionalCode") with new_Terminated. unfold new_Terminated. binds. args. cbn [as_conv obind]. cbn in M. destruct M as [<-|[<-|[<-|[]]]]; reflexivity.
Qed.
Lemma p_Mealy t o tc oc : inv (OMealy t o tc oc) -> ~ exceptional (OMealy t o tc oc) -> prints_back (OMealy t o tc oc).
Proof.
  intros [V1 V2] H. cbn in H. apply (back2 (ECall "MealyMachine" [(Some "transitions", zm t); (Some "outputs", zm o)])); [texts|wf|]. run.
  change (call "MealyMachine") with new_Mealy. unfold new_Mealy. binds. unfold required. rewrite (arr2_list t tc), (arr2_list o oc); auto.
Qed.
Lemma p_Moore t tc o : inv (OMoore t tc o) -> ~ exceptional (OMoore t tc o) -> prints_back (OMoore t tc o).
Proof.
  intros V H. cbn in H. apply (back2 (ECall "MooreMachine" [(Some "transitions", zm t); (Some "outputs", zl o)])); [texts|wf|]. run.
  change (call "MooreMachine") with new_Moore. unfold new_Moore. binds. unfold required. rewrite (arr2_list t tc), arr1_list; auto.
Qed.
Lemma p_Labeling M : inv (OLabeling M) -> prints_back (OLabeling M).
Proof.
  intros (c & V1 & V2). apply (back2 (ECall "Labeling" [(None, zm M)])); [texts|wf|]. run.
  change (call "Labeling") with new_Labeling. unfold new_Labeling. binds. unfold required.
  assert (N : M <> []). { intros ->. rewrite !Bool.andb_true_iff in V2. destruct V2 as [[V2 _] _]. apply Nat.eqb_eq in V2. cbn in V2. pose proof (Nat.pow_nonzero 2 c). lia. }
  rewrite (arr2_list M c N V1). cbn [obind]. rewrite V2. reflexivity.
Qed.
Lemma p_Natural m : inv (ONatural m) -> prints_back (ONatural m).
Proof. intros V; cbn in V. apply (back2 (ECall "NaturalLabeling" [(None, EInt m)])); [texts|wf|]. simple_class "NaturalLabeling" new_Natural. Qed.
Lemma p_Reflected m : inv (OReflected m) -> prints_back (OReflected m).
Proof. intros V; cbn in V. apply (back2 (ECall "ReflectedLabeling" [(None, EInt m)])); [texts|wf|]. simple_class "ReflectedLabeling" new_Reflected. Qed.
Lemma p_Rect i q : inv (ORect i q) -> prints_back (ORect i q).
Proof. intros V; cbn in V. apply (back2 (ECall "ReflectedRectangularLabeling" [(None, ETuple [EInt i; EInt q])])); [texts|wf|]. simple_class "ReflectedRectangularLabeling" new_Rect. Qed.
Lemma p_F2V c : inv (OF2V c) -> prints_back (OF2V c).
Proof.
  intros [V1 V2]. apply (back2 (ECall "FixedToVariableCode" [(Some "source_cardinality", EInt (Z.of_N (f2v_src c))); (Some "target_cardinality", EInt (Z.of_N (f2v_tgt c)));
    (Some "source_block_size", EInt (Z.of_nat (f2v_k c))); (Some "enc_mapping", dc (f2v_map c))])); [texts|wf|]. run.
  change (call "FixedToVariableCode") with new_F2V. unfold new_F2V. binds. args. rewrite dict_dv by exact V1. cbn [obind].
  destruct (Z.ltb_spec (Z.of_N (f2v_src c)) 0); [lia|]. destruct (Z.ltb_spec (Z.of_N (f2v_tgt c)) 0); [lia|]. destruct (Z.ltb_spec (Z.of_nat (f2v_k c)) 0); [lia|]. cbn [orb].
  rewrite !N2Z.id, Nat2Z.id, V2. reflexivity.
Qed.
Lemma p_V2F c : inv (OV2F c) -> prints_back (OV2F c).
Proof.
  intros [V1 V2]. apply (back2 (ECall "VariableToFixedCode" [(Some "target_cardinality", EInt (Z.of_N (v2f_tgt c))); (Some "source_cardinality", EInt (Z.of_N (v2f_src c)));
    (Some "target_block_size", EInt (Z.of_nat (v2f_n c))); (Some "dec_mapping", dc (v2f_map c))])); [texts|wf|]. run.
  change (call "VariableToFixedCode") with new_V2F. unfold new_V2F. binds. args. rewrite dict_dv by exact V1. cbn [obind].
  destruct (Z.ltb_spec (Z.of_N (v2f_src c)) 0); [lia|]. destruct (Z.ltb_spec (Z.of_N (v2f_tgt c)) 0); [lia|]. destruct (Z.ltb_spec (Z.of_nat (v2f_n c)) 0); [lia|]. cbn [orb].
  rewrite !N2Z.id, Nat2Z.id, V2. reflexivity.
Qed.
Lemma zero_buffer b : ~ (exists x, In x b /\ x <> 0%Z) -> b = repeat 0%Z (List.length b).
Proof.
  induction b as [|x b IH]; intros H; [reflexivity|]. cbn. rewrite <- IH; [f_equal|].
  - destruct (Z.eq_dec x 0); [assumption|]. destruct H. exists x. split; [now left|assumption].
  - intros (y & Hy & Hn). apply H. exists y. split; [now right|assumption].
Qed.
Definition lz_expr (t : bool) s l x y := ECall (if t then "LempelZiv77Code" else "LempelZivSSCode") [(Some "search_size", EInt s); (Some "lookahead_size", EInt l); (Some "source_cardinality", EInt x); (Some "target_cardinality", EInt y)].
Lemma lz_eval t s l x y b : inv (OLZ t s l x y b) -> eval (lz_expr t s l x y) = Some (VObj (OLZ t s l x y (repeat 0%Z (List.length b)))).
Proof.
  intros (V1 & V2 & V3 & V4 & V5). unfold lz_expr. run.
  assert (E : new_LZ t [(Some "search_size", VInt s); (Some "lookahead_size", VInt l); (Some "source_cardinality", VInt x); (Some "target_cardinality", VInt y)] = Some (OLZ t s l x y (repeat 0%Z (List.length b)))).
  { unfold new_LZ. cbn [existsb is_positional fst orb]. binds. args. cbv zeta. rewrite repeat_length. tr. rewrite Z2Nat.id, Z.eqb_refl by lia. cbn [guard andb]. do 2 f_equal. f_equal. lia. }
  destruct t; [change (call "LempelZiv77Code") with (new_LZ true)|change (call "LempelZivSSCode") with (new_LZ false)]; rewrite E; reflexivity.
Qed.
Lemma p_LZ t s l x y b : inv (OLZ t s l x y b) -> ~ exceptional (OLZ t s l x y b) -> prints_back (OLZ t s l x y b).
Proof.
  intros V H. apply (back2 (lz_expr t s l x y)); [texts|destruct t; wf|]. rewrite (lz_eval t s l x y b V), <- zero_buffer; [reflexivity|exact H].
Qed.
Lemma p_LZ78 x y : inv (OLZ78 x y) -> prints_back (OLZ78 x y).
Proof. intros V; cbn in V. apply (back2 (ECall "LempelZiv78Code" [(Some "source_cardinality", EInt x); (Some "target_cardinality", EInt y)])); [texts|wf|]. simple_class "LempelZiv78Code" new_LZ78. Qed.
Lemma p_LZW x y : inv (OLZW x y) -> prints_back (OLZW x y).
Proof. intros V; cbn in V. apply (back2 (ECall "LempelZivWelchCode" [(Some "source_cardinality", EInt x); (Some "target_cardinality", EInt y)])); [texts|wf|]. simple_class "LempelZivWelchCode" new_LZW. Qed.
Lemma binseq_eval b p : inv (OBinSeq b p) -> eval (ECall "BinarySequence" [(Some "bit_sequence", zl b)]) = Some (VObj (OBinSeq b (polar_of_bits b))).
Proof.
  intros V. cbn in V. run. change (call "BinarySequence") with new_BinSeq. unfold new_BinSeq. binds. unfold optional. rewrite arr1_list. cbn [option_map obind].
  rewrite (proj2 (forallb_forall _ b)); [reflexivity|]. intros x Hx. rewrite Forall_forall in V. apply Z.leb_le. auto.
Qed.
Lemma p_BinSeq b p : inv (OBinSeq b p) -> ~ exceptional (OBinSeq b p) -> prints_back (OBinSeq b p).
Proof.
  intros V H. cbn in H. assert (E : p = polar_of_bits b) by (destruct (list_eq_dec Z.eq_dec p (polar_of_bits b)); tauto).
  apply (back2 (ECall "BinarySequence" [(Some "bit_sequence", zl b)])); [texts|wf|]. rewrite (binseq_eval b p V), E. reflexivity.
Qed.
Lemma p_Walsh p o i : inv (OWalsh p o i) -> prints_back (OWalsh p o i).
Proof.
  intros (ord & V1 & V2). apply (back2 (ECall "WalshHadamardSequence" [(Some "length", EInt (Z.of_nat (List.length p))); (Some "ordering", EStr o); (Some "index", EInt i)])).
  - texts.
  - destruct V1 as [[-> _]|[-> _]]; reflexivity.
  - run. change (call "WalshHadamardSequence") with new_Walsh. unfold new_Walsh. binds. args. destruct V1 as [[-> ->]|[-> ->]]; cbn [String.eqb Ascii.eqb Bool.eqb obind]; rewrite V2; reflexivity.
Qed.
Lemma p_LFSR f s : inv (OLFSR f s) -> prints_back (OLFSR f s).
Proof.
  intros V. cbn in V. apply (back2 (ECall "LFSRSequence" [(Some "feedback_polynomial", EBin f); (Some "start_state_polynomial", EBin s)])); [texts|wf|]. run.
  change (call "LFSRSequence") with new_LFSR. unfold new_LFSR. binds. args. rewrite !poly_N. cbn [obind]. destruct (LFSRSequence f s); [reflexivity|congruence].
Qed.
Lemma p_Barker b : inv (OBarker b) -> prints_back (OBarker b).
Proof.
  intros V. cbn in V. apply (back2 (ECall "BarkerSequence" [(Some "length", EInt (Z.of_nat (List.length b)))])); [texts|wf|]. run.
  change (call "BarkerSequence") with new_Barker. unfold new_Barker. binds. args. destruct (Z.ltb_spec (Z.of_nat (List.length b)) 0); [lia|]. rewrite Nat2Z.id, V. reflexivity.
Qed.
Lemma prints o : inv o -> ~ exceptional o -> prints_back o.
Proof.
  destruct o; intros V H; eauto using p_Poly, p_Frac, p_Integer, p_Block, p_Systematic, p_Hamming, p_Simplex, p_Golay, p_Repetition, p_SPC, p_Cordaro, p_RM, p_Lexi, p_Polar, p_BCH,
    p_Conv, p_Terminated, p_Mealy, p_Moore, p_Labeling, p_Natural, p_Reflected, p_Rect, p_F2V, p_V2F, p_LZ, p_LZ78, p_LZW, p_BinSeq, p_Walsh, p_LFSR, p_Barker.
  - apply p_Field; [exact V|]. cbn in H. lia.
  - destruct polys as [[[b g] h]|]; [now apply p_Cyclic|]. destruct H. exact I.
  - destruct H. exact I.
Qed.
