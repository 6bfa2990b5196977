(** C111 - what an object prints is Python text that, evaluated in a namespace where the library's names are
    imported, builds an object with the same state; the classes and arguments for which that fails are characterised.

    [built o]: [o] is returned by a chain of constructor calls.  [prints_back o]: repr(o) returns a text and eval of
    that text returns an object with the same attributes.  [exceptional o]: the six situations in which it does not
    (Repr_Spec2.v).  [read_text] (Repr_Spec.v) reads Python literals and calls, and knows nothing of the printer. *)
From Coq Require Import String Ascii.
From Coq Require Import Permutation Sorted.
From Verif Require Import Common Repr_Spec Repr_Builtin Prefix_Model BinPoly_Model Walsh_Model Repr_Model Repr_Spec2.
From Verif Require Import Repr_Proof Repr_Proof2 Repr_Proof5.
Local Open Scope string_scope.
Local Open Scope nat_scope.

(** Every object a user can build evaluates back from its printed text, or is one of the exceptional ones, and never both. *)
Theorem C111_evaluates_back : forall o, built o -> (prints_back o <-> ~ exceptional o).
Proof. exact back_iff. Qed.

(** Two objects with the same printed text are the same object (exceptional ones aside). *)
Theorem C111_injective : forall o1 o2 s, built o1 -> built o2 -> ~ exceptional o1 -> ~ exceptional o2 ->
  repr o1 = Some s -> repr o2 = Some s -> o1 = o2.
Proof.
  intros o1 o2 s B1 B2 E1 E2 R1 R2. destruct (proj2 (back_iff o1 B1) E1) as (s1 & P1 & Q1). destruct (proj2 (back_iff o2 B2) E2) as (s2 & P2 & Q2). congruence.
Qed.

(** Whatever an exceptional object prints, evaluating it raises or gives an object in another state. *)
Theorem C111_exceptions_fail : forall o s, built o -> exceptional o -> repr o = Some s -> evaluate s <> Some (VObj o).
Proof. intros o s B E R X. apply (proj1 (back_iff o B)); [|exact E]. now exists s. Qed.

(** All printed text is well-formed: the reader accepts it, even when the constructor then refuses it. *)
Theorem C111_well_formed : forall o s, built o -> repr o = Some s -> exists e, read_text s = Some e.
Proof. intros o s B R. destruct (built_text o B s R) as (e & -> & W). exists e. now apply read_text_print. Qed.

(** Everything prints, except a field of degree above 24, a cyclic code given both polynomials, and products with a part
    that does not print. *)
Theorem C111_prints : forall o, built o -> match o with OProduct _ => True | OField k _ => (k <= 24)%N | OCyclic _ None _ => False | _ => True end ->
  match o with OProduct _ => True | _ => exists s, repr o = Some s end.
Proof.
  intros o B H. destruct o; try exact I; try (eexists; reflexivity).
  - destruct (built_inv _ B) as [K _]. destruct (Repr_Proof4.p_Field k m (built_inv _ B) H) as (s & R & _). now exists s.
  - destruct polys as [[[b g] h]|]; [eexists; reflexivity|destruct H].
Qed.

(** Integers: the decimal and binary texts Python prints read back as the same integer, whatever its size. *)
Theorem C111_numbers : forall (z : Z) (n : N), read_text (py_int z) = Some (EInt z) /\ read_text (py_bin n) = Some (EBin n).
Proof. intros z n. split; [exact (read_text_print (EInt z) eq_refl)|exact (read_text_print (EBin n) eq_refl)]. Qed.

(* ---- concrete objects and the texts they print *)
Definition made f a : option string := match call f a with Some o => repr o | None => None end.
Theorem C111_texts :
  made "HammingCode" [(None, VInt 3)] = Some "HammingCode(mu=3, extended=False)" /\
  made "CyclicCode" [(None, VInt 23); (Some "generator_polynomial", VInt 2787)] = Some "CyclicCode(length=23, generator_polynomial=0b101011100011, systematic=True)" /\
  made "BinaryPolynomialFraction" [(None, VInt 6); (None, VInt 2)] = Some "BinaryPolynomialFraction(0b11, 0b1)" /\
  made "SystematicBlockCode" [(None, VList [VList [VInt 0; VInt 1]; VList [VInt 1; VInt 1]]); (None, VStr "right")] = Some "SystematicBlockCode(parity_submatrix=[[0, 1], [1, 1]], information_set=[2, 3])" /\
  made "PolarCode" [(None, VInt 2); (None, VList [VInt 2; VInt 0])] = Some "PolarCode(mu=2, frozen=[0, 2])" /\
  made "ConvolutionalCode" [(None, VList [VList [VInt 7; VInt 5]])] = Some "ConvolutionalCode(feedforward_polynomials=[[0b111, 0b101]])" /\
  made "ReflectedRectangularLabeling" [(None, VInt 4)] = Some "ReflectedRectangularLabeling((2, 2))" /\
  made "WalshHadamardSequence" [(Some "length", VInt 4); (Some "index", VInt 3)] = Some "WalshHadamardSequence(length=4, ordering='natural', index=3)" /\
  made "LempelZiv78Code" [(None, VInt 2)] = Some "LempelZiv78Code(source_cardinality=2, target_cardinality=2)".
Proof. repeat split; vm_compute; reflexivity. Qed.

Lemma by_call f a o : (forall n x, In (n, VObj x) a -> built x) -> call f a = Some o -> built o. Proof. apply built_call. Qed.
Ltac leaf := eapply by_call; [intros n x H; cbn in H; repeat (destruct H as [H|H]; [inversion H|]); destruct H|].

Theorem C111_nested : exists o, built o /\ ~ exceptional o /\
  repr o = Some "TerminatedConvolutionalCode(convolutional_code=ConvolutionalCode(feedforward_polynomials=[[0b1, 0b101]], feedback_polynomials=[0b111]), num_blocks=4, mode='tail-biting')" /\
  evaluate "TerminatedConvolutionalCode(convolutional_code=ConvolutionalCode(feedforward_polynomials=[[0b1, 0b101]], feedback_polynomials=[0b111]), num_blocks=4, mode='tail-biting')" = Some (VObj o).
Proof.
  exists (OTerminated (CConv [[1%N; 5%N]] [7%N]) 4 "tail-biting"). split; [|split; [|split]].
  - apply (by_call "TerminatedConvolutionalCode" [(None, VObj (OConv (CConv [[1%N; 5%N]] [7%N]))); (None, VInt 4); (None, VStr "tail-biting")]).
    + intros n x H. cbn in H. destruct H as [H|[H|[H|[]]]]; inversion H. subst.
      apply (by_call "ConvolutionalCode" [(None, VList [VList [VInt 1; VInt 5]]); (None, VList [VInt 7])]); [|vm_compute; reflexivity].
      intros m y K. cbn in K. destruct K as [K|[K|[]]]; inversion K.
    + vm_compute; reflexivity.
  - cbn. discriminate.
  - vm_compute. reflexivity.
  - vm_compute. reflexivity.
Qed.

(* ---- the exceptional situations arise *)
(** A LempelZiv77Code or LempelZivSSCode with a non-zero search buffer prints a text without the buffer. *)
Theorem C111_lz_buffer_lost : forall is77 s l x y b, built (OLZ is77 s l x y b) ->
  exists t, repr (OLZ is77 s l x y b) = Some t /\ evaluate t = Some (VObj (OLZ is77 s l x y (repeat 0%Z (List.length b)))).
Proof.
  intros t s l x y b B. exists (print (Repr_Proof4.lz_expr t s l x y)). split; [destruct t; reflexivity|]. rewrite evaluate_print by (destruct t; reflexivity). apply Repr_Proof4.lz_eval, built_inv, B.
Qed.
Theorem C111_lz_buffer_example : forall is77, built (OLZ is77 3 2 2 2 [1; 0; 0]%Z) /\ exceptional (OLZ is77 3 2 2 2 [1; 0; 0]%Z).
Proof.
  intros t. split.
  - apply (by_call (if t then "LempelZiv77Code" else "LempelZivSSCode") [(Some "search_size", VInt 3); (Some "lookahead_size", VInt 2); (Some "source_cardinality", VInt 2); (Some "search_buffer", VList [VInt 1; VInt 0; VInt 0])]).
    + intros n x H. cbn in H. destruct H as [H|[H|[H|[H|[]]]]]; inversion H.
    + destruct t; vm_compute; reflexivity.
  - exists 1%Z. split; [now left|discriminate].
Qed.
(** Every product of labelings prints a text that builds another object: the tuple of labelings is passed as one argument. *)
Theorem C111_product_lost : forall l s, built (OProduct l) -> repr (OProduct l) = Some s -> forall o, evaluate s = Some (VObj o) -> exists t, o = OProduct [VTuple t].
Proof. intros l s B R o E. destruct (built_parts l s B R) as (es & -> & W). exact (product_evaluate es o W E). Qed.
Theorem C111_product_text : exists o, built o /\ repr o = Some "ProductLabeling((NaturalLabeling(1), ReflectedLabeling(2)))" /\ ~ prints_back o.
Proof.
  exists (OProduct [VObj (ONatural 1); VObj (OReflected 2)]).
  assert (B : built (OProduct [VObj (ONatural 1); VObj (OReflected 2)])).
  { apply (by_call "ProductLabeling" [(None, VObj (ONatural 1)); (None, VObj (OReflected 2))]); [|vm_compute; reflexivity].
    intros n x H. cbn in H. destruct H as [H|[H|[]]]; inversion H; subst.
    - apply (by_call "NaturalLabeling" [(None, VInt 1)]); [|vm_compute; reflexivity]. intros m y K. cbn in K. destruct K as [K|[]]; inversion K.
    - apply (by_call "ReflectedLabeling" [(None, VInt 2)]); [|vm_compute; reflexivity]. intros m y K. cbn in K. destruct K as [K|[]]; inversion K. }
  split; [exact B|]. split; [vm_compute; reflexivity|]. now apply n_Product.
Qed.
(** A field of degree 25 can be built from an irreducible modulus, and cannot be printed. *)
Theorem C111_large_field : exists o, built o /\ repr o = None.
Proof.
  exists (OField 25 33554441). split; [|vm_compute; reflexivity].
  apply (by_call "FiniteBifield" [(None, VInt 25); (None, VInt 33554441)]); [|vm_compute; reflexivity]. intros m y K. cbn in K. destruct K as [K|[K|[]]]; inversion K.
Qed.
(** CyclicCode given both polynomials builds an object without either, whatever they are; it cannot be printed. *)
Theorem C111_both_polynomials : forall n g h, (0 <= n)%Z -> (0 <= g)%Z -> (0 <= h)%Z ->
  exists o, built o /\ call "CyclicCode" [(None, VInt n); (None, VInt g); (None, VInt h)] = Some o /\ repr o = None.
Proof.
  intros n g h Hn Hg Hh. exists (OCyclic n None true).
  assert (C : call "CyclicCode" [(None, VInt n); (None, VInt g); (None, VInt h)] = Some (OCyclic n None true)).
  { change (call "CyclicCode") with new_Cyclic. unfold new_Cyclic, bind4. cbn [bind keywords_ok map option_map lookup required as_int optional as_poly obind or_default].
    destruct (Z.leb_spec 0 g); [|lia]. destruct (Z.leb_spec 0 h); [|lia]. cbn [option_map obind]. destruct (Z.ltb_spec n 0); [lia|]. reflexivity. }
  split; [|split; [exact C|reflexivity]]. refine (by_call _ _ _ _ C). intros m y K. cbn in K. destruct K as [K|[K|[K|[]]]]; inversion K.
Qed.
(** BinarySequence(polar_sequence=...) keeps entries other than +1 and -1, and prints bits that stand for another sequence. *)
Theorem C111_polar_lost : exists o, built o /\ repr o = Some "BinarySequence(bit_sequence=[0, 1])" /\ exists o', evaluate "BinarySequence(bit_sequence=[0, 1])" = Some (VObj o') /\ o' <> o.
Proof.
  exists (OBinSeq [0; 1]%Z [2; -3]%Z). split; [|split; [vm_compute; reflexivity|]].
  - apply (by_call "BinarySequence" [(Some "polar_sequence", VList [VInt 2; VInt (-3)])]); [|vm_compute; reflexivity]. intros m y K. cbn in K. destruct K as [K|[]]; inversion K.
  - eexists. split; [vm_compute; reflexivity|discriminate].
Qed.
(** A block code given a 0 by n array prints [[]], which is refused. *)
Theorem C111_empty_matrix : forall n, exists o, call "BlockCode" [(None, VArr2 [] n)] = Some o /\ built o /\
  repr o = Some "BlockCode(generator_matrix=[])" /\ evaluate "BlockCode(generator_matrix=[])" = None.
Proof.
  intros n. exists (OBlock true [] n). split; [reflexivity|]. split; [|split; vm_compute; reflexivity].
  apply (by_call "BlockCode" [(None, VArr2 [] n)]); [|reflexivity]. intros m y K. cbn in K. destruct K as [K|[]]; inversion K.
Qed.

(** PolarCode(mu, frozen) is accepted exactly for mu >= 1 and distinct positions below 2^mu, listed in any order; the object
    keeps them sorted. *)
Lemma sort_perm l : Permutation (sort l) l.
Proof.
  induction l as [|x l IH]; [constructor|]. cbn [sort fold_right]. fold (sort l). transitivity (x :: sort l); [|now constructor].
  clear IH. induction (sort l) as [|y r IH]; [constructor; constructor|]. cbn [insert]. destruct (x <=? y)%Z; [reflexivity|]. transitivity (y :: x :: r); [now constructor|constructor].
Qed.
Lemma distinctz_nodup l : distinctz l = true <-> NoDup l.
Proof.
  induction l as [|x l IH]; cbn [distinctz]; [split; [constructor|reflexivity]|]. rewrite andb_true_iff, negb_true_iff, IH. split.
  - intros [H N]. constructor; [|exact N]. intros I. rewrite <- not_true_iff_false in H. apply H. apply existsb_exists. exists x. split; [exact I|apply Z.eqb_refl].
  - intros N. inversion N; subst. split; [|assumption]. apply not_true_iff_false. intros H. apply existsb_exists in H as (y & I & E). apply Z.eqb_eq in E. subst. contradiction.
Qed.
Theorem C111_polar_constructor : forall mu frozen,
  (exists o, call "PolarCode" [(None, VInt mu); (None, VArr1 frozen)] = Some o) <-> (1 <= mu)%Z /\ (forall i, In i frozen -> (0 <= i < 2 ^ mu)%Z) /\ NoDup frozen.
Proof.
  intros mu frozen.
  change (call "PolarCode" _) with (let f := sort frozen in guard ((1 <=? mu)%Z && forallb (fun x => (0 <=? x)%Z && (x <? 2 ^ mu)%Z) f && distinctz f) (OPolar mu f)).
  cbv zeta. unfold guard.
  assert (B : (1 <=? mu)%Z && forallb (fun x => (0 <=? x)%Z && (x <? 2 ^ mu)%Z) (sort frozen) && distinctz (sort frozen) = true <-> (1 <= mu)%Z /\ (forall i, In i frozen -> (0 <= i < 2 ^ mu)%Z) /\ NoDup frozen).
  { rewrite !andb_true_iff, distinctz_nodup, Z.leb_le, forallb_forall. split.
    - intros [[H1 H2] H3]. split; [lia|]. split.
      + intros i I. apply (Permutation_in _ (Permutation_sym (sort_perm _))) in I. specialize (H2 _ I). apply andb_true_iff in H2 as [H2 H4]. lia.
      + exact (Permutation_NoDup (sort_perm _) H3).
    - intros (H1 & H2 & H3). split; [split; [lia|]|].
      + intros x I. apply (Permutation_in _ (sort_perm _)) in I. specialize (H2 x I). apply andb_true_iff. lia.
      + exact (Permutation_NoDup (Permutation_sym (sort_perm _)) H3). }
  destruct (_ && _) eqn:G.
  - split; [intros _; apply B; reflexivity|intros _; eexists; reflexivity].
  - split; [intros (o & E); discriminate|intros H; apply B in H; discriminate].
Qed.
Theorem C111_polar_sorted : forall mu frozen o, call "PolarCode" [(None, VInt mu); (None, VArr1 frozen)] = Some o ->
  exists f, o = OPolar mu f /\ Permutation f frozen /\ StronglySorted Z.lt f.
Proof.
  intros mu frozen o E.
  destruct (proj1 (C111_polar_constructor mu frozen)) as (_ & _ & N); [now exists o|].
  change (call "PolarCode" _) with (let f := sort frozen in guard ((1 <=? mu)%Z && forallb (fun x => (0 <=? x)%Z && (x <? 2 ^ mu)%Z) f && distinctz f) (OPolar mu f)) in E.
  cbv zeta in E. unfold guard in E. destruct (_ && _); [|discriminate]. injection E as <-. exists (sort frozen). split; [reflexivity|]. split; [apply sort_perm|].
  clear mu. induction frozen as [|x l IH]; [constructor|]. inversion N; subst. specialize (IH H2). cbn [sort fold_right]. fold (sort l).
  assert (NI : ~ In x (sort l)) by (intros I; apply H1, (Permutation_in _ (sort_perm l)), I). clear -IH NI.
  induction (sort l) as [|y r IH2]; [repeat constructor|]. inversion IH; subst. cbn [insert]. destruct (Z.leb_spec x y).
  - assert (x < y)%Z by (assert (x <> y) by (intros ->; apply NI; now left); lia). constructor; [constructor; assumption|]. constructor; [assumption|]. eapply Forall_impl; [|eassumption]. cbn. intros; lia.
  - constructor.
    + apply IH2; [assumption|]. intros I. apply NI. now right.
    + clear -H H2. induction r as [|z r IHr]; cbn [insert]; [constructor; [lia|constructor]|]. inversion H2; subst. destruct (x <=? z)%Z; constructor; auto; lia.
Qed.

(** The arguments each constructor accepts. *)
Definition accepts (f : string) (args : list value) : Prop := exists o, call f (map (fun v => (None, v)) args) = Some o.
Lemma guard_iff b o : (exists x, guard b o = Some x) <-> b = true.
Proof. unfold guard. destruct b; split; intros H; try discriminate; try (destruct H; discriminate); [reflexivity|now exists o]. Qed.
Theorem C111_accepts : forall (n m : Z) (e : bool) (s : string) (c : conv_obj),
  (accepts "HammingCode" [VInt n; VBool e] <-> (2 <= n)%Z) /\ (accepts "SimplexCode" [VInt n; VBool e] <-> (2 <= n)%Z) /\ accepts "GolayCode" [VBool e] /\
  (accepts "RepetitionCode" [VInt n] <-> (1 <= n)%Z) /\ (accepts "SingleParityCheckCode" [VInt n] <-> (1 <= n)%Z) /\ (accepts "CordaroWagnerCode" [VInt n] <-> (2 <= n)%Z) /\
  (accepts "ReedMullerCode" [VInt n; VInt m] <-> (0 <= n < m)%Z) /\ (accepts "Lexicode" [VInt n; VInt m] <-> (1 <= m <= n)%Z) /\
  (accepts "TerminatedConvolutionalCode" [VObj (OConv c); VInt n; VStr s] <-> s = "direct-truncation" \/ s = "zero-termination" \/ s = "tail-biting") /\
  (accepts "NaturalLabeling" [VInt n; VBool e] <-> (1 <= n)%Z) /\ (accepts "ReflectedLabeling" [VInt n; VBool e] <-> (1 <= n)%Z) /\
  (accepts "ReflectedRectangularLabeling" [VInt n; VBool e] <-> (0 < n)%Z /\ Z.Even n) /\ (accepts "ReflectedRectangularLabeling" [VTuple [VInt n; VInt m]; VBool e] <-> (1 <= n)%Z /\ (1 <= m)%Z) /\
  (accepts "LempelZiv78Code" [VInt n; VInt m] <-> (2 <= n)%Z /\ (2 <= m)%Z) /\ (accepts "LempelZivWelchCode" [VInt n; VInt m] <-> (2 <= n)%Z /\ (2 <= m)%Z).
Proof.
  intros n m e s c. assert (G : forall a b : Z, ((a <=? b)%Z = true <-> (a <= b)%Z)) by (intros; apply Z.leb_le).
  repeat match goal with |- _ /\ _ => split end.
  1,2,4,5,6,10,11: (etransitivity; [apply guard_iff|apply Z.leb_le]).
  - eexists. reflexivity.
  - etransitivity; [apply guard_iff|]. rewrite andb_true_iff, Z.leb_le, Z.ltb_lt. lia.
  - etransitivity; [apply guard_iff|]. rewrite andb_true_iff, !Z.leb_le. lia.
  - etransitivity; [apply guard_iff|]. cbn [existsb]. rewrite !orb_true_iff, !String.eqb_eq. split; intros H; [destruct H as [H|[H|[H|H]]]; auto; discriminate|destruct H as [H|[H|H]]; auto].
  - unfold accepts. change (call "ReflectedRectangularLabeling" _) with (if (0 <? n)%Z && (n mod 2 =? 0)%Z then guard (1 <=? n / 2)%Z (ORect (n / 2) (n / 2)) else None).
    split.
    + intros (o & H). destruct (_ && _) eqn:B in H; [|discriminate]. apply andb_true_iff in B as [B1 B2]. apply Z.ltb_lt in B1. apply Z.eqb_eq in B2. split; [exact B1|]. exists (n / 2)%Z. pose proof (Z.div_mod n 2 ltac:(lia)). lia.
    + intros [H (q & ->)]. rewrite (proj2 (andb_true_iff _ _)). 2:{ split; [now apply Z.ltb_lt|]. rewrite Z.mul_comm, Z.mod_mul by lia. reflexivity. }
      rewrite Z.mul_comm, Z.div_mul by lia. unfold guard. rewrite (proj2 (Z.leb_le 1 q)) by lia. eexists. reflexivity.
  - etransitivity; [apply guard_iff|]. rewrite andb_true_iff, !Z.leb_le. reflexivity.
  - etransitivity; [apply guard_iff|]. rewrite andb_true_iff, !Z.leb_le. reflexivity.
  - etransitivity; [apply guard_iff|]. rewrite andb_true_iff, !Z.leb_le. reflexivity.
Qed.
(** An omitted argument has the documented default, and keyword arguments may come in any order. *)
Theorem C111_defaults : forall a b c : value,
  let pos := map (fun v => (@None string, v)) in
  call "HammingCode" (pos [a]) = call "HammingCode" (pos [a; VBool false]) /\ call "SimplexCode" (pos [a]) = call "SimplexCode" (pos [a; VBool false]) /\
  call "GolayCode" [] = call "GolayCode" (pos [VBool false]) /\ call "BinaryPolynomialFraction" (pos [a]) = call "BinaryPolynomialFraction" (pos [a; VInt 1]) /\
  call "FiniteBifield" (pos [a]) = call "FiniteBifield" (pos [a; VNone]) /\ call "SystematicBlockCode" (pos [a]) = call "SystematicBlockCode" (pos [a; VStr "left"]) /\
  call "CyclicCode" (pos [a; b]) = call "CyclicCode" (pos [a; b; VNone; VBool true]) /\ call "TerminatedConvolutionalCode" (pos [a; b]) = call "TerminatedConvolutionalCode" (pos [a; b; VStr "zero-termination"]) /\
  call "ProductLabeling" (pos [a; b]) = call "ProductLabeling" [(None, a); (None, b); (Some "repeat", VInt 1%Z)] /\
  call "LempelZiv78Code" (pos [a]) = call "LempelZiv78Code" (pos [a; VInt 2]) /\ call "LempelZivWelchCode" (pos [a]) = call "LempelZivWelchCode" (pos [a; VInt 2]) /\
  call "WalshHadamardSequence" (pos [a]) = call "WalshHadamardSequence" (pos [a; VStr "natural"; VInt 0]) /\ call "LFSRSequence" (pos [a]) = call "LFSRSequence" (pos [a; VInt 1]).
Proof. intros a b c pos. repeat split. Qed.
Theorem C111_keywords : forall a b c d : value,
  let pos := map (fun v => (@None string, v)) in
  call "HammingCode" [(Some "extended", b); (Some "mu", a)] = call "HammingCode" (pos [a; b]) /\ call "SimplexCode" [(Some "extended", b); (Some "kappa", a)] = call "SimplexCode" (pos [a; b]) /\
  call "SystematicBlockCode" [(Some "information_set", b); (Some "parity_submatrix", a)] = call "SystematicBlockCode" (pos [a; b]) /\
  call "BlockCode" [(Some "check_matrix", b); (Some "generator_matrix", a)] = call "BlockCode" (pos [a; b]) /\
  call "CyclicCode" [(Some "systematic", d); (Some "check_polynomial", c); (Some "generator_polynomial", b); (Some "length", a)] = call "CyclicCode" (pos [a; b; c; d]) /\
  call "ReedMullerCode" [(Some "mu", b); (Some "rho", a)] = call "ReedMullerCode" (pos [a; b]) /\ call "Lexicode" [(Some "d", b); (Some "n", a)] = call "Lexicode" (pos [a; b]) /\
  call "PolarCode" [(Some "frozen", b); (Some "mu", a)] = call "PolarCode" (pos [a; b]) /\ call "BCHCode" [(Some "delta", b); (Some "mu", a)] = call "BCHCode" (pos [a; b]) /\
  call "ConvolutionalCode" [(Some "feedback_polynomials", b); (Some "feedforward_polynomials", a)] = call "ConvolutionalCode" (pos [a; b]) /\
  call "TerminatedConvolutionalCode" [(Some "mode", c); (Some "num_blocks", b); (Some "convolutional_code", a)] = call "TerminatedConvolutionalCode" (pos [a; b; c]) /\
  call "MealyMachine" [(Some "outputs", b); (Some "transitions", a)] = call "MealyMachine" (pos [a; b]) /\ call "MooreMachine" [(Some "outputs", b); (Some "transitions", a)] = call "MooreMachine" (pos [a; b]) /\
  call "FixedToVariableCode" [(Some "enc_mapping", d); (Some "source_block_size", c); (Some "target_cardinality", b); (Some "source_cardinality", a)] = call "FixedToVariableCode" (pos [a; b; c; d]) /\
  call "WalshHadamardSequence" [(Some "index", c); (Some "ordering", b); (Some "length", a)] = call "WalshHadamardSequence" (pos [a; b; c]) /\
  call "LFSRSequence" [(Some "start_state_polynomial", b); (Some "feedback_polynomial", a)] = call "LFSRSequence" (pos [a; b]).
Proof. intros a b c d pos. repeat split. Qed.
(** Labeling accepts a binary matrix exactly when it has 2^(number of columns) rows, all different. *)
Theorem C111_accepts_labeling : forall M c, Forall (fun r => List.length r = c) M ->
  accepts "Labeling" [VArr2 M c] <-> List.length M = 2 ^ c /\ Forall (Forall (fun x => x = 0 \/ x = 1)%Z) M /\ NoDup M.
Proof.
  intros M c F. unfold accepts. change (call "Labeling" _) with (let? (M', c') := as_arr2 (VArr2 M c) in guard ((List.length M' =? 2 ^ c') && forallb (forallb (fun x => (0 <=? x)%Z && (x <=? 1)%Z)) M' && distinct_rows M') (OLabeling M')).
  cbn [as_arr2]. replace (forallb (fun r => List.length r =? c) M) with true.
  2:{ symmetry. apply forallb_forall. rewrite Forall_forall in F. intros r Hr. apply Nat.eqb_eq. auto. }
  cbn [obind]. rewrite guard_iff, !andb_true_iff, Nat.eqb_eq.
  assert (A : forallb (forallb (fun x => (0 <=? x)%Z && (x <=? 1)%Z)) M = true <-> Forall (Forall (fun x => x = 0 \/ x = 1)%Z) M).
  { rewrite forallb_forall, Forall_forall. split; intros H r Hr; specialize (H r Hr).
    - apply Forall_forall. intros x Hx. rewrite forallb_forall in H. specialize (H x Hx). rewrite andb_true_iff, !Z.leb_le in H. lia.
    - apply forallb_forall. intros x Hx. rewrite Forall_forall in H. specialize (H x Hx). cbv beta in H. rewrite andb_true_iff, !Z.leb_le. lia. }
  assert (B : distinct_rows M = true <-> NoDup M).
  { clear. induction M as [|r s IH]; cbn [distinct_rows]; [split; [constructor|reflexivity]|]. rewrite andb_true_iff, IH, negb_true_iff. split.
    - intros [H N]. constructor; [|exact N]. intros I. enough (existsb (fun q => if list_eq_dec Z.eq_dec r q then true else false) s = true) by congruence. apply existsb_exists. exists r. split; [exact I|]. destruct (list_eq_dec Z.eq_dec r r); [reflexivity|contradiction].
    - intros H. inversion H as [|? ? N1 N2]; subst. split; [|exact N2]. destruct (existsb _ s) eqn:E; [|reflexivity]. apply existsb_exists in E as (q & Hq & Eq). destruct (list_eq_dec Z.eq_dec r q); [subst; contradiction|discriminate]. }
  rewrite A, B. tauto.
Qed.
Theorem C111_accepts_labeling_example : accepts "Labeling" [VArr2 [[0; 0]; [1; 1]; [0; 1]; [1; 0]]%Z 2] /\ ~ accepts "Labeling" [VArr2 [[0; 0]; [1; 1]; [0; 1]; [0; 1]]%Z 2].
Proof.
  split; rewrite C111_accepts_labeling by (repeat constructor).
  - split; [reflexivity|]. split; [repeat apply Forall_cons; try apply Forall_nil; auto|]. repeat (constructor; [cbn; intuition discriminate|]). constructor.
  - intros (_ & _ & N). inversion N as [|? ? _ N1]. inversion N1 as [|? ? _ N2]. inversion N2 as [|? ? N3 _]. apply N3. left. reflexivity.
Qed.
