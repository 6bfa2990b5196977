From Verif Require Import Common Bits_Model Vec_Model LinAlg_Model BlockCode_Model Array_Model Nd_Model.
From Verif Require Import Linear_Spec Code_Spec Vec_Proof LinAlg_Proof BlockCode_Proof.
From Verif Require Import History_Model History_Spec History_Proof History_Proof2.
Local Open Scope nat_scope.

(* ---- lists ---- *)
Lemma upd_nth_same {A} i (x : A) l : i < length l -> nth_error (upd i x l) i = Some x.
Proof. revert i. induction l as [|y l IH]; intros [|i] L; cbn in *; auto; try lia. apply IH. lia. Qed.
Lemma upd_nth_other {A} i j (x : A) l : i <> j -> nth_error (upd i x l) j = nth_error l j.
Proof. revert i j. induction l as [|y l IH]; intros [|i] [|j] D; cbn in *; auto; try lia. Qed.
Lemma upd_len {A} i (x : A) l : length (upd i x l) = length l.
Proof. revert i. induction l as [|y l IH]; intros [|i]; cbn; auto. Qed.

Definition free (K S : list nat) (a : nat) : Prop := In a S \/ ~ In a K.

Definition code_ok (safe : nat -> Prop) (h : heap) (o : code_obj) (C : block_code) : Prop :=
  exists g n k m G H, C = matrix_code n k m G (pseudo_inverse n G) H /\ facts g n k m G H /\ obj_ok g n k m G H safe 0 o h.
Definition table_value (d : decoder_kind) (C : block_code) : option (list vec) :=
  match d with Syndrome => coset_leaders C | Exhaustive => Some (codewords C) end.
Definition decoder_ok (safe : nat -> Prop) (h : heap) (cs : list block_code) (d : decoder_obj) (e : decoder_kind * nat) : Prop :=
  d_kind d = fst e /\ d_code d = snd e /\
  exists C T, nth_error cs (snd e) = Some C /\ table_value (fst e) C = Some T /\
    nth_error h (d_table d) = Some (Bits (array_of_mat (bc_n C) T)) /\ safe (d_table d).

Record winv (w : world) (cs : list block_code) (ds : list (decoder_kind * nat)) (K S : list nat) : Prop := {
  w_n : length (w_codes w) = length cs;
  w_ok : forall i o C, nth_error (w_codes w) i = Some o -> nth_error cs i = Some C -> code_ok (free K S) (w_heap w) o C;
  w_dn : length (w_decoders w) = length ds;
  w_dok : forall j d e, nth_error (w_decoders w) j = Some d -> nth_error ds j = Some e -> decoder_ok (free K S) (w_heap w) cs d e;
  w_known : forall a, In a K -> a < length (w_heap w) }.

Lemma nth_both {A B} (l : list A) (l' : list B) i x : length l = length l' -> nth_error l i = Some x -> exists y, nth_error l' i = Some y.
Proof.
  intros L E. destruct (nth_error l' i) as [y|] eqn:E'; eauto. apply nth_error_None in E'.
  assert (Z : nth_error l i <> None) by congruence. apply nth_error_Some in Z. lia.
Qed.

Lemma code_ok_mono (safe safe' : nat -> Prop) h h' o C :
  extends h h' -> (forall b, b < length h -> safe b -> safe' b) -> code_ok safe h o C -> code_ok safe' h' o C.
Proof.
  intros X M (g & n & k & m & G & H & EC & F & K). exists g, n, k, m, G, H. split; auto. split; auto.
  apply (obj_ext g n k m G H safe' 0 o h); auto; [lia|]. apply (obj_mono g n k m G H safe safe' 0 0); auto. lia.
Qed.
Lemma decoder_ok_mono (safe safe' : nat -> Prop) h h' cs cs' d e :
  extends h h' -> (forall b, b < length h -> safe b -> safe' b) -> (forall i C, nth_error cs i = Some C -> nth_error cs' i = Some C) ->
  decoder_ok safe h cs d e -> decoder_ok safe' h' cs' d e.
Proof.
  intros X M XC (E1 & E2 & C & T & EC & ET & EH & Hs). split; auto. split; auto. exists C, T. split; auto. split; auto. split; auto.
  apply M; auto. apply nth_error_Some. congruence.
Qed.

(* one call on one code, in a world *)
Lemma run_on_ok {A} w cs ds K S i (f : method_of A) K' S' :
  winv w cs ds K S ->
  (forall b, b < length (w_heap w) -> free K S b -> free K' S' b) ->
  (forall a, In a K' -> a < length (w_heap (snd (run_on w i f)))) ->
  (forall o C, nth_error (w_codes w) i = Some o -> nth_error cs i = Some C ->
     exists r o' h', f (o, w_heap w) = (r, (o', h')) /\ extends (w_heap w) h' /\ code_ok (free K' S') h' o' C) ->
  winv (snd (run_on w i f)) cs ds K' S'.
Proof.
  intros W HM HK Hf. unfold run_on in *. destruct (nth_error (w_codes w) i) as [o|] eqn:Eo.
  - destruct (nth_both _ cs _ _ (w_n _ _ _ _ _ W) Eo) as (C & EC). destruct (Hf o C eq_refl EC) as (r & o' & h' & E & X & OK).
    rewrite E in *. cbn [snd w_heap] in *. constructor; cbn [w_codes w_decoders w_heap].
    + rewrite upd_len. apply W.
    + intros j o1 C1 Ej Ecj. destruct (Nat.eq_dec i j) as [<-|D].
      * rewrite upd_nth_same in Ej by (apply nth_error_Some; congruence). injection Ej as <-. rewrite EC in Ecj. injection Ecj as <-. auto.
      * rewrite upd_nth_other in Ej by auto. eapply code_ok_mono; [exact X|exact HM|]. eapply w_ok; eauto.
    + apply W.
    + intros j d e Ed Ee. eapply decoder_ok_mono; [exact X|exact HM|eauto|]. eapply w_dok; eauto.
    + auto.
  - cbn [snd] in *. constructor; auto; try apply W.
    + intros j o1 C1 Ej Ecj. eapply code_ok_mono; [apply extends_refl|exact HM|]. eapply w_ok; eauto.
    + intros j d e Ed Ee. eapply decoder_ok_mono; [apply extends_refl|exact HM|eauto|]. eapply w_dok; eauto.
Qed.

Lemma fresh_free w cs ds K S a : winv w cs ds K S -> length (w_heap w) <= a -> free K S a.
Proof. intros W L. right. intros I. apply (w_known _ _ _ _ _ W) in I. lia. Qed.

Lemma obj_base g n k m G H safe L0 o h : obj_ok g n k m G H safe 0 o h -> L0 <= length h -> obj_ok g n k m G H safe L0 o h.
Proof. intros K L. apply (obj_mono g n k m G H safe safe 0 L0); auto. Qed.

(* what a query does in a world that satisfies the invariant *)
Lemma ask_world w cs ds K S i q r w' : winv w cs ds K S -> exec (Ask i q) w = (r, w') ->
  (forall C, nth_error cs i = Some C -> seen (exec (Ask i q) w) = expected C (w_heap w) q) /\
  winv w' cs ds (ref_of r ++ K) (if keeps q then ref_of r ++ S else S).
Proof.
  intros W E. cbn [exec] in E.
  destruct (nth_error (w_codes w) i) as [o|] eqn:Eo.
  2:{ assert (NC : nth_error cs i = None).
      { destruct (nth_error cs i) as [C|] eqn:EC; auto. destruct (nth_both cs (w_codes w) i C (eq_sym (w_n _ _ _ _ _ W)) EC). congruence. }
      unfold run_on in E. rewrite Eo in E. injection E as <- <-. split; [intros; congruence|]. cbn. destruct (keeps q); auto. }
  destruct (nth_both _ cs _ _ (w_n _ _ _ _ _ W) Eo) as (C & EC).
  destruct (w_ok _ _ _ _ _ W i o C Eo EC) as (g & n & k & m & G & H & -> & F & OK).
  apply (obj_base _ _ _ _ _ _ _ (length (w_heap w))) in OK; [|lia].
  destruct (ask_ok g n k m G H F (free K S) (length (w_heap w)) (fun a L => fresh_free w cs ds K S a W L) q o (w_heap w) OK)
    as (r1 & o' & h' & E1 & OK' & X & HA & HN).
  assert (ER : run_on w i (ask q) = (r1, World h' (upd i o' (w_codes w)) (w_decoders w))).
  { unfold run_on. rewrite Eo, E1. reflexivity. }
  rewrite ER in E. injection E as <- <-. split.
  - intros C' EC'. rewrite EC in EC'. injection EC' as <-. cbn [exec]. rewrite ER. unfold seen. cbn [fst snd w_heap].
    destruct r1 as [[x|a|j|]|]; unfold answers in HA; auto; try tauto.
    destruct HA as (c & Ec & HA). rewrite Ec, HA. reflexivity.
  - assert (EW : World h' (upd i o' (w_codes w)) (w_decoders w) = snd (run_on w i (ask q))) by (rewrite ER; reflexivity).
    rewrite EW.
    assert (IN : forall a, In a (ref_of r1) -> r1 = Some (VRef a) /\ a < length h').
    { intros a Ha. destruct r1 as [[x|b|j|]|]; cbn in Ha; try tauto. destruct Ha as [<-|[]]. split; auto.
      unfold answers in HA. destruct HA as (c & Ec & _). apply nth_error_Some. congruence. }
    pose proof (extends_length _ _ X) as LX.
    apply (run_on_ok w cs ds K S); [exact W| | |].
    + intros b Hb Hs. destruct (keeps q) eqn:Eq.
      * destruct (in_dec Nat.eq_dec b (ref_of r1)) as [I|I]; [left; apply in_or_app; auto|].
        destruct Hs as [Hs|Hs]; [left; apply in_or_app; auto|right]. intros Z. apply in_app_or in Z as [Z|Z]; auto.
      * destruct Hs as [Hs|Hs]; [left; auto|right]. intros Z. apply in_app_or in Z as [Z|Z]; auto.
        destruct (IN b Z) as [-> _]. destruct (HN eq_refl b eq_refl). lia.
    + rewrite ER. cbn [snd w_heap]. intros a Ha. apply in_app_or in Ha as [Ha|Ha]; [apply IN; auto|].
      apply (w_known _ _ _ _ _ W) in Ha. lia.
    + intros o1 C1 Eo1 EC1. rewrite Eo in Eo1. injection Eo1 as <-. rewrite EC in EC1. injection EC1 as <-.
      exists r1, o', h'. split; auto. split; auto. exists g, n, k, m, G, H. split; auto. split; auto.
      destruct (keeps q) eqn:Eq.
      * eapply obj_mono; [|lia|exact OK']. intros b Hb Hs.
        destruct (in_dec Nat.eq_dec b (ref_of r1)) as [I|I]; [left; apply in_or_app; auto|].
        destruct Hs as [Hs|Hs]; [left; apply in_or_app; auto|right]. intros Z. apply in_app_or in Z as [Z|Z]; auto.
      * destruct r1 as [[x|a|j|]|]; cbn [ref_of app]; try (apply obj_mono with (safe := free K S) (L0 := length (w_heap w)); auto; lia).
        destruct (HN eq_refl a eq_refl) as [La OKa]. eapply obj_mono; [|lia|exact OKa]. intros b Hb [Hs D].
        destruct Hs as [Hs|Hs]; [left; auto|right]. intros [Z|Z]; auto.
Qed.

Lemma decode_world w cs ds K S j a r w' : winv w cs ds K S -> exec (Decode j a) w = (r, w') ->
  (forall d i C, nth_error ds j = Some (d, i) -> nth_error cs i = Some C -> seen (exec (Decode j a) w) = expected_decode C (w_heap w) d a) /\
  winv w' cs ds (ref_of r ++ K) S /\ (forall b, r = Some (VRef b) -> length (w_heap w) <= b).
Proof.
  intros W E. cbn [exec] in E |- *.
  destruct (nth_error (w_decoders w) j) as [d|] eqn:Ed.
  2:{ assert (ND : nth_error ds j = None).
      { destruct (nth_error ds j) as [e|] eqn:Ee; auto. destruct (nth_both ds (w_decoders w) j e (eq_sym (w_dn _ _ _ _ _ W)) Ee). congruence. }
      injection E as <- <-. split; [intros; congruence|]. split; auto. discriminate. }
  destruct (nth_both _ ds _ _ (w_dn _ _ _ _ _ W) Ed) as ([kd i] & Ee).
  destruct (w_dok _ _ _ _ _ W j d _ Ed Ee) as (Ek & Ei & C & T & EC & ET & EH & Hs). cbn [fst snd] in *.
  destruct (nth_both cs (w_codes w) i C (eq_sym (w_n _ _ _ _ _ W)) EC) as (o & Eo).
  destruct (w_ok _ _ _ _ _ W i o C Eo EC) as (g & n & k & m & G & H & -> & F & OK).
  apply (obj_base _ _ _ _ _ _ _ (length (w_heap w))) in OK; [|lia].
  set (C := matrix_code n k m G (pseudo_inverse n G) H) in *.
  set (e := match kd with Syndrome => match coset_leaders C with Some lds => match input (w_heap w) a with Some x => syndrome_decode_nd false C lds x | None => None end | None => None end
            | Exhaustive => match input (w_heap w) a with Some x => exhaustive_hard_nd false C x | None => None end end).
  assert (EE : expected_decode C (w_heap w) kd a = option_map (fun y => AArray (Bits y)) e).
  { unfold expected_decode, e, apply_to. destruct kd; [destruct (coset_leaders C); [|reflexivity]|]; destruct (input (w_heap w) a); reflexivity. }
  assert (RN : returns_new g n k m G H (free K S) (length (w_heap w)) (decode_method d a) o (w_heap w) e).
  { unfold decode_method. rewrite Ek. unfold e. destruct kd; cbn [table_value] in ET.
    - rewrite ET. apply syndrome_method_ok; auto. intros b L. eapply fresh_free; eauto.
    - injection ET as <-. apply exhaustive_method_ok; auto. intros b L. eapply fresh_free; eauto. }
  destruct RN as (r1 & o' & h' & E1 & OK' & X & HR).
  assert (ER : run_on w i (decode_method d a) = (r1, World h' (upd i o' (w_codes w)) (w_decoders w))).
  { unfold run_on. rewrite Eo, E1. reflexivity. }
  rewrite Ei, ER in E |- *. pose proof (extends_length _ _ X) as LX.
  assert (EW : World h' (upd i o' (w_codes w)) (w_decoders w) = snd (run_on w i (decode_method d a))) by (rewrite ER; reflexivity).
  split; [|].
  - intros d' i' C' Ed' EC'. rewrite Ee in Ed'. injection Ed' as <- <-. rewrite EC in EC'. injection EC' as <-. rewrite EE.
    destruct e as [y|].
    + destruct HR as (b & -> & Eb & _). unfold seen. cbn [fst snd w_heap]. rewrite Eb. reflexivity.
    + subst r1. reflexivity.
  - destruct e as [y|].
    + destruct HR as (b & -> & Eb & Lb & OKb). injection E as <- <-. split; [|intros ? [= <-]; auto]. cbn [ref_of app]. rewrite EW.
      apply (run_on_ok w cs ds K S); [exact W| | |].
      * intros c Hc Hsc. destruct Hsc as [Hsc|Hsc]; [left; auto|right]. intros [Z|Z]; auto. lia.
      * rewrite ER. cbn [snd w_heap]. intros c [<-|Hc]; [apply nth_error_Some; congruence|]. apply (w_known _ _ _ _ _ W) in Hc. lia.
      * intros o1 C1 Eo1 EC1. rewrite Eo in Eo1. injection Eo1 as <-. rewrite EC in EC1. injection EC1 as <-.
        exists (Some b), o', h'. split; auto. split; auto. exists g, n, k, m, G, H. split; auto. split; auto.
        eapply obj_mono; [|lia|exact OKb]. intros c Hc [Hsc D]. destruct Hsc as [Hsc|Hsc]; [left; auto|right]. intros [Z|Z]; auto.
    + subst r1. injection E as <- <-. split; [|discriminate]. cbn [ref_of app]. rewrite EW.
      apply (run_on_ok w cs ds K S); [exact W|auto| |].
      * rewrite ER. cbn [snd w_heap]. intros c Hc. apply (w_known _ _ _ _ _ W) in Hc. lia.
      * intros o1 C1 Eo1 EC1. rewrite Eo in Eo1. injection Eo1 as <-. rewrite EC in EC1. injection EC1 as <-.
        exists None, o', h'. split; auto. split; auto. exists g, n, k, m, G, H. split; auto. split; auto.
        eapply obj_mono; [|lia|exact OK']. auto.
Qed.

(* constructing a decoder *)
Lemma decoder_world w cs ds K S d i : winv w cs ds K S ->
  (forall C, nth_error cs i = Some C -> (fst (exec (NewDecoder d i) w) = None <-> table_value d C = None)) /\
  (fst (exec (NewDecoder d i) w) <> None -> winv (snd (exec (NewDecoder d i) w)) cs (ds ++ [(d, i)]) K S) /\
  (fst (exec (NewDecoder d i) w) = None -> winv (snd (exec (NewDecoder d i) w)) cs ds K S).
Proof.
  intros W. cbn [exec].
  destruct (nth_error (w_codes w) i) as [o|] eqn:Eo.
  2:{ assert (NC : nth_error cs i = None).
      { destruct (nth_error cs i) as [C|] eqn:EC; auto. destruct (nth_both cs (w_codes w) i C (eq_sym (w_n _ _ _ _ _ W)) EC). congruence. }
      unfold run_on. rewrite Eo. cbn [fst snd]. split; [intros; congruence|]. split; [congruence|auto]. }
  destruct (nth_both _ cs _ _ (w_n _ _ _ _ _ W) Eo) as (C & EC).
  destruct (w_ok _ _ _ _ _ W i o C Eo EC) as (g & n & k & m & G & H & -> & F & OK).
  apply (obj_base _ _ _ _ _ _ _ (length (w_heap w))) in OK; [|lia].
  set (C := matrix_code n k m G (pseudo_inverse n G) H) in *.
  assert (R : runs g n k m G H (free K S) (length (w_heap w)) (table_of d) o (w_heap w)
     (fun r h => match table_value d C with Some T => exists a, r = Some a /\ at_mat (free K S) h a n T | None => r = None end)).
  { assert (FF : forall a, length (w_heap w) <= a -> free K S a) by (intros b L; eapply fresh_free; eauto).
    destruct d; cbn [table_of table_value].
    - apply coset_leaders_method_ok; auto.
    - eapply runs_weaken; [apply codewords_ok; auto|]. intros r h' _ Z. exact Z. }
  destruct R as (r1 & o' & h' & E1 & OK' & X & HR).
  assert (ER : run_on w i (table_of d) = (r1, World h' (upd i o' (w_codes w)) (w_decoders w))).
  { unfold run_on. rewrite Eo, E1. reflexivity. }
  rewrite ER. pose proof (extends_length _ _ X) as LX.
  assert (EW : World h' (upd i o' (w_codes w)) (w_decoders w) = snd (run_on w i (table_of d))) by (rewrite ER; reflexivity).
  assert (W' : winv (World h' (upd i o' (w_codes w)) (w_decoders w)) cs ds K S).
  { rewrite EW. apply (run_on_ok w cs ds K S); [exact W|auto| |].
    - rewrite ER. cbn [snd w_heap]. intros c Hc. apply (w_known _ _ _ _ _ W) in Hc. lia.
    - intros o1 C1 Eo1 EC1. rewrite Eo in Eo1. injection Eo1 as <-. rewrite EC in EC1. injection EC1 as <-.
      exists r1, o', h'. split; auto. split; auto. exists g, n, k, m, G, H. split; auto. split; auto.
      eapply obj_mono; [|lia|exact OK']. auto. }
  split; [|split].
  - intros C' EC'. rewrite EC in EC'. injection EC' as <-. destruct (table_value d C) as [T|].
    + destruct HR as (a & -> & _). cbn. split; discriminate.
    + subst r1. cbn. tauto.
  - destruct (table_value d C) as [T|] eqn:ET; [|subst r1; cbn; congruence]. destruct HR as (a & -> & Ha & Hs). cbn [fst snd]. intros _.
    destruct W'. constructor; cbn [w_codes w_decoders w_heap] in *; auto.
    + rewrite !app_length. cbn. lia.
    + intros j d0 e Ed Ee. destruct (lt_dec j (length ds)) as [Lj|Lj].
      * rewrite nth_error_app1 in Ed, Ee by lia. eapply w_dok0; eauto.
      * rewrite nth_error_app2 in Ed, Ee by lia. rewrite <- w_dn0 in Ee.
        destruct (j - length (w_decoders w)) as [|q]; [|destruct q; discriminate]. injection Ed as <-. injection Ee as <-.
        split; auto. split; auto. exists C, T. auto.
  - destruct r1 as [a|]; cbn [fst snd]; [discriminate|]. auto.
Qed.

Theorem history_inv w cs ds K S : history w cs ds K S -> winv w cs ds K S.
Proof.
  induction 1 as [|w cs ds K S c _ W|w cs ds K S g a x n M C _ W Ia Ex Px EM EC|w cs ds K S d i _ W HN|w cs ds K S d i _ W HN
    |w cs ds K S i q r w' _ W E|w cs ds K S j a r w' _ W E|w cs ds K S a c _ W Ia NS].
  - constructor; cbn; auto; try (intros [|] ? ? Q; discriminate Q). intros a [].
  - cbn [exec snd]. pose proof (w_known _ _ _ _ _ W) as HK.
    assert (M : forall b, b < length (w_heap w) -> free K S b -> free (length (w_heap w) :: K) S b).
    { intros b Hb [Hs|Hs]; [left; auto|right]. intros [Z|Z]; auto. lia. }
    destruct W. constructor; cbn [w_codes w_decoders w_heap]; auto.
    + intros i o C E EC. eapply code_ok_mono; [apply extends_app|exact M|]. eauto.
    + intros j d e Ed Ee. eapply decoder_ok_mono; [apply extends_app|exact M|eauto|]. eauto.
    + intros a [<-|Ha]; rewrite app_length; cbn; [lia|]. apply HK in Ha. lia.
  - cbn [exec]. rewrite Ex, EM. cbn [snd]. destruct (array_mat x n M Px EM) as [WM Hx].
    destruct (code_from_facts g n M C WM EC) as (k & m & G & H & HC & F & HA).
    assert (MM : forall b, b < length (w_heap w) -> free K S b -> free K (a :: S) b).
    { intros b Hb [Hs|Hs]; [left; cbn; auto|right; auto]. }
    destruct W. constructor; cbn [w_codes w_decoders w_heap]; auto.
    + rewrite !app_length. cbn. lia.
    + intros i o C' E EC'. destruct (lt_dec i (length cs)) as [Li|Li].
      * rewrite nth_error_app1 in E, EC' by lia. eapply code_ok_mono; [apply extends_refl|exact MM|]. eauto.
      * rewrite nth_error_app2 in E, EC' by lia. rewrite <- w_n0 in EC'.
        destruct (i - length (w_codes w)) as [|q]; [|destruct q; discriminate]. injection E as <-. injection EC' as <-.
        exists g, n, k, m, G, H. split; auto. split; auto.
        assert (At : nth_error (w_heap w) a = Some (Bits (array_of_mat n M)) /\ free K (a :: S) a).
        { split; [rewrite Ex, Hx; auto|left; cbn; auto]. }
        destruct g; destruct HA as (<- & -> & ->); constructor; cbn; auto; try lia; try discriminate.
    + intros j d e Ed Ee. eapply decoder_ok_mono; [apply extends_refl|exact MM| |eauto].
      intros i C' EC'. rewrite nth_error_app1; auto. apply nth_error_Some. congruence.
  - apply (proj1 (proj2 (decoder_world w cs ds K S d i W))); auto.
  - apply (proj2 (proj2 (decoder_world w cs ds K S d i W))); auto.
  - eapply ask_world; eauto.
  - eapply decode_world; eauto.
  - cbn [exec snd].
    assert (NF : forall b, free K S b -> a <> b) by (intros b [Hs|Hs] <-; auto).
    assert (XX : forall b c', free K S b -> nth_error (w_heap w) b = Some c' -> nth_error (upd a c (w_heap w)) b = Some c').
    { intros b c' Fb E. rewrite upd_nth_other; auto. }
    destruct W. constructor; cbn [w_codes w_decoders w_heap]; auto.
    + intros i o C E EC. destruct (w_ok0 i o C E EC) as (g & n & k & m & G & H & HC & F & OK).
      exists g, n, k, m, G, H. split; auto. split; auto. destruct OK. constructor; auto.
      * lia.
      * destruct (o_arg o); destruct k_arg as (? & ? & ?); split; auto; split; auto.
      * eapply opt_mono; eauto. intros b (? & ?); split; auto.
      * eapply opt_mono; eauto. intros b (? & ?); split; auto.
      * eapply opt_mono; eauto. intros b (? & ?); split; auto.
      * eapply opt_mono; eauto. intros b (? & ?); split; auto.
      * eapply opt_mono; eauto. intros b (? & ?); split; auto.
      * eapply opt_mono; eauto. cbn. intros b (l & El & ? & ?). exists l. split; auto. split; auto.
      * eapply opt_mono; eauto. cbn. intros b (l & El & ? & ?). exists l. split; auto. split; auto.
    + intros j d e Ed Ee. destruct (w_dok0 j d e Ed Ee) as (E1 & E2 & C & T & EC & ET & EH & Hs).
      split; auto. split; auto. exists C, T. split; auto.
    + intros b Hb. rewrite upd_len. auto.
Qed.
