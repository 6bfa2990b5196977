From Verif Require Import Common Bits_Model Vec_Model LinAlg_Model BlockCode_Model Array_Model Nd_Model.
From Verif Require Import Linear_Spec Code_Spec Vec_Proof LinAlg_Proof BlockCode_Proof.
From Verif Require Import History_Model History_Spec History_Proof.
Local Open Scope nat_scope.

Lemma extends_length h h' : extends h h' -> length h <= length h'.
Proof.
  intros X. destruct (le_lt_dec (length h) (length h')) as [L|L]; auto.
  destruct (nth_error h (length h')) as [c|] eqn:E.
  - apply X in E. assert (Z : nth_error h' (length h') <> None) by congruence. apply nth_error_Some in Z. lia.
  - apply nth_error_None in E. lia.
Qed.

Section Calls.
Variables (g : bool) (n k m : nat) (G H : mat).
Hypothesis F : facts g n k m G H.
Let C := matrix_code n k m G (pseudo_inverse n G) H.
Notation ok safe L0 := (obj_ok g n k m G H safe L0).

Lemma obj_mono (safe safe' : nat -> Prop) L0 L1 o h : (forall b, b < length h -> safe b -> safe' b) -> L1 <= length h -> ok safe L0 o h -> ok safe' L1 o h.
Proof.
  intros M L.
  assert (M' : forall b c, nth_error h b = Some c -> safe b -> safe' b).
  { intros b c E. apply M. apply nth_error_Some. congruence. }
  intros []. constructor; auto.
  - destruct (o_arg o); destruct k_arg as (? & ? & ?); split; auto; split; auto; eapply M'; eauto.
  - eapply opt_mono; eauto. intros a (? & ?); split; auto; eapply M'; eauto.
  - eapply opt_mono; eauto. intros a (? & ?); split; auto; eapply M'; eauto.
  - eapply opt_mono; eauto. intros a (? & ?); split; auto; eapply M'; eauto.
  - eapply opt_mono; eauto. intros a (? & ?); split; auto; eapply M'; eauto.
  - eapply opt_mono; eauto. intros a (? & ?); split; auto; eapply M'; eauto.
  - eapply opt_mono; eauto. cbn. intros a (l & El & ? & ?). exists l. split; auto. split; auto; eapply M'; eauto.
  - eapply opt_mono; eauto. cbn. intros a (l & El & ? & ?). exists l. split; auto. split; auto; eapply M'; eauto.
Qed.

Variables (safe : nat -> Prop) (L0 : nat).
Hypothesis fresh_safe : forall a, L0 <= a -> safe a.

(* a call that ends by allocating its result: the result is new and not kept by the object *)
Definition returns_new (f : method_of nat) (o : code_obj) (h : heap) (e : option (array bool)) : Prop :=
  exists r o' h', f (o, h) = (r, (o', h')) /\ ok safe L0 o' h' /\ extends h h' /\
    match e with
    | Some y => exists a, r = Some a /\ nth_error h' a = Some (Bits y) /\ length h <= a /\ ok (fun b => safe b /\ b <> a) 0 o' h'
    | None => r = None
    end.
Lemma ends_with_alloc pre f o h e : runs g n k m G H safe L0 pre o h (result_is e) -> (forall s, f s = bind pre (fun y => alloc (Bits y)) s) ->
  returns_new f o h e.
Proof.
  intros (r & o1 & h1 & E & K & X & HP) Hf. unfold returns_new. rewrite Hf. unfold bind. rewrite E. unfold result_is in HP. subst r.
  destruct e as [y|].
  - cbn [alloc]. exists (Some (length h1)), o1, (h1 ++ [Bits y]). split; auto.
    pose proof (k_len _ _ _ _ _ _ _ _ _ _ K) as L.
    assert (Lx : L0 <= length (h1 ++ [Bits y])) by (rewrite app_length; lia).
    split; [eapply obj_ext; eauto; apply extends_app|].
    split; [eapply extends_trans; eauto; apply extends_app|].
    exists (length h1). split; auto. split; [apply new_cell|]. split; [apply extends_length; auto|].
    apply (obj_ext g n k m G H _ 0 o1 h1); [apply extends_app|lia|].
    apply (obj_mono safe _ L0 0); auto; [|lia]. intros b Hb Hs. split; auto. lia.
  - exists None, o1, h1. split; auto.
Qed.
Lemma runs_read_any a o h : ok safe L0 o h -> runs g n k m G H safe L0 (read_bits a) o h (fun r h' => r = input h a).
Proof.
  intros K. eexists _, o, h. split; [reflexivity|]. split; auto. split; [apply extends_refl|]. unfold input.
  destruct (nth_error h a) as [[]|]; auto.
Qed.
Lemma on_input a (f : array bool -> method_of (array bool)) e o h : ok safe L0 o h ->
  (forall x o' h', ok safe L0 o' h' -> runs g n k m G H safe L0 (f x) o' h' (result_is (e x))) ->
  runs g n k m G H safe L0 (bind (read_bits a) f) o h (result_is (match input h a with Some x => e x | None => None end)).
Proof.
  intros K Hf. eapply runs_bind; [apply runs_read_any; auto| |].
  - intros ? ? _ _ Z. rewrite <- Z. reflexivity.
  - intros x o' h' K' X Z. rewrite <- Z. apply Hf; auto.
Qed.
Lemma bind_assoc {A B D} (f : method_of A) (g' : A -> method_of B) (k' : B -> method_of D) s :
  bind f (fun x => bind (g' x) k') s = bind (bind f g') k' s.
Proof. unfold bind. destruct (f s) as [[x|] s']; auto. Qed.
Lemma bind_ext {A B} (f : method_of A) (k1 k2 : A -> method_of B) s : (forall x s', k1 x s' = k2 x s') -> bind f k1 s = bind f k2 s.
Proof. intros E. unfold bind. destruct (f s) as [[x|] s']; auto. Qed.

Lemma encode_ok a o h : ok safe L0 o h -> returns_new (encode a) o h (match input h a with Some x => encode_nd false C x | None => None end).
Proof.
  intros K. eapply ends_with_alloc; [apply (on_input a encode_value); auto; intros; apply encode_value_ok; auto|].
  intros s. unfold encode. apply bind_assoc.
Qed.
Lemma project_word_ok a o h : ok safe L0 o h -> returns_new (project_word a) o h (match input h a with Some x => project_nd false C x | None => None end).
Proof.
  intros K. eapply ends_with_alloc; [apply (on_input a project_value); auto; intros; apply project_value_ok; auto|].
  intros s. unfold project_word. apply bind_assoc.
Qed.
Lemma check_ok' a o h : ok safe L0 o h -> returns_new (check a) o h (match input h a with Some x => check_nd false C x | None => None end).
Proof.
  intros K. eapply ends_with_alloc; [apply (on_input a check_value); auto; intros; apply check_value_ok; auto|].
  intros s. unfold check. apply bind_assoc.
Qed.
Lemma inverse_encode_ok a o h : ok safe L0 o h -> returns_new (inverse_encode a) o h (match input h a with Some x => inverse_encode_nd false C x | None => None end).
Proof.
  intros K. eapply ends_with_alloc.
  - apply (on_input a (fun x => s <- check_value x ;; if forallb negb (data s) then project_value x else lift None)); auto.
    intros x o' h' K'. eapply runs_bind; [apply check_value_ok; auto| |].
    + intros ? ? _ _ Z. unfold result_is, inverse_encode_nd in *. fold C in Z. rewrite <- Z. reflexivity.
    + intros s o1 h1 K1 X1 Z. unfold inverse_encode_nd. unfold result_is in Z. fold C in Z. rewrite <- Z.
      destruct (forallb negb (data s)); [apply project_value_ok; auto|apply runs_lift; auto; reflexivity].
  - intros s. unfold inverse_encode. rewrite <- bind_assoc. apply bind_ext. intros x s'. rewrite <- bind_assoc. apply bind_ext.
    intros y s''. destruct (forallb negb (data y)); reflexivity.
Qed.
Lemma syndrome_method_ok t lds a o h : ok safe L0 o h -> coset_leaders C = Some lds -> nth_error h t = Some (Bits (array_of_mat n lds)) ->
  returns_new (syndrome_decode_method t a) o h (match input h a with Some x => syndrome_decode_nd false C lds x | None => None end).
Proof.
  intros K EL Et. pose proof (leaders_some C lds (fa_valid _ _ _ _ _ _ F) EL) as Hm.
  pose proof (leaders_wf C lds (fa_valid _ _ _ _ _ _ F) EL Hm) as WL.
  eapply ends_with_alloc with (pre := x <- read_bits a ;; C1 <- with_H ;; C2 <- with_Ginv ;; T <- read_mat t ;;
    lift (syndrome_decode_nd false (matrix_code (bc_n C1) (bc_k C1) (bc_m C1) [] (bc_Ginv C2) (bc_H C1)) (snd T) x)).
  - eapply runs_bind; [apply runs_read_any; auto| |].
    + intros ? ? _ _ Z. rewrite <- Z. reflexivity.
    + intros x o0 h0 K0 X0 Z. rewrite <- Z.
      eapply runs_bind; [apply with_H_ok; auto|discriminate|]. intros C1 o1 h1 K1 X1 [= ->].
      eapply runs_bind; [apply with_Ginv_ok; auto|discriminate|]. intros C2 o2 h2 K2 X2 [= ->].
      eapply runs_bind with (P := fun r _ => r = Some (n, lds)).
      * apply (runs_read_mat g n k m G H safe L0 t n lds); auto.
      * discriminate.
      * intros T o3 h3 K3 X3 [= ->]. apply runs_lift; auto. reflexivity.
  - intros s. unfold syndrome_decode_method. rewrite <- bind_assoc. apply bind_ext. intros x s1.
    rewrite <- bind_assoc. apply bind_ext. intros C1 s2. rewrite <- bind_assoc. apply bind_ext. intros C2 s3.
    rewrite <- bind_assoc. apply bind_ext. reflexivity.
Qed.
Lemma exhaustive_method_ok t a o h : ok safe L0 o h -> nth_error h t = Some (Bits (array_of_mat n (codewords C))) ->
  returns_new (exhaustive_decode_method t a) o h (match input h a with Some x => exhaustive_hard_nd false C x | None => None end).
Proof.
  intros K Et. pose proof (wfW g n k m G H F) as WL.
  eapply ends_with_alloc with (pre := x <- read_bits a ;; C2 <- with_Ginv ;; T <- read_mat t ;;
    lift (exhaustive_decode_value C2 (snd T) x)).
  - eapply runs_bind; [apply runs_read_any; auto| |].
    + intros ? ? _ _ Z. rewrite <- Z. reflexivity.
    + intros x o0 h0 K0 X0 Z. rewrite <- Z.
      eapply runs_bind; [apply with_Ginv_ok; auto|discriminate|]. intros C2 o2 h2 K2 X2 [= ->].
      eapply runs_bind with (P := fun r _ => r = Some (n, codewords C)).
      * apply (runs_read_mat g n k m G H safe L0 t n (codewords C)); auto.
      * discriminate.
      * intros T o3 h3 K3 X3 [= ->]. apply runs_lift; auto. reflexivity.
  - intros s. unfold exhaustive_decode_method. rewrite <- bind_assoc. apply bind_ext. intros x s1.
    rewrite <- bind_assoc. apply bind_ext. intros C2 s3. rewrite <- bind_assoc. apply bind_ext. reflexivity.
Qed.

(* ---- any query ---- *)
Definition answers (e : option answer) (r : option value) (h : heap) : Prop :=
  match r with
  | Some (VNat x) => e = Some (ANumber x)
  | Some (VRef a) => exists c, nth_error h a = Some c /\ e = Some (AArray c)
  | None => e = None
  | _ => False
  end.
Lemma ask_ok q o h : ok safe L0 o h -> exists r o' h', ask q (o, h) = (r, (o', h')) /\ ok safe L0 o' h' /\ extends h h' /\
  answers (expected C h q) r h' /\
  (keeps q = false -> forall a, r = Some (VRef a) -> length h <= a /\ ok (fun b => safe b /\ b <> a) 0 o' h').
Proof.
  intros K.
  assert (NEW : forall f e, returns_new f o h e -> expected C h q = option_map (fun y => AArray (Bits y)) e ->
    exists r o' h', (b <- f ;; ret (VRef b)) (o, h) = (r, (o', h')) /\ ok safe L0 o' h' /\ extends h h' /\
    answers (expected C h q) r h' /\
    (keeps q = false -> forall a, r = Some (VRef a) -> length h <= a /\ ok (fun b => safe b /\ b <> a) 0 o' h')).
  { intros f e (r & o' & h' & E & K' & X & HR) Ee. unfold bind. rewrite E. destruct e as [y|].
    - destruct HR as (a & -> & Ea & La & Ka). exists (Some (VRef a)), o', h'. split; auto. split; auto. split; auto. split.
      + cbn. exists (Bits y). split; auto.
      + intros _ a' [= <-]. auto.
    - subst r. exists None, o', h'. split; auto. split; auto. split; auto. split; [cbn; rewrite Ee; auto|discriminate]. }
  assert (KEEP : forall (f : method_of nat) P, runs g n k m G H safe L0 f o h P -> keeps q = true ->
    (forall r h', P r h' -> match r with Some a => answers (expected C h q) (Some (VRef a)) h' | None => expected C h q = None end) ->
    exists r o' h', (b <- f ;; ret (VRef b)) (o, h) = (r, (o', h')) /\ ok safe L0 o' h' /\ extends h h' /\
    answers (expected C h q) r h' /\
    (keeps q = false -> forall a, r = Some (VRef a) -> length h <= a /\ ok (fun b => safe b /\ b <> a) 0 o' h')).
  { intros f P (r & o' & h' & E & K' & X & HR) Hq HP. unfold bind. rewrite E. specialize (HP _ _ HR). destruct r as [a|].
    - exists (Some (VRef a)), o', h'. split; auto. split; auto. split; auto. split; auto. intros; congruence.
    - exists None, o', h'. split; auto. split; auto. split; auto. split; auto. intros; congruence. }
  assert (NUM : forall (f : method_of nat) e, runs g n k m G H safe L0 f o h (result_is e) -> expected C h q = option_map ANumber e ->
    exists r o' h', (b <- f ;; ret (VNat b)) (o, h) = (r, (o', h')) /\ ok safe L0 o' h' /\ extends h h' /\
    answers (expected C h q) r h' /\
    (keeps q = false -> forall a, r = Some (VRef a) -> length h <= a /\ ok (fun b => safe b /\ b <> a) 0 o' h')).
  { intros f e (r & o' & h' & E & K' & X & HR) Ee. unfold bind. rewrite E. unfold result_is in HR. subst r. destruct e as [a|].
    - exists (Some (VNat a)), o', h'. split; auto. split; auto. split; auto. split; auto. discriminate.
    - exists None, o', h'. split; auto. split; auto. split; auto. split; auto. discriminate. }
  destruct q; cbn [ask].
  - eexists _, o, h. split; [reflexivity|]. split; auto. split; [apply extends_refl|]. split; [cbn; rewrite (k_n _ _ _ _ _ _ _ _ _ _ K); auto|discriminate].
  - eexists _, o, h. split; [reflexivity|]. split; auto. split; [apply extends_refl|]. split; [cbn; rewrite (k_k _ _ _ _ _ _ _ _ _ _ K); auto|discriminate].
  - eexists _, o, h. split; [reflexivity|]. split; auto. split; [apply extends_refl|]. split; [cbn; rewrite (k_m _ _ _ _ _ _ _ _ _ _ K); auto|discriminate].
  - eapply KEEP; [apply generator_matrix_ok; auto|auto|]. intros r h' (a & -> & E & _). cbn. eauto.
  - eapply KEEP; [apply right_inverse_ok; auto|auto|]. intros r h' (a & -> & E & _). cbn. eauto.
  - eapply KEEP; [apply check_matrix_ok; auto|auto|]. intros r h' (a & -> & E & _). cbn. eauto.
  - eapply NEW; [apply encode_ok; auto|]. cbn. unfold apply_to. destruct (input h a); reflexivity.
  - eapply NEW; [apply project_word_ok; auto|]. cbn. unfold apply_to. destruct (input h a); reflexivity.
  - eapply NEW; [apply inverse_encode_ok; auto|]. cbn. unfold apply_to. destruct (input h a); reflexivity.
  - eapply NEW; [apply check_ok'; auto|]. cbn. unfold apply_to. destruct (input h a); reflexivity.
  - eapply KEEP; [apply codewords_ok; auto|auto|]. intros r h' (a & -> & E & _). exists (Bits (array_of_mat n (codewords C))). split; auto.
  - eapply KEEP; [apply cwd_ok; auto|auto|]. intros r h' (a & -> & E & _). eexists. split; [exact E|reflexivity].
  - eapply NUM; [apply minimum_distance_ok; auto|reflexivity].
  - eapply KEEP; [apply coset_leaders_method_ok; auto|auto|]. intros r h' Z. unfold is_leaders in Z. fold C in Z. cbn [expected].
    destruct (coset_leaders C) as [l|]; [|subst r; auto]. destruct Z as (a & -> & E & _). exists (Bits (array_of_mat n l)). split; auto.
  - eapply KEEP; [apply clwd_method_ok; auto|auto|]. intros r h' Z. unfold is_clwd in Z. fold C in Z. cbn [expected].
    destruct (coset_leader_weight_distribution C false) as [l|]; [|subst r; auto]. destruct Z as (a & -> & E & _). exists (Counts l). split; auto.
  - eapply NUM; [apply packing_ok; auto|reflexivity].
  - eapply NUM; [apply covering_ok; auto|reflexivity].
Qed.
End Calls.
