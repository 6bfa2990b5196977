(** C112 - equality and hashing of the algebra objects. *)
From Verif Require Import Common Eq_Model Eq_Spec.
Local Open Scope Z_scope.

(** == says whether the two objects stand for the same thing. *)
Theorem C112_equality : forall a b, py_eq a b = true <-> same a b.
Proof.
  intros a b. split.
  - destruct a, b; unfold py_eq; cbn [eq_method]; intros H; try discriminate;
      rewrite ?Bool.andb_true_iff, ?Z.eqb_eq in H; repeat match goal with H : _ /\ _ |- _ => destruct H end; subst; try constructor.
    destruct r, r0; try discriminate; constructor.
  - intros [x|v|v]; unfold py_eq; [destruct x as [| | | | | |r]; cbn [eq_method]; rewrite ?Z.eqb_refl; try reflexivity; destruct r; reflexivity| |]; cbn [eq_method]; apply Z.eqb_refl.
Qed.
(** It is an equivalence relation, across classes too. *)
Theorem C112_equivalence : (forall a, py_eq a a = true) /\ (forall a b, py_eq a b = py_eq b a) /\ (forall a b c, py_eq a b = true -> py_eq b c = true -> py_eq a c = true).
Proof.
  assert (S : forall a b, same a b -> same b a) by (intros a b []; constructor).
  split; [|split].
  - intros a. apply C112_equality. constructor.
  - intros a b. apply Bool.eq_iff_eq_true. rewrite !C112_equality. split; apply S.
  - intros a b c. rewrite !C112_equality. intros H1 H2. destruct H1; inversion H2; subst; constructor.
Qed.
(** Which objects can be put in a set or used as dictionary keys. *)
Theorem C112_hashable : forall a, py_hash a <> None <-> hashable a.
Proof. intros []; cbn; split; try tauto; try discriminate. Qed.

Lemma minus_one_range r : - 2 ^ 63 <= r < 2 ^ 63 -> - 2 ^ 63 <= avoid_minus_one r < 2 ^ 63 /\ avoid_minus_one r <> -1.
Proof. unfold avoid_minus_one. destruct (Z.eqb_spec r (-1)); lia. Qed.
Lemma int_hash_range z : - 2 ^ 63 <= int_hash z < 2 ^ 63 /\ int_hash z <> -1.
Proof. unfold int_hash. apply minus_one_range. pose proof (Z.mod_pos_bound (Z.abs z) (2 ^ 61 - 1)). destruct z; cbn [Z.sgn]; lia. Qed.
Lemma slot_range r : - 2 ^ 63 <= slot_hash r < 2 ^ 63 /\ slot_hash r <> -1.
Proof. unfold slot_hash. destruct ((- 2 ^ 63 <=? r) && (r <? 2 ^ 63)) eqn:E; [|apply int_hash_range]. apply minus_one_range. rewrite Bool.andb_true_iff, Z.leb_le, Z.ltb_lt in E. lia. Qed.
Lemma slot_id r : - 2 ^ 63 <= r < 2 ^ 63 -> r <> -1 -> slot_hash r = r.
Proof.
  intros H N. unfold slot_hash. rewrite (proj2 (Z.leb_le (- 2 ^ 63) r)), (proj2 (Z.ltb_lt r (2 ^ 63))) by lia. cbn [andb]. unfold avoid_minus_one. destruct (Z.eqb_spec r (-1)); [contradiction|reflexivity].
Qed.
(** A field element hashes as its polynomial does. *)
Theorem C112_element_hash : forall k m v, py_hash (PElem k m v) = py_hash (PPoly v).
Proof. intros k m v. cbn [py_hash]. f_equal. apply slot_id; apply slot_range. Qed.

Lemma int_poly_hash v : int_hash v = slot_hash v <-> ~ clash v.
Proof.
  unfold clash, slot_hash. destruct ((- 2 ^ 63 <=? v) && (v <? 2 ^ 63)) eqn:E.
  - rewrite Bool.andb_true_iff, Z.leb_le, Z.ltb_lt in E. pose proof (Z.mod_pos_bound (Z.abs v) (2 ^ 61 - 1) ltac:(lia)) as B.
    destruct (Z.lt_ge_cases (Z.abs v) (2 ^ 61 - 1)) as [L|L].
    + split; [lia|]. intros _. unfold int_hash. rewrite Z.mod_small by lia. f_equal. destruct v; cbn [Z.sgn Z.abs]; lia.
    + split; [|lia]. intros H _. unfold int_hash, avoid_minus_one in H.
      destruct (Z.eqb_spec v (-1)); [lia|]. destruct (Z.eqb_spec (Z.sgn v * (Z.abs v mod (2 ^ 61 - 1))) (-1)); [lia|]. destruct v; cbn [Z.sgn Z.abs] in *; lia.
  - split; [|reflexivity]. intros _ [_ H]. rewrite (proj2 (Z.leb_le _ v)), (proj2 (Z.ltb_lt v _)) in E by lia. discriminate.
Qed.
(** Equal hashable objects hash alike, unless they are a polynomial and an int of 62 or 63 bits (at least 2^61 - 1). *)
Theorem C112_hash_contract : forall a b, same a b -> hashable a -> (py_hash a = py_hash b <-> ~ (a <> b /\ exists v, (a = PPoly v \/ a = PInt v) /\ clash v)).
Proof.
  intros a b H _. destruct H as [x|v|v].
  - split; [intros _ [N _]; contradiction|reflexivity].
  - cbn [py_hash]. split.
    + intros E [_ (w & [W|W] & C)]; inversion W; subst w. apply (proj1 (int_poly_hash v)); [|exact C]. congruence.
    + intros H. f_equal. symmetry. apply int_poly_hash. intros C. apply H. split; [discriminate|]. exists v. auto.
  - cbn [py_hash]. split.
    + intros E [_ (w & [W|W] & C)]; inversion W; subst w. apply (proj1 (int_poly_hash v)); [|exact C]. congruence.
    + intros H. f_equal. apply int_poly_hash. intros C. apply H. split; [discriminate|]. exists v. auto.
Qed.
(** The contract fails: BinaryPolynomial(2**61) == 2**61, with different hashes. *)
Theorem C112_hash_contract_fails : py_eq (PPoly (2 ^ 61)) (PInt (2 ^ 61)) = true /\ py_hash (PPoly (2 ^ 61)) <> py_hash (PInt (2 ^ 61)) /\ set_in (PInt (2 ^ 61)) [PPoly (2 ^ 61)] = Some false.
Proof. split; [reflexivity|]. split; [intros H; vm_compute in H; discriminate|vm_compute; reflexivity]. Qed.

(** Membership in a set of polynomials is membership of the value, for a polynomial of any degree ... *)
Theorem C112_set_of_polynomials : forall v l, set_in (PPoly v) (map PPoly l) = Some true <-> In v l.
Proof.
  intros v l. unfold set_in. cbn [py_hash]. split.
  - intros H. assert (E : existsb (fun y => match py_hash y with Some h' => (slot_hash v =? h') && py_eq y (PPoly v) | None => false end) (map PPoly l) = true) by congruence.
    apply existsb_exists in E as (y & Hy & E). apply in_map_iff in Hy as (w & <- & Hw). cbn [py_hash] in E. apply andb_prop in E as [_ E]. apply C112_equality in E. inversion E; subst. exact Hw.
  - intros H. f_equal. apply existsb_exists. exists (PPoly v). split; [now apply in_map|]. cbn [py_hash]. rewrite Z.eqb_refl. apply C112_equality. constructor.
Qed.
(** ... of field elements likewise (the ambient fields being part of the value) ... *)
Theorem C112_set_of_elements : forall k m v (l : list (Z * Z * Z)), set_in (PElem k m v) (map (fun '(k, m, v) => PElem k m v) l) = Some true <-> In (k, m, v) l.
Proof.
  intros k m v l. unfold set_in. cbn [py_hash]. split.
  - intros H. assert (E : existsb (fun y => match py_hash y with Some h' => (slot_hash (slot_hash v) =? h') && py_eq y (PElem k m v) | None => false end) (map (fun '(k, m, v) => PElem k m v) l) = true) by congruence.
    apply existsb_exists in E as (y & Hy & E). apply in_map_iff in Hy as ([[k' m'] w] & <- & Hw). cbn [py_hash] in E. apply andb_prop in E as [_ E]. apply C112_equality in E. inversion E; subst. exact Hw.
  - intros H. f_equal. apply existsb_exists. exists (PElem k m v). split; [now apply (in_map (fun '(k, m, v) => PElem k m v) l (k, m, v))|]. cbn [py_hash]. rewrite Z.eqb_refl. apply C112_equality. constructor.
Qed.
(** ... and looking up an int among polynomials finds it exactly when its polynomial is there and the int is not in the clashing range. *)
Theorem C112_int_among_polynomials : forall v l, set_in (PInt v) (map PPoly l) = Some true <-> In v l /\ ~ clash v.
Proof.
  intros v l. unfold set_in. cbn [py_hash]. split.
  - intros H. assert (E : existsb (fun y => match py_hash y with Some h' => (int_hash v =? h') && py_eq y (PInt v) | None => false end) (map PPoly l) = true) by congruence.
    apply existsb_exists in E as (y & Hy & E). apply in_map_iff in Hy as (w & <- & Hw). cbn [py_hash] in E. apply andb_prop in E as [Eh E]. apply C112_equality in E. inversion E; subst.
    split; [exact Hw|]. apply int_poly_hash. now apply Z.eqb_eq.
  - intros [H C]. f_equal. apply existsb_exists. exists (PPoly v). split; [now apply in_map|]. cbn [py_hash]. apply int_poly_hash in C. rewrite C, Z.eqb_refl. apply C112_equality. constructor.
Qed.
Theorem C112_clash_example : clash (2 ^ 61) /\ ~ clash (2 ^ 60) /\ ~ clash (2 ^ 63) /\ hashable (PPoly 5) /\ same (PPoly 5) (PInt 5).
Proof. unfold clash. repeat split; try lia; try exact I. constructor. Qed.
