From Verif Require Import Common Bits_Model Vec_Model LinAlg_Model BlockCode_Model Array_Model Nd_Model.
From Verif Require Import History_Model History_Spec History_Proof History_Proof2 History_Proof3.
Local Open Scope nat_scope.

(* no method writes into an existing array, whatever the state *)
Definition mono {A} (f : method_of A) : Prop := forall s, extends (snd s) (snd (snd (f s))).
Lemma mono_ret {A} (x : A) : mono (ret x). Proof. intros s; apply extends_refl. Qed.
Lemma mono_lift {A} (x : option A) : mono (lift x). Proof. intros s; apply extends_refl. Qed.
Lemma mono_self {A} (get : code_obj -> A) : mono (self get). Proof. intros s; apply extends_refl. Qed.
Lemma mono_update f : mono (update f). Proof. intros [o h]; apply extends_refl. Qed.
Lemma mono_alloc c : mono (alloc c). Proof. intros [o h]. cbn. apply extends_app. Qed.
Lemma mono_bits a : mono (read_bits a). Proof. intros [o h]; apply extends_refl. Qed.
Lemma mono_counts a : mono (read_counts a). Proof. intros [o h]; apply extends_refl. Qed.
Lemma mono_bind {A B} (f : method_of A) (k : A -> method_of B) : mono f -> (forall x, mono (k x)) -> mono (bind f k).
Proof.
  intros Hf Hk s. unfold bind. specialize (Hf s). destruct (f s) as [[x|] s']; cbn [snd] in *; auto.
  eapply extends_trans; [exact Hf|]. apply Hk.
Qed.
Lemma mono_cached {A} (get : code_obj -> option A) set (f : method_of A) : mono f -> mono (cached get set f).
Proof.
  intros Hf. apply mono_bind; [apply mono_self|]. intros [x|]; [apply mono_ret|].
  apply mono_bind; auto. intros x. apply mono_bind; [apply mono_update|]. intros; apply mono_ret.
Qed.
Ltac mono := repeat first
  [ apply mono_ret | apply mono_lift | apply mono_self | apply mono_update | apply mono_alloc | apply mono_bits | apply mono_counts
  | apply mono_cached | (apply mono_bind; [|intros ?])
  | match goal with |- mono (match ?x with _ => _ end) => destruct x | |- mono (if ?x then _ else _) => destruct x end ].
Lemma mono_G : mono generator_matrix. Proof. unfold generator_matrix, read_mat. mono. Qed.
Lemma mono_H : mono check_matrix. Proof. unfold check_matrix, read_mat. mono; apply mono_G. Qed.
Lemma mono_Gi : mono generator_matrix_right_inverse. Proof. unfold generator_matrix_right_inverse, read_mat. mono; apply mono_G. Qed.
Lemma mono_wG : mono with_G. Proof. unfold with_G, read_mat. mono; apply mono_G. Qed.
Lemma mono_wH : mono with_H. Proof. unfold with_H, read_mat. mono; apply mono_H. Qed.
Lemma mono_wGi : mono with_Ginv. Proof. unfold with_Ginv, read_mat. mono; apply mono_Gi. Qed.
Lemma mono_words : mono codewords_method. Proof. unfold codewords_method. mono; apply mono_wG. Qed.
Lemma mono_cwd : mono codeword_weight_distribution.
Proof. unfold codeword_weight_distribution, read_mat. mono; first [apply mono_wG | apply mono_words]. Qed.
Lemma mono_dist : mono minimum_distance_method. Proof. unfold minimum_distance_method. mono; apply mono_cwd. Qed.
Lemma mono_leaders : mono coset_leaders_method. Proof. unfold coset_leaders_method. mono; apply mono_wH. Qed.
Lemma mono_clwd : mono coset_leader_weight_distribution_method.
Proof. unfold coset_leader_weight_distribution_method, read_mat. mono; first [apply mono_wH | apply mono_leaders]. Qed.
Lemma mono_ask q : mono (ask q).
Proof.
  destruct q; cbn [ask]; mono;
  first [apply mono_G | apply mono_H | apply mono_Gi | apply mono_words | apply mono_cwd | apply mono_dist | apply mono_leaders | apply mono_clwd
  | unfold encode, encode_value; mono; apply mono_wG | unfold project_word, project_value; mono; apply mono_wGi
  | unfold check, check_value; mono; apply mono_wH
  | unfold inverse_encode, check_value, project_value; mono; first [apply mono_wH | apply mono_wGi]
  | unfold packing_radius_method; mono; apply mono_dist | unfold covering_radius_method; mono; apply mono_clwd].
Qed.
Lemma mono_table d : mono (table_of d). Proof. destruct d; [apply mono_leaders|apply mono_words]. Qed.
Lemma mono_decode d a : mono (decode_method d a).
Proof.
  unfold decode_method. destruct (d_kind d).
  - unfold syndrome_decode_method, read_mat. mono; first [apply mono_wH | apply mono_wGi].
  - unfold exhaustive_decode_method, read_mat. mono; apply mono_wGi.
Qed.
Lemma run_on_extends {A} w i (f : method_of A) : mono f -> extends (w_heap w) (w_heap (snd (run_on w i f))).
Proof.
  intros M. unfold run_on. destruct (nth_error (w_codes w) i) as [o|]; [|apply extends_refl].
  specialize (M (o, w_heap w)). destruct (f (o, w_heap w)) as [r [o' h']]. exact M.
Qed.
Lemma exec_extends p w : (forall b d, p <> Write b d) -> extends (w_heap w) (w_heap (snd (exec p w))).
Proof.
  intros NW. destruct p; cbn [exec].
  - apply extends_app.
  - destruct (nth_error (w_heap w) a) as [[x|]|]; try apply extends_refl. destruct (mat_of_array x) as [[]|]; apply extends_refl.
  - pose proof (run_on_extends w i (table_of d) (mono_table d)) as X. destruct (run_on w i (table_of d)) as [[t|] w']; exact X.
  - apply run_on_extends, mono_ask.
  - destruct (nth_error (w_decoders w) j) as [d|]; [|apply extends_refl].
    pose proof (run_on_extends w (d_code d) _ (mono_decode d a)) as X. destruct (run_on w (d_code d) (decode_method d a)) as [[t|] w']; exact X.
  - exfalso. eapply NW; eauto.
Qed.
Lemma ask_fresh w cs ds K S i q a : winv w cs ds K S -> keeps q = false -> fst (exec (Ask i q) w) = Some (VRef a) -> length (w_heap w) <= a.
Proof.
  intros W Eq Ea. cbn [exec] in Ea. unfold run_on in Ea. destruct (nth_error (w_codes w) i) as [o|] eqn:Eo; [|discriminate].
  destruct (nth_both _ cs _ _ (w_n _ _ _ _ _ W) Eo) as (C & EC).
  destruct (w_ok _ _ _ _ _ W i o C Eo EC) as (g & n & k & m & G & H & -> & F & OK).
  apply (obj_base _ _ _ _ _ _ _ (length (w_heap w))) in OK; [|lia].
  destruct (ask_ok g n k m G H F (free K S) (length (w_heap w)) (fun a L => fresh_free w cs ds K S a W L) q o (w_heap w) OK)
    as (r1 & o' & h' & E1 & OK' & X & HA & HN).
  rewrite E1 in Ea. cbn in Ea. subst r1. apply (HN Eq a eq_refl).
Qed.
