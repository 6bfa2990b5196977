(** C101: answers do not depend on the history of calls. *)
From Verif Require Import Common Bits_Model Vec_Model LinAlg_Model BlockCode_Model Array_Model Nd_Model.
From Verif Require Import Code_Spec History_Model History_Spec.
From Verif Require History_Proof History_Proof2 History_Proof3 History_Proof4 Decoders_Proof.
Local Open Scope nat_scope.

(** After any sequence of calls (any number of codes and decoders, in any order, sharing arrays), an attribute or
    method of a code returns what it would return on a new object: the value for the matrix the code was built from. *)
Theorem C101_answers : forall w cs ds K S i q C, history w cs ds K S -> nth_error cs i = Some C ->
  seen (exec (Ask i q) w) = expected C (w_heap w) q.
Proof.
  intros w cs ds K S i q C Hh EC. apply History_Proof3.history_inv in Hh. destruct (exec (Ask i q) w) as [r w'] eqn:E.
  rewrite <- E. eapply History_Proof3.ask_world; eauto.
Qed.
Theorem C101_decoders : forall w cs ds K S j a d i C, history w cs ds K S -> nth_error ds j = Some (d, i) -> nth_error cs i = Some C ->
  seen (exec (Decode j a) w) = expected_decode C (w_heap w) d a.
Proof.
  intros w cs ds K S j a d i C Hh Ed EC. apply History_Proof3.history_inv in Hh. destruct (exec (Decode j a) w) as [r w'] eqn:E.
  rewrite <- E. eapply History_Proof3.decode_world; eauto.
Qed.
(** Constructing a decoder works exactly when the code has the table it needs (for the syndrome table: redundancy > 0). *)
Theorem C101_new_decoder : forall w cs ds K S d i C, history w cs ds K S -> nth_error cs i = Some C ->
  (fst (exec (NewDecoder d i) w) = None <-> d = Syndrome /\ bc_m C = 0).
Proof.
  intros w cs ds K S d i C Hh EC. apply History_Proof3.history_inv in Hh.
  rewrite (proj1 (History_Proof3.decoder_world w cs ds K S d i Hh) C EC).
  destruct (History_Proof3.nth_both cs (w_codes w) i C (eq_sym (History_Proof3.w_n _ _ _ _ _ Hh)) EC) as (o & Eo).
  destruct (History_Proof3.w_ok _ _ _ _ _ Hh i o C Eo EC) as (g & n & k & m & G & H & -> & F & _).
  pose proof (History_Proof.fa_valid _ _ _ _ _ _ F) as V. set (C := matrix_code _ _ _ _ _ _) in *.
  destruct d; cbn [History_Proof3.table_value]; [|split; [discriminate|intros [? _]; discriminate]]. split.
  - intros E. split; auto. destruct (Nat.eq_dec (bc_m C) 0) as [Z|Z]; auto.
    destruct (Decoders_Proof.coset_leaders_spec C (ok_checker C V) Z) as (l & E' & _). congruence.
  - intros [_ Z]. destruct (coset_leaders C) as [l|] eqn:E; auto. exfalso. exact (History_Proof.leaders_some C l V E Z).
Qed.
(** Every code that occurs is consistent, so that the other properties (C29-C32, C94) apply to the answers. *)
Theorem C101_codes_valid : forall w cs ds K S C, history w cs ds K S -> In C cs -> valid_code C.
Proof.
  intros w cs ds K S C Hh HC. apply History_Proof3.history_inv in Hh. apply In_nth_error in HC as (i & EC).
  destruct (History_Proof3.nth_both cs (w_codes w) i C (eq_sym (History_Proof3.w_n _ _ _ _ _ Hh)) EC) as (o & Eo).
  destruct (History_Proof3.w_ok _ _ _ _ _ Hh i o C Eo EC) as (g & n & k & m & G & H & -> & F & _). apply F.
Qed.

(** No call changes the content of an array that already exists: neither the caller's nor one returned before.
    (This needs no assumption on the history.) *)
Theorem C101_no_writes : forall p w a c, (forall b d, p <> Write b d) ->
  nth_error (w_heap w) a = Some c -> nth_error (w_heap (snd (exec p w))) a = Some c.
Proof. intros p w a c NW E. apply History_Proof4.exec_extends; auto. Qed.

(** encode, project_word, inverse_encode, check and decode return a new array, which the caller may overwrite. *)
Theorem C101_new_results : forall w cs ds K S p a, history w cs ds K S ->
  (exists i q, p = Ask i q /\ keeps q = false) \/ (exists j b, p = Decode j b) ->
  fst (exec p w) = Some (VRef a) -> nth_error (w_heap w) a = None /\ ~ In a K.
Proof.
  intros w cs ds K S p a Hh Hp Ea. apply History_Proof3.history_inv in Hh.
  assert (L : length (w_heap w) <= a).
  { destruct Hp as [(i & q & -> & Eq)|(j & b & ->)].
    - eapply History_Proof4.ask_fresh; eauto.
    - destruct (exec (Decode j b) w) as [r w'] eqn:E. cbn in Ea. subst r.
      destruct (History_Proof3.decode_world w cs ds K S j b _ w' Hh E) as (_ & _ & HL). auto. }
  split; [apply nth_error_None; auto|]. intros I. apply (History_Proof3.w_known _ _ _ _ _ Hh) in I. lia.
Qed.

(** ** A history *)
Definition ex_G : mat := [[true; false; true; true; false]; [false; true; false; true; true]].
Definition ex_words : array bool := Arr [1; 10] [true; false; true; true; true; false; true; false; false; true].
(** two codes on the same array, the weight distribution after codewords(), a decoder, a word array that the caller
    overwrites between two calls *)
Definition ex_ops : list op :=
  [NewArray (Bits (array_of_mat 5 ex_G)); NewCode true 0; Ask 0 QCodewords; Ask 0 QCodewordWeightDistribution;
   NewCode false 0; NewDecoder Syndrome 0; NewArray (Bits ex_words); Decode 0 5;
   Write 5 (Bits (Arr [2] [true; true])); Ask 0 (QEncode 5); Ask 1 QMinimumDistance; Ask 0 QCoveringRadius].
Fixpoint run (ops : list op) (w : world) : list (option answer) * world :=
  match ops with
  | [] => ([], w)
  | p :: ops' => let (l, w') := run ops' (snd (exec p w)) in (seen (exec p w) :: l, w')
  end.
Example C101_example : exists cs ds K S, history (snd (run ex_ops start)) cs ds K S /\
  length cs = 2 /\ ds = [(Syndrome, 0)] /\ In 5 K /\ ~ In 5 S /\
  skipn 7 (fst (run ex_ops start)) =
    [Some (AArray (Bits (Arr [1; 4] [true; false; false; true]))); None;
     Some (AArray (Bits (Arr [5] [true; true; true; false; true]))); Some (ANumber 2); Some (ANumber 2)].
Proof.
  assert (C0 : exists C, code_from true 5 ex_G = Some C) by (eexists; reflexivity).
  assert (C1 : exists C, code_from false 5 ex_G = Some C) by (eexists; reflexivity).
  destruct C0 as [C0 E0], C1 as [C1 E1].
  pose proof h_start as H.
  eapply h_array with (c := Bits (array_of_mat 5 ex_G)) in H. eapply h_code with (g := true) (a := 0) in H; [|cbn; tauto|reflexivity|reflexivity|reflexivity|exact E0].
  eapply h_ask with (i := 0) (q := QCodewords) in H; [|vm_compute; reflexivity].
  eapply h_ask with (i := 0) (q := QCodewordWeightDistribution) in H; [|vm_compute; reflexivity].
  eapply h_code with (g := false) (a := 0) in H; [|cbn; tauto|reflexivity|reflexivity|reflexivity|exact E1].
  eapply h_decoder with (d := Syndrome) (i := 0) in H; [|vm_compute; discriminate].
  eapply h_array with (c := Bits ex_words) in H.
  eapply h_decode with (j := 0) (a := 5) in H; [|vm_compute; reflexivity].
  eapply h_write with (a := 5) (c := Bits (Arr [2] [true; true])) in H; [|vm_compute; tauto|vm_compute; intuition discriminate].
  eapply h_ask with (i := 0) (q := QEncode 5) in H; [|vm_compute; reflexivity].
  eapply h_ask with (i := 1) (q := QMinimumDistance) in H; [|vm_compute; reflexivity].
  eapply h_ask with (i := 0) (q := QCoveringRadius) in H; [|vm_compute; reflexivity].
  eexists _, _, _, _. split; [vm_compute in H |- *; exact H|]. split; [reflexivity|]. split; [reflexivity|].
  split; [vm_compute; tauto|]. split; [vm_compute; intuition discriminate|]. vm_compute. reflexivity.
Qed.

(** ** Finding: the arrays are shared
    The constructor does not copy its argument: overwriting the array that was passed as the generator matrix, after
    check_matrix has been read, leaves an object whose encoder produces words that its own check rejects. *)
Theorem C101_argument_alias_refuted : exists w1 w2 u v s, 
  w1 = snd (run [NewArray (Bits (array_of_mat 5 ex_G)); NewCode true 0; Ask 0 QCheckMatrix] start) /\
  w2 = snd (run [Write 0 (Bits (array_of_mat 5 [[true; true; true; true; true]; [false; true; false; true; true]]));
                 NewArray (Bits (Arr [2] u))] w1) /\
  seen (exec (Ask 0 (QEncode 2)) w2) = Some (AArray (Bits (Arr [5] v))) /\
  seen (exec (Ask 0 (QCheck 3)) (snd (exec (Ask 0 (QEncode 2)) w2))) = Some (AArray (Bits (Arr [3] s))) /\
  In true s.
Proof.
  eexists _, _, [true; false], _, _. split; [reflexivity|]. split; [reflexivity|]. split; [vm_compute; reflexivity|].
  split; [vm_compute; reflexivity|]. vm_compute. tauto.
Qed.
(** codewords() returns the array the object keeps: after overwriting it, the minimum distance of the code is wrong. *)
Theorem C101_table_alias_refuted : exists w, 
  w = snd (run [NewArray (Bits (array_of_mat 5 ex_G)); NewCode true 0; Ask 0 QCodewords;
                Write 1 (Bits (array_of_mat 5 [[false; false; false; false; false]; [true; false; false; false; false];
                                               [false; false; false; false; false]; [true; false; false; false; false]]))] start) /\
  seen (exec (Ask 0 QMinimumDistance) w) = Some (ANumber 1) /\
  (exists C, code_of_generator 5 ex_G = Some C /\ minimum_distance C false = Some 3).
Proof. eexists. split; [reflexivity|]. split; [vm_compute; reflexivity|]. eexists. split; [reflexivity|]. vm_compute. reflexivity. Qed.
