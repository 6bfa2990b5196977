(* Coset-leader based quantities, the syndrome-table and exhaustive-search decoders, Slepian arrays. *)
From Coq Require Import QArith Lqa.
From Verif Require Import Common Bits_Model Bits_Proof Vec_Model Vec_Proof LinAlg_Model Linear_Spec
  LinAlg_Proof XRref_Proof Null_Proof BlockCode_Model Code_Spec BlockCode_Proof CosetLeaders_Proof.
Local Open Scope nat_scope.

Lemma syn_check C v s : check_ok C -> length v = bc_n C -> (s < 2 ^ N.of_nat (bc_m C))%N ->
  (syn C v = s <-> bc_check C v = int_to_bits s (bc_m C) LSB_first).
Proof.
  intros OK L B. unfold syn. rewrite <- (ok_check C OK) by auto. destruct (ok_H C OK) as [W LH].
  assert (LC : length (bc_check C v) = bc_m C) by (rewrite (ok_check C OK), matvec_length by auto; auto).
  split.
  - intros <-. rewrite <- LC. symmetry. apply int_bits_round_trip.
  - intros ->. apply bits_int_round_trip; auto.
Qed.

Lemma coset_leaders_spec C : check_ok C -> bc_m C <> 0 -> exists lds, coset_leaders C = Some lds /\ leaders_spec C lds.
Proof.
  intros OK Hm. destruct (coset_leaders_ok C OK Hm) as (lds & E & L & T). exists lds. split; auto. split; auto.
  intros i Hi. assert (R : (N.of_nat i < 2 ^ N.of_nat (bc_m C))%N) by (rewrite <- pow2_N; lia).
  destruct (T (N.of_nat i) R) as (Ln & S & M). rewrite Nnat.Nat2N.id in *. split; auto. split.
  - apply (syn_check C); auto.
  - intros v Lv E'. apply M; auto. apply (syn_check C); auto.
Qed.

Lemma last_nonzero l r : (match rev (flatnonzero l) with [] => None | r :: _ => Some r end) = Some r ->
  r < length l /\ nth r l 0 <> 0 /\ forall i, nth i l 0 <> 0 -> i <= r.
Proof.
  unfold flatnonzero. set (f := fun i => negb (nth i l 0 =? 0)).
  assert (G : forall N, match rev (filter f (seq 0 N)) with
     | [] => forall i, i < N -> f i = false
     | x :: _ => x < N /\ f x = true /\ forall i, i < N -> f i = true -> i <= x end).
  { induction N as [|N IH]; [cbn; intros; lia|].
    rewrite seq_S, filter_app, rev_app_distr. cbn [filter app plus]. destruct (f N) eqn:FN; cbn [rev app].
    - repeat split; auto. intros; lia.
    - destruct (rev (filter f (seq 0 N))) as [|x t].
      + intros i Hi. destruct (Nat.eq_dec i N) as [->|]; auto. apply IH; lia.
      + destruct IH as (I1 & I2 & I3). repeat split; auto. intros i Hi Fi. destruct (Nat.eq_dec i N) as [->|]; [congruence|].
        apply I3; auto; lia. }
  specialize (G (length l)). destruct (rev (filter f (seq 0 (length l)))) as [|x t]; [discriminate|].
  intros [= <-]. destruct G as (G1 & G2 & G3). split; auto. split.
  - unfold f in G2. apply negb_true_iff, Nat.eqb_neq in G2. auto.
  - intros i Hi. apply G3; [|apply negb_true_iff, Nat.eqb_neq; auto].
    destruct (lt_dec i (length l)); auto. rewrite nth_overflow in Hi by lia. congruence.
Qed.

Lemma first_nonzero_exists l i : nth i l 0 <> 0 -> exists r, (match rev (flatnonzero l) with [] => None | r :: _ => Some r end) = Some r.
Proof.
  intros H. destruct (rev (flatnonzero l)) as [|x t] eqn:E; [|exists x; auto].
  exfalso. assert (Z : flatnonzero l = []) by (rewrite <- (rev_involutive (flatnonzero l)), E; auto).
  assert (I : In i (flatnonzero l)).
  { apply filter_In. split; [|apply negb_true_iff, Nat.eqb_neq; auto]. apply in_seq.
    destruct (lt_dec i (length l)); [lia|]. rewrite nth_overflow in H by lia. congruence. }
  rewrite Z in I. destruct I.
Qed.

Lemma check_vxor C u v : check_ok C -> length u = bc_n C -> length v = bc_n C ->
  bc_check C (vxor u v) = vxor (bc_check C u) (bc_check C v).
Proof.
  intros OK Lu Lv. rewrite !(ok_check C OK) by (rewrite ?vxor_length; congruence). apply matvec_vxor. congruence.
Qed.

Lemma check_length C u : check_ok C -> length u = bc_n C -> length (bc_check C u) = bc_m C.
Proof. intros OK Lu. rewrite (ok_check C OK), matvec_length by auto. apply (ok_H C OK). Qed.

(* words in the same coset differ by a codeword *)
Lemma coset_codeword C u v : check_ok C -> length u = bc_n C -> length v = bc_n C ->
  (bc_check C u = bc_check C v <-> is_codeword C (vxor u v)).
Proof.
  intros OK Lu Lv. rewrite <- (ok_check_zero C OK) by (rewrite vxor_length; congruence).
  rewrite check_vxor by auto. pose proof (check_length C u OK Lu) as L1. pose proof (check_length C v OK Lv) as L2. split.
  - intros ->. rewrite vxor_self, L2. auto.
  - intros E. apply vxor_eq_zeros; [congruence|]. rewrite E, L1. auto.
Qed.

Lemma syndrome_index C r : check_ok C -> length r = bc_n C ->
  let i := N.to_nat (bits_to_int (bc_check C r) LSB_first) in
  i < 2 ^ bc_m C /\ message (bc_m C) i = bc_check C r.
Proof.
  intros OK L i. pose proof (check_length C r OK L) as LC.
  pose proof (bits_to_int_bound (bc_check C r) LSB_first) as B. rewrite LC, <- pow2_N in B.
  split; [unfold i; lia|]. unfold message, i. rewrite Nnat.N2Nat.id. rewrite <- LC. apply int_bits_round_trip.
Qed.

Lemma covering_radius_spec C cached : valid_code C -> bc_m C <> 0 ->
  exists rho, covering_radius C cached = Some rho /\ is_covering_radius C rho.
Proof.
  intros V Hm. pose proof (ok_checker C V) as OK. pose proof (ok_encoder C V) as OE.
  destruct (clwd_ok C OK cached Hm) as (d & lds & E & EL & T & Ld & Hd).
  destruct (coset_leaders_spec C OK Hm) as (lds' & EL' & LS & HS). rewrite EL in EL'. injection EL' as <-.
  assert (D : forall i, i < 2 ^ bc_m C -> nth (weight (nth i lds [])) d 0 <> 0).
  { intros i Hi. destruct (HS i Hi) as (Ln & _ & _). rewrite Hd.
    - assert (P : 0 < length (filter (fun l => weight l =? weight (nth i lds [])) lds)); [|lia].
      apply length_filter_pos. exists (nth i lds []). split; [apply nth_In; lia|apply Nat.eqb_refl].
    - rewrite <- Ln. apply weight_le. }
  assert (P0 : 0 < 2 ^ bc_m C) by (pose proof (Nat.pow_nonzero 2 (bc_m C)); lia).
  destruct (first_nonzero_exists d _ (D 0 P0)) as (rho & ER). unfold covering_radius. rewrite E.
  exists rho. split; auto. apply last_nonzero in ER as (R1 & R2 & R3). split.
  - intros r Lr. destruct (syndrome_index C r OK Lr) as (Hi & Ei). cbn zeta in *.
    set (i := N.to_nat _) in *. destruct (HS i Hi) as (Ln & Ec & _).
    exists (vxor r (nth i lds [])). split; [apply coset_codeword; auto; congruence|].
    unfold hdist. rewrite vxor_cancel by congruence. apply R3. apply D; auto.
  - rewrite Hd in R2 by lia.
    assert (P : 0 < length (filter (fun l => weight l =? rho) lds)) by lia.
    apply length_filter_pos in P as (l & Hl & Wl). apply Nat.eqb_eq in Wl.
    apply In_nth with (d := []) in Hl as (i & Hi & El). rewrite LS in Hi. destruct (HS i Hi) as (Ln & Ec & M).
    rewrite El in *. exists l. split; auto. intros c Hc. rewrite <- Wl.
    assert (Lc : length c = bc_n C) by (apply codeword_length; auto).
    apply M; [rewrite vxor_length; congruence|]. rewrite <- Ec. symmetry. apply coset_codeword; auto.
    + rewrite vxor_length; congruence.
    + rewrite vxor_cancel by congruence. auto.
Qed.

Lemma packing_radius_spec C cached d : encoder_ok C -> is_minimum_distance C d ->
  packing_radius C cached = Some ((d - 1) / 2).
Proof. intros E H. unfold packing_radius. apply (minimum_distance_spec C cached) in H; auto. rewrite H. auto. Qed.

(* ---- syndrome table decoding ---- *)
Lemma syndrome_decode_spec C lds r : valid_code C -> leaders_spec C lds -> length r = bc_n C ->
  let u := syndrome_decode C lds r in
  length u = bc_k C /\ nearest_codeword C r (bc_encode C u).
Proof.
  intros V [LS HS] Lr. pose proof (ok_checker C V) as OK. pose proof (ok_encoder C V) as OE.
  unfold syndrome_decode. destruct (syndrome_index C r OK Lr) as (Hi & Ei). cbn zeta in *.
  set (i := N.to_nat _) in *. destruct (HS i Hi) as (Ln & Ec & M). set (e := nth i lds []) in *.
  assert (Hc : is_codeword C (vxor r e)) by (apply coset_codeword; auto; congruence).
  destruct Hc as (u & Lu & Eu). rewrite <- Eu, ok_project by auto. split; auto. rewrite Eu. split; [exists u; auto|].
  intros c Hc. unfold hdist. rewrite vxor_cancel by congruence.
  assert (Lc : length c = bc_n C) by (apply codeword_length; auto).
  apply M; [rewrite vxor_length; congruence|]. rewrite Ei. symmetry. apply coset_codeword; auto.
  - rewrite vxor_length; congruence.
  - rewrite vxor_cancel by congruence. auto.
Qed.

Lemma unique_nearest C d u r w : encoder_ok C -> is_minimum_distance C d -> length u = bc_k C -> length w = bc_k C ->
  length r = bc_n C -> hdist r (bc_encode C u) <= (d - 1) / 2 -> nearest_codeword C r (bc_encode C w) -> w = u.
Proof.
  intros OE [D1 _] Lu Lw Lr Hd [_ Nw]. apply (ok_encode_injective C OE); auto.
  destruct (vec_eq_dec (bc_encode C w) (bc_encode C u)) as [|Ne]; auto. exfalso.
  assert (Cw : is_codeword C (bc_encode C w)) by (exists w; auto).
  assert (Cu : is_codeword C (bc_encode C u)) by (exists u; auto).
  specialize (D1 _ _ Cw Cu Ne). specialize (Nw _ Cu).
  assert (T : hdist (bc_encode C w) (bc_encode C u) <= hdist (bc_encode C w) r + hdist r (bc_encode C u)).
  { apply hdist_triangle; rewrite ?(ok_encode_length C OE); auto. }
  rewrite (hdist_sym _ r) in T. pose proof (Nat.div_mod (d - 1) 2 ltac:(lia)). 
  assert (hdist r (bc_encode C u) + hdist r (bc_encode C u) < d \/ d = 0) by lia.
  destruct H0 as [|Q0]; [lia|]. subst d. cbn in Hd.
  assert (Z : hdist (bc_encode C w) (bc_encode C u) = 0) by lia.
  apply hdist_zero in Z; auto. rewrite !(ok_encode_length C OE); auto.
Qed.

(* ---- argmin ---- *)
Lemma argmin_by_spec {A} (le : A -> A -> bool) : (forall x y, le x y = true \/ le y x = true) ->
  (forall x y z, le x y = true -> le y z = true -> le x z = true) ->
  forall l d, l <> [] -> let p := argmin_by le l in
  p < length l /\ (forall i, i < length l -> le (nth p l d) (nth i l d) = true) /\
  (forall i, i < p -> le (nth i l d) (nth p l d) = false).
Proof.
  intros Tot Tr. assert (Rf : forall x, le x x = true) by (intros x; destruct (Tot x x); auto).
  induction l as [|x l IH]; intros d NE; [congruence|]. cbn [argmin_by]. destruct l as [|y l].
  - cbn. split; auto. split; [|intros; lia]. intros i Hi. destruct i; [auto|lia].
  - specialize (IH d ltac:(discriminate)). set (l' := y :: l) in *. set (p := argmin_by le l') in *. cbn zeta in *.
    destruct IH as (I1 & I2 & I3).
    assert (Ey : nth p l' y = nth p l' d) by (apply nth_indep; auto). rewrite Ey.
    destruct (le x (nth p l' d)) eqn:Q.
    + cbn [nth length]. split; [lia|]. split; [|intros; lia]. intros [|i] Hi; auto.
      eapply Tr; [exact Q|]. apply I2. lia.
    + cbn [nth length]. split; [lia|]. split.
      * intros [|i] Hi; [destruct (Tot x (nth p l' d)); congruence|]. apply I2; lia.
      * intros [|i] Hi; auto. apply I3; lia.
Qed.

Lemma codewords_nonempty C : codewords C <> [].
Proof.
  intros E. apply (f_equal (@length _)) in E. rewrite codewords_length in E. cbn in E.
  pose proof (Nat.pow_nonzero 2 (bc_k C)). lia.
Qed.

(* the message with index j, j minimal among the optimal ones *)
Lemma exhaustive_generic {A} (le : A -> A -> bool) (f : vec -> A) (d0 : A) C : encoder_ok C ->
  (forall x y, le x y = true \/ le y x = true) ->
  (forall x y z, le x y = true -> le y z = true -> le x z = true) ->
  exists j, j < 2 ^ bc_k C /\
    bc_project C (nth (argmin_by le (map f (codewords C))) (codewords C) []) = message (bc_k C) j /\
    (forall c, is_codeword C c -> le (f (bc_encode C (message (bc_k C) j))) (f c) = true) /\
    (forall i, i < j -> le (f (bc_encode C (message (bc_k C) i))) (f (bc_encode C (message (bc_k C) j))) = false).
Proof.
  intros OE Tot Tr. set (cs := codewords C). set (p := argmin_by le (map f cs)).
  destruct (argmin_by_spec le Tot Tr (map f cs) (f [])) as (I1 & I2 & I3).
  { intros Q. apply (codewords_nonempty C). unfold cs in Q. destruct (codewords C); [auto|discriminate]. }
  fold p in I1, I2, I3. rewrite map_length in I1, I2. unfold cs in I1, I2. rewrite codewords_length in I1, I2.
  exists p. split; auto. unfold cs at 1. rewrite nth_codewords by auto. split; [apply ok_project; auto; apply message_length|].
  assert (N : forall i, i < 2 ^ bc_k C -> nth i (map f cs) (f []) = f (bc_encode C (message (bc_k C) i))).
  { intros i Hi. rewrite map_nth. unfold cs. rewrite nth_codewords; auto. }
  split.
  - intros c Hc. apply in_codewords in Hc. apply In_nth with (d := []) in Hc as (i & Hi & <-).
    rewrite codewords_length in Hi. rewrite nth_codewords by auto. rewrite <- !N by auto. apply I2; auto.
  - intros i Hi. rewrite <- !N by lia. apply I3; auto.
Qed.

Lemma exhaustive_hard_spec C r : encoder_ok C -> length r = bc_n C ->
  exists j, j < 2 ^ bc_k C /\ exhaustive_hard C r = message (bc_k C) j /\
    nearest_codeword C r (bc_encode C (message (bc_k C) j)) /\
    (forall i, i < j -> hdist r (bc_encode C (message (bc_k C) j)) < hdist r (bc_encode C (message (bc_k C) i))).
Proof.
  intros OE Lr.
  destruct (exhaustive_generic Nat.leb (fun c => vsum (vxor r c)) 0 C OE) as (j & H1 & H2 & H3 & H4).
  - intros x y. rewrite !Nat.leb_le. lia.
  - intros x y z. rewrite !Nat.leb_le. lia.
  - exists j. split; auto. split; auto. split.
    + split; [exists (message (bc_k C) j); split; auto using message_length|].
      intros c Hc. specialize (H3 c Hc). rewrite Nat.leb_le, !vsum_weight in H3. exact H3.
    + intros i Hi. specialize (H4 i Hi). rewrite Nat.leb_gt, !vsum_weight in H4. exact H4.
Qed.

Lemma soft_metric_correlation r c : (soft_metric r c == - correlation r c)%Q.
Proof.
  revert c; induction r as [|x r IH]; intros [|b c]; cbn; try reflexivity.
  rewrite IH. unfold sign. destruct b; ring.
Qed.

Lemma exhaustive_soft_spec C r : encoder_ok C ->
  exists j, j < 2 ^ bc_k C /\ exhaustive_soft C r = message (bc_k C) j /\
    (forall c, is_codeword C c -> (correlation r c <= correlation r (bc_encode C (message (bc_k C) j)))%Q) /\
    (forall i, i < j -> (correlation r (bc_encode C (message (bc_k C) i)) < correlation r (bc_encode C (message (bc_k C) j)))%Q).
Proof.
  intros OE.
  destruct (exhaustive_generic Qle_bool (soft_metric r) 0%Q C OE) as (j & H1 & H2 & H3 & H4).
  - intros x y. rewrite !Qle_bool_iff. destruct (Qlt_le_dec x y); [left; lra|right; auto].
  - intros x y z. rewrite !Qle_bool_iff. lra.
  - exists j. split; auto. split; auto. split.
    + intros c Hc. specialize (H3 c Hc). rewrite Qle_bool_iff, !soft_metric_correlation in H3. lra.
    + intros i Hi. specialize (H4 i Hi).
      assert (Q : ~ (soft_metric r (bc_encode C (message (bc_k C) i)) <= soft_metric r (bc_encode C (message (bc_k C) j)))%Q).
      { rewrite <- Qle_bool_iff. congruence. }
      rewrite !soft_metric_correlation in Q. lra.
Qed.

(* ---- Slepian array ---- *)
Lemma slepian_spec C lds : valid_code C -> leaders_spec C lds ->
  (* every word occurs exactly once *)
  (forall r, length r = bc_n C -> exists i j, i < 2 ^ bc_m C /\ j < 2 ^ bc_k C /\ slepian_entry C lds i j = r /\
     forall i' j', i' < 2 ^ bc_m C -> j' < 2 ^ bc_k C -> slepian_entry C lds i' j' = r -> i' = i /\ j' = j) /\
  (* row i is a coset: all its entries have syndrome i and none is lighter than its leader *)
  (forall i j, i < 2 ^ bc_m C -> j < 2 ^ bc_k C ->
     bc_check C (slepian_entry C lds i j) = message (bc_m C) i /\
     weight (nth i lds []) <= weight (slepian_entry C lds i j)) /\
  (* column j: the codeword at its head is nearest to all its entries *)
  (forall i j, i < 2 ^ bc_m C -> j < 2 ^ bc_k C ->
     nearest_codeword C (slepian_entry C lds i j) (bc_encode C (message (bc_k C) j))).
Proof.
  intros V [LS HS]. pose proof (ok_checker C V) as OK. pose proof (ok_encoder C V) as OE.
  assert (Len : forall i, i < 2 ^ bc_m C -> length (nth i lds []) = bc_n C) by (intros i Hi; apply HS; auto).
  assert (LenE : forall j, length (bc_encode C (message (bc_k C) j)) = bc_n C).
  { intros j. apply (ok_encode_length C OE). apply message_length. }
  assert (LenS : forall i j, i < 2 ^ bc_m C -> length (slepian_entry C lds i j) = bc_n C).
  { intros i j Hi. unfold slepian_entry. rewrite vxor_length; rewrite Len; auto. }
  assert (Ck : forall i j, i < 2 ^ bc_m C -> bc_check C (slepian_entry C lds i j) = message (bc_m C) i).
  { intros i j Hi. destruct (HS i Hi) as (Ln & Ec & _). rewrite <- Ec. apply coset_codeword; auto.
    unfold slepian_entry. rewrite vxor_comm, vxor_cancel by (rewrite LenE; auto).
    exists (message (bc_k C) j). split; auto. apply message_length. }
  split; [|split].
  - intros r Lr. destruct (syndrome_index C r OK Lr) as (Hi & Ei). cbn zeta in *. set (i := N.to_nat _) in *.
    destruct (HS i Hi) as (Ln & Ec & _).
    assert (Hc : is_codeword C (vxor (nth i lds []) r)) by (apply coset_codeword; auto; congruence).
    apply in_codewords in Hc. apply In_nth with (d := []) in Hc as (j & Hj & Ej). rewrite codewords_length in Hj.
    rewrite nth_codewords in Ej by auto. exists i, j. split; auto. split; auto. split.
    + unfold slepian_entry. rewrite Ej, vxor_cancel; congruence.
    + intros i' j' Hi' Hj' E.
      assert (i' = i).
      { apply (message_inj (bc_m C)); auto. rewrite <- (Ck i' j') by auto. rewrite E. auto. }
      subst i'. split; auto. apply (message_inj (bc_k C)); auto.
      apply (ok_encode_injective C OE); auto using message_length. rewrite Ej, <- E. unfold slepian_entry.
      rewrite vxor_cancel; auto. rewrite Len, LenE; auto.
  - intros i j Hi Hj. split; auto. apply HS; auto.
  - intros i j Hi Hj. split; [exists (message (bc_k C) j); split; auto; apply message_length|].
    intros c Hc. assert (Lc : length c = bc_n C) by (apply codeword_length; auto).
    unfold hdist. unfold slepian_entry at 1. rewrite vxor_cancel_r by (rewrite LenE, Len; auto).
    destruct (HS i Hi) as (Ln & Ec & M). apply M; [rewrite vxor_length; rewrite LenS; auto|].
    rewrite <- (Ck i j Hi). apply coset_codeword; auto.
    + rewrite vxor_length; rewrite LenS; auto.
    + rewrite (vxor_comm _ c), vxor_cancel_r; auto. rewrite LenS; auto.
Qed.
