(* LFSR sequences: C55. *)
From Verif Require Import Common Bits_Model BinPoly_Model Algebra_Spec LFSR_Model LFSR_Spec Walsh_Model Corr_Model.
From Verif Require Bits_Proof LFSR_Proof LFSR_Poly Vec_Model Vec_Proof Props_Algebra.
Local Open Scope nat_scope.
Notation degree f := (BinPoly_Model.bit_length f - 1).

Lemma start_nonzero start n : (start mod 2 ^ N.of_nat n <> 0)%N -> int_to_bits start n LSB_first <> Vec_Model.zeros n.
Proof.
  intros H E. apply H. apply N.bits_inj. intros k. rewrite N.bits_0. destruct (N.lt_ge_cases k (N.of_nat n)) as [L|L].
  - rewrite N.mod_pow2_bits_low by auto. assert (X : nth (N.to_nat k) (int_to_bits start n LSB_first) false = false) by (rewrite E; apply Vec_Proof.nth_zeros).
    cbn [int_to_bits] in X. rewrite nth_map_seq in X by lia. unfold bit_at in X. rewrite N2Nat.id in X. rewrite <- N.bit0_odd, N.shiftr_spec' in X. exact X.
  - now apply N.mod_pow2_bits_high.
Qed.

(* every feedback polynomial except 1 is accepted *)
Theorem C55_accepts : forall f start, LFSRSequence f start = None <-> f = 1%N.
Proof.
  intros f start. split.
  - intros H. destruct (N.eq_dec f 1); auto. exfalso. destruct (N.eq_dec f 0) as [->|n0]; [discriminate H|].
    destruct (LFSR_Proof.bl_pos f n0) as (m & E & _). unfold LFSRSequence in H. rewrite (LFSR_Proof.lfsr_eq f m E) in H; [discriminate|].
    destruct m; [|lia]. destruct f as [|[]]; cbn in E; try easy; destruct p; discriminate.
  - intros ->. reflexivity.
Qed.
(* the first n bits are the start state read from the top, and every later bit is the sum of the tapped earlier bits *)
Theorem C55_recurrence : forall f start s, N.odd f = true -> 1 <= degree f -> LFSRSequence f start = Some s ->
  length s = 2 ^ degree f - 1 /\
  (forall j, j < degree f -> j < length s -> nth j s false = N.testbit start (N.of_nat (degree f - 1 - j))) /\
  (forall j, j + degree f < length s -> nth (j + degree f) s false = tap_sum f (degree f) (fun i => nth i s false) j).
Proof.
  intros f start s Ho Hd H. set (n := degree f) in *. assert (Hn : LFSR_Proof.bl f = S n) by (unfold n in *; lia). unfold LFSRSequence in H. rewrite (LFSR_Proof.lfsr_eq f n Hn Hd) in H. injection H as <-.
  set (st := int_to_bits start n LSB_first). assert (Ls : length st = n) by apply Bits_Proof.int_to_bits_length. rewrite LFSR_Proof.loop_length. split; [reflexivity|]. split.
  - intros j Hj Hl. rewrite (LFSR_Proof.loop_nth f n Hn Hd) by auto. rewrite (LFSR_Proof.out_start f n Hn Hd) by auto. unfold st. cbn [int_to_bits]. rewrite nth_map_seq by lia.
    unfold bit_at. now rewrite <- N.bit0_odd, N.shiftr_spec'.
  - intros j Hj. rewrite (LFSR_Proof.loop_nth f n Hn Hd) by auto. rewrite (LFSR_Proof.out_tap_sum f n Hn Hd) by auto. rewrite Ho. cbn [negb andb]. rewrite xorb_false_l.
    unfold tap_sum. f_equal. apply map_ext_in. intros t Ht. apply in_seq in Ht. rewrite (LFSR_Proof.loop_nth f n Hn Hd) by lia. reflexivity.
Qed.
(* a feedback polynomial without constant term is not rejected; its highest tap is then silently cancelled *)
Theorem C55_even_feedback : forall f start s, N.odd f = false -> 1 <= degree f -> LFSRSequence f start = Some s ->
  forall j, j + degree f < length s -> nth (j + degree f) s false = xorb (nth j s false) (tap_sum f (degree f) (fun i => nth i s false) j).
Proof.
  intros f start s Ho Hd H. set (n := degree f) in *. assert (Hn : LFSR_Proof.bl f = S n) by (unfold n in *; lia). unfold LFSRSequence in H. rewrite (LFSR_Proof.lfsr_eq f n Hn Hd) in H. injection H as <-.
  set (st := int_to_bits start n LSB_first). assert (Ls : length st = n) by apply Bits_Proof.int_to_bits_length. rewrite LFSR_Proof.loop_length.
  intros j Hj. rewrite !(LFSR_Proof.loop_nth f n Hn Hd) by lia. rewrite (LFSR_Proof.out_tap_sum f n Hn Hd) by auto. rewrite Ho. cbn [negb andb]. f_equal.
  unfold tap_sum. f_equal. apply map_ext_in. intros t Ht. apply in_seq in Ht. rewrite (LFSR_Proof.loop_nth f n Hn Hd) by lia. reflexivity.
Qed.
(* primitive feedback and a start state that is not zero: read cyclically, every non-zero word of n bits occurs at exactly one
   position, the zero word at none *)
Theorem C55_maximal : forall f start, is_primitive f = true -> (start mod 2 ^ N.of_nat (degree f) <> 0)%N ->
  exists s, LFSRSequence f start = Some s /\ length s = 2 ^ degree f - 1 /\
    (forall j, window s (degree f) j <> repeat false (degree f)) /\
    (forall w, length w = degree f -> w <> repeat false (degree f) -> exists! j, j < length s /\ window s (degree f) j = w).
Proof.
  intros f start Hp Hs. set (n := degree f) in *. pose proof (@LFSR_Poly.primitive_odd f Hp) as (Ho & H2). assert (Hn : LFSR_Proof.bl f = S n) by (unfold n, LFSR_Proof.bl in *; lia).
  assert (Hd : 1 <= n) by lia. set (st := int_to_bits start n LSB_first). assert (Ls : length st = n) by apply Bits_Proof.int_to_bits_length. pose proof (start_nonzero start n Hs) as Nz. fold st in Nz.
  unfold LFSRSequence. rewrite (LFSR_Proof.lfsr_eq f n Hn Hd). fold st. eexists. split; [reflexivity|]. rewrite LFSR_Proof.loop_length. split; [reflexivity|].
  assert (Rz : rev (Vec_Model.zeros n) = Vec_Model.zeros n).
  { apply list_ext with (d := false). { apply rev_length. } intros i Hi. rewrite rev_length in Hi. rewrite rev_nth by auto. now rewrite !Vec_Proof.nth_zeros. }
  split.
  - intros j. rewrite (LFSR_Proof.window_steps f n Hn Hp) by auto. intros E. apply (LFSR_Proof.steps_nonzero f n Hn Hd Ho j st Ls Nz). apply (f_equal (@rev bool)) in E. rewrite rev_involutive in E. rewrite E. exact Rz.
  - intros w Lw Nw. assert (I : In (rev w) (tl (LFSR_Proof.words n))).
    { apply LFSR_Proof.tl_words. rewrite rev_length. split; auto. intros E. apply Nw. apply (f_equal (@rev bool)) in E. rewrite rev_involutive, Rz in E. exact E. }
    pose proof (LFSR_Proof.orbit_perm f n Hn Hp st Ls Nz) as P. apply (Permutation.Permutation_in _ (Permutation.Permutation_sym P)) in I. apply in_map_iff in I as (j & Ej & Hj). apply in_seq in Hj.
    exists j. split.
    + split; [lia|]. rewrite (LFSR_Proof.window_steps f n Hn Hp) by auto. rewrite Ej. apply rev_involutive.
    + intros k [Hk Ek]. rewrite (LFSR_Proof.window_steps f n Hn Hp) in Ek by auto. apply (f_equal (@rev bool)) in Ek. rewrite rev_involutive in Ek.
      eapply (LFSR_Proof.steps_inj f n Hn Hd Ho Hp st); eauto; [lia|]. congruence.
Qed.
(* number of ones, and the two-valued cyclic autocorrelation of the polar sequence, at every shift *)
Theorem C55_balance : forall f start s, is_primitive f = true -> (start mod 2 ^ N.of_nat (degree f) <> 0)%N -> LFSRSequence f start = Some s -> count_ones s = 2 ^ (degree f - 1).
Proof.
  intros f start s Hp Hs H. set (n := degree f) in *. pose proof (@LFSR_Poly.primitive_odd f Hp) as (Ho & H2). assert (Hn : LFSR_Proof.bl f = S n) by (unfold n, LFSR_Proof.bl in *; lia).
  assert (Hd : 1 <= n) by lia. unfold LFSRSequence in H. rewrite (LFSR_Proof.lfsr_eq f n Hn Hd) in H. injection H as <-. rewrite (LFSR_Proof.loop_map f n Hn Hd).
  apply (LFSR_Proof.out_ones f n Hn Hp); [exact (Bits_Proof.int_to_bits_length start n LSB_first)|exact (start_nonzero start n Hs)].
Qed.
Theorem C55_autocorrelation : forall f start s l, is_primitive f = true -> (start mod 2 ^ N.of_nat (degree f) <> 0)%N -> LFSRSequence f start = Some s ->
  cyclic_at int_dtype (polar_of_bits (bit_values s)) l = if (l mod Z.of_nat (length s) =? 0)%Z then Z.of_nat (length s) else (-1)%Z.
Proof.
  intros f start s l Hp Hs H. set (n := degree f) in *. pose proof (@LFSR_Poly.primitive_odd f Hp) as (Ho & H2). assert (Hn : LFSR_Proof.bl f = S n) by (unfold n, LFSR_Proof.bl in *; lia).
  assert (Hd : 1 <= n) by lia. unfold LFSRSequence in H. rewrite (LFSR_Proof.lfsr_eq f n Hn Hd) in H. injection H as <-. rewrite LFSR_Proof.loop_length.
  apply (LFSR_Proof.autocorr f n Hn Hp); [exact (Bits_Proof.int_to_bits_length start n LSB_first)|exact (start_nonzero start n Hs)].
Qed.
(* maximum_length_sequence: degrees 1 .. 24 give such sequences, other degrees raise *)
Theorem C55_maximum_length_sequence : forall d start, (1 <= d <= 24)%N -> (start mod 2 ^ d <> 0)%N ->
  exists s, maximum_length_sequence d start = Some s /\ Z.of_nat (length s) = (2 ^ Z.of_N d - 1)%Z /\
    forall l, cyclic_at int_dtype (polar_of_bits (bit_values s)) l = if (l mod (2 ^ Z.of_N d - 1) =? 0)%Z then (2 ^ Z.of_N d - 1)%Z else (-1)%Z.
Proof.
  intros d start Hd Hs. destruct (Props_Algebra.C23_default_primitive d Hd) as (p & E & D & I & Dv & M). unfold maximum_length_sequence. rewrite E.
  assert (Ed : N.of_nat (degree p) = d) by (unfold pdegree in D; lia).
  assert (Hp : is_primitive p = true) by (apply Props_Algebra.C22_is_primitive; cbv zeta; rewrite Ed; auto).
  rewrite <- Ed in Hs. destruct (C55_maximal p start Hp Hs) as (s & Es & Ls & _). exists s. split; [exact Es|].
  assert (EL : Z.of_nat (length s) = (2 ^ Z.of_N d - 1)%Z). { rewrite Ls, <- Ed, nat_N_Z. pose proof (Nat.pow_nonzero 2 (degree p)). rewrite Nat2Z.inj_sub by lia. now rewrite (Nat2Z.inj_pow 2). }
  split; [exact EL|]. intros l. rewrite (C55_autocorrelation p start s l Hp Hs Es). now rewrite EL.
Qed.
Theorem C55_maximum_length_sequence_raises : forall d start, (d = 0 \/ 24 < d)%N -> maximum_length_sequence d start = None.
Proof. intros d start H. unfold maximum_length_sequence. now rewrite Props_Algebra.C23_outside_raises. Qed.
Example C55_satisfiable : is_primitive 37 = true /\ N.odd 37 = true /\ (1 mod 2 ^ N.of_nat (degree 37) <> 0)%N /\
  LFSRSequence 37 1 = Some (map (fun z => (z =? 1)%Z) [0; 0; 0; 0; 1; 0; 1; 0; 1; 1; 1; 0; 1; 1; 0; 0; 0; 1; 1; 1; 1; 1; 0; 0; 1; 1; 0; 1; 0; 0; 1]%Z).
Proof. vm_compute. repeat split. discriminate. Qed.
(* an even polynomial (X^3) and start states that are silently truncated to zero *)
Example C55_even_example : LFSRSequence 8 1 = Some [false; false; true; false; false; false; false] /\ LFSRSequence 11 8 = Some (repeat false 7).
Proof. vm_compute. repeat split. Qed.
(* the returned array need not be a whole number of periods: feedback (X^2+X+1)^2 has period 6, the array 15 bits *)
Example C55_not_whole_periods : exists s, LFSRSequence 21 1 = Some s /\ (forall j, j < 9 -> nth (j + 6) s false = nth j s false) /\ window s 1 15 <> window s 1 3.
Proof.
  eexists. split; [vm_compute; reflexivity|]. split.
  - intros j Hj. do 9 (destruct j as [|j]; [reflexivity|]). lia.
  - vm_compute. discriminate.
Qed.
