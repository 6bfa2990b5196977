(* Proofs about Walsh-Hadamard sequences. *)
From Verif Require Import Common Bits_Model Bits_Proof Labeling_Proof Walsh_Model Walsh_Spec.
Local Open Scope nat_scope.

Notation g2 := [[1; 1]; [1; -1]]%Z.
(* one Kronecker step on a row *)
Definition step (b : bool) (r : list Z) : list Z := flat_map (fun a => [a; if b then - a else a]%Z) r.
Lemma kron_g2 h : kron h g2 = flat_map (fun r => [step false r; step true r]) h.
Proof.
  unfold kron. apply flat_map_ext. intros r. cbn [map]. f_equal; [|f_equal]; unfold step; apply flat_map_ext; intros a; cbn [map]; repeat (f_equal; try lia).
Qed.
Lemma nth_pairs {A} (f : bool -> list A -> list A) (h : list (list A)) : forall a (b : bool), a < length h ->
  nth (2 * a + Nat.b2n b) (flat_map (fun r => [f false r; f true r]) h) [] = f b (nth a h []).
Proof.
  induction h as [|r h IH]; intros a b Ha; cbn [length] in Ha; [lia|]. destruct a as [|a].
  - destruct b; reflexivity.
  - cbn [flat_map app]. replace (2 * S a + Nat.b2n b) with (S (S (2 * a + Nat.b2n b))) by lia. cbn [nth]. apply IH. lia.
Qed.
Lemma hadamard_length m : length (hadamard_iter m) = 2 ^ m.
Proof.
  induction m as [|m IH]; [reflexivity|]. cbn [hadamard_iter]. rewrite kron_g2, Nat.pow_succ_r', <- IH. clear. induction (hadamard_iter m); cbn; auto. lia.
Qed.

(* the row selected by a list of bits, least significant first *)
Fixpoint wrow (l : list bool) : list Z := match l with [] => [1%Z] | b :: l => step b (wrow l) end.
Fixpoint idx (l : list bool) : nat := match l with [] => 0 | b :: l => Nat.b2n b + 2 * idx l end.
Lemma idx_bound l : idx l < 2 ^ length l.
Proof. induction l as [|b l IH]; cbn [idx length]; [auto|]. rewrite Nat.pow_succ_r'. destruct b; cbn [Nat.b2n]; lia. Qed.
Lemma hadamard_row l : nth (idx l) (hadamard_iter (length l)) [] = wrow l.
Proof.
  induction l as [|b l IH]; [reflexivity|]. cbn [idx length hadamard_iter wrow]. rewrite kron_g2, Nat.add_comm, (nth_pairs step).
  - now rewrite IH.
  - rewrite hadamard_length. apply idx_bound.
Qed.
Lemma idx_byte l : idx l = N.to_nat (byte_of l).
Proof. induction l as [|b l IH]; [reflexivity|]. cbn [idx]. change (byte_of (b :: l)) with ((if b then 1 else 0) + 2 * byte_of l)%N. rewrite IH. destruct b; cbn [Nat.b2n]; lia. Qed.
Lemma idx_inj l : forall l', length l = length l' -> idx l = idx l' -> l = l'.
Proof.
  induction l as [|b l IH]; intros [|b' l'] L E; cbn [length idx] in *; try lia; auto.
  assert (b = b') by (destruct b, b'; cbn [Nat.b2n] in E; auto; lia). subst. f_equal. apply IH; lia.
Qed.
Lemma wrow_length l : length (wrow l) = 2 ^ length l.
Proof. induction l as [|b l IH]; [reflexivity|]. cbn [wrow length]. rewrite Nat.pow_succ_r', <- IH. unfold step. generalize (wrow l). clear. intros w. induction w; cbn; auto. lia. Qed.
Lemma wrow_pm l : Forall (fun x => x = 1 \/ x = -1)%Z (wrow l).
Proof.
  induction l as [|b l IH]; cbn [wrow]; [repeat constructor; auto|]. unfold step. apply Forall_forall. intros x Hx. apply in_flat_map in Hx as (a & Ha & Hx).
  rewrite Forall_forall in IH. specialize (IH a Ha). destruct Hx as [<-|[<-|[]]]; auto. destruct b; lia.
Qed.

Lemma inner_step b b' r : forall r', length r = length r' ->
  inner (step b r) (step b' r') = ((if Bool.eqb b b' then 2 else 0) * inner r r')%Z.
Proof.
  unfold inner, step. induction r as [|x r IH]; intros [|y r'] L; cbn [length] in L; try lia; [cbn; lia|].
  cbn [flat_map app combine map fold_right fst snd]. rewrite IH by lia. destruct b, b'; cbn [Bool.eqb]; lia.
Qed.
Lemma inner_wrow l : forall l', length l = length l' -> inner (wrow l) (wrow l') = if list_eq_dec Bool.bool_dec l l' then Z.of_nat (2 ^ length l) else 0%Z.
Proof.
  induction l as [|b l IH]; intros [|b' l'] L; cbn [length] in L; try lia.
  - destruct (list_eq_dec Bool.bool_dec [] []); [reflexivity|congruence].
  - cbn [wrow]. rewrite inner_step by (rewrite !wrow_length; f_equal; lia). rewrite IH by lia. cbn [length]. rewrite Nat.pow_succ_r'.
    destruct (list_eq_dec Bool.bool_dec l l') as [El|N], (list_eq_dec Bool.bool_dec (b :: l) (b' :: l')) as [E|N'].
    + inversion E; subst. rewrite Bool.eqb_reflx. lia.
    + destruct (Bool.eqb_spec b b'); [subst; congruence|]. lia.
    + inversion E; congruence.
    + lia.
Qed.

(* sign changes *)
Lemma sign_changes_cons x y t : sign_changes (x :: y :: t) = (if Z.eqb x y then 0 else 1) + sign_changes (y :: t).
Proof. reflexivity. Qed.
Lemma step_cons b x r : step b (x :: r) = x :: (if b then - x else x)%Z :: step b r.
Proof. reflexivity. Qed.
Lemma sign_changes_bound x r : sign_changes (x :: r) <= length r.
Proof. revert x. induction r as [|y r IH]; intros x; [cbn; lia|]. rewrite sign_changes_cons. specialize (IH y). cbn [length]. destruct (x =? y)%Z; lia. Qed.
Lemma sign_changes_step b x r : Forall (fun x => x = 1 \/ x = -1)%Z (x :: r) ->
  sign_changes (step b (x :: r)) = if b then 2 * length (x :: r) - 1 - sign_changes (x :: r) else sign_changes (x :: r).
Proof.
  revert x. induction r as [|y r IH]; intros x F.
  - destruct b; cbn; [|rewrite Z.eqb_refl; reflexivity]. inversion F as [|? ? Hx _]; subst. destruct Hx; subst; reflexivity.
  - inversion F as [|? ? Hx F']; subst. inversion F' as [|? ? Hy _]; subst. specialize (IH y F'). rewrite step_cons, sign_changes_cons, (sign_changes_cons x y).
    rewrite step_cons in IH |- *. rewrite sign_changes_cons, IH. pose proof (sign_changes_bound y r). cbn [length]. 
    destruct b, Hx as [-> | ->], Hy as [-> | ->]; cbn -[sign_changes Nat.mul]; lia.
Qed.
Fixpoint scl (l : list bool) : nat := match l with [] => 0 | b :: l => if b then 2 ^ S (length l) - 1 - scl l else scl l end.
Lemma sign_changes_wrow l : sign_changes (wrow l) = scl l.
Proof.
  induction l as [|b l IH]; [reflexivity|]. cbn [wrow scl]. pose proof (wrow_length l) as L. pose proof (wrow_pm l) as F. destruct (wrow l) as [|x r]; [cbn in L; pose proof (Nat.pow_nonzero 2 (length l)); lia|].
  rewrite sign_changes_step by auto. rewrite IH, L, Nat.pow_succ_r'. reflexivity.
Qed.

(* most significant bit first *)
Fixpoint msb (l : list bool) : nat := match l with [] => 0 | b :: l => Nat.b2n b * 2 ^ length l + msb l end.
Fixpoint grayl (c : bool) (p : list bool) : list bool := match p with [] => [] | b :: p => xorb c b :: grayl b p end.
Lemma grayl_length c p : length (grayl c p) = length p.
Proof. revert c. induction p; intros; cbn; auto. Qed.
Lemma msb_negb p : msb (map negb p) + msb p = 2 ^ length p - 1.
Proof. induction p as [|b p IH]; [reflexivity|]. cbn [map msb length]. rewrite map_length, Nat.pow_succ_r'. pose proof (Nat.pow_nonzero 2 (length p)). destruct b; cbn [negb Nat.b2n]; lia. Qed.
Lemma scl_grayl p : forall c, scl (grayl c p) = if c then msb (map negb p) else msb p.
Proof.
  induction p as [|b p IH]; intros c; [destruct c; reflexivity|]. cbn [grayl scl]. rewrite grayl_length, IH, Nat.pow_succ_r'. cbn [map msb]. rewrite map_length.
  pose proof (msb_negb p). pose proof (Nat.pow_nonzero 2 (length p)). destruct c, b; cbn [xorb negb Nat.b2n]; lia.
Qed.
Lemma byte_of_idx_rev l : msb l = N.to_nat (byte_of (rev l)).
Proof.
  rewrite <- idx_byte. induction l as [|b l IH]; [reflexivity|]. cbn [msb rev]. rewrite IH. generalize (rev l), (rev_length l). clear. intros r E. rewrite <- E. clear E l.
  induction r as [|c r IH]; cbn [idx app length]; [destruct b; reflexivity|]. rewrite Nat.pow_succ_r'. lia.
Qed.
Lemma int_to_bits_msb_S n m : int_to_bits n (S m) MSB_first = bit_at n m :: int_to_bits n m MSB_first.
Proof.
  unfold int_to_bits. cbn [seq map]. f_equal; [f_equal; lia|]. rewrite <- seq_shift, map_map. apply map_ext. intros j. f_equal. lia.
Qed.
Lemma gray_bits_msb n m : int_to_bits (Labeling_Model.gray n) m MSB_first = grayl (bit_at n m) (int_to_bits n m MSB_first).
Proof.
  induction m as [|m IH]; [reflexivity|]. rewrite !int_to_bits_msb_S. cbn [grayl]. rewrite <- IH. f_equal.
  rewrite !bit_at_testbit, gray_testbit, xorb_comm. do 2 f_equal. lia.
Qed.
Lemma msb_int_to_bits n m : (n < 2 ^ N.of_nat m)%N -> msb (int_to_bits n m MSB_first) = N.to_nat n.
Proof. intros H. rewrite byte_of_idx_rev. f_equal. rewrite <- bits_to_int_msb. now apply bits_int_round_trip. Qed.

Lemma sequency_changes n m : (n < 2 ^ N.of_nat m)%N -> sign_changes (wrow (int_to_bits (Labeling_Model.gray n) m MSB_first)) = N.to_nat n.
Proof.
  intros H. rewrite sign_changes_wrow, gray_bits_msb. rewrite scl_grayl. replace (bit_at n m) with false; [now apply msb_int_to_bits|].
  symmetry. rewrite bit_at_testbit. apply (testbit_above n m); auto. lia.
Qed.

(* powers of two *)
Lemma land_pred_pos : forall p, N.land (N.pos p) (N.pos p - 1) = 0%N -> exists m, N.pos p = (2 ^ N.of_nat m)%N.
Proof.
  induction p as [p IH|p IH|]; intros H.
  - exfalso. replace (N.pos p~1 - 1)%N with (N.pos p~0) in H by lia. apply (f_equal N.div2) in H. replace (N.div2 (N.land (N.pos p~1) (N.pos p~0))) with (N.land (N.pos p) (N.pos p)) in H by (cbn; destruct (Pos.land p p); reflexivity). rewrite N.land_diag in H. discriminate.
  - destruct IH as (m & E).
    + apply N.bits_inj. intros j. rewrite N.bits_0. apply (f_equal (fun z => N.testbit z (j + 1))) in H. rewrite N.bits_0, N.land_spec in H. rewrite N.land_spec.
      replace (N.pos p~0) with (2 * N.pos p)%N in H by reflexivity. rewrite N.add_1_r, N.testbit_even_succ in H by lia.
      replace (2 * N.pos p - 1)%N with (2 * (N.pos p - 1) + 1)%N in H by lia. rewrite N.testbit_odd_succ in H by lia. exact H.
    + exists (S m). rewrite Nat2N.inj_succ, N.pow_succ_r'. rewrite <- E. reflexivity.
  - exists 0. reflexivity.
Qed.
Lemma bit_length_pow m : bit_length (2 ^ N.of_nat m) = S m.
Proof. unfold bit_length. rewrite N.size_log2 by (apply N.pow_nonzero; lia). rewrite N.log2_pow2 by lia. lia. Qed.
Lemma bit_length_pred m : bit_length (2 ^ N.of_nat m - 1) = m.
Proof.
  unfold bit_length. destruct m as [|m]; [reflexivity|]. assert (P : (2 <= 2 ^ N.of_nat (S m))%N) by (rewrite Nat2N.inj_succ, N.pow_succ_r'; pose proof (N.pow_nonzero 2 (N.of_nat m)); lia).
  rewrite N.size_log2 by lia. replace (2 ^ N.of_nat (S m) - 1)%N with (N.pred (2 ^ N.of_nat (S m))) by lia. rewrite N.log2_pred_pow2 by lia. lia.
Qed.

(* what the constructor returns *)
Definition row_bits (m : nat) (o : ordering) (i : N) : list bool :=
  match o with Natural => int_to_bits i m LSB_first | Sequency => int_to_bits (Labeling_Model.gray i) m MSB_first end.
Lemma walsh_inv length o index s : WalshHadamard length o index = Some s ->
  exists m, length = Z.of_nat (2 ^ m) /\ (0 <= index < length)%Z /\ s = wrow (row_bits m o (Z.to_N index)) /\ (Z.to_N index < 2 ^ N.of_nat m)%N.
Proof.
  unfold WalshHadamard. destruct (Z.eqb_spec (Z.land length (length - 1)) 0) as [E|]; cbn [negb]; [|discriminate].
  destruct (Z.leb_spec 0 index); cbn [andb negb]; [|discriminate]. destruct (Z.ltb_spec index length); cbn [negb]; [|discriminate]. intros H1; inversion H1; subst s; clear H1.
  assert (P : exists m, Z.to_N length = (2 ^ N.of_nat m)%N).
  { destruct length as [|p|p]; try lia. apply (land_pred_pos p). apply N2Z.inj. assert (LN : forall a b : N, Z.land (Z.of_N a) (Z.of_N b) = Z.of_N (N.land a b)) by (intros [] []; reflexivity). rewrite <- LN, N2Z.inj_sub by lia. exact E. }
  destruct P as (m & P). exists m. assert (EL : length = Z.of_nat (2 ^ m)) by (rewrite <- (Z2N.id length), P by lia; rewrite <- pow2_N; lia).
  assert (B : (Z.to_N index < 2 ^ N.of_nat m)%N) by (rewrite <- P; apply Z2N.inj_lt; lia).
  split; auto. split; [lia|]. split; auto. unfold hadamard_matrix. rewrite P, bit_length_pow, bit_length_pred. cbn [Nat.sub]. rewrite Nat.sub_0_r.
  assert (R : forall l, List.length l = m -> nth (idx l) (hadamard_iter m) [] = wrow l) by (intros l <-; apply hadamard_row).
  destruct o; cbn [row_bits].
  - rewrite <- (R (int_to_bits (Z.to_N index) m LSB_first)) by apply int_to_bits_length. f_equal. rewrite idx_byte, byte_of_int_to_bits, N.mod_small by auto. reflexivity.
  - fold (Labeling_Model.gray (Z.to_N index)). rewrite <- (R (int_to_bits (Labeling_Model.gray (Z.to_N index)) m MSB_first)) by apply int_to_bits_length. f_equal. rewrite idx_byte, bits_to_int_lsb. reflexivity.
Qed.
Lemma row_bits_length m o i : length (row_bits m o i) = m.
Proof. destruct o; apply int_to_bits_length. Qed.
Lemma row_bits_inj m o i j : (i < 2 ^ N.of_nat m)%N -> (j < 2 ^ N.of_nat m)%N -> row_bits m o i = row_bits m o j -> i = j.
Proof.
  intros Hi Hj E. destruct o; cbn [row_bits] in E.
  - apply (f_equal (fun b => bits_to_int b LSB_first)) in E. rewrite !bits_int_round_trip in E by auto. auto.
  - apply (f_equal (fun b => bits_to_int b MSB_first)) in E. rewrite !bits_int_round_trip in E by (now apply gray_bound).
    apply (f_equal (Labeling_Model.ungray m)) in E. rewrite !ungray_gray in E by auto. auto.
Qed.
Lemma walsh_accepts m o index : (0 <= index < Z.of_nat (2 ^ m))%Z -> exists s, WalshHadamard (Z.of_nat (2 ^ m)) o index = Some s.
Proof.
  intros H. unfold WalshHadamard. assert (E : Z.land (Z.of_nat (2 ^ m)) (Z.of_nat (2 ^ m) - 1) = 0%Z).
  { replace (Z.of_nat (2 ^ m)) with (2 ^ Z.of_nat m)%Z by (rewrite <- (Nat2Z.inj_pow 2); reflexivity). replace (2 ^ Z.of_nat m - 1)%Z with (Z.ones (Z.of_nat m)) by (rewrite Z.ones_equiv; lia). rewrite Z.land_ones by lia. apply Z.mod_same. apply Z.pow_nonzero; lia. }
  rewrite E. cbn [Z.eqb negb]. destruct (Z.leb_spec 0 index); [|lia]. destruct (Z.ltb_spec index (Z.of_nat (2 ^ m))); [|lia]. cbn [andb negb]. eexists; reflexivity.
Qed.
