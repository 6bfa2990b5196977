From Verif Require Import Common Bits_Model.
Local Open Scope N_scope.

Lemma int_to_bits_length n w o : length (int_to_bits n w o) = w.
Proof. destruct o; cbn [int_to_bits]; rewrite map_length, seq_length; reflexivity. Qed.

Lemma int_to_bits_msb n w : int_to_bits n w MSB_first = rev (int_to_bits n w LSB_first).
Proof.
  apply (list_ext false).
  - rewrite rev_length, !int_to_bits_length; reflexivity.
  - intros i Hi; rewrite int_to_bits_length in Hi.
    rewrite rev_nth by (rewrite int_to_bits_length; lia).
    rewrite int_to_bits_length; cbn [int_to_bits].
    rewrite !nth_map_seq by lia. f_equal; lia.
Qed.

Lemma byte_of_app a b : byte_of (a ++ b) = byte_of a + 2 ^ N.of_nat (length a) * byte_of b.
Proof.
  induction a as [|x a IH].
  - change (byte_of ([] ++ b)) with (byte_of b). change (byte_of []) with 0.
    cbn [length]. change (N.of_nat 0) with 0. rewrite N.pow_0_r; lia.
  - change (byte_of ((x :: a) ++ b)) with ((if x then 1 else 0) + 2 * byte_of (a ++ b)).
    change (byte_of (x :: a)) with ((if x then 1 else 0) + 2 * byte_of a).
    cbn [length]. rewrite IH, Nat2N.inj_succ, N.pow_succ_r'. destruct x; lia.
Qed.

Lemma byte_of_bound a : byte_of a < 2 ^ N.of_nat (length a).
Proof.
  induction a as [|x a IH]; [reflexivity|].
  cbn [length byte_of fold_right]. rewrite Nat2N.inj_succ, N.pow_succ_r'. fold (byte_of a). destruct x; lia.
Qed.

Lemma packbits_spec fuel bs : (length bs <= fuel)%nat -> from_bytes_little (packbits fuel bs) = byte_of bs.
Proof.
  revert bs; induction fuel as [|f IH]; intros bs H.
  - destruct bs; cbn in *; [reflexivity|lia].
  - destruct bs as [|b bs]; [reflexivity|].
    cbn [packbits from_bytes_little fold_right].
    fold (from_bytes_little (packbits f (skipn 8 (b :: bs)))).
    rewrite IH by (rewrite skipn_length; cbn [length] in *; lia).
    rewrite <- (firstn_skipn 8 (b :: bs)) at 3. rewrite byte_of_app.
    destruct (le_lt_dec 8 (length (b :: bs))) as [Hl|Hl].
    + rewrite firstn_length_le by lia. reflexivity.
    + rewrite skipn_all2 by lia. change (byte_of []) with 0; lia.
Qed.

Lemma bits_to_int_lsb bs : bits_to_int bs LSB_first = byte_of bs.
Proof. apply packbits_spec; lia. Qed.

Lemma bits_to_int_msb bs : bits_to_int bs MSB_first = byte_of (rev bs).
Proof. apply packbits_spec; lia. Qed.

Lemma bit_at_0 b x : bit_at (N.b2n b + 2 * x) 0 = b.
Proof. unfold bit_at; cbn [N.of_nat]; rewrite N.shiftr_0_r. destruct b; cbn [N.b2n].
  - rewrite N.add_comm, N.odd_add, N.odd_mul; reflexivity.
  - rewrite N.add_0_l, N.odd_mul; reflexivity. Qed.

Lemma bit_at_S b x i : bit_at (N.b2n b + 2 * x) (S i) = bit_at x i.
Proof. unfold bit_at. rewrite Nat2N.inj_succ, <- N.add_1_l, <- N.shiftr_shiftr.
  f_equal; f_equal. rewrite N.shiftr_div_pow2, N.pow_1_r, (N.mul_comm 2), N.div_add by lia.
  rewrite N.div_small by (destruct b; cbn; lia); reflexivity. Qed.

Lemma int_to_bits_byte bs : int_to_bits (byte_of bs) (length bs) LSB_first = bs.
Proof.
  cbn [int_to_bits]. induction bs as [|b bs IH]; [reflexivity|].
  cbn [length seq map byte_of fold_right]. fold (byte_of bs).
  change (if b then 1 else 0) with (N.b2n b). rewrite bit_at_0. f_equal.
  rewrite <- IH at 2. rewrite <- seq_shift, map_map. apply map_ext. intros; apply bit_at_S.
Qed.

Lemma N_step n : n = N.b2n (N.odd n) + 2 * N.div2 n.
Proof. rewrite N.add_comm. apply N.div2_odd. Qed.

Lemma byte_of_int_to_bits w : forall n, byte_of (int_to_bits n w LSB_first) = n mod 2 ^ N.of_nat w.
Proof.
  induction w as [|w IH]; intros n.
  - cbn. rewrite N.mod_1_r; reflexivity.
  - cbn [int_to_bits seq map byte_of fold_right]. rewrite <- seq_shift, map_map.
    change (if bit_at n 0 then 1 else 0) with (N.b2n (bit_at n 0)).
    fold (byte_of (map (fun x : nat => bit_at n (S x)) (seq 0 w))).
    assert (E : map (fun x : nat => bit_at n (S x)) (seq 0 w) = int_to_bits (N.div2 n) w LSB_first).
    { cbn [int_to_bits]. apply map_ext; intros i. rewrite (N_step n) at 1. apply bit_at_S. }
    rewrite E, IH. rewrite (N_step n) at 1. rewrite bit_at_0.
    rewrite Nat2N.inj_succ, N.pow_succ_r', N.div2_div.
    rewrite (N.mod_mul_r n 2) by (try apply N.pow_nonzero; lia).
    f_equal. rewrite <- N.bit0_odd. rewrite N.bit0_mod; reflexivity.
Qed.

Lemma bits_int_round_trip n w o : n < 2 ^ N.of_nat w -> bits_to_int (int_to_bits n w o) o = n.
Proof.
  intros H. destruct o.
  - rewrite bits_to_int_lsb, byte_of_int_to_bits, N.mod_small; auto.
  - rewrite bits_to_int_msb, int_to_bits_msb, rev_involutive, byte_of_int_to_bits, N.mod_small; auto.
Qed.

Lemma int_bits_round_trip bs o : int_to_bits (bits_to_int bs o) (length bs) o = bs.
Proof.
  destruct o.
  - rewrite bits_to_int_lsb; apply int_to_bits_byte.
  - rewrite bits_to_int_msb, int_to_bits_msb, <- (rev_length bs), int_to_bits_byte, rev_involutive; reflexivity.
Qed.

Lemma bits_to_int_bound bs o : bits_to_int bs o < 2 ^ N.of_nat (length bs).
Proof. destruct o; [rewrite bits_to_int_lsb|rewrite bits_to_int_msb, <- rev_length]; apply byte_of_bound. Qed.

Lemma bits_to_int_testbit bs i : N.testbit (bits_to_int bs LSB_first) (N.of_nat i) = nth i bs false.
Proof.
  rewrite bits_to_int_lsb. revert i; induction bs as [|b bs IH]; intros i.
  - cbn. destruct i; reflexivity.
  - cbn [byte_of fold_right]. fold (byte_of bs). change (if b then 1 else 0) with (N.b2n b).
    rewrite N.add_comm. destruct i as [|i].
    + cbn [N.of_nat nth]. apply N.testbit_0_r.
    + rewrite Nat2N.inj_succ. cbn [nth]. rewrite N.testbit_succ_r. apply IH.
Qed.
