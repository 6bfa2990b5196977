From Verif Require Import Common IntegerCodes_Model.

(* ------------------------------------------------------------------- unary *)
Lemma unary_next_encode i rest : unary_next (unary_encode i ++ rest) = Some (unary_encode i, rest).
Proof. unfold unary_encode. induction i as [|i IH]; cbn in *; [reflexivity|]. rewrite IH; reflexivity. Qed.

Lemma unary_encode_length i : length (unary_encode i) = S i.
Proof. unfold unary_encode; rewrite app_length, repeat_length; cbn; lia. Qed.

Lemma unary_decode_word_encode i : unary_decode_word (unary_encode i) = i.
Proof. unfold unary_decode_word; rewrite unary_encode_length; lia. Qed.

Lemma unary_loop_round_trip xs : forall fuel, length (unary_code_encode xs) <= fuel ->
  unary_decode_loop fuel (unary_code_encode xs) = Some xs.
Proof.
  induction xs as [|x xs IH]; intros fuel H; [destruct fuel; reflexivity|].
  unfold unary_code_encode in *; cbn [flat_map] in *.
  rewrite app_length, unary_encode_length in H.
  destruct fuel as [|f]; [lia|].
  cbn [unary_decode_loop]. rewrite unary_next_encode, IH, unary_decode_word_encode by lia.
  unfold unary_encode; destruct x; reflexivity.
Qed.

Lemma unary_round_trip xs : unary_code_decode (unary_code_encode xs) = Some xs.
Proof. apply unary_loop_round_trip; lia. Qed.

Lemma unary_next_spec bits w r : unary_next bits = Some (w, r) ->
  bits = w ++ r /\ w = unary_encode (unary_decode_word w).
Proof.
  revert w r; induction bits as [|b bits IH]; intros w r H; [discriminate|].
  destruct b; cbn in H.
  - destruct (unary_next bits) as [[w' r']|] eqn:E; [|discriminate].
    inversion H; subst. destruct (IH _ _ eq_refl) as [-> Hw]. split; [reflexivity|].
    unfold unary_decode_word in *; cbn [length].
    assert (length w' = S (length w' - 1)) as Hl.
    { rewrite Hw at 1. rewrite unary_encode_length; reflexivity. }
    replace (S (length w') - 1) with (S (length w' - 1)) by lia.
    unfold unary_encode in *; cbn [repeat app]. f_equal; exact Hw.
  - inversion H; subst; auto.
Qed.

Lemma unary_loop_inv fuel : forall bits xs, unary_decode_loop fuel bits = Some xs -> unary_code_encode xs = bits.
Proof.
  induction fuel as [|f IH]; intros bits xs H.
  - destruct bits; cbn in H; [inversion H; reflexivity|discriminate].
  - destruct bits as [|b bits]; cbn [unary_decode_loop] in H; [inversion H; reflexivity|].
    destruct (unary_next (b :: bits)) as [[w r]|] eqn:E; [|discriminate].
    destruct (unary_decode_loop f r) as [out|] eqn:E2; [|discriminate].
    inversion H; subst. destruct (unary_next_spec _ _ _ E) as [-> Hw].
    unfold unary_code_encode in *; cbn [flat_map]. rewrite <- Hw. f_equal. apply IH; exact E2.
Qed.

Lemma unary_inverse bits xs : unary_code_decode bits = Some xs -> unary_code_encode xs = bits.
Proof. apply unary_loop_inv. Qed.

Lemma unary_accepts_loop bits : (bits = [] \/ last bits true = false) ->
  exists xs, bits = unary_code_encode xs.
Proof.
  assert (G : forall n bits, length bits <= n -> (bits = [] \/ last bits true = false) ->
              exists xs, bits = unary_code_encode xs).
  { induction n as [|n IH]; intros bs Hl H.
    - exists []. destruct bs; [reflexivity|cbn in Hl; lia].
    - destruct bs as [|b bs]; [exists []; reflexivity|].
      destruct H as [H|H]; [discriminate|]. cbn in Hl.
      destruct bs as [|b' bs'].
      + cbn in H; subst. exists [0]; reflexivity.
      + destruct (IH (b' :: bs')) as [xs Hxs]; [cbn in *; lia|right; exact H|].
        destruct b.
        * destruct xs as [|x xs]; [discriminate|]. exists (S x :: xs).
          rewrite Hxs. unfold unary_code_encode, unary_encode; reflexivity.
        * exists (0 :: xs). rewrite Hxs; reflexivity. }
  intros H; apply (G (length bits)); auto.
Qed.

Lemma last_app_ne {A} (a b : list A) d : b <> [] -> last (a ++ b) d = last b d.
Proof.
  intros Hb. induction a as [|x a IH]; [reflexivity|].
  cbn [app]. destruct (a ++ b) eqn:E; [destruct a; [cbn in E; congruence|discriminate]|]. exact IH.
Qed.

Lemma unary_encode_last xs : xs <> [] -> last (unary_code_encode xs) true = false.
Proof.
  induction xs as [|x xs IH]; [congruence|]. intros _.
  unfold unary_code_encode in *; cbn [flat_map].
  destruct xs as [|y ys].
  - cbn [flat_map]; rewrite app_nil_r. unfold unary_encode. rewrite last_app_ne; [reflexivity|discriminate].
  - rewrite last_app_ne; [apply IH; discriminate|].
    cbn [flat_map]. unfold unary_encode. destruct y; discriminate.
Qed.

Lemma unary_accepts_iff bits :
  (exists xs, unary_code_decode bits = Some xs) <-> (bits = [] \/ last bits true = false).
Proof.
  split.
  - intros [xs H]. apply unary_inverse in H. subst. destruct xs; [left; reflexivity|right].
    apply unary_encode_last; discriminate.
  - intros H. destruct (unary_accepts_loop bits H) as [xs ->]. exists xs. apply unary_round_trip.
Qed.

(* --------------------------------------------------------------- fibonacci *)
Local Open Scope N_scope.

Lemma fib_SS n : fibonacci (S (S n)) = fibonacci (S n) + fibonacci n.
Proof. reflexivity. Qed.

Lemma fib_pos n : 1 <= fibonacci (S n).
Proof. induction n as [|n IH]; [cbn; lia|]. rewrite fib_SS; lia. Qed.

Lemma fib_mono_S n : fibonacci n <= fibonacci (S n).
Proof. destruct n as [|n]; [cbn; lia|]. rewrite fib_SS; lia. Qed.

Lemma fib_mono n m : (n <= m)%nat -> fibonacci n <= fibonacci m.
Proof. induction 1 as [|m H IH]; [lia|]. pose proof (fib_mono_S m); lia. Qed.

Lemma fib_lt_S n : (2 <= n)%nat -> fibonacci n < fibonacci (S n).
Proof. intros H. destruct n as [|[|n]]; try lia. rewrite (fib_SS (S n)). pose proof (fib_pos n). lia. Qed.

Lemma fib_pow2 k : 2 ^ N.of_nat k <= fibonacci (2 * k + 1).
Proof.
  induction k as [|k IH]; [cbn; lia|].
  replace (2 * S k + 1)%nat with (S (S (2 * k + 1))) by lia.
  rewrite Nat2N.inj_succ, N.pow_succ_r', fib_SS.
  pose proof (fib_mono_S (2 * k + 1)). lia.
Qed.

Lemma size_nat_pow n : n < 2 ^ N.of_nat (N.size_nat n).
Proof. destruct n as [|p]; [reflexivity|].
  assert (E: N.of_nat (N.size_nat (N.pos p)) = N.size (N.pos p)).
  { cbn. induction p as [p IH|p IH|]; cbn [Pos.size_nat Pos.size]; try reflexivity; lia. }
  rewrite E. apply N.size_gt. Qed.

Lemma fib_search_spec n i fuel k : (i <= k)%nat -> (k - i <= fuel)%nat ->
  (forall j, (i <= j < k)%nat -> fibonacci (j + 1) <= n) -> n < fibonacci (k + 1) ->
  fib_search fuel i n = Some k.
Proof.
  revert i; induction fuel as [|f IH]; intros i Hik Hf Hle Hgt.
  - assert (i = k) by lia; subst. cbn [fib_search].
    destruct (N.leb_spec (fibonacci (k + 1)) n); [lia|reflexivity].
  - cbn [fib_search]. destruct (N.leb_spec (fibonacci (i + 1)) n) as [H|H].
    + assert (i <> k) by (intros ->; lia). apply IH; try lia; auto. intros; apply Hle; lia.
    + destruct (Nat.eq_dec i k) as [->|Hne]; [reflexivity|]. specialize (Hle i); lia.
Qed.

Lemma fib_search_top n k : (2 <= k)%nat -> fibonacci k <= n -> n < fibonacci (S k) ->
  fib_search (2 * N.size_nat n + 2) 0 n = Some k.
Proof.
  intros Hk Hle Hgt. apply fib_search_spec; try lia.
  - rewrite Nat.sub_0_r. destruct (le_lt_dec k (2 * N.size_nat n + 2)) as [H|H]; [exact H|exfalso].
    pose proof (fib_pow2 (N.size_nat n)). pose proof (size_nat_pow n).
    pose proof (fib_mono (2 * N.size_nat n + 1) k ltac:(lia)). lia.
  - intros j Hj. pose proof (fib_mono (j + 1) k ltac:(lia)). lia.
  - rewrite Nat.add_1_r; exact Hgt.
Qed.

(* Words with no two consecutive ones. *)
Fixpoint no11 (w : list bool) : bool :=
  match w with
  | b1 :: rest => match rest with
                  | b2 :: _ => negb (b1 && b2) && no11 rest
                  | [] => true
                  end
  | [] => true
  end.

Lemma no11_snoc w b : no11 (w ++ [b]) = no11 w && negb (last w false && b).
Proof.
  induction w as [|x w IH]; [destruct b; reflexivity|].
  destruct w as [|y w].
  - cbn. destruct x, b; reflexivity.
  - cbn [app] in *. change (no11 (x :: y :: w ++ [b])) with (negb (x && y) && no11 (y :: w ++ [b])).
    rewrite IH. change (no11 (x :: y :: w)) with (negb (x && y) && no11 (y :: w)).
    change (last (x :: y :: w) false) with (last (y :: w) false).
    rewrite andb_assoc; reflexivity.
Qed.

Lemma fib_sum_snoc w b : forall i, fib_sum i (w ++ [b]) = fib_sum i w + (if b then fibonacci (i + length w + 2) else 0).
Proof.
  induction w as [|x w IH]; intros i.
  - cbn [app fib_sum length]. rewrite Nat.add_0_r. lia.
  - cbn [app fib_sum length]. rewrite IH. replace (i + 1 + length w)%nat with (i + S (length w))%nat by lia. lia.
Qed.

Lemma last_snoc (w : list bool) b d : last (w ++ [b]) d = b.
Proof. apply last_app_ne; discriminate. Qed.

Lemma fib_sum_bound w : no11 w = true ->
  fib_sum 0 w < fibonacci (length w + 2) /\ (last w false = false -> fib_sum 0 w < fibonacci (length w + 1)).
Proof.
  induction w as [|b w IH] using rev_ind; intros H.
  - cbn; split; lia.
  - rewrite no11_snoc in H. apply andb_prop in H as [H1 H2]. destruct (IH H1) as [IHa IHb].
    rewrite fib_sum_snoc, last_snoc, app_length. cbn [length Nat.add].
    replace (length w + 1 + 2)%nat with (S (S (length w + 1))) by lia.
    replace (length w + 1 + 1)%nat with (S (length w + 1)) by lia.
    replace (length w + 2)%nat with (S (length w + 1)) in * by lia.
    rewrite fib_SS. destruct b.
    + assert (last w false = false) as Hl by (destruct (last w false); [discriminate|reflexivity]).
      specialize (IHb Hl). split; [|discriminate]. lia.
    + split; [|intros _]; lia.
Qed.

(* positions of the ones, highest first *)
Fixpoint ones_desc (i : nat) (w : list bool) : list nat :=
  match w with [] => [] | b :: rest => ones_desc (i + 1) rest ++ (if b then [i] else []) end.

Lemma ones_desc_snoc w b : forall i, ones_desc i (w ++ [b]) = (if b then [i + length w]%nat else []) ++ ones_desc i w.
Proof.
  induction w as [|x w IH]; intros i.
  - cbn [app ones_desc length]. rewrite Nat.add_0_r, app_nil_r; destruct b; reflexivity.
  - cbn [app ones_desc length]. rewrite IH. replace (i + 1 + length w)%nat with (i + S (length w))%nat by lia.
    rewrite app_assoc; reflexivity.
Qed.

Lemma fib_positions_zero fuel : fib_positions fuel 0 = Some [].
Proof. destruct fuel; reflexivity. Qed.

Lemma size_half n m : 2 * m < n -> (N.size_nat m < N.size_nat n)%nat.
Proof.
  intros H. destruct (le_lt_dec (N.size_nat n) (N.size_nat m)) as [C|C]; [exfalso|exact C].
  destruct (N.eq_dec m 0) as [->|Hm].
  - destruct n; cbn in *; [lia|]. destruct p; cbn in C; lia.
  - pose proof (size_nat_pow n) as P.
    assert (2 ^ N.of_nat (N.size_nat m) <= 2 * m) as Q.
    { destruct m as [|p]; [lia|].
      assert (E: N.of_nat (N.size_nat (N.pos p)) = N.size (N.pos p)).
      { clear. cbn. induction p as [p IH|p IH|]; cbn [Pos.size_nat Pos.size]; try reflexivity; lia. }
      rewrite E. pose proof (N.size_le (N.pos p)). rewrite N.succ_double_spec in *. 
      pose proof (N.size_gt (N.pos p)).
      assert (2 ^ N.size (N.pos p) mod 2 = 0).
      { assert (N.size (N.pos p) <> 0) by (cbn; lia).
        replace (N.size (N.pos p)) with (N.succ (N.pred (N.size (N.pos p)))) by lia.
        rewrite N.pow_succ_r', N.mul_comm. apply N.mod_mul; lia. }
      Ltac Zify.zify_post_hook ::= Z.div_mod_to_equations.
      lia. }
    assert (2 ^ N.of_nat (N.size_nat n) <= 2 ^ N.of_nat (N.size_nat m)).
    { apply N.pow_le_mono_r; lia. }
    lia.
Qed.

Lemma fib_positions_word w : no11 w = true -> forall fuel, (N.size_nat (fib_sum 0 w) <= fuel)%nat ->
  fib_positions fuel (fib_sum 0 w) = Some (ones_desc 0 w).
Proof.
  induction w as [|b w IH] using rev_ind; intros H fuel Hf; [apply fib_positions_zero|].
  rewrite no11_snoc in H. apply andb_prop in H as [H1 H2].
  rewrite ones_desc_snoc. rewrite fib_sum_snoc in *. destruct b; cbn [app Nat.add] in *.
  - assert (last w false = false) as Hl by (destruct (last w false); [discriminate|reflexivity]).
    destruct (fib_sum_bound w H1) as [_ B]. specialize (B Hl).
    set (n := fib_sum 0 w + fibonacci (length w + 2)) in *.
    pose proof (fib_pos (S (length w))) as P. replace (S (S (length w))) with (length w + 2)%nat in P by lia.
    assert (n <> 0) by lia.
    assert (n < fibonacci (S (length w + 2))).
    { assert (F : fibonacci (S (length w + 2)) = fibonacci (length w + 2) + fibonacci (length w + 1)).
      { replace (length w + 2)%nat with (S (length w + 1)) by lia. apply fib_SS. }
      unfold n. lia. }
    assert (2 * fib_sum 0 w < n).
    { unfold n. pose proof (fib_mono (length w + 1) (length w + 2) ltac:(lia)). lia. }
    pose proof (size_half n (fib_sum 0 w) ltac:(lia)).
    destruct fuel as [|f]; [lia|]. cbn [fib_positions].
    destruct (N.eqb_spec n 0); [lia|].
    assert (Hle : fibonacci (length w + 2) <= n) by (unfold n; lia).
    rewrite (fib_search_top n (length w + 2) ltac:(lia) Hle) by assumption.
    replace (n - fibonacci (length w + 2)) with (fib_sum 0 w) by (unfold n; lia).
    rewrite IH by (auto; lia). replace (length w + 2 - 2)%nat with (length w) by lia. reflexivity.
  - rewrite N.add_0_r in *. apply IH; auto.
Qed.

Lemma ones_desc_in w : forall i j, In j (ones_desc i w) <-> (i <= j)%nat /\ nth (j - i) w false = true.
Proof.
  induction w as [|b w IH]; intros i j.
  - cbn. split; [tauto|]. intros [_ H]. destruct (j - i)%nat; discriminate.
  - cbn [ones_desc]. rewrite in_app_iff, IH. split.
    + intros [[H1 H2]|H].
      * split; [lia|]. replace (j - i)%nat with (S (j - (i + 1))) by lia. exact H2.
      * destruct b; cbn in H; [|tauto]. destruct H as [->|[]]. split; [lia|]. rewrite Nat.sub_diag; reflexivity.
    + intros [H1 H2]. destruct (Nat.eq_dec i j) as [->|Hne].
      * rewrite Nat.sub_diag in H2. cbn in H2; subst b. right; left; reflexivity.
      * left. split; [lia|]. replace (j - i)%nat with (S (j - (i + 1))) in H2 by lia. exact H2.
Qed.

Lemma fibonacci_encode_word w : no11 (w ++ [true]) = true ->
  fibonacci_encode (fib_sum 0 (w ++ [true])) = Some ((w ++ [true]) ++ [true]).
Proof.
  intros H. unfold fibonacci_encode. rewrite (fib_positions_word _ H) by lia.
  assert (E : ones_desc 0 (w ++ [true]) = length w :: ones_desc 0 w) by (rewrite ones_desc_snoc; reflexivity).
  assert (M : list_max (length w :: ones_desc 0 w) = length w).
  { cbn [list_max fold_right]. fold (list_max (ones_desc 0 w)).
    assert (list_max (ones_desc 0 w) <= length w)%nat; [|lia].
    apply list_max_le. apply Forall_forall. intros j Hj. apply ones_desc_in in Hj as [_ Hj].
    destruct (le_lt_dec (length w) j) as [C|C]; [|lia]. rewrite Nat.sub_0_r, nth_overflow in Hj by lia; discriminate. }
  rewrite E. cbv zeta iota. rewrite M, <- E. f_equal. f_equal. apply (list_ext false).
  - rewrite map_length, seq_length, app_length; reflexivity.
  - intros i Hi. rewrite map_length, seq_length in Hi. rewrite nth_map_seq by lia.
    destruct (nth i (w ++ [true]) false) eqn:N.
    + apply existsb_exists. exists i. split; [|apply Nat.eqb_refl]. apply ones_desc_in. rewrite Nat.sub_0_r; split; [lia|exact N].
    + destruct (existsb _ _) eqn:X; [|reflexivity]. apply existsb_exists in X as [j [Hj Hij]].
      apply Nat.eqb_eq in Hij; subst j. apply ones_desc_in in Hj as [_ Hj]. rewrite Nat.sub_0_r in Hj. congruence.
Qed.

(* Zeckendorf: existence *)
Lemma no11_zeros w k : no11 w = true -> no11 (w ++ repeat false k) = true.
Proof.
  revert w; induction k as [|k IH]; intros w H; cbn [repeat]; [rewrite app_nil_r; exact H|].
  replace (w ++ false :: repeat false k) with ((w ++ [false]) ++ repeat false k) by (rewrite <- app_assoc; reflexivity).
  apply IH. rewrite no11_snoc, H, andb_false_r; reflexivity.
Qed.

Lemma fib_sum_zeros w k : fib_sum 0 (w ++ repeat false k) = fib_sum 0 w.
Proof.
  revert w; induction k as [|k IH]; intros w; cbn [repeat]; [rewrite app_nil_r; reflexivity|].
  replace (w ++ false :: repeat false k) with ((w ++ [false]) ++ repeat false k) by (rewrite <- app_assoc; reflexivity).
  rewrite IH, fib_sum_snoc; lia.
Qed.

Lemma fib_unbounded n : exists k, n < fibonacci (k + 1).
Proof.
  exists (2 * N.size_nat n)%nat. pose proof (fib_pow2 (N.size_nat n)). pose proof (size_nat_pow n). lia.
Qed.

Lemma fib_bracket n : 1 <= n -> exists k, (2 <= k)%nat /\ fibonacci k <= n < fibonacci (S k).
Proof.
  intros Hn. destruct (fib_unbounded n) as [m Hm].
  induction m as [|m IH].
  - cbn in Hm; lia.
  - destruct (N.lt_ge_cases n (fibonacci (m + 1))) as [C|C]; [auto|].
    replace (S m + 1)%nat with (S (m + 1)) in Hm by lia.
    destruct m as [|m]; [cbn in Hm; lia|]. exists (S m + 1)%nat. split; [lia|]. split; assumption.
Qed.

Lemma zeckendorf n : 1 <= n -> exists w, no11 (w ++ [true]) = true /\ fib_sum 0 (w ++ [true]) = n.
Proof.
  induction n as [n IH] using (well_founded_induction N.lt_wf_0). intros Hn.
  destruct (fib_bracket n Hn) as [k [Hk [Hle Hgt]]].
  destruct k as [|[|k]]; try lia.
  pose proof (fib_pos (S k)) as P.
  destruct (N.eq_dec (n - fibonacci (S (S k))) 0) as [Z|NZ].
  - exists (repeat false k). split.
    + rewrite no11_snoc. rewrite (no11_zeros [] k eq_refl : no11 (repeat false k) = true).
      assert (last (repeat false k) false = false) as ->; [|reflexivity].
      clear. induction k as [|[|k] IH]; auto.
    + rewrite fib_sum_snoc, repeat_length. rewrite (fib_sum_zeros [] k : fib_sum 0 (repeat false k) = _).
      cbn [fib_sum Nat.add]. replace (k + 2)%nat with (S (S k)) by lia. lia.
  - destruct (IH (n - fibonacci (S (S k)))) as [w [Hw1 Hw2]]; try lia.
    assert (Hlt : fib_sum 0 (w ++ [true]) < fibonacci (S k)).
    { rewrite Hw2. rewrite (fib_SS (S k)) in Hgt. lia. }
    assert (Hlen : (length w + 2 < S k)%nat).
    { destruct (le_lt_dec (S k) (length w + 2)) as [C|C]; [exfalso|exact C].
      rewrite fib_sum_snoc in Hlt. pose proof (fib_mono _ _ C). cbn [Nat.add] in Hlt. lia. }
    exists ((w ++ [true]) ++ repeat false (k - (length w + 1))). split.
    + rewrite no11_snoc, no11_zeros by exact Hw1.
      replace (k - (length w + 1))%nat with (S (k - (length w + 2))) by lia.
      rewrite last_app_ne by discriminate.
      assert (last (repeat false (S (k - (length w + 2)))) false = false) as ->; [|reflexivity].
      generalize (S (k - (length w + 2))) as q. clear. intros q. induction q as [|[|q] IH]; auto.
    + rewrite fib_sum_snoc, fib_sum_zeros, !app_length, repeat_length, Hw2. cbn [length Nat.add].
      replace (length w + 1 + (k - (length w + 1)) + 2)%nat with (S (S k)) by lia. lia.
Qed.

Lemma fibonacci_encode_shape n : 1 <= n -> exists w, no11 (w ++ [true]) = true /\
  fibonacci_encode n = Some ((w ++ [true]) ++ [true]) /\ fib_sum 0 (w ++ [true]) = n.
Proof.
  intros Hn. destruct (zeckendorf n Hn) as [w [H1 H2]]. exists w. repeat split; auto.
  rewrite <- H2. apply fibonacci_encode_word; exact H1.
Qed.

Lemma fib_next_word w : no11 (w ++ [true]) = true -> forall rest,
  fib_next (((w ++ [true]) ++ [true]) ++ rest) = Some ((w ++ [true]) ++ [true], rest).
Proof.
  induction w as [|x w IH]; intros H rest; [reflexivity|].
  destruct w as [|y w].
  - cbn in *. destruct x; [discriminate|reflexivity].
  - cbn [app] in *. change (no11 (x :: y :: w ++ [true])) with (negb (x && y) && no11 (y :: w ++ [true])) in H.
    apply andb_prop in H as [H1 H2]. cbn [fib_next].
    destruct (x && y); [discriminate|]. cbn [app] in IH. cbn [fib_next] in IH. rewrite IH by exact H2. reflexivity.
Qed.

Lemma fibonacci_decode_word w : fibonacci_decode (w ++ [true]) = fib_sum 0 w.
Proof. unfold fibonacci_decode. rewrite removelast_last; reflexivity. Qed.

Lemma fib_loop_round_trip xs : Forall (fun n => 1 <= n) xs ->
  exists bits, fib_code_encode xs = Some bits /\
    forall fuel, (length bits <= fuel)%nat -> fib_decode_loop fuel bits = Some xs.
Proof.
  induction xs as [|x xs IH]; intros H.
  - exists []. split; [reflexivity|]. intros [|f] _; reflexivity.
  - inversion H as [|? ? Hx Hxs]; subst. destruct (IH Hxs) as [bs [E1 E2]].
    destruct (fibonacci_encode_shape x Hx) as [w [Hw1 [Hw2 Hw3]]].
    exists (((w ++ [true]) ++ [true]) ++ bs). split.
    + cbn [fib_code_encode]. destruct (N.ltb_spec x 1); [lia|]. rewrite Hw2, E1; reflexivity.
    + intros fuel Hf. rewrite !app_length in Hf; cbn [length] in Hf.
      destruct fuel as [|f]; [lia|].
      assert (N : exists b t, ((w ++ [true]) ++ [true]) ++ bs = b :: t) by (destruct w; cbn; eauto).
      destruct N as [b [t N]]. rewrite N. cbn [fib_decode_loop]. rewrite <- N.
      rewrite fib_next_word by exact Hw1. rewrite E2 by lia. rewrite fibonacci_decode_word, Hw3. reflexivity.
Qed.

Lemma fib_round_trip xs : Forall (fun n => 1 <= n) xs ->
  exists bits, fib_code_encode xs = Some bits /\ fib_code_decode bits = Some xs.
Proof. intros H. destruct (fib_loop_round_trip xs H) as [b [E1 E2]]. exists b; split; auto. apply E2; lia. Qed.

Lemma fib_next_spec bits : forall w r, fib_next bits = Some (w, r) ->
  bits = w ++ r /\ exists v, w = (v ++ [true]) ++ [true] /\ no11 (v ++ [true]) = true.
Proof.
  induction bits as [|b1 rest IH]; intros w r H; [discriminate|].
  destruct rest as [|b2 rest']; [discriminate|].
  change (fib_next (b1 :: b2 :: rest')) with
    (if b1 && b2 then Some ([b1; b2], rest') else match fib_next (b2 :: rest') with None => None | Some (w, r) => Some (b1 :: w, r) end) in H.
  destruct (b1 && b2) eqn:B.
  - inversion H; subst. apply andb_prop in B as [-> ->]. split; [reflexivity|]. exists []; split; reflexivity.
  - destruct (fib_next (b2 :: rest')) as [[w' r']|] eqn:E; [|discriminate]. inversion H; subst.
    destruct (IH _ _ eq_refl) as [E1 [v [E2 E3]]]. split; [cbn; f_equal; exact E1|].
    exists (b1 :: v). split; [rewrite E2; reflexivity|].
    destruct v as [|c v].
    + cbn in *. rewrite E2 in E1; cbn in E1. inversion E1; subst. destruct b1; [discriminate|reflexivity].
    + cbn [app] in *. rewrite E2 in E1. cbn in E1; inversion E1; subst.
      change (no11 (b1 :: c :: v ++ [true])) with (negb (b1 && c) && no11 (c :: v ++ [true])).
      rewrite B, E3; reflexivity.
Qed.

Lemma fib_loop_inverse fuel : forall bits xs, fib_decode_loop fuel bits = Some xs ->
  fib_code_encode xs = Some bits /\ Forall (fun n => 1 <= n) xs.
Proof.
  induction fuel as [|f IH]; intros bits xs H.
  - destruct bits; cbn in H; [inversion H; split; [reflexivity|constructor]|discriminate].
  - destruct bits as [|b bits]; cbn [fib_decode_loop] in H; [inversion H; split; [reflexivity|constructor]|].
    destruct (fib_next (b :: bits)) as [[w r]|] eqn:E; [|discriminate].
    destruct (fib_decode_loop f r) as [out|] eqn:E2; [|discriminate]. inversion H; subst.
    destruct (fib_next_spec _ _ _ E) as [-> [v [-> Hv]]].
    destruct (IH _ _ E2) as [IH1 IH2]. rewrite fibonacci_decode_word.
    assert (1 <= fib_sum 0 (v ++ [true])) as P.
    { rewrite fib_sum_snoc. pose proof (fib_pos (S (length v))). cbn [Nat.add]. replace (length v + 2)%nat with (S (S (length v))) by lia. lia. }
    split; [|constructor; auto]. cbn [fib_code_encode].
    destruct (N.ltb_spec (fib_sum 0 (v ++ [true])) 1); [lia|].
    rewrite fibonacci_encode_word, IH1 by exact Hv. reflexivity.
Qed.

Lemma fib_inverse bits xs : fib_code_decode bits = Some xs -> fib_code_encode xs = Some bits.
Proof. intros H; apply (fib_loop_inverse _ _ _ H). Qed.
