(** Proofs for C105. *)
From Verif Require Import Common Bits_Model Bits_Proof Array_Model Array_Spec Array_Proof Array_Lift NdMaps_Model NdMaps_Proof BitsNd_Model BitsNd_Spec.
Local Open Scope nat_scope.

(** *** One word *)
Lemma value_lsb : forall l, value LSB_first (length l) l = Z.of_N (byte_of l).
Proof.
  unfold value, place. induction l as [|b l IH]; [reflexivity|].
  cbn [length]. change (seq 0 (S (length l))) with (0 :: seq 1 (length l)). rewrite <- seq_shift. cbn [map fold_right]. rewrite map_map.
  cbn [nth byte_of fold_right]. fold (byte_of l).
  replace (fold_right Z.add 0%Z (map (fun x => (if nth x l false then 2 ^ Z.of_nat (S x) else 0)%Z) (seq 0 (length l))))
    with (2 * Z.of_N (byte_of l))%Z.
  - change (Z.of_nat 0) with 0%Z. change (2 ^ 0)%Z with 1%Z. destruct b; lia.
  - rewrite <- IH. clear. generalize (seq 0 (length l)) as s. induction s as [|x s IH]; [reflexivity|].
    cbn [map fold_right]. rewrite <- IH. replace (Z.of_nat (S x)) with (Z.of_nat x + 1)%Z by lia. rewrite Z.pow_add_r, Z.pow_1_r by lia.
    destruct (nth x l false); ring.
Qed.
Lemma value_msb l : value MSB_first (length l) l = value LSB_first (length (rev l)) (rev l).
Proof.
  unfold value, place. rewrite rev_length. f_equal. apply map_ext_in. intros i Hi. apply in_seq in Hi. rewrite rev_nth by lia.
  replace (length l - S i) with (length l - 1 - i) by lia. reflexivity.
Qed.
Lemma value_bits o l : Z.of_N (bits_to_int l o) = value o (length l) l.
Proof. destruct o; [rewrite bits_to_int_lsb, value_lsb|rewrite bits_to_int_msb, value_msb, value_lsb]; reflexivity. Qed.
Lemma value_range o l : (0 <= value o (length l) l < 2 ^ Z.of_nat (length l))%Z.
Proof.
  rewrite <- value_bits. split; [lia|]. pose proof (bits_to_int_bound l o) as H. apply N2Z.inj_lt in H. rewrite N2Z.inj_pow, nat_N_Z in H. exact H.
Qed.
Lemma shift_bit_testbit x i : shift_bit x i = Z.testbit x (Z.of_nat i).
Proof.
  unfold shift_bit. rewrite Z.shiftr_div_pow2 by lia. rewrite Z.testbit_eqb by lia. reflexivity.
Qed.
Lemma int_to_bits_z_length x w o : length (int_to_bits_z x w o) = w.
Proof. destruct o; cbn [int_to_bits_z]; rewrite map_length, seq_length; reflexivity. Qed.
Lemma int_to_bits_z_nth x w o i : i < w -> nth (place o w i) (int_to_bits_z x w o) false = Z.testbit x (Z.of_nat i).
Proof.
  intros Hi. destruct o; cbn [place int_to_bits_z]; rewrite nth_map_seq by lia; rewrite shift_bit_testbit; f_equal; lia.
Qed.
Lemma int_to_bits_z_N n w o : int_to_bits_z (Z.of_N n) w o = int_to_bits n w o.
Proof.
  assert (E : forall i, shift_bit (Z.of_N n) i = bit_at n i).
  { intros i. rewrite shift_bit_testbit. unfold bit_at. rewrite <- N.bit0_odd, N.shiftr_spec', N.add_0_l, <- nat_N_Z. apply Z.testbit_of_N. }
  destruct o; cbn [int_to_bits_z int_to_bits]; apply map_ext; intros i; apply E.
Qed.
(** Only the residue modulo 2^w matters. *)
Lemma int_to_bits_z_mod x w o : int_to_bits_z (x mod 2 ^ Z.of_nat w) w o = int_to_bits_z x w o.
Proof.
  assert (E : forall i, i < w -> shift_bit (x mod 2 ^ Z.of_nat w) i = shift_bit x i).
  { intros i Hi. rewrite !shift_bit_testbit. apply Z.mod_pow2_bits_low. lia. }
  destruct o; cbn [int_to_bits_z]; apply map_ext_in; intros i Hi; apply in_seq in Hi; apply E; lia.
Qed.
Lemma value_int_to_bits x w o : value o w (int_to_bits_z x w o) = (x mod 2 ^ Z.of_nat w)%Z.
Proof.
  pose proof (Z.pow_pos_nonneg 2 (Z.of_nat w) ltac:(lia) ltac:(lia)) as P.
  pose proof (Z.mod_pos_bound x _ P) as B. rewrite <- int_to_bits_z_mod.
  set (y := (x mod 2 ^ Z.of_nat w)%Z) in *. replace y with (Z.of_N (Z.to_N y)) by lia. rewrite int_to_bits_z_N.
  rewrite <- (int_to_bits_length (Z.to_N y) w o) at 1. rewrite <- value_bits, bits_int_round_trip; [reflexivity|].
  apply N2Z.inj_lt. rewrite N2Z.inj_pow, nat_N_Z. lia.
Qed.
Lemma int_to_bits_value o l : int_to_bits_z (value o (length l) l) (length l) o = l.
Proof. rewrite <- value_bits, int_to_bits_z_N. apply int_bits_round_trip. Qed.

(** *** Arrays *)
Definition wrapped (first v : Z) : Z := if (first <? 2 ^ 63)%Z && negb (v <? 2 ^ 63)%Z then (v - 2 ^ 64)%Z else v.
Definition overflows (first v : Z) : bool := (first <? 2 ^ 64)%Z && negb (v <? 2 ^ 64)%Z.
Lemma of_N_ltb a b : (Z.of_N a <? Z.of_N b)%Z = (a <? b)%N.
Proof. destruct (N.ltb_spec a b), (Z.ltb_spec (Z.of_N a) (Z.of_N b)); lia. Qed.
Lemma store_spec f v : store (int_dtype_of f) v = if overflows (Z.of_N f) (Z.of_N v) then None else Some (wrapped (Z.of_N f) (Z.of_N v)).
Proof.
  unfold store, int_dtype_of, overflows, wrapped.
  change (2 ^ 63)%Z with (Z.of_N (2 ^ 63)). change (2 ^ 64)%Z with (Z.of_N (2 ^ 64)). rewrite !of_N_ltb.
  assert (H : (2 ^ 63 < 2 ^ 64)%N) by reflexivity.
  destruct (N.ltb_spec f (2 ^ 63)), (N.ltb_spec f (2 ^ 64)), (N.ltb_spec v (2 ^ 63)), (N.ltb_spec v (2 ^ 64)); cbn [andb negb]; try reflexivity; exfalso;
  generalize dependent (2 ^ 63)%N; generalize dependent (2 ^ 64)%N; intros; lia.
Qed.

Lemma values_rows o pre n (a : array bool) : well_formed a -> shape a = pre ++ [n] -> Forall (lt 0) pre ->
  apply_scalar false 0%N (fun l => Some (bits_to_int l o)) a = Some (Arr pre (map (fun l => bits_to_int l o) (rows pre n a))).
Proof.
  intros W S Hp. rewrite (apply_scalar_rows false 0%N _ pre n a W S), sequence_map_some.
  destruct (rows_nonempty pre n a Hp) as [r Hr]. destruct (rows pre n a); [contradiction|reflexivity].
Qed.
Lemma rows_value o pre n (a : array bool) : well_formed a -> shape a = pre ++ [n] ->
  map (fun l => Z.of_N (bits_to_int l o)) (rows pre n a) = map (value o n) (rows pre n a).
Proof.
  intros W S. apply map_ext_in. intros l Hl. destruct (data_rows a pre n W S) as [_ F]. rewrite Forall_forall in F. rewrite value_bits, (F l Hl). reflexivity.
Qed.
Lemma not_single (sh : list nat) {B} (x : nat -> B) (y : B) : length sh <> 1 -> match sh with [n] => x n | _ => y end = y.
Proof. destruct sh as [|? [|? ?]]; cbn; intros; [reflexivity|lia|reflexivity]. Qed.

(** The whole behaviour, in terms of the values of the rows. *)
Lemma bits_to_int_rows_spec o pre n (a : array bool) : well_formed a -> shape a = pre ++ [n] -> Forall (lt 0) pre -> pre <> [] ->
  let vs := map (value o n) (rows pre n a) in
  let first := nth 0 vs 0%Z in
  bits_to_int_nd o a = if existsb (overflows first) vs then None else Some (Arr pre (map (wrapped first) vs)).
Proof.
  intros W S Hp Hne vs first. unfold bits_to_int_nd. rewrite not_single by (rewrite S, app_length; destruct pre; [congruence|cbn; lia]).
  rewrite (values_rows o pre n a W S Hp). cbn [data shape].
  assert (V : vs = map Z.of_N (map (fun l => bits_to_int l o) (rows pre n a))) by (unfold vs; rewrite map_map; symmetry; apply rows_value; assumption).
  destruct (rows_nonempty pre n a Hp) as [r Hr].
  destruct (map (fun l => bits_to_int l o) (rows pre n a)) as [|f vN] eqn:E; [destruct (rows pre n a); [contradiction|discriminate]|].
  assert (F : first = Z.of_N f) by (unfold first; rewrite V; reflexivity). clearbody vs first. subst vs first. clear E Hr.
  set (l := f :: vN). clearbody l. rewrite (map_ext _ _ (store_spec f)). clear.
  enough (H : sequence (map (fun v => if overflows (Z.of_N f) (Z.of_N v) then None else Some (wrapped (Z.of_N f) (Z.of_N v))) l)
    = if existsb (overflows (Z.of_N f)) (map Z.of_N l) then None else Some (map (wrapped (Z.of_N f)) (map Z.of_N l))).
  { rewrite H. destruct (existsb _ _); reflexivity. }
  induction l as [|x l IH]; [reflexivity|]. cbn [map sequence existsb]. rewrite IH.
  destruct (overflows (Z.of_N f) (Z.of_N x)); [reflexivity|]. cbn [orb]. destruct (existsb _ _); reflexivity.
Qed.
Lemma get_rows o pre n (a : array bool) p : well_formed a -> shape a = pre ++ [n] -> valid_index pre p ->
  nth (ravel pre p) (map (value o n) (rows pre n a)) 0%Z = value o n (line false a n p []).
Proof.
  intros W S V. rewrite (line_row false a pre n p W S V). pose proof (ravel_lt _ _ V) as L.
  rewrite (nth_indep _ 0%Z (value o n [])) by (rewrite map_length, rows_length; exact L). apply map_nth.
Qed.
Lemma zero_index pre : Forall (lt 0) pre -> valid_index pre (repeat 0 (length pre)) /\ ravel pre (repeat 0 (length pre)) = 0.
Proof.
  induction 1 as [|n pre H F [IH1 IH2]]; [split; [constructor|reflexivity]|]. split; [constructor; assumption|]. cbn [length repeat ravel]. rewrite IH2. lia.
Qed.
Lemma one_row (a : array bool) n : well_formed a -> shape a = [n] -> line false a n [] [] = data a.
Proof.
  intros W S. rewrite (line_row false a [] n [] W S (Forall2_nil _)). cbn [ravel]. unfold rows. cbn [prod fold_right seq map nth Nat.mul skipn].
  apply firstn_all2. rewrite W, S. unfold prod. cbn. lia.
Qed.
Lemma flat_map_rows pre n (a : array bool) (g : list bool -> list bool) : well_formed a -> shape a = pre ++ [n] ->
  (forall l, length l = n -> g l = l) -> concat (map g (rows pre n a)) = data a.
Proof.
  intros W S G. destruct (data_rows a pre n W S) as [E F]. rewrite E. f_equal. etransitivity; [|apply map_id]. apply map_ext_in.
  intros l Hl. rewrite Forall_forall in F. apply G, F, Hl.
Qed.
Lemma rows_flat_map (g : Z -> list bool) sh w (l : list Z) : (forall x, length (g x) = w) -> length l = prod sh ->
  rows sh w (Arr (sh ++ [w]) (flat_map g l)) = map g l.
Proof.
  intros G L. apply (list_ext []); [rewrite rows_length, map_length; lia|]. intros i Hi. rewrite rows_length in Hi.
  unfold rows. rewrite nth_map_seq by exact Hi. cbn [data]. rewrite flat_map_concat_map. apply nth_concat.
  - apply Forall_forall. intros r Hr. apply in_map_iff in Hr as (x & <- & _). apply G.
  - rewrite map_length. lia.
Qed.
Lemma length_flat_map (g : Z -> list bool) w (l : list Z) : (forall x, length (g x) = w) -> length (flat_map g l) = length l * w.
Proof. intros G. induction l as [|x l IH]; [reflexivity|]. cbn [flat_map length]. rewrite app_length, G, IH. lia. Qed.
