(** C105: bits_to_int and int_to_bits on arrays with any number of axes. *)
From Verif Require Import Common Bits_Model Bits_Proof Array_Model Array_Spec Array_Proof Array_Lift NdMaps_Model NdMaps_Proof BitsNd_Model BitsNd_Spec BitsNd_Proof.
Local Open Scope nat_scope.

(** The exact behaviour of bits_to_int on an array with at least two axes: the answer keeps the leading axes;
    every entry is the value of the corresponding word, EXCEPT that, when the first word of the array is below
    2^63, the values from 2^63 to 2^64-1 come out as negative numbers; and the call raises if and only if the
    first word is below 2^64 and some other word is not. *)
Theorem C105_exact (o : bit_order) pre n (a : array bool) : well_formed a -> shape a = pre ++ [n] -> Forall (lt 0) pre -> pre <> [] ->
  let word p := value o n (line false a n p []) in
  let first := word (repeat 0 (length pre)) in
  match bits_to_int_nd o a with
  | Some out => well_formed out /\ shape out = pre /\
      forall p, valid_index pre p ->
        ((first < 2 ^ 64)%Z -> (word p < 2 ^ 64)%Z) /\
        get 0%Z out p = if (first <? 2 ^ 63)%Z && (2 ^ 63 <=? word p)%Z then (word p - 2 ^ 64)%Z else word p
  | None => (first < 2 ^ 64)%Z /\ exists p, valid_index pre p /\ (2 ^ 64 <= word p)%Z
  end.
Proof.
  intros W S Hp Hne word first. destruct (zero_index pre Hp) as [Z1 Z2].
  rewrite (bits_to_int_rows_spec o pre n a W S Hp Hne). set (vs := map (value o n) (rows pre n a)).
  assert (G : forall p, valid_index pre p -> nth (ravel pre p) vs 0%Z = word p) by (intros p V; apply get_rows; assumption).
  assert (L : length vs = prod pre) by (unfold vs; rewrite map_length, rows_length; reflexivity).
  assert (F : nth 0 vs 0%Z = first) by (rewrite <- Z2; apply G; exact Z1). rewrite F. clearbody vs.
  destruct (existsb (overflows first) vs) eqn:E.
  - apply existsb_exists in E as (v & Hv & Ov). unfold overflows in Ov. apply andb_true_iff in Ov as [O1 O2].
    apply Z.ltb_lt in O1. apply negb_true_iff, Z.ltb_ge in O2. split; [exact O1|].
    apply (In_nth _ _ 0%Z) in Hv as (i & Hi & Ei). rewrite L in Hi. destruct (unravel pre i Hi) as (p & Vp & Ep).
    exists p. split; [exact Vp|]. rewrite <- (G p Vp), Ep, Ei. exact O2.
  - split; [unfold well_formed; cbn [data shape]; rewrite map_length; exact L|]. split; [reflexivity|]. intros p Vp.
    pose proof (ravel_lt _ _ Vp) as R. split.
    + intros Hf. destruct (Z.lt_ge_cases (word p) (2 ^ 64)) as [H|H]; [exact H|]. exfalso.
      enough (T : existsb (overflows first) vs = true) by congruence. apply existsb_exists. exists (word p). split.
      * rewrite <- (G p Vp). apply nth_In. lia.
      * unfold overflows. apply andb_true_iff. split; [apply Z.ltb_lt; exact Hf|apply negb_true_iff, Z.ltb_ge; exact H].
    + unfold get. cbn [shape data]. rewrite (nth_indep _ 0%Z (wrapped first 0%Z)) by (rewrite map_length; lia). rewrite map_nth, (G p Vp).
      unfold wrapped. rewrite Z.leb_antisym. reflexivity.
Qed.
(** A 1-D array gives a Python integer of any size. *)
Theorem C105_one_word (o : bit_order) n (a : array bool) : well_formed a -> shape a = [n] ->
  bits_to_int_nd o a = Some (Arr [] [value o n (line false a n [] [])]).
Proof.
  intros W S. unfold bits_to_int_nd. rewrite S, (one_row a n W S), value_bits. do 3 f_equal. f_equal. rewrite W, S. unfold prod. cbn. lia.
Qed.
Lemma line_length {A} (d : A) a n p q : length (line d a n p q) = n.
Proof. unfold line. rewrite map_length, seq_length. reflexivity. Qed.
Lemma word_range o n a p : (0 <= value o n (line false a n p []) < 2 ^ Z.of_nat n)%Z.
Proof. pose proof (value_range o (line false a n p [])) as H. rewrite line_length in H. exact H. Qed.

(** Words of at most 63 bits: an array of any shape is converted word by word. *)
Theorem C105_bits_to_int (o : bit_order) pre n (a : array bool) : well_formed a -> shape a = pre ++ [n] -> Forall (lt 0) pre -> n <= 63 ->
  exists out, bits_to_int_nd o a = Some out /\ well_formed out /\ shape out = pre /\
    forall p, valid_index pre p -> get 0%Z out p = value o n (line false a n p []) /\ (0 <= get 0%Z out p < 2 ^ Z.of_nat n)%Z.
Proof.
  intros W S Hp Hn. destruct pre as [|x pre'].
  - rewrite (C105_one_word o n a W S). eexists. split; [reflexivity|]. split; [reflexivity|]. split; [reflexivity|].
    intros p Vp. inversion Vp. subst p. unfold get. cbn [shape data ravel nth]. split; [reflexivity|apply word_range].
  - set (pre := x :: pre') in *. pose proof (C105_exact o pre n a W S Hp ltac:(discriminate)) as E. cbv zeta in E.
    assert (B : forall p, (value o n (line false a n p []) < 2 ^ 63)%Z).
    { intros p. eapply Z.lt_le_trans; [apply word_range|]. apply Z.pow_le_mono_r; lia. }
    assert (B64 : (2 ^ 63 < 2 ^ 64)%Z) by reflexivity.
    destruct (bits_to_int_nd o a) as [out|].
    + destruct E as (W' & S' & G). exists out. split; [reflexivity|]. split; [exact W'|]. split; [exact S'|]. intros p Vp.
      destruct (G p Vp) as [_ Gp]. pose proof (B p) as Bp. rewrite Gp. destruct (Z.leb_spec (2 ^ 63) (value o n (line false a n p []))); [lia|].
      rewrite andb_false_r. split; [reflexivity|apply word_range].
    + exfalso. destruct E as (_ & p & _ & H). specialize (B p). lia.
Qed.

(** int_to_bits on an array of any shape, of any integers, for any width: a new last axis, and the bit of
    weight 2^i of the word at [p] is the bit of weight 2^i of the integer at [p] (two's complement for the
    negative ones). *)
Theorem C105_int_to_bits (o : bit_order) w (a : array Z) : well_formed a ->
  let out := int_to_bits_any o w a in
  well_formed out /\ shape out = shape a ++ [w] /\
  forall p i, valid_index (shape a) p -> i < w -> get false out (p ++ [place o w i]) = Z.testbit (get 0%Z a p) (Z.of_nat i).
Proof.
  intros W out. assert (L : forall x, length (int_to_bits_z x w o) = w) by (intros; apply int_to_bits_z_length).
  assert (Wo : well_formed out).
  { unfold well_formed, out, int_to_bits_any. cbn [data shape]. rewrite (length_flat_map _ w _ L), W, prod_app. f_equal. unfold prod. cbn. lia. }
  split; [exact Wo|]. split; [reflexivity|]. intros p i Vp Hi.
  assert (Hpl : place o w i < w) by (destruct o; cbn; lia).
  assert (E : line false out w p [] = int_to_bits_z (get 0%Z a p) w o).
  { rewrite (line_row false out (shape a) w p Wo eq_refl Vp). unfold out, int_to_bits_any. rewrite (rows_flat_map _ _ _ _ L W).
    pose proof (ravel_lt _ _ Vp) as R. rewrite (nth_indep _ [] (int_to_bits_z 0%Z w o)) by (rewrite map_length, W; exact R).
    rewrite (map_nth (fun x => int_to_bits_z x w o)). reflexivity. }
  rewrite <- (int_to_bits_z_nth _ w o i Hi), <- E. unfold line. rewrite nth_map_seq by exact Hpl. reflexivity.
Qed.

(** Round trip on bit arrays: with words of at most 64 bits the bits always come back, also when
    bits_to_int returned a negative number; a single word may have any length. *)
Theorem C105_round_trip_bits (o : bit_order) pre n (a : array bool) : well_formed a -> shape a = pre ++ [n] -> Forall (lt 0) pre ->
  n <= 64 \/ pre = [] ->
  exists ints, bits_to_int_nd o a = Some ints /\ int_to_bits_any o n ints = a.
Proof.
  intros W S Hp Hn. destruct pre as [|x pre'].
  - rewrite (C105_one_word o n a W S). eexists. split; [reflexivity|]. unfold int_to_bits_any. cbn [shape data flat_map app]. rewrite app_nil_r, (one_row a n W S).
    assert (L : length (data a) = n) by (rewrite W, S; unfold prod; cbn; lia). rewrite <- L at 1 2 3. rewrite int_to_bits_value.
    rewrite L. cbn [app] in S. rewrite <- S. destruct a; reflexivity.
  - destruct Hn as [Hn|]; [|discriminate]. set (pre := x :: pre') in *. rewrite (bits_to_int_rows_spec o pre n a W S Hp ltac:(discriminate)). cbv zeta.
    set (f := nth 0 _ 0%Z). destruct (data_rows a pre n W S) as [Ed Fd]. rewrite Forall_forall in Fd.
    assert (B : forall l, In l (rows pre n a) -> (0 <= value o n l < 2 ^ 64)%Z).
    { intros l Hl. pose proof (value_range o l) as V. rewrite (Fd l Hl) in V. split; [lia|]. eapply Z.lt_le_trans; [apply V|]. apply Z.pow_le_mono_r; lia. }
    destruct (existsb (overflows f) _) eqn:E.
    + exfalso. apply existsb_exists in E as (v & Hv & Ov). apply in_map_iff in Hv as (l & <- & Hl). unfold overflows in Ov.
      apply andb_true_iff in Ov as [_ Ov]. apply negb_true_iff, Z.ltb_ge in Ov. specialize (B l Hl). lia.
    + eexists. split; [reflexivity|]. unfold int_to_bits_any. cbn [shape data]. destruct a as [sh dat]. cbn [shape data] in *. subst sh. f_equal.
      rewrite flat_map_concat_map, !map_map. etransitivity; [|symmetry; exact Ed]. f_equal. etransitivity; [|apply map_id]. apply map_ext_in. intros l Hl.
      rewrite <- int_to_bits_z_mod. replace (wrapped f (value o n l) mod 2 ^ Z.of_nat n)%Z with (value o n l mod 2 ^ Z.of_nat n)%Z.
      * rewrite int_to_bits_z_mod. rewrite <- (Fd l Hl). apply int_to_bits_value.
      * unfold wrapped. destruct (_ && _); [|reflexivity].
        replace (value o n l - 2 ^ 64)%Z with (value o n l + (- 2 ^ (64 - Z.of_nat n)) * 2 ^ Z.of_nat n)%Z; [symmetry; apply Z.mod_add; apply Z.pow_nonzero; lia|].
        rewrite Z.mul_opp_l, <- Z.pow_add_r by lia. replace (64 - Z.of_nat n + Z.of_nat n)%Z with 64%Z by lia. lia.
Qed.

(** Round trip on integer arrays: with at most 63 bits every integer comes back modulo 2^w, so the integers
    from 0 to 2^w - 1 come back unchanged; on a single integer the width may be anything. *)
Theorem C105_round_trip_ints (o : bit_order) w (a : array Z) : well_formed a -> Forall (lt 0) (shape a) -> w <= 63 \/ shape a = [] ->
  bits_to_int_nd o (int_to_bits_any o w a) = Some (Arr (shape a) (map (fun x => x mod 2 ^ Z.of_nat w)%Z (data a))).
Proof.
  intros W Hp Hw. assert (L : forall x, length (int_to_bits_z x w o) = w) by (intros; apply int_to_bits_z_length).
  destruct (C105_int_to_bits o w a W) as (Wo & So & _). set (b := int_to_bits_any o w a) in *.
  assert (R : rows (shape a) w b = map (fun x => int_to_bits_z x w o) (data a)) by (apply rows_flat_map; [exact L|exact W]).
  assert (V : map (value o w) (rows (shape a) w b) = map (fun x => x mod 2 ^ Z.of_nat w)%Z (data a)).
  { rewrite R, map_map. apply map_ext. intros x. apply value_int_to_bits. }
  destruct (shape a) as [|x sh'] eqn:Es.
  - rewrite (C105_one_word o w b Wo So). f_equal. f_equal. rewrite <- V. rewrite (line_row false b [] w [] Wo So (Forall2_nil _)). reflexivity.
  - destruct Hw as [Hw|]; [|discriminate]. rewrite <- Es in *. rewrite (bits_to_int_rows_spec o (shape a) w b Wo So Hp) by (rewrite Es; discriminate).
    cbv zeta. rewrite V. set (f := nth 0 _ 0%Z).
    assert (B : forall x, (0 <= x mod 2 ^ Z.of_nat w < 2 ^ 63)%Z).
    { intros y. assert (P : (0 < 2 ^ Z.of_nat w)%Z) by (apply Z.pow_pos_nonneg; lia). pose proof (Z.mod_pos_bound y _ P). split; [lia|].
      eapply Z.lt_le_trans; [apply H|]. apply Z.pow_le_mono_r; lia. }
    assert (B64 : (2 ^ 63 < 2 ^ 64)%Z) by reflexivity.
    destruct (existsb (overflows f) _) eqn:E.
    + exfalso. apply existsb_exists in E as (v & Hv & Ov). apply in_map_iff in Hv as (y & <- & _). unfold overflows in Ov.
      apply andb_true_iff in Ov as [_ Ov]. apply negb_true_iff, Z.ltb_ge in Ov. specialize (B y). lia.
    + f_equal. f_equal. rewrite map_map. apply map_ext. intros y. unfold wrapped. destruct (Z.ltb_spec (y mod 2 ^ Z.of_nat w) (2 ^ 63)); [rewrite andb_false_r; reflexivity|].
      specialize (B y). lia.
Qed.
Corollary C105_round_trip_range (o : bit_order) w (a : array Z) : well_formed a -> Forall (lt 0) (shape a) -> w <= 63 \/ shape a = [] ->
  Forall (fun x => 0 <= x < 2 ^ Z.of_nat w)%Z (data a) -> bits_to_int_nd o (int_to_bits_any o w a) = Some a.
Proof.
  intros W Hp Hw R. rewrite (C105_round_trip_ints o w a W Hp Hw). destruct a as [sh l]. cbn [shape data] in *. f_equal. f_equal.
  etransitivity; [|apply map_id]. apply map_ext_in. intros x Hx. rewrite Forall_forall in R. apply Z.mod_small, R, Hx.
Qed.

(** Beyond 63 bits the conversion of an array is wrong. *)
Theorem C105_wide_refuted :
  (** two words of 64 bits, 0 and 2^63: the second one comes out as -2^63 *)
  (let a := Arr [2; 64] (repeat false 64 ++ repeat false 63 ++ [true]) in
   well_formed a /\ bits_to_int_nd LSB_first a = Some (Arr [2] [0; - 2 ^ 63]%Z)) /\
  (** two words of 65 bits, 0 and 2^64: the call raises; in the other order it does not *)
  (let a := Arr [2; 65] (repeat false 65 ++ repeat false 64 ++ [true]) in
   let b := Arr [2; 65] (repeat false 64 ++ [true] ++ repeat false 65) in
   bits_to_int_nd LSB_first a = None /\ bits_to_int_nd LSB_first b = Some (Arr [2] [2 ^ 64; 0]%Z)) /\
  (** the round trip of words of 65 bits loses a bit although nothing is raised *)
  (let a := Arr [2; 65] (repeat false 65 ++ repeat false 63 ++ [true; false]) in
   exists ints, bits_to_int_nd LSB_first a = Some ints /\ int_to_bits_any LSB_first 65 ints <> a).
Proof.
  split; [split; vm_compute; reflexivity|]. split; [split; vm_compute; reflexivity|].
  eexists. split; [vm_compute; reflexivity|]. vm_compute. discriminate.
Qed.
Theorem C105_example :
  let a := Arr [2; 1; 3] [true; false; false; false; true; true] in
  well_formed a /\ Forall (lt 0) [2; 1] /\
  bits_to_int_nd LSB_first a = Some (Arr [2; 1] [1; 6]%Z) /\ bits_to_int_nd MSB_first a = Some (Arr [2; 1] [4; 3]%Z) /\
  int_to_bits_any LSB_first 3 (Arr [2; 1] [1; -2]%Z) = a /\ value MSB_first 3 [true; false; false] = 4%Z.
Proof. cbn zeta. split; [reflexivity|]. split; [repeat constructor|]. repeat split; vm_compute; reflexivity. Qed.
