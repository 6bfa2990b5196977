(** C102: labelings and constellations on arrays with any number of axes. *)
From Coq Require Import Reals Lra.
From Coquelicot Require Import Complex.
From Verif Require Import Common Bits_Model Labeling_Model Labeling_Spec Labeling_Proof Conv_Model BCJR_Model Const_Model Const_Spec Array_Model Array_Spec Array_Proof Array_Lift NdMaps_Model NdMaps_Spec NdMaps_Proof NdMaps_Proof2 Props_Labeling Props_Constellation.
Local Open Scope nat_scope.
Local Notation matrix := Labeling_Model.matrix.

(** *** Labelings *)
Lemma prod_snoc sh x : prod (sh ++ [x]) = prod sh * x.
Proof. rewrite prod_app. f_equal. unfold prod. cbn. lia. Qed.
Lemma base_i2b (l : labeling) : constructed l -> lifts 0%Z false (base_indices_to_bits l) (base_i2b_nd l).
Proof.
  intros C. destruct (constructed_table l C) as [(T1 & T2 & _) Ec]. rewrite <- Ec in T1.
  set (q := fun i => (0 <=? i)%Z && (i <? Z.of_nat (cardinality l))%Z).
  assert (Q : forall i, q i = true -> (0 <= i)%Z /\ Z.to_nat i < length (matrix l)).
  { intros i Hi. apply andb_true_iff in Hi as [H1 H2]. apply Z.leb_le in H1. apply Z.ltb_lt in H2. lia. }
  apply lifts_checked with (q := q) (h := fun i => nth (Z.to_nat i) (matrix l) []) (m := num_bits l).
  - intros i Hi. destruct (Q i Hi) as [_ H]. rewrite Forall_forall in T2. apply T2, nth_In. exact H.
  - intros idx. unfold base_indices_to_bits. fold q. destruct (forallb q idx); cbn [negb]; [|reflexivity]. rewrite flat_map_concat_map. reflexivity.
  - intros a. unfold base_i2b_nd. fold q. destruct (forallb q (data a)) eqn:E; cbn [negb]; [|reflexivity]. rewrite forallb_forall in E.
    unfold fancy. replace (forallb (index_ok (length (matrix l))) (data a)) with true.
    + f_equal. f_equal. rewrite !flat_map_concat_map. f_equal. apply map_ext_in. intros i Hi. unfold wrap. destruct (Q i (E i Hi)) as [H _]. destruct (Z.ltb_spec i 0); [lia|reflexivity].
    + symmetry. apply forallb_forall. intros i Hi. destruct (Q i (E i Hi)) as [H1 H2]. unfold index_ok. apply andb_true_iff. split; [apply Z.leb_le|apply Z.ltb_lt]; lia.
Qed.
Lemma z_to_bits_length i m : length (z_to_bits i m) = m.
Proof. unfold z_to_bits. rewrite map_length, seq_length. reflexivity. Qed.
Theorem C102_indices_to_bits (l : labeling) : constructed l -> lifts 0%Z false (indices_to_bits l) (indices_to_bits_nd l).
Proof.
  intros C. assert (T : forall {A} (l : list A), forallb (fun _ => true) l = true) by (intros A l0; apply forallb_forall; reflexivity).
  destruct l; try (apply base_i2b; exact C); cbn [indices_to_bits indices_to_bits_nd].
  - apply lifts_checked with (q := fun _ => true) (h := fun i => z_to_bits i m) (m := m).
    + intros i _. apply z_to_bits_length.
    + intros idx. rewrite T. unfold natural_indices_to_bits. rewrite flat_map_concat_map. reflexivity.
    + intros a. rewrite T. reflexivity.
  - apply lifts_checked with (q := fun _ => true) (h := fun i => z_to_bits (Z.lxor i (Z.shiftr i 1)) m) (m := m).
    + intros i _. apply z_to_bits_length.
    + intros idx. rewrite T. unfold reflected_indices_to_bits. rewrite flat_map_concat_map. reflexivity.
    + intros a. rewrite T. unfold reflected_i2b_nd, int_to_bits_nd, elementwise. cbn [shape data]. do 2 f_equal.
      rewrite !flat_map_concat_map, map_map. reflexivity.
Qed.

Lemma lifts_never {A B} (dA : A) (dB : B) f F : (forall l, f l = None) -> (forall a, F a = None) -> lifts dA dB f F.
Proof.
  intros Hf HF pre n a W S Hpos. rewrite HF. destruct (unravel pre 0 (prod_pos _ Hpos)) as (p & Hp & _). exists p. split; [exact Hp|apply Hf].
Qed.
Lemma rows_some {A} (b : nat) (a : array A) : 0 < b ->
  reshape_auto [] [b] a = if negb (length (data a) mod b =? 0) then None else Some (Arr [length (data a) / b; b] (data a)).
Proof.
  intros Hb. unfold reshape_auto. replace (prod [] * prod [b]) with b by (unfold prod; cbn; lia). destruct (Nat.eqb_spec b 0); [lia|].
  destruct (length (data a) mod b =? 0); reflexivity.
Qed.
Lemma split_some {A} (b pre_n : nat) pre (a : array A) : 0 < b -> well_formed a -> shape a = pre ++ [pre_n] -> Forall (lt 0) pre -> pre_n mod b = 0 ->
  reshape_auto (removelast (shape a)) [b] a = Some (Arr ((pre ++ [pre_n / b]) ++ [b]) (data a)) /\ length (data a) = prod (pre ++ [pre_n / b]) * b.
Proof.
  intros Hb W S Hpos Hn. pose proof (prod_pos _ Hpos) as PP. apply Nat.mod_divides in Hn as [k Hk]; [|lia]. assert (E : pre_n = k * b) by lia. clear Hk.
  assert (L : length (data a) = prod (pre ++ [pre_n / b]) * b).
  { unfold well_formed in W. rewrite W, S, !prod_app, E, Nat.div_mul by lia. unfold prod at 2 4. cbn [fold_right]. ring. }
  split; [|exact L]. rewrite S, removelast_last, <- app_assoc. cbn [app].
  apply reshape_auto_ok; [unfold prod at 2; cbn [fold_right]; nia|]. rewrite L, prod_app. unfold prod at 2 4. cbn [fold_right]. ring.
Qed.

(** scalars of the blocks of a flat view *)
Lemma flat_scalars {B X} (dB : B) (b : nat) (g : list bool -> X) (dX : X) (conv : X -> nat) (f : list bool -> option (list nat)) (F : array bool -> option (array nat)) : 0 < b ->
  (forall l, f l = if negb (length l mod b =? 0) then None else option_map (map (fun w => conv (g w))) (along_axis (length l / b) b l)) ->
  (forall a, F a = match reshape_auto [] [b] a with
                   | None => None
                   | Some arr => match apply_scalar false dX (fun l => Some (g l)) arr with None => None | Some x => reshape_like (shape a) (elementwise conv x) end
                   end) ->
  lifts false 0 f F.
Proof.
  intros Hb Hf HF. apply lifts_blocks with (b := b) (m := 1) (eb := true) (chk := false) (g := fun w => Some [conv (g w)]); try exact Hb; try reflexivity.
  - intros l r _ E. injection E as <-. reflexivity.
  - intros l. rewrite Hf. destruct (length l mod b =? 0); cbn [negb]; [|reflexivity]. unfold along_axis. cbn [andb]. destruct (length l / b =? 0); [reflexivity|].
    cbn [option_map]. rewrite sequence_map_some. cbn [option_map]. rewrite <- (map_map (fun w => conv (g w)) (fun x => [x])), concat_singles. reflexivity.
  - intros pre n a W S Hpos. rewrite HF, rows_some by exact Hb. cbn [andb]. destruct (Nat.eqb_spec (length (data a) mod b) 0) as [Hd|]; cbn [negb]; [|reflexivity].
    apply Nat.mod_divides in Hd as [k Hk]; [|lia]. assert (L : length (data a) = k * b) by lia. clear Hk. rewrite L, Nat.div_mul by lia.
    rewrite (apply_scalar_rows false dX _ [k] b); [|unfold well_formed; cbn [shape data]; rewrite L; unfold prod; cbn; lia|reflexivity].
    rewrite sequence_map_some, sequence_map_some. change [k; b] with ([k] ++ [b]). rewrite rows_split; [|exact Hb|rewrite L; unfold prod; cbn; lia].
    destruct (concat_chunks b k (data a) L) as (_ & _ & C3). rewrite reshape_chunks, L, Nat.div_mul by lia.
    destruct (Nat.eqb_spec k 0) as [->|Hk]; [reflexivity|]. destruct (chunks k b (data a)) as [|c cs] eqn:E; [cbn in C3; lia|].
    cbn [map]. unfold reshape_like, elementwise, reshape_auto. cbn [shape data map concat app length]. rewrite S, removelast_last, !map_length, map_map.
    rewrite <- (map_map (fun w => conv (g w)) (fun x => [x])), concat_singles, map_length. reflexivity.
Qed.
Theorem C102_bits_to_indices (l : labeling) : constructed l -> lifts false 0 (bits_to_indices l) (bits_to_indices_nd l).
Proof.
  intros C. assert (B : lifts false 0 (base_bits_to_indices l) (base_b2i_nd l)).
  { destruct (Nat.eq_dec (num_bits l) 0) as [Z|NZ].
    - apply lifts_never; [intros b; unfold base_bits_to_indices; rewrite Z; reflexivity|]. intros a. unfold base_b2i_nd. rewrite Z. destruct (rev (shape a)); reflexivity.
    - set (d := dict_get (inverse_mapping (matrix l))).
      apply lifts_blocks with (b := num_bits l) (m := 1) (eb := true) (chk := true) (g := fun w => option_map (fun x => [x]) (d w)); try lia; try discriminate.
      + intros w r _ E. destruct (d w); [injection E as <-; reflexivity|discriminate].
      + intros bits. unfold base_bits_to_indices. fold d. destruct (Nat.eqb_spec (num_bits l) 0); [contradiction|]. destruct (length bits mod num_bits l =? 0); cbn [negb]; [|reflexivity].
        unfold along_axis. cbn [andb]. destruct (length bits / num_bits l =? 0); [reflexivity|]. rewrite sequence_singles, <- sequence_all_some, <- reshape_chunks.
        destruct (sequence (map d (reshape (num_bits l) bits))); cbn [option_map]; [rewrite concat_singles; reflexivity|reflexivity].
      + intros pre n a W S Hpos. unfold base_b2i_nd. rewrite (rev_shape _ _ _ S). destruct (Nat.eqb_spec (num_bits l) 0); [contradiction|].
        destruct (Nat.eqb_spec (n mod num_bits l) 0) as [Hn|]; cbn [negb andb]; [|reflexivity].
        destruct (split_some (num_bits l) n pre a ltac:(lia) W S Hpos Hn) as [-> L].
        rewrite (apply_scalar_rows false 0 d (pre ++ [n / num_bits l]) (num_bits l)) by (try reflexivity; unfold well_formed; cbn [shape data]; rewrite L, (prod_snoc _ (num_bits l)); reflexivity).
        rewrite rows_split by (try exact L; lia). rewrite L, Nat.mod_mul, Nat.div_mul by lia. cbn [Nat.eqb negb].
        rewrite sequence_singles. destruct (sequence (map d (reshape (num_bits l) (data a)))) as [r|] eqn:E; cbn [option_map]; [|destruct (_ =? 0); reflexivity].
        assert (Lr : length r = prod (pre ++ [n / num_bits l])).
        { apply sequence_spec in E. apply (f_equal (@length _)) in E. rewrite !map_length, reshape_chunks, L, Nat.div_mul in E by lia.
          destruct (concat_chunks (num_bits l) _ (data a) L) as (_ & _ & C3). congruence. }
        rewrite <- Lr. rewrite concat_singles. destruct r as [|x r]; [reflexivity|]. cbn [length Nat.eqb]. unfold reshape_like. rewrite S, removelast_last. reflexivity. }
  destruct l; try exact B; cbn [bits_to_indices bits_to_indices_nd]; inversion C; subst; repeat match goal with
  | H : mk_Labeling _ = _ |- _ => exfalso; revert H; unfold mk_Labeling; destruct (Labeling_matrix _); discriminate
  | H : mk_Natural _ = _ |- _ => apply mk_Natural_inv in H as [? E]; try discriminate E
  | H : mk_Reflected _ = _ |- _ => apply mk_Reflected_inv in H as [? E]; try discriminate E
  | H : mk_Rect _ _ = _ |- _ => apply mk_Rect_inv in H as (? & ? & E); try discriminate E
  | H : mk_Product _ _ = _ |- _ => apply mk_Product_inv in H as (? & E & _); try discriminate E
  | H : mk_Rect1 ?n = _ |- _ => unfold mk_Rect1 in H; destruct ((0 <? n) && (n mod 2 =? 0)); [|discriminate]
  end; injection E as <-.
  - apply (flat_scalars 0 m (fun w => bits_to_int w MSB_first) 0%N N.to_nat); [assumption|reflexivity|reflexivity].
  - apply (flat_scalars 0 m (fun w => bits_to_int w MSB_first) 0%N (fun n => N.to_nat (ungray m n))); [assumption|reflexivity|reflexivity].
Qed.
Theorem C102_marginalize (l : labeling) : constructed l -> lifts 0%R NaN (marginalize l) (marginalize_nd l).
Proof.
  intros C. destruct (constructed_table l C) as [_ Ec]. assert (HM : 0 < cardinality l) by (rewrite Ec; apply Nat.neq_0_lt_0, Nat.pow_nonzero; lia).
  assert (RL : forall r, length (marginalize_row (matrix l) (num_bits l) r) = num_bits l) by (intros r; unfold marginalize_row; rewrite map_length, seq_length; reflexivity).
  apply lifts_blocks with (b := cardinality l) (m := num_bits l) (eb := false) (chk := true) (g := fun r => Some (marginalize_row (matrix l) (num_bits l) r)); try exact HM; try discriminate.
  - intros w r _ E. injection E as <-. apply RL.
  - intros mt. unfold marginalize. destruct (length mt mod cardinality l =? 0); cbn [negb andb]; [|reflexivity]. rewrite sequence_map_some. reflexivity.
  - intros pre n a W S Hpos. unfold marginalize_nd. rewrite (rev_shape _ _ _ S). destruct (Nat.eqb_spec (cardinality l) 0); [lia|].
    destruct (Nat.eqb_spec (n mod cardinality l) 0) as [Hn|]; cbn [negb andb]; [|reflexivity].
    destruct (split_some (cardinality l) n pre a HM W S Hpos Hn) as [-> L].
    rewrite (rowwise_rows 0%R NaN _ (num_bits l) (pre ++ [n / cardinality l]) (cardinality l)); [| |reflexivity|intros; apply RL].
    + rewrite rows_split by assumption. rewrite L, Nat.mod_mul by lia. cbn [Nat.eqb negb]. rewrite sequence_map_some.
      unfold reshape_like. rewrite S, removelast_last. reflexivity.
    + unfold well_formed. cbn [shape data]. rewrite L, (prod_snoc _ (cardinality l)). reflexivity.
Qed.

(** Labels of every line of an array, and back. *)
Lemma lifts_identity {A} (d : A) f F pre n (a : array A) : lifts d d f F -> well_formed a -> shape a = pre ++ [n] -> Forall (lt 0) pre ->
  (forall p, valid_index pre p -> f (line d a n p []) = Some (line d a n p [])) -> F a = Some a.
Proof.
  intros H W S Hpos Hf. specialize (H pre n a W S Hpos). destruct (F a) as [o|].
  - destruct H as (Wo & m & So & Lo). f_equal. destruct (unravel pre 0 (prod_pos _ Hpos)) as (p0 & Hp0 & _).
    assert (m = n) as ->. { specialize (Lo p0 Hp0). rewrite (Hf p0 Hp0) in Lo. injection Lo as E. apply (f_equal (@length _)) in E. rewrite !line_length in E. congruence. }
    apply (array_ext d); [exact Wo|exact W|congruence|]. intros idx V. rewrite So in V. destruct (index_split pre [] idx n V) as (p & k & q & -> & Hp & Hk & Hq).
    inversion Hq; subst. specialize (Lo p Hp). rewrite (Hf p Hp) in Lo. injection Lo as E. rewrite <- !(nth_line d _ n) by exact Hk. rewrite E. reflexivity.
  - destruct H as (p & Hp & E). rewrite (Hf p Hp) in E. discriminate.
Qed.
Theorem C102_labels_round_trip (l : labeling) (pre : list nat) (k : nat) (bits : array bool) : constructed l -> 0 < num_bits l ->
  well_formed bits -> shape bits = pre ++ [k * num_bits l] -> Forall (lt 0) pre -> 0 < k ->
  exists indices, bits_to_indices_nd l bits = Some indices /\ shape indices = pre ++ [k] /\
    indices_to_bits_nd l (elementwise Z.of_nat indices) = Some bits.
Proof.
  intros C Hm W S Hpos Hk.
  pose proof (C102_bits_to_indices l C) as L1. pose proof (lifts_compose _ _ _ _ _ _ _ (lifts_elementwise 0 0%Z Z.of_nat) (C102_indices_to_bits l C)) as L2.
  pose proof (lifts_compose _ _ _ _ _ _ _ L1 L2) as L. cbv beta iota in L.
  assert (D : forall p, exists idx, bits_to_indices l (line false bits (k * num_bits l) p []) = Some idx /\ length idx = k /\
                 indices_to_bits l (map Z.of_nat idx) = Some (line false bits (k * num_bits l) p [])).
  { intros p. destruct (C52_bits_indices l (line false bits (k * num_bits l) p []) k C Hm Hk (line_length _ _ _ _ _)) as (idx & E1 & E2 & _ & E3). exists idx. auto. }
  assert (I : match bits_to_indices_nd l bits with None => None | Some b => indices_to_bits_nd l (elementwise Z.of_nat b) end = Some bits).
  { refine (lifts_identity false _ _ pre _ bits L W S Hpos _). intros p Hp. destruct (D p) as (idx & E1 & _ & E3). rewrite E1. exact E3. }
  pose proof (L1 pre _ bits W S Hpos) as Q. destruct (bits_to_indices_nd l bits) as [o|]; [|discriminate]. exists o. split; [reflexivity|]. split; [|exact I].
  destruct Q as (_ & m & So & Lo). rewrite So. do 2 f_equal. destruct (unravel pre 0 (prod_pos _ Hpos)) as (p & Hp & _).
  specialize (Lo p Hp). destruct (D p) as (idx & E1 & E2 & _). rewrite E1 in Lo. injection Lo as ->. rewrite line_length in E2. exact E2.
Qed.

(** *** Constellations *)
Lemma wrap_lt len i : index_ok len i = true -> wrap len i < len.
Proof. unfold index_ok, wrap. intros H. apply andb_true_iff in H as [H1 H2]. apply Z.leb_le in H1. apply Z.ltb_lt in H2. destruct (Z.ltb_spec i 0); lia. Qed.
Theorem C102_indices_to_symbols (K : constellation) : usable K -> lifts 0%Z (RtoC 0) (symbols_1d K) (symbols_nd K).
Proof.
  intros U. destruct (usable_shape K U) as (_ & F & _ & _). rewrite Forall_forall in F. set (M := Const_Model.matrix K) in *.
  apply lifts_checked with (q := index_ok (length M)) (h := fun i => nth (wrap (length M) i) M []) (m := dimension K).
  - intros i Hi. apply F, nth_In, wrap_lt. exact Hi.
  - intros idx. unfold symbols_1d. fold M. destruct (forallb _ idx); [|reflexivity]. rewrite flat_map_concat_map. reflexivity.
  - intros a. unfold symbols_nd, fancy. fold M. destruct (forallb _ (data a)); reflexivity.
Qed.
(** For indices that are not negative this is the method of the constellation property (C60);
    a negative index is silently counted from the end. *)
Theorem C102_symbols_1d (K : constellation) (idx : list nat) : symbols_1d K (map Z.of_nat idx) = Const_Model.indices_to_symbols K idx.
Proof.
  unfold symbols_1d, Const_Model.indices_to_symbols.
  assert (E : forallb (index_ok (length (Const_Model.matrix K))) (map Z.of_nat idx) = forallb (fun i => i <? length (Const_Model.matrix K)) idx).
  { induction idx as [|i idx IH]; [reflexivity|]. cbn [map forallb]. rewrite IH. f_equal. unfold index_ok.
    destruct (Nat.ltb_spec i (length (Const_Model.matrix K))); [apply andb_true_iff; split; [apply Z.leb_le|apply Z.ltb_lt]; lia|].
    apply andb_false_iff. right. apply Z.ltb_ge. lia. }
  rewrite E. destruct (forallb _ idx); [|reflexivity]. do 2 f_equal. rewrite map_map. apply map_ext. intros i. unfold wrap.
  destruct (Z.ltb_spec (Z.of_nat i) 0); [lia|]. rewrite Nat2Z.id. reflexivity.
Qed.
Theorem C102_negative_index (K : constellation) (i : nat) : i < length (Const_Model.matrix K) ->
  symbols_1d K [(Z.of_nat i - Z.of_nat (length (Const_Model.matrix K)))%Z] = symbols_1d K [Z.of_nat i].
Proof.
  intros H. unfold symbols_1d, index_ok, wrap. cbn [forallb map concat]. set (L := length _) in *.
  destruct (Z.leb_spec (- Z.of_nat L) (Z.of_nat i - Z.of_nat L)); [|lia]. destruct (Z.ltb_spec (Z.of_nat i - Z.of_nat L) (Z.of_nat L)); [|lia].
  destruct (Z.leb_spec (- Z.of_nat L) (Z.of_nat i)); [|lia]. destruct (Z.ltb_spec (Z.of_nat i) (Z.of_nat L)); [|lia].
  destruct (Z.ltb_spec (Z.of_nat i - Z.of_nat L) 0); [|lia]. destruct (Z.ltb_spec (Z.of_nat i) 0); [lia|]. cbn [andb].
  do 4 f_equal. lia.
Qed.

Lemma chunks_one {A} (l : list A) : reshape 1 l = map (fun z => [z]) l.
Proof. rewrite reshape_chunks, Nat.div_1_r. induction l as [|x l IH]; [reflexivity|]. cbn. f_equal. exact IH. Qed.
Definition elementwise_kind (k : kind) : bool := match k with PAM _ _ | QAM _ _ _ _ _ | ASK _ _ _ | PSK _ _ _ => true | _ => false end.
Lemma elementwise_dimension k K : build k = Some K -> elementwise_kind k = true -> dimension K = 1.
Proof. destruct k; cbn; intros E H; try discriminate; injection E as <-; reflexivity. Qed.
Lemma reshaped_flat (K : constellation) pre n (a : array C) : 0 < dimension K -> shape a = pre ++ [n] ->
  reshaped_closest K a = if negb (length (data a) mod dimension K =? 0) then None
    else match sequence (map (fun r => Some [closest K r]) (reshape (dimension K) (data a))) with
         | None => None | Some rs => reshape_auto pre [] (Arr [] (concat rs)) end.
Proof.
  intros Hd S. unfold reshaped_closest, rows_of. rewrite rows_some by exact Hd. destruct (length (data a) mod dimension K =? 0); cbn [negb]; [|reflexivity].
  cbn [data]. rewrite sequence_map_some, <- (map_map (closest K) (fun x => [x])), concat_singles. unfold reshape_like. rewrite S, removelast_last. reflexivity.
Qed.
Lemma validate_last (N : nat) (a : array C) pre n : 0 < N -> shape a = pre ++ [n] -> validate_received N a = (n mod N =? 0).
Proof. intros H S. unfold validate_received. rewrite (rev_shape _ _ _ S). destruct (Nat.eqb_spec N 0); [lia|reflexivity]. Qed.
Theorem C102_closest_indices (k : kind) (K : constellation) : build k = Some K -> usable K ->
  lifts (RtoC 0) 0 (closest_indices K) (closest_indices_nd k K).
Proof.
  intros B U. destruct (usable_shape K U) as (Hd & _ & _ & _).
  assert (F1 : forall l, closest_indices K l = if negb (length l mod dimension K =? 0) then None else if false && (length l / dimension K =? 0) then None
                 else option_map (@concat nat) (sequence (map (fun r => Some [closest K r]) (reshape (dimension K) l)))).
  { intros l. unfold closest_indices. destruct (length l mod dimension K =? 0); cbn [negb andb]; [|reflexivity].
    rewrite sequence_map_some. cbn [option_map]. rewrite <- (map_map (closest K) (fun x => [x])), concat_singles. reflexivity. }
  assert (LG : forall (l : list C) r, length l = dimension K -> Some [closest K l] = Some r -> length r = 1) by (intros l r _ E; injection E as <-; reflexivity).
  destruct (elementwise_kind k) eqn:EK.
  - pose proof (elementwise_dimension k K B EK) as D1.
    apply lifts_ext with (f := fun l => Some (map (fun z => closest K [z]) l)) (F := fun a => Some (elementwise (fun z => closest K [z]) a)).
    + intros l. unfold closest_indices. rewrite D1, Nat.mod_1_r, chunks_one, map_map. reflexivity.
    + intros. destruct k; try discriminate; reflexivity.
    + apply lifts_elementwise.
  - assert (Flat : lifts (RtoC 0) 0 (closest_indices K) (reshaped_closest K)).
    { apply lifts_blocks with (b := dimension K) (m := 1) (eb := false) (chk := false) (g := fun r => Some [closest K r]); auto.
      intros pre n a W S Hpos. rewrite (reshaped_flat K pre n a Hd S). reflexivity. }
    assert (Valid : lifts (RtoC 0) 0 (closest_indices K) (validated_closest K)).
    { apply lifts_blocks with (b := dimension K) (m := 1) (eb := false) (chk := true) (g := fun r => Some [closest K r]); auto.
      intros pre n a W S Hpos. unfold validated_closest. rewrite (validate_last _ a pre n Hd S), (reshaped_flat K pre n a Hd S).
      destruct (n mod dimension K =? 0); reflexivity. }
    destruct k; try discriminate; assumption.
Qed.
Theorem C102_closest_symbols (k : kind) (K : constellation) : build k = Some K -> usable K ->
  lifts (RtoC 0) (RtoC 0) (closest_symbols K) (closest_symbols_nd k K).
Proof.
  intros B U.
  pose proof (lifts_compose _ _ _ _ _ _ _ (C102_closest_indices k K B U)
    (lifts_compose _ _ _ _ _ _ _ (lifts_elementwise 0 0%Z Z.of_nat) (C102_indices_to_symbols K U))) as L. cbv beta iota in L.
  revert L. apply lifts_ext.
  - intros l. unfold closest_symbols. destruct (closest_indices K l) as [idx|]; [|reflexivity]. apply C102_symbols_1d.
  - intros pre n a W S Hpos. unfold closest_symbols_nd. pose proof (C102_closest_indices k K B U pre n a W S Hpos) as Q.
    destruct (closest_indices_nd k K a) as [o|]; [|reflexivity]. destruct Q as (Wo & m & So & _).
    assert (We : well_formed (elementwise Z.of_nat o)) by (unfold well_formed, elementwise in *; cbn [shape data]; rewrite map_length; exact Wo).
    pose proof (C102_indices_to_symbols K U pre m (elementwise Z.of_nat o) We So Hpos) as Q2.
    destruct (symbols_nd K (elementwise Z.of_nat o)) as [s|]; [|reflexivity]. destruct Q2 as (Ws & m2 & Ss & _). destruct s as [sh d]. cbn [shape] in Ss. subst sh.
    unfold reshape_like. symmetry. apply reshape_pre with (n := n); [exact Hpos| |exact S]. unfold well_formed in Ws. cbn [shape data] in Ws. rewrite Ws. apply prod_snoc.
Qed.
Theorem C102_posteriors (K : constellation) (noise_power : R) (priors : option (list R)) : usable K ->
  lifts (RtoC 0) 0%R (fun received => posteriors K received noise_power priors) (fun received => posteriors_nd K received noise_power priors).
Proof.
  intros U. destruct (usable_shape K U) as (Hd & _ & HM & _). unfold posteriors, posteriors_nd.
  set (pr := match priors with None => _ | Some p => p end). destruct (valid_priors K pr) eqn:V; cbn [negb]; [|apply lifts_never; reflexivity].
  assert (RL : forall r, length (posterior_row K noise_power pr r) = order K).
  { intros r. unfold posterior_row. rewrite !map_length, combine_length. unfold squared_distances. rewrite map_length, HM.
    unfold valid_priors in V. apply andb_true_iff in V as [_ V]. apply Nat.eqb_eq in V. rewrite V. apply Nat.min_id. }
  apply lifts_blocks with (b := dimension K) (m := order K) (eb := false) (chk := true) (g := fun r => Some (posterior_row K noise_power pr r)); try exact Hd; try discriminate.
  - intros l r _ E. injection E as <-. apply RL.
  - intros l. destruct (length l mod dimension K =? 0); cbn [negb andb]; [|reflexivity]. rewrite sequence_map_some. reflexivity.
  - intros pre n a W S Hpos. rewrite (validate_last _ a pre n Hd S). destruct (n mod dimension K =? 0); cbn [negb andb]; [|reflexivity].
    unfold rows_of. rewrite rows_some by exact Hd. destruct (length (data a) mod dimension K =? 0); cbn [negb data]; [|reflexivity].
    rewrite sequence_map_some. unfold reshape_like. rewrite S, removelast_last. reflexivity.
Qed.

(** Arrays without axes: an index is treated as a sequence of one; the generic methods refuse a scalar. *)
Theorem C102_scalar (l : labeling) (i : Z) (b : bool) : constructed l ->
  indices_to_bits_nd l (Arr [] [i]) = option_map (fun bits => Arr [length bits] bits) (indices_to_bits l [i]) /\
  base_b2i_nd l (Arr [] [b]) = None.
Proof.
  intros C. split; [|reflexivity].
  assert (RA : forall sh (x : list bool), reshape_like [] (Arr sh x) = Some (Arr [length x] x)).
  { intros sh x. unfold reshape_like, reshape_auto. cbn [removelast data]. change (prod [] * prod []) with 1. cbn [Nat.eqb]. rewrite Nat.mod_1_r, Nat.div_1_r. reflexivity. }
  assert (B : base_i2b_nd l (Arr [] [i]) = option_map (fun bits => Arr [length bits] bits) (base_indices_to_bits l [i])).
  { unfold base_i2b_nd, base_indices_to_bits. cbn [data]. destruct (forallb _ [i]) eqn:E; cbn [negb option_map]; [|reflexivity].
    destruct (constructed_table l C) as [(T1 & _ & _) Ec]. unfold fancy. cbn [data shape app]. cbn [forallb] in E. rewrite andb_true_r in E. apply andb_true_iff in E as [E1 E2].
    apply Z.leb_le in E1. apply Z.ltb_lt in E2. cbn [forallb flat_map map concat]. replace (index_ok (length (matrix l)) i) with true.
    - cbn [andb]. rewrite RA. unfold wrap. destruct (Z.ltb_spec i 0); [lia|]. reflexivity.
    - symmetry. unfold index_ok. apply andb_true_iff. split; [apply Z.leb_le|apply Z.ltb_lt]; lia. }
  destruct l; try exact B; cbn [indices_to_bits_nd indices_to_bits]; unfold natural_i2b_nd, reflected_i2b_nd, natural_indices_to_bits, reflected_indices_to_bits, int_to_bits_nd, elementwise;
    cbn [shape data map flat_map concat option_map]; rewrite RA; reflexivity.
Qed.
(** A leading axis of length zero: the reshapes of the code are ambiguous and raise, whatever the argument. *)
Theorem C102_empty_axis (l : labeling) (K : constellation) (pre : list nat) (n : nat) : In 0 pre ->
  (forall a, shape a = pre ++ [n] -> indices_to_bits_nd l a = None) /\ (forall a, shape a = pre ++ [n] -> bits_to_indices_nd l a = None) /\
  (forall a, shape a = pre ++ [n] -> symbols_nd K a = None) /\ (forall a, shape a = pre ++ [n] -> reshaped_closest K a = None).
Proof.
  intros Z. assert (P : prod pre = 0).
  { clear - Z. induction pre as [|x pre IH]; [contradiction|]. rewrite prod_cons. destruct Z as [->|Z]; [reflexivity|]. rewrite (IH Z). lia. }
  assert (RL : forall {A} s (x : array A), s = pre ++ [n] -> reshape_like s x = None).
  { intros A s x ->. unfold reshape_like, reshape_auto. rewrite removelast_last, P. reflexivity. }
  repeat apply conj.
  - intros a S. destruct l; cbn [indices_to_bits_nd]; try (unfold base_i2b_nd; destruct (forallb _ _); cbn [negb]; [destruct (fancy _ _ _); [apply RL; exact S|reflexivity]|reflexivity]); apply RL; exact S.
  - intros a S. destruct l; cbn [bits_to_indices_nd];
      try (unfold base_b2i_nd; destruct (rev (shape a)); [reflexivity|]; destruct (_ =? 0); [reflexivity|]; destruct (negb _); [reflexivity|];
           destruct (reshape_auto _ _ _); [|reflexivity]; destruct (apply_scalar _ _ _ _); [apply RL; exact S|reflexivity]);
      unfold natural_b2i_nd, reflected_b2i_nd; destruct (reshape_auto _ _ _); try reflexivity; destruct (bits_to_int_rows _); try reflexivity; apply RL; exact S.
  - intros a S. unfold symbols_nd. destruct (fancy _ _ _); [apply RL; exact S|reflexivity].
  - intros a S. unfold reshaped_closest. destruct (rows_of _ _); [apply RL; exact S|reflexivity].
Qed.
Theorem C102_example : exists l, mk_Reflected 2 = Some l /\ constructed l /\
  indices_to_bits_nd l (Arr [2; 1; 2] [2; 1; 0; 3]%Z) = Some (Arr [2; 1; 4] [true; true; false; true; false; false; true; false]) /\
  bits_to_indices_nd l (Arr [2; 1; 4] [true; true; false; true; false; false; true; false]) = Some (Arr [2; 1; 2] [2; 1; 0; 3]) /\
  bits_to_indices_nd l (Arr [2; 3] [true; true; false; true; false; false]) = None.
Proof. eexists. split; [reflexivity|]. split; [apply (con_reflected 2); reflexivity|]. repeat split. Qed.
Theorem C102_constellation_example : usable (OrthogonalConstellation 2 1) /\
  exists out, closest_indices_nd (Orthogonal 2 1) (OrthogonalConstellation 2 1) (Arr [2; 2] [RtoC 1; RtoC 0; RtoC 0; RtoC 1]) = Some out /\ shape out = [2; 1].
Proof. split; [apply u_orthogonal; [lia|lra]|]. eexists. split; reflexivity. Qed.
