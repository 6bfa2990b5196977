(** C94: the public methods work on arrays with any number of axes. *)
From Coq Require Import QArith.
From Verif Require Import Common Bits_Model Vec_Model Linear_Spec LinAlg_Model BlockCode_Model Code_Spec Decoders_Proof Array_Model Array_Spec Array_Proof Array_Lift Nd_Model ClassicCodes_Model Props_Codes.
Local Open Scope nat_scope.

(** numpy.apply_along_axis, as used by the library: every line along the axis is
    replaced by its image; it raises if some image does, and if there are no lines. *)
Theorem C94_apply_along_axis {A B} (dA : A) (dB : B) (f : list A -> option (list B)) (axis : Z) (a : array A) (pre post : list nat) (n m : nat) :
  well_formed a -> shape a = pre ++ n :: post -> Forall (lt 0) pre -> Forall (lt 0) post ->
  is_axis axis pre post ->
  (forall p q, valid_index pre p -> valid_index post q -> exists r, f (line dA a n p q) = Some r /\ length r = m) ->
  exists out, apply_along_axis dA dB f axis a = Some out /\ well_formed out /\ shape out = pre ++ m :: post /\
    forall p q, valid_index pre p -> valid_index post q -> f (line dA a n p q) = Some (line dB out m p q).
Proof.
  intros W S Hp Hq Hax Hf. pose proof (prod_pos _ Hp). pose proof (prod_pos _ Hq).
  apply (apply_ok dA dB pre post n a S f axis m); [|nia|exact Hf].
  exact (is_axis_norm a pre post n axis S Hax).
Qed.

(** The decorators of _util/decorators.py. *)
Theorem C94_blockwise_vectorize {A B} (dA : A) (dB : B) (P : list A -> Prop) (f : list A -> list B) (b m : nat) : 0 < b ->
  (forall l, length l = b -> P l -> length (f l) = m) ->
  acts_blockwise dA dB P f b m (blockwise b (vectorize dA dB (fun l => Some (f l)))).
Proof. intros Hb Hf. apply blockwise_acts; [exact Hb|]. apply vectorize_acts. exact Hf. Qed.
Theorem C94_blockwise_rows {A B} (dA : A) (dB : B) (P : list A -> Prop) (f : list A -> list B) (b m : nat) : 0 < b ->
  (forall l, length l = b -> P l -> length (f l) = m) ->
  acts_blockwise dA dB P f b m (blockwise b (rowwise dA dB f m)).
Proof. intros Hb Hf. apply blockwise_acts; [exact Hb|]. apply rowwise_acts. exact Hf. Qed.
(** They raise when the last dimension is not a multiple of the block size, and for scalars. *)
Theorem C94_rejects {A B} (b : nat) (func : array A -> option (array B)) (a : array A) :
  (shape a = [] \/ exists pre n, shape a = pre ++ [n] /\ n mod b <> 0) -> blockwise b func a = None.
Proof. intros [S|(pre & n & S & H)]; [apply blockwise_scalar; exact S|exact (blockwise_rejects b func a pre n S H)]. Qed.

Lemma method_acts {A B} (dA : A) (dB : B) (vect : bool) (P : list A -> Prop) (f : list A -> list B) (b m : nat) : 0 < b ->
  (forall l, length l = b -> P l -> length (f l) = m) -> acts_blockwise dA dB P f b m (method dA dB vect b m f).
Proof. intros Hb Hf. unfold method. destruct vect; [apply C94_blockwise_vectorize|apply C94_blockwise_rows]; assumption. Qed.

(** encode and check, for every valid code and both implementations. *)
Definition any {A} : list A -> Prop := fun _ => True.
Theorem C94_encode (vect : bool) (C : block_code) : valid_code C -> 0 < bc_k C ->
  acts_blockwise false false any (bc_encode C) (bc_k C) (bc_n C) (encode_nd vect C).
Proof. intros V Hk. apply method_acts; [exact Hk|]. intros l Hl _. apply (ok_encode_length C V). exact Hl. Qed.
Theorem C94_check (vect : bool) (C : block_code) : valid_code C -> 0 < bc_n C ->
  acts_blockwise false false any (bc_check C) (bc_n C) (bc_m C) (check_nd vect C).
Proof. intros V Hn. apply method_acts; [exact Hn|]. intros l Hl _. apply check_length; [exact V|exact Hl]. Qed.
Lemma project_acts (vect : bool) (C : block_code) : valid_code C -> 0 < bc_n C ->
  acts_blockwise false false (is_codeword C) (bc_project C) (bc_n C) (bc_k C) (project_nd vect C).
Proof. intros V Hn. apply method_acts; [exact Hn|]. intros l Hl (u & Lu & <-). rewrite (ok_project C V) by exact Lu. exact Lu. Qed.

Lemma forallb_data {A} (d : A) (q : A -> bool) (s : array A) (pre : list nat) (n : nat) : well_formed s -> shape s = pre ++ [n] ->
  (forallb q (data s) = true <-> forall p, valid_index pre p -> forallb q (line d s n p []) = true).
Proof.
  intros W S. rewrite forallb_forall. split.
  - intros H p Hp. apply forallb_forall. intros x Hx. unfold line in Hx. apply in_map_iff in Hx as (k & <- & Hk). apply in_seq in Hk.
    apply H. unfold get. apply nth_In. unfold well_formed in W. rewrite W. apply ravel_lt. rewrite S.
    apply valid_app; [exact Hp|]. constructor; [lia|constructor].
  - intros H x Hx. apply (In_nth _ _ d) in Hx as (i & Hi & <-). unfold well_formed in W. rewrite W in Hi.
    destruct (unravel _ _ Hi) as (idx & V & <-). rewrite S in V.
    destruct (Forall2_app_inv_r pre [n] V) as (p & q' & Hp & Hq & ->). inversion Hq as [|j y q'' l' Hj Hq']; subst. inversion Hq'; subst.
    specialize (H p Hp). rewrite forallb_forall in H. apply H. unfold line. apply in_map_iff. exists j. split; [reflexivity|apply in_seq; lia].
Qed.

(** inverse_encode: raises exactly if some block of some line is not a codeword,
    and otherwise inverts every block. *)
Lemma inverse_cases (vect : bool) (C : block_code) (pre : list nat) (k : nat) (v : array bool) : valid_code C -> 0 < bc_n C ->
  well_formed v -> shape v = pre ++ [k * bc_n C] -> Forall (lt 0) pre -> 0 < k ->
  (all_blocks false (is_codeword C) (bc_n C) k pre v -> inverse_encode_nd vect C v = project_nd vect C v) /\
  (~ all_blocks false (is_codeword C) (bc_n C) k pre v -> inverse_encode_nd vect C v = None).
Proof.
  intros V Hn W S Hpos Hk. unfold inverse_encode_nd.
  destruct (C94_check vect C V Hn pre k v W S Hpos Hk) as (s & E & Ws & Ss & Ls); [intros p _; apply Forall_forall; intros; exact I|].
  rewrite E. pose proof (forallb_data false negb s pre (k * bc_m C) Ws Ss) as FD.
  assert (K : forallb negb (data s) = true <-> all_blocks false (is_codeword C) (bc_n C) k pre v).
  { rewrite FD. unfold all_blocks.
    assert (Q : forall p, valid_index pre p -> (forallb negb (line false s (k * bc_m C) p []) = true <-> Forall (is_codeword C) (blocks (bc_n C) (line false v (k * bc_n C) p [])))).
    { intros p Hp. rewrite Ls by exact Hp.
      destruct (blocks_lengths (bc_n C) k (line false v (k * bc_n C) p []) Hn (line_length _ _ _ _ _)) as [BL _].
      induction BL as [|x l Hx BL IH]; cbn; [split; [intros _; constructor|reflexivity]|].
      rewrite forallb_app, andb_true_iff, IH. 
      assert (Z : forallb negb (bc_check C x) = true <-> is_codeword C x).
      { rewrite <- (ok_check_zero C V x Hx). rewrite <- (check_length C x V Hx). generalize (bc_check C x). intros y. clear.
        induction y as [|b y IHy]; cbn; [tauto|]. destruct b; cbn; [split; discriminate|]. unfold zeros in *. rewrite IHy.
        split; [intros E; f_equal; exact E|intros E; injection E; auto]. }
      rewrite Z. split; [intros [H1 H2]; constructor; assumption|intros H; inversion H; subst; split; assumption]. }
    split; intros H p Hp; apply Q; try exact Hp; apply H; exact Hp. }
  destruct (forallb negb (data s)) eqn:F; split; intros H; try reflexivity.
  - exfalso. apply H. apply K. reflexivity.
  - apply K in H. discriminate.
Qed.
Theorem C94_inverse_encode (vect : bool) (C : block_code) : valid_code C -> 0 < bc_n C ->
  acts_blockwise false false (is_codeword C) (bc_project C) (bc_n C) (bc_k C) (inverse_encode_nd vect C) /\
  (forall pre k v, well_formed v -> shape v = pre ++ [k * bc_n C] -> Forall (lt 0) pre -> 0 < k ->
     ~ all_blocks false (is_codeword C) (bc_n C) k pre v -> inverse_encode_nd vect C v = None).
Proof.
  intros V Hn. split.
  - intros pre k v W S Hpos Hk HP. rewrite (proj1 (inverse_cases vect C pre k v V Hn W S Hpos Hk) HP).
    exact (project_acts vect C V Hn pre k v W S Hpos Hk HP).
  - intros pre k v W S Hpos Hk HP. exact (proj2 (inverse_cases vect C pre k v V Hn W S Hpos Hk) HP).
Qed.
(** Hence encoding and inverse encoding is the identity on arrays of any shape. *)
Theorem C94_round_trip (v1 v2 : bool) (C : block_code) (pre : list nat) (k : nat) (a : array bool) : valid_code C -> 0 < bc_k C ->
  well_formed a -> shape a = pre ++ [k * bc_k C] -> Forall (lt 0) pre -> 0 < k ->
  exists v, encode_nd v1 C a = Some v /\ inverse_encode_nd v2 C v = Some a.
Proof.
  intros V Hk0 W S Hpos Hk. pose proof (ok_params C V) as HP.
  assert (Hn : 0 < bc_n C) by lia.
  pose proof (acts_compose false false false any (is_codeword C) (bc_encode C) (bc_project C) (bc_k C) (bc_n C) (bc_k C)
                (encode_nd v1 C) (inverse_encode_nd v2 C) Hk0 Hn) as AC.
  assert (A : all_blocks false any (bc_k C) k pre a) by (intros p _; apply Forall_forall; intros; exact I).
  assert (Q : forall l, length l = bc_k C -> any l -> length (bc_encode C l) = bc_n C /\ is_codeword C (bc_encode C l)).
  { intros l Hl _. split; [apply (ok_encode_length C V); exact Hl|]. exists l. auto. }
  specialize (AC Q (C94_encode v1 C V Hk0) (proj1 (C94_inverse_encode v2 C V Hn))).
  destruct (C94_encode v1 C V Hk0 pre k a W S Hpos Hk A) as (v & E & _). exists v. split; [exact E|].
  pose proof (acts_identity false any _ (bc_k C) _ pre k a Hk0 AC) as ID. cbv beta in ID. rewrite E in ID.
  apply ID; try assumption. intros l Hl _. apply (ok_project C V). exact Hl.
Qed.

(** The decoders. *)
Lemma take_rows_spec (table : list vec) (n : nat) (idx : array N) : well_formed idx ->
  (forall i, In i (data idx) -> length (nth (N.to_nat i) table []) = n) ->
  well_formed (take_rows table n idx) /\
  forall p, valid_index (shape idx) p -> line false (take_rows table n idx) n p [] = nth (N.to_nat (get 0%N idx p)) table [].
Proof.
  intros W H. set (F := fun x => nth (N.to_nat (nth x (data idx) 0%N)) table []).
  assert (E : data (take_rows table n idx) = flat_map F (seq 0 (length (data idx)))).
  { cbn [take_rows data]. rewrite !flat_map_concat_map. f_equal. unfold F.
    rewrite <- (map_map (fun x => nth x (data idx) 0%N) (fun i => nth (N.to_nat i) table [])). f_equal.
    apply (list_ext 0%N); [rewrite map_length, seq_length; reflexivity|]. intros i Hi. rewrite nth_map_seq by exact Hi. reflexivity. }
  assert (FL : forall x, x < length (data idx) -> length (F x) = n) by (intros x Hx; apply H; apply nth_In; exact Hx).
  split.
  - unfold well_formed in *. rewrite E. rewrite (flat_map_seq_length _ n) by (intros; apply FL; lia).
    cbn [take_rows shape]. rewrite prod_app, W. unfold prod at 3. cbn. lia.
  - intros p Hp. pose proof (ravel_lt _ _ Hp) as R. unfold well_formed in W. rewrite <- W in R.
    apply (list_ext false); [rewrite line_length; symmetry; apply FL; exact R|].
    intros j Hj. rewrite line_length in Hj. unfold line. rewrite nth_map_seq by exact Hj. unfold get at 1. rewrite E.
    cbn [take_rows shape]. rewrite (ravel_app (shape idx) [n] p [j]) by exact (valid_length _ _ Hp).
    replace (ravel (shape idx) p * prod [n] + ravel [n] [j]) with (ravel (shape idx) p * n + j) by (unfold prod; cbn; lia).
    rewrite (flat_map_seq_nth _ n); [reflexivity|exact FL|exact R|exact Hj].
Qed.
Lemma xor_nd_spec (a b : array bool) (sh : list nat) (n : nat) : well_formed a -> well_formed b -> shape a = sh ++ [n] -> shape b = sh ++ [n] ->
  well_formed (xor_nd a b) /\ forall p, valid_index sh p -> line false (xor_nd a b) n p [] = vxor (line false a n p []) (line false b n p []).
Proof.
  intros Wa Wb Sa Sb. assert (L : length (data a) = length (data b)) by (unfold well_formed in *; congruence).
  assert (VN : forall (x y : vec) i, length x = length y -> i < length x -> nth i (vxor x y) false = xorb (nth i x false) (nth i y false)).
  { induction x as [|u x IH]; intros y i HL Hi; [cbn in Hi; lia|]. destruct y as [|w y]; [discriminate|]. destruct i; [reflexivity|]. cbn. apply IH; cbn in *; lia. }
  assert (VL : forall (x y : vec), length x = length y -> length (vxor x y) = length x).
  { induction x as [|u x IH]; intros y HL; destruct y; try discriminate; [reflexivity|]. cbn. f_equal. apply IH. cbn in HL. lia. }
  split.
  - unfold well_formed in *. cbn [xor_nd shape data]. rewrite VL by exact L. exact Wa.
  - intros p Hp. apply (list_ext false); [rewrite VL by (rewrite !line_length; reflexivity); rewrite !line_length; reflexivity|].
    intros j Hj. rewrite line_length in Hj. rewrite VN by (rewrite !line_length; auto). unfold line. rewrite !nth_map_seq by exact Hj.
    unfold get. cbn [xor_nd shape data]. rewrite Sa, Sb. apply VN; [exact L|]. unfold well_formed in Wa. rewrite Wa, Sa. apply ravel_lt.
    apply valid_app; [exact Hp|]. constructor; [exact Hj|constructor].
Qed.
Lemma bits_to_int_nd_spec (s : array bool) (sh : list nat) (m : nat) : well_formed s -> shape s = sh ++ [m] -> Forall (lt 0) sh ->
  exists idx, bits_to_int_nd s = Some idx /\ well_formed idx /\ shape idx = sh /\
    forall p, valid_index sh p -> get 0%N idx p = bits_to_int (line false s m p []) LSB_first.
Proof.
  intros W S Hpos. unfold bits_to_int_nd.
  destruct (vectorize_acts false 0%N any (fun l => [bits_to_int l LSB_first]) m 1 (fun _ _ _ => eq_refl) sh s W S Hpos (fun _ _ => I)) as (o & E & Wo & So & Lo).
  unfold vectorize in E. rewrite E. rewrite So, removelast_last. eexists. split; [reflexivity|].
  assert (Wi : well_formed (Arr sh (data o))) by (unfold well_formed in *; cbn [shape data]; rewrite Wo, So, prod_app; unfold prod; cbn; lia).
  split; [exact Wi|]. split; [reflexivity|]. intros p Hp. specialize (Lo p Hp). apply (f_equal (hd 0%N)) in Lo. unfold line at 1 in Lo. cbn [seq map hd] in Lo.
  rewrite <- Lo. unfold get. cbn [shape data]. rewrite So, (ravel_app sh [1] p [0]) by exact (valid_length _ _ Hp). f_equal. unfold prod. cbn. lia.
Qed.
Theorem C94_syndrome_decode (vect : bool) (C : block_code) (lds : list vec) : valid_code C -> bc_m C <> 0 ->
  coset_leaders C = Some lds ->
  acts_blockwise false false any (syndrome_decode C lds) (bc_n C) (bc_k C) (syndrome_decode_nd vect C lds).
Proof.
  intros V Hm HL. pose proof (ok_params C V) as HP. assert (Hn : 0 < bc_n C) by lia.
  destruct (C31_coset_leaders C V Hm) as (lds' & EL & LS). rewrite HL in EL. injection EL as <-. destruct LS as [LL LS].
  apply blockwise_acts; [exact Hn|]. intros sh r W S Hpos _.
  destruct (blockwise_row false false any (bc_check C) (bc_n C) (bc_m C) _ Hn (C94_check vect C V Hn) sh r W S Hpos (fun _ _ => I)) as (s & Es & Ws & Ss & Lns).
  rewrite Es. destruct (bits_to_int_nd_spec s sh (bc_m C) Ws Ss Hpos) as (idx & Ei & Wi & Si & Gi). rewrite Ei.
  assert (Row : forall w, length w = bc_n C -> exists i, i < 2 ^ bc_m C /\ N.to_nat (bits_to_int (bc_check C w) LSB_first) = i /\ message (bc_m C) i = bc_check C w).
  { intros w Hw. pose proof (check_length C w V Hw) as LC. exists (N.to_nat (bits_to_int (bc_check C w) LSB_first)).
    destruct (syndrome_index C w (ok_checker C V) Hw) as [I1 I2]. auto. }
  assert (Idx : forall i, In i (data idx) -> length (nth (N.to_nat i) lds []) = bc_n C).
  { intros i Hi. apply (In_nth _ _ 0%N) in Hi as (x & Hx & <-). unfold well_formed in Wi. rewrite Wi in Hx.
    destruct (unravel _ _ Hx) as (p & Hp & <-). rewrite Si in Hp. specialize (Gi p Hp). unfold get in Gi. rewrite Gi.
    rewrite (Lns p Hp). destruct (Row (line false r (bc_n C) p []) (line_length _ _ _ _ _)) as (j & Hj & -> & _). apply LS. exact Hj. }
  destruct (take_rows_spec lds (bc_n C) idx Wi Idx) as [Wt Lt].
  assert (St : shape (take_rows lds (bc_n C) idx) = sh ++ [bc_n C]) by (cbn [take_rows shape]; rewrite Si; reflexivity).
  destruct (xor_nd_spec r _ sh (bc_n C) W Wt S St) as [Wx Lx].
  destruct (blockwise_row false false (is_codeword C) (bc_project C) (bc_n C) (bc_k C) _ Hn (project_acts vect C V Hn) sh (xor_nd r (take_rows lds (bc_n C) idx)) Wx S Hpos) as (u & Eu & Wu & Su & Lu).
  - intros p Hp. rewrite Lx, Lt, Gi, Lns by (try rewrite Si; exact Hp).
    assert (Lw : length (line false r (bc_n C) p []) = bc_n C) by apply line_length.
    destruct (Row _ Lw) as (j & Hj & -> & Em). destruct (LS j Hj) as (L1 & L2 & _). rewrite Em in L2.
    apply (coset_codeword C _ _ (ok_checker C V) Lw L1). symmetry. exact L2.
  - exists u. split; [exact Eu|]. split; [exact Wu|]. split; [exact Su|]. intros p Hp.
    rewrite Lu, Lx, Lt, Gi, Lns by (try rewrite Si; exact Hp). reflexivity.
Qed.
Lemma argmin_codeword (C : block_code) {X} (le : X -> X -> bool) (metrics : list X) : valid_code C -> length metrics = length (codewords C) ->
  is_codeword C (nth (argmin_by le metrics) (codewords C) []).
Proof.
  intros V HL. assert (B : forall l : list X, l <> [] -> argmin_by le l < length l).
  { induction l as [|x l IH]; [congruence|]. intros _. cbn. destruct l as [|y l]; [cbn; lia|]. destruct (le x _); [lia|]. specialize (IH ltac:(discriminate)). cbn [length] in *. lia. }
  assert (LC : length (codewords C) = 2 ^ bc_k C) by (unfold codewords; rewrite map_length, seq_length; reflexivity).
  assert (NZ : 2 ^ bc_k C <> 0) by (apply Nat.pow_nonzero; lia).
  assert (Hi : argmin_by le metrics < length (codewords C)).
  { rewrite <- HL. apply B. intros ->. cbn in HL. lia. }
  assert (IN : In (nth (argmin_by le metrics) (codewords C) []) (codewords C)) by (apply nth_In; exact Hi).
  unfold codewords in IN at 2. apply in_map_iff in IN as (j & <- & _). exists (message (bc_k C) j). split; [apply BlockCode_Proof.message_length|reflexivity].
Qed.
Theorem C94_exhaustive (vect : bool) (C : block_code) : valid_code C -> 0 < bc_n C ->
  acts_blockwise false false any (exhaustive_hard C) (bc_n C) (bc_k C) (exhaustive_hard_nd vect C) /\
  acts_blockwise 0%Q false any (exhaustive_soft C) (bc_n C) (bc_k C) (exhaustive_soft_nd vect C).
Proof.
  intros V Hn.
  assert (LW : forall v, is_codeword C v -> length v = bc_n C) by (intros v (u & Lu & <-); apply (ok_encode_length C V); exact Lu).
  split; apply blockwise_acts; try exact Hn.
  - apply (row_compose false false false any (is_codeword C) (fun w => nth (argmin_by Nat.leb (map (fun c => vsum (vxor w c)) (codewords C))) (codewords C) []) (bc_project C) (bc_n C) (bc_n C) (bc_k C)).
    + intros l _ _. apply argmin_codeword; [exact V|apply map_length].
    + apply rowwise_acts. intros l _ _. apply LW, argmin_codeword; [exact V|apply map_length].
    + apply blockwise_row; [exact Hn|]. apply project_acts; assumption.
  - apply (row_compose 0%Q false false any (is_codeword C) (fun w => nth (argmin_by Qle_bool (map (soft_metric w) (codewords C))) (codewords C) []) (bc_project C) (bc_n C) (bc_n C) (bc_k C)).
    + intros l _ _. apply argmin_codeword; [exact V|apply map_length].
    + apply rowwise_acts. intros l _ _. apply LW, argmin_codeword; [exact V|apply map_length].
    + apply blockwise_row; [exact Hn|]. apply project_acts; assumption.
Qed.

(** An array without any block: the implementations based on matmul return an empty array, those based
    on apply_along_axis raise (numpy refuses when there is no line to iterate over). *)
Theorem C94_empty {A B} (dA : A) (dB : B) (b m : nat) (f : list A -> list B) (pre : list nat) (a : array A) :
  0 < b -> shape a = pre ++ [0] -> data a = [] -> Forall (lt 0) pre ->
  method dA dB false b m f a = Some (Arr (pre ++ [0]) []) /\ method dA dB true b m f a = None.
Proof.
  intros Hb S D Hp. pose proof (prod_pos _ Hp) as PP.
  assert (R : rev (shape a) = 0 :: rev pre) by (rewrite S, rev_app_distr; reflexivity).
  assert (RA : reshape_auto (removelast (shape a)) [b] a = Some (Arr (pre ++ [0; b]) [])).
  { rewrite S, removelast_last. unfold reshape_auto. rewrite D. cbn [length].
    replace (prod [b]) with b by (unfold prod; cbn; lia). destruct (Nat.eqb_spec (prod pre * b) 0); [nia|].
    rewrite Nat.mod_0_l, Nat.div_0_l by assumption. reflexivity. }
  assert (B0 : (b =? 0) = false) by (apply Nat.eqb_neq; lia).
  split; unfold method, blockwise; rewrite R, B0, Nat.mod_0_l by lia; cbn [Nat.eqb negb]; rewrite RA.
  - assert (L : length (pre ++ [0; b]) - 1 = length (pre ++ [0])) by (rewrite !app_length; cbn; lia).
    assert (E : pre ++ [0; b] = (pre ++ [0]) ++ [b]) by (rewrite <- app_assoc; reflexivity).
    unfold rowwise, along. cbn [shape data]. rewrite L, E. unfold outer_of. rewrite firstn_app_exact by reflexivity.
    rewrite prod_app. replace (prod [0]) with 0 by reflexivity. rewrite Nat.mul_0_r. cbn [seq flat_map shape].
    rewrite skipn_all2 by (rewrite !app_length; cbn; lia).
    replace (length ((pre ++ [0]) ++ [m]) - 2) with (length pre) by (rewrite !app_length; cbn; lia).
    rewrite <- app_assoc, firstn_app_exact by reflexivity. unfold reshape_auto. cbn [data length].
    replace (prod pre * prod []) with (prod pre) by (unfold prod; cbn; lia).
    destruct (Nat.eqb_spec (prod pre) 0); [lia|]. rewrite Nat.mod_0_l, Nat.div_0_l by assumption. reflexivity.
  - assert (E : pre ++ [0; b] = (pre ++ [0]) ++ [b]) by (rewrite <- app_assoc; reflexivity).
    unfold vectorize, apply_along_axis. cbn [shape data]. rewrite E.
    pose proof (norm_axis_last (Arr ((pre ++ [0]) ++ [b]) (@nil A)) (pre ++ [0]) b eq_refl) as NA. unfold normal_axis in NA. cbn [shape] in NA. rewrite NA. unfold outer_of. rewrite firstn_app_exact by reflexivity.
    rewrite prod_app. replace (prod [0]) with 0 by reflexivity. rewrite Nat.mul_0_r. reflexivity.
Qed.

(** The hypotheses are met: a 2 x 2 x 8 array of messages for the (7,4) Hamming code. *)
Definition example_messages : array bool :=
  Arr [2; 2; 8] (map (fun i => Nat.odd (i * i / 3)) (seq 0 32)).
Example C94_example_shape : well_formed example_messages /\ shape example_messages = [2; 2] ++ [2 * 4] /\ Forall (lt 0) [2; 2].
Proof. split; [reflexivity|]. split; [reflexivity|]. repeat constructor. Qed.
Example C94_example_run :
  match HammingCode 3 false with
  | Some C => match encode_nd false C example_messages with
              | Some v => shape v = [2; 2; 14] /\ encode_nd true C example_messages = Some v /\ inverse_encode_nd false C v = Some example_messages
              | None => False end
  | None => False
  end.
Proof. vm_compute. repeat split. Qed.
