(* C27-C34, C64: linear algebra over GF(2) and generic block codes.  Statements use the models
   (Vec_Model, LinAlg_Model, BlockCode_Model) and the specifications Linear_Spec, Code_Spec. *)
From Coq Require Import QArith.
From Verif Require Import Common Bits_Model Vec_Model LinAlg_Model Linear_Spec BlockCode_Model Code_Spec.
From Verif Require Vec_Proof LinAlg_Proof XRref_Proof Null_Proof BlockCode_Proof CosetLeaders_Proof Decoders_Proof
  Systematic_Proof.
Local Open Scope nat_scope.

Ltac conjs := lazymatch goal with |- _ /\ _ => split; [|conjs] | _ => idtac end.

(* a running example: a 3 x 5 matrix of rank 2 and the generator of a (5,2) code *)
Definition ex_M : mat := [[false;true;true;false;true]; [false;true;false;true;false]; [false;false;true;true;true]].
Definition ex_G : mat := [[true;false;true;true;false]; [false;true;false;true;true]].

(* ================= C27: rref, xrref, rank *)
Theorem C27_rref_is_reduced : forall n M, wf n M ->
  is_rref (rref n M) /\ length (rref n M) = length M /\ wf n (rref n M).
Proof.
  intros n M W. split; [apply LinAlg_Proof.rref_is_rref; auto|]. split; [apply LinAlg_Proof.rref_length|].
  apply LinAlg_Proof.rref_wf; auto.
Qed.
Theorem C27_rref_row_space : forall n M v, wf n M -> (row_space n M v <-> row_space n (rref n M) v).
Proof. intros; apply LinAlg_Proof.rref_row_space; auto. Qed.

Theorem C27_xrref : forall n M, wf n M ->
  exists P pivots, xrref n M = (P, rref n M, pivots) /\ invertible (length M) P /\ matmul n P M = rref n M /\
  (* pivots are the leading columns of the non-zero rows, in order *)
  length pivots = rank n M /\
  (forall i, i < length pivots -> leading (nth i (rref n M) []) (nth i pivots 0)).
Proof.
  intros n M W. destruct (XRref_Proof.xrref_spec n M W) as (t & Ht & Hp & Hz & P & E & I & MM).
  exists P, (XRref_Proof.leads t (rref n M)). split; [exact E|]. split; [exact I|]. split; [exact MM|]. split.
  - unfold rank. rewrite E. auto.
  - assert (LL : length (XRref_Proof.leads t (rref n M)) = t) by (unfold XRref_Proof.leads; rewrite map_length, seq_length; auto).
    rewrite LL. intros i Hi. rewrite XRref_Proof.nth_leads by auto. apply LinAlg_Proof.pivot_leading. split; auto.
    rewrite (Vec_Proof.wf_nth n); auto.
    + apply LinAlg_Proof.rref_wf; auto.
    + rewrite LinAlg_Proof.rref_length. lia.
Qed.
Theorem C27_rank : forall n M, wf n M ->
  (* the row space has 2^rank elements: rank is its dimension *)
  has_card (row_space n M) (2 ^ rank n M) /\
  rank n M <= length M /\ rank n M <= n /\
  (* rank is the number of non-zero rows of rref(M) *)
  (forall i, i < length M -> (zero_row (nth i (rref n M) []) <-> rank n M <= i)) /\
  (rank n M = length M <-> independent n M).
Proof.
  intros n M W. destruct (XRref_Proof.rank_spec n M W) as (B & WB & LB & IB & _ & RS & R1 & R2 & R3 & R4).
  conjs; auto.
  - rewrite <- LB. apply (XRref_Proof.has_card_ext (row_space n B)); [intros x; symmetry; apply RS|].
    apply XRref_Proof.independent_card; auto.
  - intros i Hi. split; intros H.
    + destruct (le_lt_dec (rank n M) i); auto. exfalso. apply (R3 i); auto.
    + apply R4; auto.
  - apply XRref_Proof.rank_full_independent; auto.
Qed.
Example C27_example : wf 5 ex_M /\ rref 5 ex_M = [[false;true;false;true;false]; [false;false;true;true;true]; zeros 5] /\ rank 5 ex_M = 2.
Proof. split; [repeat constructor|]. vm_compute. auto. Qed.

(* ================= C28: pseudo_inverse, null_matrix *)
Theorem C28_right_inverse : forall n M, wf n M -> independent n M ->
  length (pseudo_inverse n M) = n /\ wf (length M) (pseudo_inverse n M) /\
  matmul (length M) M (pseudo_inverse n M) = eye (length M).
Proof.
  intros n M W I. destruct (XRref_Proof.pinv_shape n M W) as [A B]. conjs; auto.
  apply XRref_Proof.pinv_right; auto. apply XRref_Proof.rank_full_independent; auto.
Qed.
(* also for rank-deficient matrices the result is a generalised inverse *)
Theorem C28_generalised_inverse : forall n M, wf n M ->
  matmul n (matmul (length M) M (pseudo_inverse n M)) M = M.
Proof. intros n M W. apply XRref_Proof.pinv_mxm; auto. Qed.
Theorem C28_null_matrix : forall n M, wf n M -> independent n M -> M <> [] ->
  exists N, null_matrix n M = Some N /\ wf n N /\ length N = n - length M /\ independent n N /\
    (forall v, length v = n -> (row_space n N v <-> orthogonal_to M v)) /\
    (forall v, length v = n -> (row_space n M v <-> orthogonal_to N v)).
Proof.
  intros n M W I NE. destruct (Null_Proof.null_spec n M W) as (N & A & B & C & D & E & F).
  - apply XRref_Proof.rank_full_independent; auto.
  - destruct M; cbn; congruence.
  - exists N. conjs; auto; intros v Lv; symmetry; auto.
Qed.
(* numpy raises on every matrix that is not of full row rank *)
Theorem C28_null_matrix_rejects : forall n M, wf n M -> ~ independent n M \/ M = [] -> null_matrix n M = None.
Proof.
  intros n M W H. apply Null_Proof.null_none; auto. destruct H as [H| ->]; [left|right; auto].
  intros R. apply H. apply XRref_Proof.rank_full_independent; auto.
Qed.
Lemma ex_G_independent : independent 5 ex_G.
Proof. apply XRref_Proof.rank_full_independent; [repeat constructor|vm_compute; auto]. Qed.
Example C28_example : wf 5 ex_G /\ independent 5 ex_G /\ ex_G <> [] /\ ~ independent 5 ex_M.
Proof.
  split; [repeat constructor|]. split; [apply ex_G_independent|]. split; [discriminate|].
  intros I. apply XRref_Proof.rank_full_independent in I; [vm_compute in I; discriminate|repeat constructor].
Qed.

(* ================= C29: BlockCode *)
Theorem C29_generator_constructor : forall n G, wf n G -> independent n G -> G <> [] ->
  exists C, code_of_generator n G = Some C /\ bc_n C = n /\ bc_k C = length G /\ bc_G C = G /\ valid_code C /\
    (forall v, is_codeword C v <-> row_space n G v).
Proof. intros n G W I NE. apply BlockCode_Proof.code_of_generator_valid; auto. destruct G; cbn; congruence. Qed.
Theorem C29_check_constructor : forall n H, wf n H -> independent n H -> H <> [] ->
  exists C, code_of_check n H = Some C /\ bc_n C = n /\ bc_m C = length H /\ bc_H C = H /\ valid_code C /\
    (forall v, length v = n -> (is_codeword C v <-> orthogonal_to H v)) /\ is_rref (bc_G C).
Proof. intros n H W I NE. apply BlockCode_Proof.code_of_check_valid; auto. destruct H; cbn; congruence. Qed.
Theorem C29_generator_rejects : forall n G, wf n G -> ~ independent n G \/ G = [] -> code_of_generator n G = None.
Proof.
  intros n G W H. apply BlockCode_Proof.code_of_generator_none; auto. destruct H as [H| ->]; [left|right]; auto.
Qed.
(* what valid_code means, spelled out for the public methods; it holds for every class proved valid *)
Theorem C29_round_trip : forall C, valid_code C -> forall u, length u = bc_k C ->
  bc_inverse_encode C (bc_encode C u) = Some u /\ bc_check C (bc_encode C u) = zeros (bc_m C) /\
  bc_encode C u = vecmat (bc_n C) u (bc_G C) /\ length (bc_encode C u) = bc_n C.
Proof.
  intros C V u Lu. pose proof (ok_encoder C V) as E. pose proof (ok_checker C V) as K.
  assert (L : length (bc_encode C u) = bc_n C) by (apply (ok_encode_length C E); auto).
  assert (Z : forall r, length r = bc_n C -> (bc_check C r = zeros (length (bc_check C r)) <-> is_codeword C r)).
  { intros r Lr. rewrite (Decoders_Proof.check_length C r K Lr). apply (ok_check_zero C K r Lr). }
  conjs; auto.
  - apply BlockCode_Proof.inverse_encode_spec; auto.
  - apply (ok_check_zero C K); auto. exists u; auto.
  - apply (ok_encode C E); auto.
Qed.
Theorem C29_inverse_encode_rejects : forall C, valid_code C -> forall v, length v = bc_n C ->
  (bc_inverse_encode C v = None <-> ~ is_codeword C v) /\
  (forall u, bc_inverse_encode C v = Some u <-> length u = bc_k C /\ bc_encode C u = v) /\
  (bc_check C v = zeros (bc_m C) <-> is_codeword C v).
Proof.
  intros C V v Lv. pose proof (ok_encoder C V) as E. pose proof (ok_checker C V) as K.
  assert (Z : forall r, length r = bc_n C -> (bc_check C r = zeros (length (bc_check C r)) <-> is_codeword C r)).
  { intros r Lr. rewrite (Decoders_Proof.check_length C r K Lr). apply (ok_check_zero C K r Lr). }
  destruct (BlockCode_Proof.inverse_encode_spec C v E Z Lv) as [A B].
  conjs; try apply B; auto; apply (ok_check_zero C K v Lv).
Qed.
Theorem C29_linear_injective : forall C, valid_code C -> forall u v, length u = bc_k C -> length v = bc_k C ->
  bc_encode C (vxor u v) = vxor (bc_encode C u) (bc_encode C v) /\ (bc_encode C u = bc_encode C v -> u = v).
Proof.
  intros C V u v Lu Lv. pose proof (ok_encoder C V) as E.
  split; [apply (ok_encode_linear C E); auto|apply (ok_encode_injective C E); auto].
Qed.
Example C29_example : exists C, code_of_generator 5 ex_G = Some C /\
  bc_encode C [true;true] = [true;true;true;false;true] /\
  bc_inverse_encode C [true;true;true;false;true] = Some [true;true] /\
  bc_inverse_encode C [true;true;true;true;true] = None.
Proof. eexists. split; [reflexivity|]. vm_compute. auto. Qed.

(* ================= C30: codewords, weights, minimum distance *)
Theorem C30_codewords : forall C, valid_code C ->
  length (codewords C) = 2 ^ bc_k C /\ NoDup (codewords C) /\
  (forall v, In v (codewords C) <-> is_codeword C v) /\
  (forall j, j < 2 ^ bc_k C -> nth j (codewords C) [] = bc_encode C (int_to_bits (N.of_nat j) (bc_k C) LSB_first)).
Proof.
  intros C V. pose proof (ok_encoder C V) as E. conjs.
  - apply BlockCode_Proof.codewords_length.
  - apply BlockCode_Proof.codewords_NoDup; auto.
  - apply BlockCode_Proof.in_codewords.
  - intros; apply BlockCode_Proof.nth_codewords; auto.
Qed.
Theorem C30_weight_distribution : forall C cached, valid_code C ->
  length (weight_distribution C cached) = bc_n C + 1 /\
  forall w, w <= bc_n C -> has_card (fun v => is_codeword C v /\ weight v = w) (nth w (weight_distribution C cached) 0).
Proof.
  intros C cached V. pose proof (ok_encoder C V) as E. split.
  - rewrite BlockCode_Proof.weight_distribution_spec, map_length, seq_length; auto.
  - intros w Hw. rewrite BlockCode_Proof.nth_weight_distribution by auto.
    eexists. split; [|split; [reflexivity|]].
    + apply NoDup_filter. apply BlockCode_Proof.codewords_NoDup; auto.
    + intros v. rewrite filter_In, Nat.eqb_eq, BlockCode_Proof.in_codewords. tauto.
Qed.
Theorem C30_minimum_distance : forall C cached, valid_code C ->
  (forall d, minimum_distance C cached = Some d <-> is_minimum_distance C d) /\
  (0 < bc_k C -> exists d, minimum_distance C cached = Some d).
Proof.
  intros C cached V. pose proof (ok_encoder C V) as E. split.
  - intros d. apply BlockCode_Proof.minimum_distance_spec; auto.
  - intros. apply BlockCode_Proof.minimum_distance_exists; auto.
Qed.
Example C30_example : exists C, code_of_generator 5 ex_G = Some C /\ minimum_distance C false = Some 3 /\
  weight_distribution C true = [1;0;0;2;1;0].
Proof. eexists. split; [reflexivity|]. vm_compute. auto. Qed.

(* ================= C31: coset leaders *)
Theorem C31_coset_leaders : forall C, valid_code C -> bc_m C <> 0 ->
  exists lds, coset_leaders C = Some lds /\ leaders_spec C lds.
Proof. intros C V Hm. apply Decoders_Proof.coset_leaders_spec; auto. apply V. Qed.
Theorem C31_coset_leader_weights : forall C cached, valid_code C -> bc_m C <> 0 ->
  exists d lds, coset_leader_weight_distribution C cached = Some d /\ coset_leaders C = Some lds /\
    length d = bc_n C + 1 /\
    forall w, w <= bc_n C -> nth w d 0 = length (filter (fun l => weight l =? w) lds).
Proof.
  intros C cached V Hm. destruct (CosetLeaders_Proof.clwd_ok C (ok_checker C V) cached Hm) as (d & lds & A & B & _ & D & E).
  exists d, lds. auto.
Qed.
Theorem C31_packing_radius : forall C cached d, valid_code C -> is_minimum_distance C d ->
  packing_radius C cached = Some ((d - 1) / 2).
Proof. intros. apply Decoders_Proof.packing_radius_spec; auto. apply H. Qed.
Theorem C31_covering_radius : forall C cached, valid_code C -> bc_m C <> 0 ->
  exists rho, covering_radius C cached = Some rho /\ is_covering_radius C rho.
Proof. intros. apply Decoders_Proof.covering_radius_spec; auto. Qed.
(* Finding: with no checks (redundancy 0) the search loop of coset_leaders never returns. *)
Theorem C31_no_checks_refuted : forall C, bc_m C = 0 -> bc_H C = [] ->
  forall fuel, coset_leaders_fuel C fuel = None.
Proof.
  intros C Hm HH. unfold coset_leaders_fuel. rewrite Hm.
  assert (Cols : Forall (fun h => h = 0%N) (H_cols C)).
  { unfold H_cols. rewrite HH. apply Forall_forall. intros h Hh. apply in_map_iff in Hh as (c & <- & Hc).
    unfold transpose in Hc. apply in_map_iff in Hc as (j & <- & _). reflexivity. }
  assert (VC : forall cols j b, Forall (fun h => h = 0%N) cols -> nth 0 (visited b) true = true -> visit_cols 0 0 j cols b = inl b).
  { induction cols as [|h cols IH]; intros j b F Vb; cbn [visit_cols]; auto. inversion F; subst.
    unfold visit. cbn [N.lxor N.to_nat]. rewrite Vb. rewrite Nat.eqb_refl. cbn [negb andb]. apply IH; auto. }
  assert (G : forall fuel syns b, Forall (fun s => s = 0%N) syns -> nth 0 (visited b) true = true ->
     bfs_loop 0 (H_cols C) fuel syns b = None).
  { induction fuel as [|f IH]; intros syns b F Vb; cbn [bfs_loop]; auto.
    assert (VA : forall syns b, Forall (fun s => s = 0%N) syns -> nth 0 (visited b) true = true ->
       visit_all 0 (H_cols C) syns b = inl b).
    { induction syns0 as [|s syns0 IHs]; intros b0 F0 V0; cbn [visit_all]; auto. inversion F0; subst. rewrite VC; auto. }
    rewrite VA by auto. apply IH; cbn [next visited]; auto. }
  intros fuel. apply G; auto.
Qed.
Example C31_example : exists C, code_of_generator 5 ex_G = Some C /\ bc_m C <> 0 /\
  option_map (@length vec) (coset_leaders C) = Some 8 /\
  coset_leader_weight_distribution C false = Some [1;5;2;0;0;0] /\ packing_radius C false = Some 1 /\ covering_radius C false = Some 2.
Proof. eexists. split; [reflexivity|]. vm_compute. repeat split; discriminate. Qed.

(* ================= C32: syndrome-table decoding *)
Theorem C32_minimum_distance_decoding : forall C, valid_code C -> bc_m C <> 0 ->
  exists lds, coset_leaders C = Some lds /\
  forall r, length r = bc_n C ->
    length (syndrome_decode C lds r) = bc_k C /\ nearest_codeword C r (bc_encode C (syndrome_decode C lds r)).
Proof.
  intros C V Hm. destruct (C31_coset_leaders C V Hm) as (lds & E & LS). exists lds. split; auto.
  intros r Lr. apply Decoders_Proof.syndrome_decode_spec; auto.
Qed.
Theorem C32_corrects : forall C d, valid_code C -> bc_m C <> 0 -> is_minimum_distance C d ->
  exists lds, coset_leaders C = Some lds /\
  forall u r, length u = bc_k C -> length r = bc_n C -> hdist r (bc_encode C u) <= (d - 1) / 2 ->
    syndrome_decode C lds r = u.
Proof.
  intros C d V Hm D. destruct (C32_minimum_distance_decoding C V Hm) as (lds & E & H). exists lds. split; auto.
  intros u r Lu Lr Hd. destruct (H r Lr) as [L NC].
  apply (Decoders_Proof.unique_nearest C d u r (syndrome_decode C lds r)); auto. apply V.
Qed.
Example C32_example : exists C lds, code_of_generator 5 ex_G = Some C /\ coset_leaders C = Some lds /\
  syndrome_decode C lds [true;true;false;false;true] = [true;true].
Proof. eexists. eexists. split; [reflexivity|]. split; [vm_compute; reflexivity|]. vm_compute. auto. Qed.

(* ================= C33: exhaustive search *)
Theorem C33_hard : forall C r, valid_code C -> length r = bc_n C ->
  exists j, j < 2 ^ bc_k C /\ exhaustive_hard C r = message (bc_k C) j /\
    nearest_codeword C r (bc_encode C (message (bc_k C) j)) /\
    (forall i, i < j -> hdist r (bc_encode C (message (bc_k C) j)) < hdist r (bc_encode C (message (bc_k C) i))).
Proof. intros. apply Decoders_Proof.exhaustive_hard_spec; auto. apply H. Qed.
Theorem C33_hard_corrects : forall C d u r, valid_code C -> is_minimum_distance C d ->
  length u = bc_k C -> length r = bc_n C -> hdist r (bc_encode C u) <= (d - 1) / 2 -> exhaustive_hard C r = u.
Proof.
  intros C d u r V D Lu Lr Hd. destruct (C33_hard C r V Lr) as (j & Hj & E & NC & _).
  rewrite E. apply (Decoders_Proof.unique_nearest C d u r); auto; [apply V|apply BlockCode_Proof.message_length].
Qed.
Theorem C33_soft : forall C r, valid_code C ->
  exists j, j < 2 ^ bc_k C /\ exhaustive_soft C r = message (bc_k C) j /\
    (forall c, is_codeword C c -> (correlation r c <= correlation r (bc_encode C (message (bc_k C) j)))%Q) /\
    (forall i, i < j -> (correlation r (bc_encode C (message (bc_k C) i)) < correlation r (bc_encode C (message (bc_k C) j)))%Q).
Proof. intros. apply Decoders_Proof.exhaustive_soft_spec; auto. apply H. Qed.
Example C33_example : exists C, code_of_generator 5 ex_G = Some C /\
  exhaustive_hard C [false;true;true;true;false] = [true;false] /\
  exhaustive_soft C [(-1)#2; 1#1; 3#1; (-2)#1; (-2)#1]%Q = [false;true].
Proof. eexists. split; [reflexivity|]. vm_compute. auto. Qed.

(* ================= C34: systematic codes *)
(* the information sets for which the class works: k distinct positions below n *)
Definition good_info_set (k m : nat) (i : info_set) (I : list nat) : Prop :=
  information_set k m i = Some I /\
  match i with Idx l => length l = k /\ NoDup l /\ (forall x, In x l -> x < k + m) | _ => True end.

Lemma good_info k m i I : good_info_set k m i I -> length I = k /\ NoDup I /\ (forall x, In x I -> x < k + m).
Proof.
  intros [E G]. destruct i as [| |l]; cbn in E.
  - injection E as <-. rewrite seq_length. repeat split; [apply seq_NoDup|]. intros x Hx. apply in_seq in Hx. lia.
  - injection E as <-. rewrite seq_length. repeat split; [apply seq_NoDup|]. intros x Hx. apply in_seq in Hx. lia.
  - destruct (_ || _); [discriminate|]. injection E as <-. auto.
Qed.
Theorem C34_valid : forall m P i I, wf m P -> good_info_set (length P) m i I ->
  exists C, SystematicBlockCode m P i = Some C /\ bc_n C = length P + m /\ bc_k C = length P /\ bc_m C = m /\
  valid_code C /\
  (* the message is in the information positions, the parity bits u*P in the others, in order *)
  (forall u, length u = length P ->
     map (fun p => nth p (bc_encode C u) false) I = u /\
     map (fun p => nth p (bc_encode C u) false) (filter (fun p => negb (existsb (Nat.eqb p) I)) (seq 0 (length P + m)))
       = vecmat m u P) /\
  (* project_word reads the information positions and is multiplication by generator_matrix_right_inverse *)
  (forall v, length v = length P + m ->
     bc_project C v = map (fun p => nth p v false) I /\ vecmat (length P) v (bc_Ginv C) = bc_project C v).
Proof.
  intros m P i I W G. destruct (good_info _ _ _ _ G) as (L & ND & B). destruct G as [E _].
  exists (systematic_code m P I). unfold SystematicBlockCode. rewrite E. conjs; auto.
  - apply Systematic_Proof.systematic_valid; auto.
  - intros u Lu. split.
    + apply (Systematic_Proof.sys_info m P I W L ND B u Lu).
    + apply (Systematic_Proof.join_par m P I L ND B). apply Vec_Proof.vecmat_length; auto.
  - intros v Lv. split; [reflexivity|]. apply (Systematic_Proof.sys_Ginv m P I L ND B v Lv).
Qed.
(* which explicit index lists the constructor accepts: exactly k entries, none above n *)
Theorem C34_constructor : forall m P l, 0 < length P ->
  (SystematicBlockCode m P (Idx l) = None <-> length l <> length P \/ exists x, In x l /\ length P + m < x).
Proof.
  intros m P l Hk. unfold SystematicBlockCode, information_set.
  assert (LM : length P + m < list_max l <-> exists x, In x l /\ length P + m < x).
  { split.
    - intros H. destruct (Nat.le_gt_cases (list_max l) (length P + m)) as [|_]; [lia|].
      destruct (List.Exists_dec (fun x => length P + m < x) l (fun x => lt_dec _ _)) as [X|X]; [apply Exists_exists in X; exact X|].
      exfalso. assert (list_max l <= length P + m); [|lia]. apply list_max_le, Forall_forall. intros x Hx.
      destruct (le_lt_dec x (length P + m)) as [|G]; [assumption|]. exfalso. apply X, Exists_exists. exists x. auto.
    - intros (x & Hx & G). pose proof (proj1 (list_max_le l (list_max l)) (le_n _)) as F. rewrite Forall_forall in F. specialize (F x Hx). lia. }
  destruct (Nat.eqb_spec (length l) (length P)) as [E|E]; cbn [negb orb option_map].
  - destruct (Nat.ltb_spec (length P + m) (list_max l)) as [G|G].
    + split; [intros _; right; apply LM; exact G|reflexivity].
    + split; [discriminate|]. intros [N|X]; [contradiction|]. apply LM in X. lia.
  - split; [intros _; left; exact E|reflexivity].
Qed.
Theorem C34_left_right_good : forall k m, good_info_set k m Left (seq 0 k) /\ good_info_set k m Right (seq m k).
Proof. intros; split; split; auto. Qed.
(* Finding: the constructor accepts the out-of-range index n (writing there raises IndexError later)
   and repeated indices; with repeated indices the message is lost. *)
Theorem C34_validation_refuted :
  SystematicBlockCode 1 [[true];[true]] (Idx [0;3]) <> None /\
  (exists C, SystematicBlockCode 1 [[true];[true]] (Idx [0;0]) = Some C /\
     exists u, length u = 2 /\ bc_project C (bc_encode C u) <> u).
Proof.
  split; [discriminate|]. eexists. split; [reflexivity|]. exists [true;false]. split; auto. vm_compute. discriminate.
Qed.
Example C34_example : good_info_set 2 3 (Idx [4;1]) [4;1] /\
  exists C, SystematicBlockCode 3 [[true;true;false];[false;true;true]] (Idx [4;1]) = Some C /\
  bc_encode C [true;false] = [true;false;true;false;true].
Proof.
  split.
  - split; [reflexivity|]. split; auto. split.
    + repeat constructor; cbn; intuition congruence.
    + cbn. intros x [<-|[<-|[]]]; lia.
  - eexists. split; reflexivity.
Qed.

Lemma message_0 k : message k 0 = zeros k.
Proof.
  unfold message, zeros. cbn [int_to_bits N.of_nat]. generalize 0 at 1 as a. induction k as [|k IH]; intros a; cbn [seq map repeat]; auto.
  rewrite IH. f_equal. unfold bit_at. now rewrite N.shiftr_0_l.
Qed.
(* ================= C64: Slepian (standard) array *)
Theorem C64_array : forall C, valid_code C -> bc_m C <> 0 ->
  exists lds, coset_leaders C = Some lds /\
  (* every word occurs exactly once *)
  (forall r, length r = bc_n C -> exists i j, i < 2 ^ bc_m C /\ j < 2 ^ bc_k C /\ slepian_entry C lds i j = r /\
     forall i' j', i' < 2 ^ bc_m C -> j' < 2 ^ bc_k C -> slepian_entry C lds i' j' = r -> i' = i /\ j' = j) /\
  (* row i consists of the words with syndrome i *)
  (forall i, i < 2 ^ bc_m C -> length (slepian_row C lds i) = 2 ^ bc_k C /\
     forall r, length r = bc_n C -> (In r (slepian_row C lds i) <-> bc_check C r = message (bc_m C) i)) /\
  (* row 0 is the list of codewords *)
  slepian_row C lds 0 = codewords C /\
  (* the codeword heading column j is nearest to every entry of the column *)
  (forall i j, i < 2 ^ bc_m C -> j < 2 ^ bc_k C -> length (slepian_col C lds j) = 2 ^ bc_m C /\
     nth i (slepian_col C lds j) [] = slepian_entry C lds i j /\
     nearest_codeword C (slepian_entry C lds i j) (bc_encode C (message (bc_k C) j))).
Proof.
  intros C V Hm. destruct (C31_coset_leaders C V Hm) as (lds & E & LS). exists lds. split; auto.
  destruct (Decoders_Proof.slepian_spec C lds V LS) as (A & B & D). pose proof (ok_checker C V) as K. pose proof (ok_encoder C V) as OE.
  split; [exact A|]. split; [|split].
  - intros i Hi. split; [unfold slepian_row; rewrite map_length, seq_length; auto|]. intros r Lr. unfold slepian_row. rewrite in_map_iff. split.
    + intros (j & <- & Hj). apply in_seq in Hj. apply B; auto; lia.
    + intros Ck. destruct (A r Lr) as (i' & j & Hi' & Hj & Er & _). exists j. split; [|apply in_seq; lia].
      rewrite <- Er. f_equal. apply (BlockCode_Proof.message_inj (bc_m C)); auto. rewrite <- Ck, <- Er. apply B; auto.
  - unfold slepian_row, codewords. apply map_ext_in. intros j Hj. apply in_seq in Hj.
    unfold slepian_entry. destruct LS as [_ HS]. destruct (HS 0) as (L0 & _ & M).
    { pose proof (Nat.pow_nonzero 2 (bc_m C)). lia. }
    assert (Z : bc_check C (zeros (bc_n C)) = message (bc_m C) 0).
    { rewrite (ok_check C K) by apply Vec_Proof.zeros_length. rewrite Vec_Proof.matvec_zeros. rewrite (proj2 (ok_H C K)).
      symmetry. apply message_0. }
    specialize (M (zeros (bc_n C)) (Vec_Proof.zeros_length _) Z). rewrite BlockCode_Proof.weight_zeros in M.
    assert (W0 : weight (nth 0 lds []) = 0) by lia. apply BlockCode_Proof.weight_zero in W0. rewrite L0 in W0. rewrite W0.
    apply Vec_Proof.vxor_zeros_l. apply (ok_encode_length C OE). apply BlockCode_Proof.message_length.
  - intros i j Hi Hj. unfold slepian_col. rewrite map_length, seq_length. split; auto. split; [|apply D; auto].
    rewrite (nth_indep _ _ (slepian_entry C lds 0 j)) by (rewrite map_length, seq_length; auto).
    rewrite (map_nth (fun i => slepian_entry C lds i j)), seq_nth; auto.
Qed.
Example C64_example : exists C lds, code_of_generator 5 ex_G = Some C /\ bc_m C <> 0 /\ coset_leaders C = Some lds /\
  slepian_row C lds 1 = map (vxor (nth 1 lds [])) (codewords C) /\ weight (nth 1 lds []) = 1.
Proof. eexists. eexists. split; [reflexivity|]. split; [discriminate|]. split; [vm_compute; reflexivity|]. vm_compute. auto. Qed.
