(* C36-C39: Hamming, simplex, repetition, single-parity-check, Cordaro-Wagner, Golay codes and lexicodes.
   Statements use ClassicCodes_Model and the specification Code_Spec (valid_code, is_minimum_distance, ...). *)
From Coq Require Import QArith.
From Verif Require Import Common Bits_Model Vec_Model LinAlg_Model Linear_Spec BlockCode_Model Code_Spec ClassicCodes_Model.
From Verif Require Vec_Proof LinAlg_Proof XRref_Proof BlockCode_Proof Decoders_Proof Systematic_Proof Hamming_Proof CosetLeaders_Proof
  ClassicCodes_Proof Lexicode_Proof Props_Codes Bits_Proof.
Local Open Scope nat_scope.

Ltac conjs := lazymatch goal with |- _ /\ _ => split; [|conjs] | _ => idtac end.

Lemma classic_leb a b : a <= b -> (a <=? b) = true.
Proof. apply Nat.leb_le. Qed.

(* ================= C36: Hamming and simplex codes *)
Theorem C36_hamming : forall mu, 2 <= mu ->
  exists C, HammingCode mu false = Some C /\ valid_code C /\
  bc_n C = 2 ^ mu - 1 /\ bc_k C = 2 ^ mu - mu - 1 /\ bc_m C = mu /\
  (* minimum_distance() returns 3, and this is the minimum distance *)
  hamming_minimum_distance false = 3 /\ is_minimum_distance C 3 /\
  (* perfect: every word is within distance 1 of the code *)
  is_covering_radius C 1 /\ (forall cached, covering_radius C cached = Some 1).
Proof.
  intros mu H. pose proof (Hamming_Proof.heavy_wf mu) as W. pose proof (Hamming_Proof.heavy_length mu) as L.
  pose proof (Hamming_Proof.left_valid mu _ W) as V. pose proof (Hamming_Proof.hamming_covering mu H) as CR.
  assert (P : mu < 2 ^ mu) by (apply Nat.pow_gt_lin_r; lia).
  eexists. split; [unfold HammingCode; rewrite (classic_leb _ _ H); reflexivity|]. cbn [hamming_width]. split; [exact V|].
  cbn [bc_n bc_k bc_m systematic_code]. fold (Hamming_Proof.heavy mu). conjs; try reflexivity; try (rewrite L; lia).
  - apply (Hamming_Proof.hamming_distance mu H).
  - exact CR.
  - intros cached. apply ClassicCodes_Proof.covering_radius_value; [exact V|cbn; lia|exact CR].
Qed.
Theorem C36_extended_hamming : forall mu, 2 <= mu ->
  exists C, HammingCode mu true = Some C /\ valid_code C /\
  bc_n C = 2 ^ mu /\ bc_k C = 2 ^ mu - mu - 1 /\ bc_m C = mu + 1 /\
  hamming_minimum_distance true = 4 /\ is_minimum_distance C 4.
Proof.
  intros mu H. pose proof (Hamming_Proof.ext_hamming_wf mu H) as W. pose proof (Hamming_Proof.heavy_length mu) as L.
  pose proof (Hamming_Proof.left_valid _ _ W) as V. 
  assert (P : mu < 2 ^ mu) by (apply Nat.pow_gt_lin_r; lia).
  eexists. split; [unfold HammingCode; rewrite (classic_leb _ _ H); reflexivity|]. cbn [hamming_width].
  rewrite Hamming_Proof.ext_hamming_eq. split; [exact V|].
  cbn [bc_n bc_k bc_m systematic_code]. conjs; try reflexivity; try (rewrite map_length, L; lia).
  apply (Hamming_Proof.ext_hamming_distance mu H).
Qed.

Theorem C36_simplex : forall kappa, 2 <= kappa ->
  exists C, SimplexCode kappa false = Some C /\ valid_code C /\
  bc_n C = 2 ^ kappa - 1 /\ bc_k C = kappa /\ bc_m C = 2 ^ kappa - kappa - 1 /\
  (forall v, is_codeword C v -> v <> zeros (bc_n C) -> weight v = 2 ^ (kappa - 1)) /\
  simplex_minimum_distance kappa = 2 ^ (kappa - 1) /\ is_minimum_distance C (2 ^ (kappa - 1)).
Proof.
  intros kappa H. pose proof (Hamming_Proof.heavy_length kappa) as L.
  pose proof (Vec_Proof.wf_transpose kappa (Hamming_Proof.heavy kappa)) as W.
  pose proof (Hamming_Proof.left_valid _ _ W) as V. rewrite Vec_Proof.transpose_length in V.
  assert (P : kappa < 2 ^ kappa) by (apply Nat.pow_gt_lin_r; lia).
  assert (P2 : 2 ^ (kappa - 1) <> 0) by (apply Nat.pow_nonzero; lia).
  exists (systematic_code (length (Hamming_Proof.heavy kappa)) (transpose kappa (Hamming_Proof.heavy kappa)) (seq 0 kappa)).
  split. { unfold SimplexCode, SystematicBlockCode. rewrite (classic_leb _ _ H). cbn [hamming_width]. fold (Hamming_Proof.heavy kappa).
    unfold information_set. rewrite Vec_Proof.transpose_length. reflexivity. }
  split; [exact V|].
  assert (CW : forall v, is_codeword (systematic_code (length (Hamming_Proof.heavy kappa)) (transpose kappa (Hamming_Proof.heavy kappa)) (seq 0 kappa)) v ->
    v <> zeros (kappa + length (Hamming_Proof.heavy kappa)) -> weight v = 2 ^ (kappa - 1)).
  { intros v (u & Lu & <-) N. cbn [bc_k systematic_code] in Lu. rewrite Vec_Proof.transpose_length in Lu.
    apply Hamming_Proof.simplex_weight; auto. intros Z. apply BlockCode_Proof.weight_zero in Z. apply N.
    rewrite (ok_encode _ (ok_encoder _ V)) by (cbn; rewrite Vec_Proof.transpose_length; auto).
    rewrite Z, Vec_Proof.vecmat_zeros; [cbn; rewrite Vec_Proof.transpose_length; auto|apply V]. }
  cbn [bc_n bc_k bc_m systematic_code]. rewrite Vec_Proof.transpose_length. conjs; try lia; try reflexivity.
  - exact CW.
  - apply BlockCode_Proof.minimum_weight_distance; [apply V|]. split; [lia|]. split.
    + set (u := unit_vec kappa 0). exists (bc_encode (systematic_code (length (Hamming_Proof.heavy kappa)) (transpose kappa (Hamming_Proof.heavy kappa)) (seq 0 kappa)) u).
      assert (Lu : length u = kappa) by apply Vec_Proof.unit_vec_length. split.
      * exists u. split; auto. cbn. rewrite Vec_Proof.transpose_length. auto.
      * apply Hamming_Proof.simplex_weight; auto. unfold u. rewrite CosetLeaders_Proof.weight_unit; lia.
    + intros v Cv N. rewrite CW; auto. intros ->. apply N. apply BlockCode_Proof.weight_zeros.
Qed.
Theorem C36_extended_simplex : forall kappa, 2 <= kappa ->
  exists C, SimplexCode kappa true = Some C /\ valid_code C /\
  bc_n C = 2 ^ kappa /\ bc_k C = kappa + 1 /\
  (forall v, is_codeword C v -> v <> zeros (bc_n C) -> weight v = 2 ^ (kappa - 1) \/ weight v = 2 ^ kappa) /\
  is_minimum_distance C (simplex_minimum_distance kappa).
Proof.
  intros kappa H. pose proof (Hamming_Proof.heavy_length kappa) as L. set (Q := map Hamming_Proof.ext (Hamming_Proof.heavy kappa)).
  assert (LQ : length Q = 2 ^ kappa - kappa - 1) by (unfold Q; rewrite map_length; auto).
  pose proof (Vec_Proof.wf_transpose (kappa + 1) Q) as W.
  pose proof (Hamming_Proof.left_valid _ _ W) as V. rewrite Vec_Proof.transpose_length in V.
  assert (P : kappa < 2 ^ kappa) by (apply Nat.pow_gt_lin_r; lia).
  assert (P2 : 2 ^ (kappa - 1) <> 0) by (apply Nat.pow_nonzero; lia).
  assert (P3 : 2 ^ (kappa - 1) < 2 ^ kappa) by (apply Nat.pow_lt_mono_r; lia).
  exists (systematic_code (length Q) (transpose (kappa + 1) Q) (seq 0 (kappa + 1))).
  split. { unfold SimplexCode, SystematicBlockCode. rewrite (classic_leb _ _ H). cbn [hamming_width]. rewrite Hamming_Proof.ext_hamming_eq. fold Q.
    unfold information_set. rewrite Vec_Proof.transpose_length. reflexivity. }
  split; [exact V|].
  assert (Wt : forall u, length u = kappa + 1 -> weight u <> 0 ->
    weight (bc_encode (systematic_code (length Q) (transpose (kappa + 1) Q) (seq 0 (kappa + 1))) u) = 2 ^ (kappa - 1) \/
    weight (bc_encode (systematic_code (length Q) (transpose (kappa + 1) Q) (seq 0 (kappa + 1))) u) = 2 ^ kappa).
  { intros u Lu N. destruct (exists_last (l := u)) as (u' & b & ->); [destruct u; [cbn in Lu; lia|discriminate]|].
    rewrite app_length in Lu. cbn [length] in Lu. apply Hamming_Proof.ext_simplex_weight; auto. lia. }
  assert (CW : forall v, is_codeword (systematic_code (length Q) (transpose (kappa + 1) Q) (seq 0 (kappa + 1))) v ->
    v <> zeros (kappa + 1 + length Q) -> weight v = 2 ^ (kappa - 1) \/ weight v = 2 ^ kappa).
  { intros v (u & Lu & <-) N. cbn [bc_k systematic_code] in Lu. rewrite Vec_Proof.transpose_length in Lu.
    apply Wt; auto. intros Z. apply BlockCode_Proof.weight_zero in Z. apply N.
    rewrite (ok_encode _ (ok_encoder _ V)) by (cbn; rewrite Vec_Proof.transpose_length; auto).
    rewrite Z, Vec_Proof.vecmat_zeros; [cbn; rewrite Vec_Proof.transpose_length; auto|apply V]. }
  cbn [bc_n bc_k bc_m systematic_code]. rewrite Vec_Proof.transpose_length. conjs; try lia; try reflexivity.
  - exact CW.
  - unfold simplex_minimum_distance. apply BlockCode_Proof.minimum_weight_distance; [apply V|]. split; [lia|]. split.
    + set (u := unit_vec kappa 0 ++ [false]). exists (bc_encode (systematic_code (length Q) (transpose (kappa + 1) Q) (seq 0 (kappa + 1))) u). split.
      * exists u. split; auto. cbn [bc_k systematic_code]. rewrite Vec_Proof.transpose_length. unfold u. rewrite app_length, Vec_Proof.unit_vec_length. auto.
      * apply Hamming_Proof.ext_simplex_weight_false; auto; [apply Vec_Proof.unit_vec_length|]. rewrite CosetLeaders_Proof.weight_unit; lia.
    + intros v Cv N. destruct (CW v Cv) as [->| ->]; try lia. intros ->. apply N. apply BlockCode_Proof.weight_zeros.
Qed.
Example C36_example : exists C, HammingCode 3 false = Some C /\ bc_n C = 7 /\ bc_k C = 4 /\
  bc_encode C [true;false;true;true] = [true;false;true;true;false;true;false] /\ minimum_distance C false = Some 3.
Proof. eexists. split; [reflexivity|]. vm_compute. auto. Qed.
Example C36_example_simplex : exists C, SimplexCode 3 false = Some C /\ bc_n C = 7 /\ bc_k C = 3 /\
  minimum_distance C false = Some 4.
Proof. eexists. split; [reflexivity|]. vm_compute. auto. Qed.

(* ================= C37: repetition, single-parity-check, Cordaro-Wagner codes *)
Theorem C37_repetition : forall n, 1 <= n ->
  exists C, RepetitionCode n = Some C /\ valid_code C /\ bc_n C = n /\ bc_k C = 1 /\
  (forall v, is_codeword C v <-> v = repeat false n \/ v = repeat true n) /\
  is_minimum_distance C n /\
  (* the closed form is what the generic computation returns *)
  (2 <= n -> forall cached,
     coset_leader_weight_distribution C cached = Some (repetition_coset_leader_weight_distribution n)).
Proof.
  intros n Hn. destruct (ClassicCodes_Proof.repetition_code n Hn) as (C & E & A & B & V & Cw). exists C.
  split; [exact E|]. split; [exact V|]. split; [exact A|]. split; [exact B|]. split; [exact Cw|]. split.
  - apply ClassicCodes_Proof.repetition_distance; auto.
  - intros H cached. apply ClassicCodes_Proof.repetition_clwd; auto.
Qed.
(* n = 1: there is one coset, {0}; the generic computation does not stop there (C31_no_checks_refuted) *)
Theorem C37_repetition_1 : repetition_coset_leader_weight_distribution 1 = [1; 0].
Proof. reflexivity. Qed.

Theorem C37_single_parity_check : forall n, 1 <= n ->
  exists C, SingleParityCheckCode n = Some C /\ valid_code C /\ bc_n C = n /\ bc_m C = 1 /\
  (forall v, is_codeword C v <-> length v = n /\ Nat.even (weight v) = true) /\
  (2 <= n -> is_minimum_distance C 2) /\
  (forall cached, weight_distribution C cached = spc_codeword_weight_distribution n) /\
  (* the closed form counts the codewords of each weight *)
  (forall w, w <= n -> has_card (fun v => is_codeword C v /\ weight v = w) (nth w (spc_codeword_weight_distribution n) 0)).
Proof.
  intros n Hn. destruct (ClassicCodes_Proof.spc_code n Hn) as (C & E & A & B & V & Cw). exists C.
  split; [exact E|]. split; [exact V|]. split; [exact A|]. split; [exact B|]. split; [exact Cw|]. split; [|split].
  - intros H. apply (ClassicCodes_Proof.spc_distance n C H E).
  - intros cached. apply ClassicCodes_Proof.spc_weights; auto.
  - intros w Hw. rewrite <- (ClassicCodes_Proof.spc_weights n C false Hn E).
    apply (Props_Codes.C30_weight_distribution C false V). lia.
Qed.
(* Finding: SingleParityCheckCode(1) is {0}; minimum_distance() returns 2 although there are no two distinct codewords. *)
Theorem C37_single_parity_check_1_refuted : exists C, SingleParityCheckCode 1 = Some C /\ ~ is_minimum_distance C 2.
Proof.
  destruct (ClassicCodes_Proof.spc_code 1 ltac:(lia)) as (C & E & A & B & V & Cw). exists C. split; auto.
  intros [_ (v & w & Cv & Cw' & N & _)]. apply Cw in Cv as [Lv Ev]. apply Cw in Cw' as [Lw Ew]. apply N.
  destruct v as [|[] [|? ?]]; cbn in Lv, Ev; try discriminate. destruct w as [|[] [|? ?]]; cbn in Lw, Ew; try discriminate. auto.
Qed.

Theorem C37_cordaro_wagner : forall n, 2 <= n ->
  exists C, CordaroWagnerCode n = Some C /\ valid_code C /\ bc_n C = n /\ bc_k C = 2 /\
  is_minimum_distance C (cw_distance n).
Proof.
  intros n Hn. destruct (ClassicCodes_Proof.cw_code n Hn) as (C & E & A & B & V & D). exists C. auto.
Qed.
(* cw_distance n = ceil(2n/3) - 1 *)
Theorem C37_cordaro_wagner_distance : forall n, 2 <= n ->
  3 * (cw_distance n + 1) >= 2 * n /\ 3 * cw_distance n < 2 * n.
Proof.
  intros n Hn. unfold cw_distance. pose proof (Nat.div_mod (2 * n + 2) 3 ltac:(lia)) as H.
  pose proof (Nat.mod_upper_bound (2 * n + 2) 3 ltac:(lia)). lia.
Qed.
Example C37_example : exists C C' C'', RepetitionCode 4 = Some C /\ SingleParityCheckCode 4 = Some C' /\ CordaroWagnerCode 8 = Some C'' /\
  repetition_coset_leader_weight_distribution 4 = [1;4;3;0;0] /\ coset_leader_weight_distribution C false = Some [1;4;3;0;0] /\
  spc_codeword_weight_distribution 4 = [1;0;6;0;1] /\ cw_distance 8 = 5 /\ minimum_distance C'' false = Some 5.
Proof. eexists. eexists. eexists. split; [reflexivity|]. split; [reflexivity|]. split; [reflexivity|]. vm_compute. auto. Qed.

(* ================= C38: Golay codes *)
Theorem C38_golay : exists C, GolayCode false = Some C /\ valid_code C /\ bc_n C = 23 /\ bc_k C = 12 /\
  golay_minimum_distance false = 7 /\ is_minimum_distance C 7 /\
  (* perfect *)
  is_covering_radius C 3 /\ (forall cached, covering_radius C cached = Some 3).
Proof.
  destruct (ClassicCodes_Proof.golay_code false) as (C & E & A & B & V & D). exists C.
  assert (M : bc_m C = 11) by (pose proof (ok_params C V); lia).
  assert (CR : is_covering_radius C 3).
  { apply (ClassicCodes_Proof.perfect C 7); auto. rewrite A, M. vm_compute. reflexivity. }
  conjs; auto. intros cached. apply ClassicCodes_Proof.covering_radius_value; auto. lia.
Qed.

Theorem C38_extended_golay : exists C, GolayCode true = Some C /\ valid_code C /\ bc_n C = 24 /\ bc_k C = 12 /\
  golay_minimum_distance true = 8 /\ is_minimum_distance C 8 /\
  (* self-dual: a word is a codeword iff it is orthogonal to every codeword *)
  (forall v, length v = 24 -> (is_codeword C v <-> forall c, is_codeword C c -> dot v c = false)).
Proof.
  destruct (ClassicCodes_Proof.golay_code true) as (C & E & A & B & V & D). exists C. conjs; auto.
  pose proof (ok_checker C V) as K. pose proof (ok_encoder C V) as OE.
  assert (GG : forallb (fun g => forallb negb (matvec (bc_G C) g)) (bc_G C) = true).
  { unfold GolayCode, SystematicBlockCode in E. cbn [information_set option_map] in E. injection E as <-. vm_compute. reflexivity. }
  assert (HH : forallb (fun h => forallb negb (matvec (bc_H C) h)) (bc_H C) = true).
  { unfold GolayCode, SystematicBlockCode in E. cbn [information_set option_map] in E. injection E as <-. vm_compute. reflexivity. }
  assert (Z : forall v, forallb negb v = true -> v = zeros (length v)).
  { intros v H. induction v as [|b v IH]; auto. cbn [forallb] in H. apply andb_true_iff in H as [H1 H2].
    cbn [length]. unfold zeros in *. cbn [repeat]. rewrite <- IH by auto. destruct b; auto; discriminate. }
  destruct (ok_G C OE) as [WG LG]. destruct (ok_H C K) as [WH LH].
  assert (GZ : forall g, In g (bc_G C) -> matvec (bc_G C) g = zeros (bc_k C)).
  { intros g Hg. rewrite forallb_forall in GG. specialize (GG g Hg). apply Z in GG. rewrite GG. f_equal. unfold matvec. rewrite map_length. auto. }
  intros v Lv. split.
  - intros (u & Lu & <-) c (u' & Lu' & <-). rewrite !(ok_encode C OE) by auto.
    rewrite Vec_Proof.dot_vecmat by (auto; apply Vec_Proof.vecmat_length; auto).
    assert (M : matvec (bc_G C) (vecmat (bc_n C) u' (bc_G C)) = zeros (bc_k C)).
    { rewrite <- LG. unfold matvec. transitivity (map (fun _ : vec => false) (bc_G C)).
      - apply map_ext_in. intros g Hg. rewrite Vec_Proof.dot_comm, Vec_Proof.dot_vecmat by (auto; unfold wf in WG; rewrite Forall_forall in WG; auto).
        rewrite GZ by auto. apply Vec_Proof.dot_zeros_r.
      - clear. unfold zeros. induction (bc_G C); cbn; congruence. }
    rewrite M. apply Vec_Proof.dot_zeros_r.
  - intros H. apply (ok_check_zero C K); [lia|]. rewrite (ok_check C K) by lia. rewrite <- LH. unfold matvec.
    transitivity (map (fun _ : vec => false) (bc_H C)).
    + apply map_ext_in. intros h Hh. rewrite Vec_Proof.dot_comm. apply H. apply (ok_check_zero C K).
      * unfold wf in WH; rewrite Forall_forall in WH; auto.
      * rewrite (ok_check C K) by (unfold wf in WH; rewrite Forall_forall in WH; auto).
        rewrite forallb_forall in HH. specialize (HH h Hh). apply Z in HH. rewrite HH. f_equal. unfold matvec. rewrite map_length. auto.
    + clear. unfold zeros. induction (bc_H C); cbn; congruence.
Qed.
Example C38_example : exists C, GolayCode false = Some C /\
  weight (bc_encode C (map (Nat.eqb 0) (seq 0 12))) = 11 /\ weight (bc_encode C (map (Nat.eqb 1) (seq 0 12))) = 8.
Proof. eexists. split; [reflexivity|]. vm_compute. auto. Qed.

(* ================= C39: lexicodes *)
(* c comes before v in lexicographic order *)
Definition lex_before (c v : vec) : Prop :=
  exists i, (forall j, j < i -> nth j c false = nth j v false) /\ nth i c false = false /\ nth i v false = true.

Lemma value_lex c v : length c = length v -> ((Lexicode_Proof.value c < Lexicode_Proof.value v)%N <-> lex_before c v).
Proof.
  revert v. induction c as [|b c IH]; intros [|b' v] L; cbn [length] in L; try lia.
  - split; [intros H; cbn in H; lia|]. intros (i & _ & _ & H). destruct i; discriminate.
  - assert (E : forall b v, Lexicode_Proof.value (b :: v) = ((if b then 2 ^ N.of_nat (length v) else 0) + Lexicode_Proof.value v)%N).
    { clear. intros b v. unfold Lexicode_Proof.value. rewrite !Bits_Proof.bits_to_int_msb. cbn [rev]. rewrite Bits_Proof.byte_of_app.
      rewrite rev_length. unfold byte_of at 2. cbn [fold_right]. destruct b; lia. }
    rewrite !E. pose proof (Lexicode_Proof.value_bound c) as Bc. pose proof (Lexicode_Proof.value_bound v) as Bv.
    assert (L' : length c = length v) by lia. specialize (IH v L'). rewrite L' in *.
    split.
    + intros H. destruct b, b'; try lia.
      * destruct (proj1 IH) as (i & A & B & D); [lia|]. exists (S i). conjs; auto. intros [|j] Hj; auto. cbn. apply A. lia.
      * exists 0. conjs; auto. intros; lia.
      * destruct (proj1 IH) as (i & A & B & D); [lia|]. exists (S i). conjs; auto. intros [|j] Hj; auto. cbn. apply A. lia.
    + intros (i & A & B & D). destruct i as [|i].
      * cbn in B, D. subst. lia.
      * pose proof (A 0 ltac:(lia)) as A0. cbn in A0. subst b'. cbn in B, D.
        assert (LB : lex_before c v) by (exists i; conjs; auto; intros j Hj; apply (A (S j)); lia).
        apply IH in LB. destruct b; lia.
Qed.

(* Greedy: a word belongs to the code iff it is at distance >= d from every codeword preceding it in
   lexicographic order. This determines the code; it is linear (valid_code) and its minimum distance is d. *)
Theorem C39_lexicode : forall n d, 1 <= d -> d <= n ->
  exists C, Lexicode n d = Some C /\ valid_code C /\ bc_n C = n /\ is_minimum_distance C d /\
  (forall v, length v = n ->
     (is_codeword C v <-> forall c, is_codeword C c -> lex_before c v -> d <= hdist c v)).
Proof.
  intros n d Hd Hn. destruct (Lexicode_Proof.lexicode_spec n d Hd Hn) as (C & E & A & V & D & G). exists C. conjs; auto.
  intros v Lv. rewrite (G v Lv). split; intros H c Hc Lt; apply H; auto; apply value_lex; auto;
    rewrite (BlockCode_Proof.codeword_length C c (ok_encoder C V) Hc); lia.
Qed.
Theorem C39_rejects : forall n d, ~ (1 <= d /\ d <= n) -> Lexicode n d = None.
Proof.
  intros n d H. unfold Lexicode. destruct ((1 <=? d) && (d <=? n)) eqn:E; auto. apply andb_true_iff in E as [E1 E2].
  apply Nat.leb_le in E1. apply Nat.leb_le in E2. tauto.
Qed.
Example C39_example : exists C, Lexicode 7 3 = Some C /\ bc_k C = 4 /\ minimum_distance C false = Some 3 /\
  lex_before [false;true;true] [true;false;false].
Proof.
  eexists. split; [vm_compute; reflexivity|]. split; [reflexivity|]. split; [vm_compute; reflexivity|].
  exists 0. split; [intros; lia|]. auto.
Qed.
