(* C40, C41: Reed-Muller codes and the Reed decoder.
   Statements use ReedMuller_Model and the specification Code_Spec. *)
From Coq Require Import QArith Qabs Qminmax Lqa Psatz.
From Verif Require Import Common Bits_Model Vec_Model LinAlg_Model Linear_Spec BlockCode_Model Code_Spec ClassicCodes_Model ReedMuller_Model.
From Verif Require Vec_Proof LinAlg_Proof XRref_Proof BlockCode_Proof Hamming_Proof ReedMuller_Proof.
Local Open Scope nat_scope.

Ltac conjs := lazymatch goal with |- _ /\ _ => split; [|conjs] | _ => idtac end.

(* the value vector of the monomial prod_{i in I} x_i, where x_i(p) is bit i of p *)
Definition monomial (mu : nat) (I : list nat) : vec := map (fun p => forallb (Nat.testbit p) I) (seq 0 (2 ^ mu)).
(* all sets of at most rho variables *)
Definition small_sets (rho mu : nat) : list (list nat) := flat_map (combinations (seq 0 mu)) (seq 0 (rho + 1)).

Lemma rm_code : forall rho mu, rho < mu -> exists C, ReedMullerCode rho mu = Some C /\ bc_n C = 2 ^ mu /\
  bc_k C = length (ReedMuller_Proof.monos rho mu) /\ bc_G C = reed_muller_generator_matrix rho mu /\ valid_code C /\
  (forall v, is_codeword C v <-> row_space (2 ^ mu) (reed_muller_generator_matrix rho mu) v).
Proof.
  intros rho mu H. unfold ReedMullerCode. rewrite (proj2 (Nat.ltb_lt rho mu) H).
  assert (LG : length (reed_muller_generator_matrix rho mu) = length (ReedMuller_Proof.monos rho mu)) by (rewrite ReedMuller_Proof.generator_spec, map_length; auto).
  destruct (BlockCode_Proof.code_of_generator_valid (2 ^ mu) (reed_muller_generator_matrix rho mu)) as (C & E & A & B & D & V & W).
  - rewrite ReedMuller_Proof.generator_spec. apply ReedMuller_Proof.monos_wf.
  - apply ReedMuller_Proof.rm_independent.
  - unfold reed_muller_generator_matrix. rewrite app_length. cbn. lia.
  - exists C. conjs; auto. congruence.
Qed.

Lemma row_space_incl n M M' v : (forall r, In r M -> In r M') -> row_space n M v -> row_space n M' v.
Proof. intros I H. induction H; constructor; auto. Qed.

(* ================= C40 *)
Theorem C40_reed_muller : forall rho mu, rho < mu ->
  exists C, ReedMullerCode rho mu = Some C /\ valid_code C /\
  bc_n C = 2 ^ mu /\
  (* dimension = C(mu,0) + ... + C(mu,rho) *)
  bc_k C = list_sum (map (comb mu) (seq 0 (rho + 1))) /\
  (* the codewords are the value vectors of the polynomials of degree at most rho in mu variables *)
  (forall v, is_codeword C v <-> row_space (2 ^ mu) (map (monomial mu) (small_sets rho mu)) v) /\
  (* minimum_distance() returns the minimum distance *)
  rm_minimum_distance rho mu = 2 ^ (mu - rho) /\
  is_minimum_distance C (2 ^ (mu - rho)).
Proof.
  intros rho mu H. destruct (rm_code rho mu H) as (C & E & A & B & D & V & W). exists C. conjs; auto.
  - rewrite B. apply ReedMuller_Proof.monos_length.
  - intros v. rewrite W, ReedMuller_Proof.generator_spec. split; apply row_space_incl; intros r Hr;
      apply in_map_iff in Hr as (J & <- & HJ); apply in_map_iff; exists J; (split; [reflexivity|]);
      apply in_flat_map in HJ as (w & Hw & HJ); apply in_flat_map; exists w; split; auto;
      [apply in_rev in Hw|apply -> in_rev]; auto.
  - apply BlockCode_Proof.minimum_weight_distance; [apply V|]. pose proof (Nat.pow_nonzero 2 (mu - rho)) as P. split; [lia|].
    assert (LB : forall v, is_codeword C v -> weight v <> 0 -> 2 ^ (mu - rho) <= weight v).
    { intros v (u & Lu & <-) N. rewrite (ok_encode C V u Lu), A, D in *. rewrite ReedMuller_Proof.generator_spec in *.
      apply ReedMuller_Proof.nonzero_weight; auto.
      - apply ReedMuller_Proof.monos_ordered.
      - intros J HJ. apply (ReedMuller_Proof.in_monos rho); auto.
      - intros J HJ. apply (ReedMuller_Proof.in_monos rho mu); auto.
      - congruence.
      - intros Z. apply N. rewrite Z, Vec_Proof.vecmat_zeros; [apply BlockCode_Proof.weight_zeros|apply ReedMuller_Proof.monos_wf]. }
    split; [|exact LB].
    destruct (ReedMuller_Proof.top_mono rho mu) as (J & HJ & LJ & IJ); [lia|].
    assert (In (ReedMuller_Proof.mono mu J) (reed_muller_generator_matrix rho mu)) as HG.
    { rewrite ReedMuller_Proof.generator_spec. apply in_map; auto. }
    assert (CW : is_codeword C (ReedMuller_Proof.mono mu J)).
    { apply W. rewrite <- (Vec_Proof.vxor_zeros_r _ _ (ReedMuller_Proof.mono_length mu J)). constructor; auto. constructor. }
    exists (ReedMuller_Proof.mono mu J). split; auto.
    assert (NZ : weight (ReedMuller_Proof.mono mu J) <> 0).
    { intros Z. apply BlockCode_Proof.weight_zero in Z.
      assert (Q : nth (2 ^ mu - 1) (ReedMuller_Proof.mono mu J) false = true).
      { pose proof (Nat.pow_nonzero 2 mu). rewrite ReedMuller_Proof.nth_mono by lia. apply forallb_forall. intros j Hj.
        apply (ReedMuller_Proof.idx_lt _ _ IJ) in Hj. replace (2 ^ mu - 1) with (Nat.ones mu) by (rewrite Nat.ones_equiv; lia). apply Nat.ones_spec_low. auto. }
      rewrite Z, Vec_Proof.nth_zeros in Q. discriminate. }
    pose proof (LB _ CW NZ). pose proof (ReedMuller_Proof.mono_weight_le mu J IJ). rewrite LJ in *. lia.
Qed.

Theorem C40_rejected : forall rho mu, mu <= rho -> ReedMullerCode rho mu = None.
Proof. intros rho mu H. unfold ReedMullerCode. destruct (Nat.ltb_spec rho mu); [lia|auto]. Qed.

Example C40_example : exists C, ReedMullerCode 1 3 = Some C /\ bc_k C = 4 /\ bc_n C = 8 /\
  bc_encode C [true; false; true; true] = [true; false; true; false; false; true; false; true].
Proof. eexists. split; [vm_compute; reflexivity|]. vm_compute. auto. Qed.

(* ================= C41 *)
Theorem C41_hard : forall rho mu C u r, ReedMullerCode rho mu = Some C ->
  length u = bc_k C -> length r = bc_n C ->
  hdist (bc_encode C u) r < 2 ^ (mu - rho - 1) ->
  reed_decode_hard rho mu r = u.
Proof.
  intros rho mu C u r E Lu Lr D. destruct (Nat.lt_ge_cases rho mu) as [H|H]; [|rewrite C40_rejected in E by auto; discriminate].
  destruct (rm_code rho mu H) as (C' & E' & A & B & G & V & W). assert (C' = C) by congruence. subst C'.
  rewrite (ok_encode C V u Lu), A, G in D. apply ReedMuller_Proof.reed_hard; auto; congruence.
Qed.

(* the radius is the best possible for a code of this minimum distance: 2 * (2^(mu-rho-1) - 1) < d *)
Theorem C41_hard_unique : forall rho mu C u u' r, ReedMullerCode rho mu = Some C ->
  length u = bc_k C -> length u' = bc_k C -> length r = bc_n C ->
  hdist (bc_encode C u) r < 2 ^ (mu - rho - 1) -> hdist (bc_encode C u') r < 2 ^ (mu - rho - 1) -> u = u'.
Proof. intros. erewrite <- (C41_hard rho mu C u r), <- (C41_hard rho mu C u' r); eauto. Qed.

(* position p of the received soft word disagrees in sign with the codeword c *)
Definition sign_error (c : vec) (r : list Q) (p : nat) : bool := xorb (nth p c false) (negb (Qle_bool 0 (nth p r 0%Q))).
Definition Qtotal (l : list Q) : Q := fold_right Qplus 0%Q l.

(* Soft input.  If every position with the right sign has magnitude at least m and the magnitudes of the w positions
   with the wrong sign add up to less than (d - w) m, d = 2^(mu - rho), the transmitted message is returned. *)
Theorem C41_soft : forall rho mu C u r m, ReedMullerCode rho mu = Some C ->
  length u = bc_k C -> length r = bc_n C -> (0 <= m)%Q ->
  let c := bc_encode C u in
  let wrong := filter (sign_error c r) (seq 0 (2 ^ mu)) in
  (forall p, p < 2 ^ mu -> sign_error c r p = false -> (m <= Qabs (nth p r 0))%Q) ->
  (Qtotal (map (fun p => Qabs (nth p r 0%Q)) wrong) < inject_Z (Z.of_nat (2 ^ (mu - rho) - length wrong)) * m)%Q ->
  reed_decode_soft rho mu r = u.
Proof.
  intros rho mu C u r m E Lu Lr Hm c wrong HG HB. destruct (Nat.lt_ge_cases rho mu) as [H|H]; [|rewrite C40_rejected in E by auto; discriminate].
  destruct (rm_code rho mu H) as (C' & E' & A & B & G & V & W). assert (C' = C) by congruence. subst C'. unfold wrong, c in *. clear c wrong.
  rewrite (ok_encode C V u Lu), A, G in *. set (cw := vecmat _ u _) in *. set (wrong := filter _ _) in *.
  assert (Lc : length cw = 2 ^ mu) by (apply Vec_Proof.vecmat_length; rewrite ReedMuller_Proof.generator_spec; apply ReedMuller_Proof.monos_wf).
  set (e := vxor cw (map Qneg r)).
  assert (Le : length e = 2 ^ mu) by (unfold e; rewrite Vec_Proof.vxor_length; rewrite ?map_length; congruence).
  assert (At : forall p, p < 2 ^ mu -> ReedMuller_Proof.at_ e p = sign_error cw r p).
  { intros p Hp. unfold ReedMuller_Proof.at_, e. rewrite Vec_Proof.nth_vxor by (rewrite map_length; congruence). unfold sign_error. f_equal.
    rewrite (nth_indep _ false (Qneg 0)) by (rewrite map_length; lia). rewrite map_nth. reflexivity. }
  assert (FE : filter (ReedMuller_Proof.at_ e) (seq 0 (2 ^ mu)) = wrong).
  { apply filter_ext_in. intros p Hp. apply in_seq in Hp. apply At. lia. }
  apply (ReedMuller_Proof.reed_soft rho mu H r e m); auto.
  - intros p Hp Ep. apply HG; auto. rewrite <- At; auto.
  - unfold ReedMuller_Proof.err_mass. rewrite FE. replace (weight e) with (length wrong); [exact HB|].
    rewrite <- FE, <- ReedMuller_Proof.weight_map_filter, <- Le, ReedMuller_Proof.map_at_seq. auto.
  - congruence.
Qed.

(* noiseless soft input *)
Theorem C41_soft_noiseless : forall rho mu C u r, ReedMullerCode rho mu = Some C ->
  length u = bc_k C -> length r = bc_n C ->
  (forall p, p < bc_n C -> if nth p (bc_encode C u) false then (nth p r 0 < 0)%Q else (0 < nth p r 0)%Q) ->
  reed_decode_soft rho mu r = u.
Proof.
  intros rho mu C u r E Lu Lr HS. destruct (Nat.lt_ge_cases rho mu) as [H|H]; [|rewrite C40_rejected in E by auto; discriminate].
  assert (A : bc_n C = 2 ^ mu) by (destruct (rm_code rho mu H) as (C' & E' & A & _); congruence). rewrite A in *.
  assert (SE : forall p, p < 2 ^ mu -> sign_error (bc_encode C u) r p = false).
  { intros p Hp. specialize (HS p Hp). unfold sign_error. destruct (nth p (bc_encode C u) false).
    - destruct (Qle_bool 0 _) eqn:Q; auto. apply Qle_bool_iff in Q. lra.
    - rewrite (proj2 (Qle_bool_iff _ _)); auto. apply Qlt_le_weak; auto. }
  assert (NZ : forall x, In x r -> (0 < Qabs x)%Q).
  { intros x Hx. apply (In_nth _ _ 0%Q) in Hx as (p & Hp & <-). rewrite Lr in Hp. specialize (HS p Hp).
    destruct (nth p (bc_encode C u) false).
    - rewrite Qabs_neg by lra. lra.
    - rewrite Qabs_pos by lra. lra. }
  assert (Hmin : (0 < min_abs r)%Q).
  { assert (N : r <> []). { intros ->. cbn in Lr. symmetry in Lr. revert Lr. apply Nat.pow_nonzero. lia. }
    clear - NZ N. induction r as [|x r IH]; [congruence|]. destruct r as [|y r]; [apply NZ; left; auto|].
    rewrite ReedMuller_Proof.min_abs_cons. apply Q.min_glb_lt; [apply NZ; left; auto|]. apply IH; [intros; apply NZ; right; auto|congruence]. }
  assert (FN : filter (sign_error (bc_encode C u) r) (seq 0 (2 ^ mu)) = []).
  { apply ReedMuller_Proof.filter_nil_in. intros p Hp. apply in_seq in Hp. apply SE. lia. }
  apply (C41_soft rho mu C u r (min_abs r) E Lu); [congruence|apply Qlt_le_weak; auto| |].
  - intros p Hp _. apply ReedMuller_Proof.min_abs_le, nth_In. lia.
  - rewrite FN. cbn [map length]. change (Qtotal []) with 0%Q. rewrite Nat.sub_0_r.
    assert (P : (1 <= inject_Z (Z.of_nat (2 ^ (mu - rho))))%Q).
    { change 1%Q with (inject_Z 1). rewrite <- Zle_Qle. pose proof (Nat.pow_nonzero 2 (mu - rho)). lia. }
    nra.
Qed.

(* RM(1,3) corrects every single error; RM(1,4) every triple error *)
Example C41_example_hard : exists C, ReedMullerCode 1 4 = Some C /\
  hdist (bc_encode C [true; false; true; true; false])
    [true; true; false; true; true; false; false; false; true; false; true; false; false; true; false; false] < 2 ^ (4 - 1 - 1) /\
  reed_decode_hard 1 4 [true; true; false; true; true; false; false; false; true; false; true; false; false; true; false; false]
    = [true; false; true; true; false].
Proof. eexists. split; [vm_compute; reflexivity|]. split; vm_compute; auto. Qed.
