(* Cyclic codes: proofs. *)
From Verif Require Import Common Bits_Model Bits_Proof BinPoly_Model Algebra_Spec Vec_Model Vec_Proof Linear_Spec LinAlg_Model LinAlg_Proof
  BlockCode_Model BlockCode_Proof CosetLeaders_Proof Code_Spec Cyclic_Model PolyVec_Proof PolyN_Proof.
From Verif Require Algebra_Proof.
Local Open Scope nat_scope.

Notation pol := from_coefficients (only parsing).

Lemma xe1_bits n i : n <> 0 -> N.testbit (xe1 (N.of_nat n)) (N.of_nat i) = ((i =? 0) || (i =? n)).
Proof.
  intros H. unfold xe1. rewrite N.lxor_spec, N.shiftl_1_l. destruct (Nat.eqb_spec i n) as [->|N].
  - rewrite N.pow2_bits_true. destruct (Nat.eqb_spec n 0); try lia. destruct n as [|n]; [lia|]. cbn [orb].
    rewrite (testbit_big 1 (S n)); [auto|cbn; lia].
  - rewrite N.pow2_bits_false by lia. destruct (Nat.eqb_spec i 0) as [->|]; auto. rewrite (testbit_big 1 i); [auto|cbn; lia].
Qed.

Lemma from_exponents_xe1 n : n <> 0 -> from_exponents [0; n] = xe1 (N.of_nat n).
Proof.
  intros H. apply N_bits_inj_nat. intros i. rewrite xe1_bits by auto. unfold from_exponents. rewrite bits_to_int_testbit.
  assert (E : bincount 0 [0; n] = map (fun w => count_occ Nat.eq_dec [0; n] w) (seq 0 (S n))).
  { unfold bincount. f_equal. f_equal. cbn. lia. }
  rewrite E, map_map. destruct (le_lt_dec (S n) i) as [L|L].
  - rewrite nth_overflow by (rewrite map_length, seq_length; auto). symmetry. apply orb_false_iff. split; apply Nat.eqb_neq; lia.
  - rewrite (nth_indep _ false (negb (count_occ Nat.eq_dec [0; n] 0 =? 0))) by (rewrite map_length, seq_length; auto).
    rewrite (map_nth (fun w => negb (count_occ Nat.eq_dec [0; n] w =? 0))), seq_nth by auto. cbn [Nat.add count_occ].
    destruct (Nat.eq_dec 0 i) as [<-|N0].
    + destruct (Nat.eq_dec n 0); try lia. cbn. auto.
    + destruct (Nat.eq_dec n i) as [->|N1].
      * rewrite Nat.eqb_refl, orb_true_r. auto.
      * cbn. symmetry. apply orb_false_iff. split; apply Nat.eqb_neq; lia.
Qed.

Lemma xe1_bit_length n : n <> 0 -> bit_length (xe1 (N.of_nat n)) = S n.
Proof.
  intros H. apply Nat.le_antisymm.
  - apply bit_length_testbit. intros i Hi. rewrite xe1_bits by auto. apply orb_false_iff. split; apply Nat.eqb_neq; lia.
  - destruct (le_lt_dec (S n) (bit_length (xe1 (N.of_nat n)))) as [|L]; auto. exfalso.
    pose proof (testbit_big (xe1 (N.of_nat n)) n ltac:(lia)) as E. rewrite xe1_bits, Nat.eqb_refl, orb_true_r in E by auto. discriminate.
Qed.

Lemma cyclic_polys_spec n arg g h : n <> 0 ->
  (cyclic_polys n arg = Some (g, h) <->
   pmul g h = xe1 (N.of_nat n) /\ (arg = Generator g \/ arg = Check h)).
Proof.
  intros Hn. assert (Nz : xe1 (N.of_nat n) <> 0%N).
  { intros E. pose proof (xe1_bit_length n Hn) as L. rewrite E in L. cbn in L. lia. }
  unfold cyclic_polys. rewrite from_exponents_xe1 by auto. set (M := xe1 (N.of_nat n)) in *.
  assert (D : forall a, a <> 0%N -> pdivmod M a = Some (pquo M a, pmod M a)).
  { intros a Na. destruct (Algebra_Proof.divmod_unique M Na) as (q & r & E & _). unfold pquo, pmod. rewrite E. auto. }
  assert (Key : forall a q, (match pdivmod M a with Some (q0, r) => if (r =? 0)%N then Some q0 else None | None => None end) = Some q <-> pmul a q = M).
  { intros a q. destruct (N.eq_dec a 0) as [->|Na].
    - replace (pdivmod M 0) with (@None (N * N)) by reflexivity. split; [discriminate|]. rewrite Algebra_Proof.pmul0. congruence.
    - rewrite (D a Na). pose proof (pdiv_eq M Na) as E. split.
      + destruct (N.eqb_spec (pmod M a) 0) as [Z|]; [|discriminate]. intros [= <-]. rewrite Algebra_Proof.pmulC. rewrite Z, N.lxor_0_r in E. auto.
      + intros <-. rewrite (Algebra_Proof.pmulC a q), (pmod_mul _ Na), (pquo_mul _ Na). auto. }
  destruct arg as [a|a].
  - specialize (Key a). destruct (pdivmod M a) as [[q r]|]; [destruct (r =? 0)%N|].
    + split.
      * intros [= <- <-]. split; auto. apply Key; auto.
      * intros [E [[= ->]|[=]]]. apply Key in E. congruence.
    + split; [discriminate|]. intros [E [[= ->]|[=]]]. apply Key in E. discriminate.
    + split; [discriminate|]. intros [E [[= ->]|[=]]]. apply Key in E. discriminate.
  - specialize (Key a). destruct (pdivmod M a) as [[q r]|]; [destruct (r =? 0)%N|].
    + split.
      * intros [= <- <-]. split; auto. rewrite Algebra_Proof.pmulC. apply Key; auto.
      * intros [E [[=]|[= ->]]]. rewrite Algebra_Proof.pmulC in E. apply Key in E. congruence.
    + split; [discriminate|]. intros [E [[=]|[= ->]]]. rewrite Algebra_Proof.pmulC in E. apply Key in E. discriminate.
    + split; [discriminate|]. intros [E [[=]|[= ->]]]. rewrite Algebra_Proof.pmulC in E. apply Key in E. discriminate.
Qed.

Lemma testbit_shiftl a m i : N.testbit (N.shiftl a (N.of_nat m)) (N.of_nat i) = if i <? m then false else N.testbit a (N.of_nat (i - m)).
Proof.
  destruct (Nat.ltb_spec i m).
  - apply N.shiftl_spec_low. lia.
  - rewrite N.shiftl_spec_high by lia. f_equal. lia.
Qed.
Lemma testbit_shiftr a m i : N.testbit (N.shiftr a (N.of_nat m)) (N.of_nat i) = N.testbit a (N.of_nat (i + m)).
Proof. rewrite N.shiftr_spec by lia. f_equal. lia. Qed.

Lemma shiftl_lxor a b m : N.shiftl (N.lxor a b) m = N.lxor (N.shiftl a m) (N.shiftl b m).
Proof. apply N.shiftl_lxor. Qed.

Lemma wf_map_coefficients n (f : nat -> N) l : n <> 0 -> wf n (map (fun i => coefficients (f i) n) l).
Proof. intros H. unfold wf. apply Forall_forall. intros r Hr. apply in_map_iff in Hr as (i & <- & _). apply coefficients_length; auto. Qed.

Section Cyclic.
Variables (n : nat) (g h : N) (systematic : bool).
Hypothesis Hgh : pmul g h = xe1 (N.of_nat n).
Let k := deg h.
Let m := deg g.
Hypothesis Hk : k <> 0.
Hypothesis Hm : m <> 0.
Let C := cyclic_code n g h systematic.

Lemma g_nz : g <> 0%N.
Proof. intros E. unfold m, deg in Hm. rewrite E in Hm. cbn in Hm. lia. Qed.
Lemma h_nz : h <> 0%N.
Proof. intros E. unfold k, deg in Hk. rewrite E in Hk. cbn in Hk. lia. Qed.
Lemma bl_g : bit_length g = S m.
Proof. unfold m, deg in *. lia. Qed.
Lemma bl_h : bit_length h = S k.
Proof. unfold k, deg in *. lia. Qed.
Lemma n_eq : n = k + m.
Proof.
  pose proof (Algebra_Proof.bit_length_pmul g_nz h_nz) as E. rewrite Hgh, bl_g, bl_h in E.
  destruct (Nat.eq_dec n 0) as [Z|Z]; [|rewrite xe1_bit_length in E by auto; lia].
  rewrite Z in E. cbn in E. lia.
Qed.
Lemma Hn : n <> 0.
Proof. pose proof n_eq. lia. Qed.

Definition encN (u : N) : N := if systematic then sys_encode m g u else pmul u g.

Lemma encN_lxor a b : encN (N.lxor a b) = N.lxor (encN a) (encN b).
Proof.
  unfold encN. destruct systematic; [|apply pmul_lxor_l]. unfold sys_encode, padd. rewrite shiftl_lxor, pmod_lxor by apply g_nz.
  rewrite !N.lxor_assoc. f_equal. rewrite <- !N.lxor_assoc. f_equal. apply N.lxor_comm.
Qed.

Lemma shiftl_bound a j : bit_length a <= j -> bit_length (N.shiftl a (N.of_nat m)) <= j + m.
Proof.
  intros H. apply bit_length_testbit. intros i Hi. rewrite testbit_shiftl. destruct (Nat.ltb_spec i m); auto. apply testbit_big. lia.
Qed.
Lemma lxor_bound a b j : bit_length a <= j -> bit_length b <= j -> bit_length (N.lxor a b) <= j.
Proof.
  intros A B. apply bit_length_testbit. intros i Hi. rewrite N.lxor_spec, !testbit_big by lia. auto.
Qed.

Lemma encN_bound u : bit_length u <= k -> bit_length (encN u) <= n.
Proof.
  intros H. pose proof n_eq. unfold encN. destruct systematic.
  - unfold sys_encode, padd. apply lxor_bound.
    + pose proof (shiftl_bound u k H). lia.
    + pose proof (pmod_bound (N.shiftl u (N.of_nat m)) g_nz) as B. rewrite bl_g in B. lia.
  - pose proof (bit_length_pmul_le u g) as B. rewrite bl_g in B. lia.
Qed.
Lemma encN_dvd u : ndvd g (encN u).
Proof.
  unfold encN. destruct systematic; [|exists u; auto]. unfold sys_encode, padd. apply (pmod_zero_dvd _ g_nz).
  rewrite pmod_lxor, pmod_mod by apply g_nz. apply N.lxor_nilpotent.
Qed.

Lemma encN_proj u : bit_length u <= k -> (if systematic then sys_project m (encN u) else pquo (encN u) g) = u.
Proof.
  intros H. unfold encN. destruct systematic; [|apply (pquo_mul _ g_nz)]. unfold sys_project, sys_encode, padd.
  apply N_bits_inj_nat. intros i. rewrite testbit_shiftr, N.lxor_spec, testbit_shiftl.
  destruct (Nat.ltb_spec (i + m) m); [lia|]. replace (i + m - m) with i by lia.
  rewrite (testbit_big (pmod _ _)), xorb_false_r; auto.
  pose proof (pmod_bound (N.shiftl u (N.of_nat m)) g_nz) as B. rewrite bl_g in B. lia.
Qed.

Lemma encN_onto v : bit_length v <= n -> ndvd g v -> exists u, bit_length u <= k /\ encN u = v.
Proof.
  intros Hv D. pose proof n_eq as En. unfold encN. destruct systematic.
  - set (u := N.shiftr v (N.of_nat m)). exists u. split.
    + apply bit_length_testbit. intros i Hi. unfold u. rewrite testbit_shiftr. apply testbit_big. lia.
    + unfold sys_encode, padd. set (low := N.lxor v (N.shiftl u (N.of_nat m))).
      assert (Bl : bit_length low <= m).
      { apply bit_length_testbit. intros i Hi. unfold low. rewrite N.lxor_spec, testbit_shiftl.
        destruct (Nat.ltb_spec i m); [lia|]. unfold u. rewrite testbit_shiftr. replace (i - m + m) with i by lia. apply xorb_nilpotent. }
      assert (E : N.shiftl u (N.of_nat m) = N.lxor v low).
      { unfold low. rewrite <- N.lxor_assoc, N.lxor_nilpotent, N.lxor_0_l. auto. }
      rewrite E, pmod_lxor by apply g_nz. rewrite (proj2 (pmod_zero_dvd v g_nz) D), N.lxor_0_l.
      rewrite (pmod_small g_nz) by (rewrite bl_g; lia). rewrite N.lxor_assoc, N.lxor_nilpotent, N.lxor_0_r. auto.
  - destruct D as [q ->]. exists q. split; auto. destruct (N.eq_dec q 0) as [->|Nq]; [cbn; lia|].
    rewrite (Algebra_Proof.bit_length_pmul Nq g_nz), bl_g in Hv. lia.
Qed.

Lemma encode_eq u : bc_encode C u = coefficients (encN (pol u)) n.
Proof. cbn [bc_encode C cyclic_code]. unfold encN. fold m. destruct systematic; auto. Qed.

Lemma pol_encode u : length u = k -> pol (bc_encode C u) = encN (pol u).
Proof.
  intros L. rewrite encode_eq. apply pol_coefficients; [apply Hn|]. apply encN_bound. rewrite <- L. apply pol_bound.
Qed.
Lemma encode_length u : length (bc_encode C u) = n.
Proof. rewrite encode_eq. apply coefficients_length, Hn. Qed.

Lemma cyc_codeword v : is_codeword C v <-> length v = n /\ ndvd g (pol v).
Proof.
  split.
  - intros (u & Lu & <-). split; [apply encode_length|]. rewrite pol_encode by exact Lu. apply encN_dvd.
  - intros [L D]. destruct (encN_onto (pol v)) as (u & Bu & Eu); auto. { rewrite <- L. apply pol_bound. }
    exists (coefficients u k). split; [apply coefficients_length; auto|]. rewrite encode_eq, pol_coefficients, Eu by auto.
    apply coefficients_pol; auto. apply Hn.
Qed.

Lemma G_rows : bc_G C = map (fun i => bc_encode C (unit_vec k i)) (seq 0 k).
Proof.
  assert (E : bc_G C = map (fun i => coefficients (encN (N.shiftl 1 (N.of_nat i))) n) (seq 0 k)).
  { cbn [bc_G C cyclic_code]. unfold encN. fold k m. destruct systematic.
    - unfold sys_generator_matrix. apply map_ext. intros i. f_equal. unfold sys_encode, Xpow. rewrite !ppow_X.
      replace (N.shiftl 1 (N.of_nat (m + i))) with (N.shiftl (N.shiftl 1 (N.of_nat i)) (N.of_nat m)); auto.
      rewrite N.shiftl_shiftl. f_equal. lia.
    - unfold nonsys_generator_matrix. apply map_ext. intros i. unfold Xpow. rewrite ppow_X. auto. }
  rewrite E. apply map_ext_in. intros i Hi. apply in_seq in Hi. rewrite encode_eq, pol_unit by lia. auto.
Qed.

Lemma encode_add u v : length u = k -> length v = k -> bc_encode C (vxor u v) = vxor (bc_encode C u) (bc_encode C v).
Proof. intros Lu Lv. rewrite !encode_eq, pol_vxor, encN_lxor, coefficients_lxor by (try apply Hn; congruence). auto. Qed.

Lemma cyc_project u : length u = k -> bc_project C (bc_encode C u) = u.
Proof.
  intros L. cbn [bc_project C cyclic_code]. fold C k m. rewrite pol_encode by auto. rewrite encN_proj.
  - apply coefficients_pol; auto.
  - rewrite <- L. apply pol_bound.
Qed.

Lemma cyclic_encoder : encoder_ok C.
Proof.
  constructor; cbn [bc_n bc_k bc_m C cyclic_code]; fold C k m.
  - rewrite G_rows. split; [|rewrite map_length, seq_length; auto]. unfold wf. apply Forall_forall. intros r Hr.
    apply in_map_iff in Hr as (i & <- & _). apply encode_length.
  - intros u Lu. rewrite G_rows. apply (linear_matrix k n (bc_encode C)); auto; [intros; apply encode_length|apply encode_add].
  - intros; apply encode_length.
  - apply encode_add.
  - intros u v Lu Lv E. rewrite <- (cyc_project u Lu), <- (cyc_project v Lv), E. auto.
  - apply cyc_project.
Qed.

(* check *)
Lemma check_eq r : bc_check C r = coefficients (pmod (pol r) g) m.
Proof. reflexivity. Qed.
Lemma check_length_m r : length (bc_check C r) = m.
Proof. rewrite check_eq. apply coefficients_length; auto. Qed.
Lemma pmod_bl a : bit_length (pmod a g) <= m.
Proof. pose proof (pmod_bound a g_nz) as B. rewrite bl_g in B. lia. Qed.
Lemma check_zero r : length r = n -> (bc_check C r = zeros m <-> is_codeword C r).
Proof.
  intros L. rewrite cyc_codeword, check_eq, <- (pmod_zero_dvd (pol r) g_nz). split.
  - intros E. split; auto. rewrite <- (pol_coefficients (pmod (pol r) g) m Hm) by apply pmod_bl. rewrite E. apply pol_zeros.
  - intros [_ E]. rewrite E. apply coefficients_0; auto.
Qed.
Lemma check_onto s : length s = m -> exists r, length r = n /\ bc_check C r = s.
Proof.
  intros L. pose proof n_eq. exists (coefficients (pol s) n). split; [apply coefficients_length, Hn|].
  assert (B : bit_length (pol s) <= m) by (rewrite <- L; apply pol_bound).
  rewrite check_eq, pol_coefficients by (try apply Hn; lia). rewrite (pmod_small g_nz) by (rewrite bl_g; lia).
  apply coefficients_pol; auto.
Qed.
Lemma check_add u v : length u = n -> length v = n -> bc_check C (vxor u v) = vxor (bc_check C u) (bc_check C v).
Proof. intros Lu Lv. rewrite !check_eq, pol_vxor, pmod_lxor, coefficients_lxor by (try apply g_nz; auto; congruence). auto. Qed.

(* the check matrix of the systematic strategy *)
Lemma sysH_check r : length r = n -> matvec (sys_check_matrix n m g) r = bc_check C r.
Proof.
  intros L. unfold sys_check_matrix. set (Q := map _ _).
  assert (WQ : wf m Q) by (unfold Q; apply (wf_map_coefficients m (fun j => pmod (Xpow j) g)); auto).
  assert (LQ : length Q = n) by (unfold Q; rewrite map_length, seq_length; auto).
  pose proof (wf_transpose m Q) as WT.
  assert (E : vecmat m r Q = matvec (transpose m Q) r).
  { rewrite <- (vecmat_transpose (length Q) (transpose m Q) r WT), transpose_length, transpose_involutive by auto. auto. }
  rewrite <- E. rewrite (linear_matrix n m (bc_check C)); auto; [|intros; apply check_length_m|apply check_add].
  f_equal. unfold Q. apply map_ext_in. intros i Hi. apply in_seq in Hi. rewrite check_eq, pol_unit by lia. unfold Xpow. rewrite ppow_X. auto.
Qed.
Lemma sysH_wf : wf n (sys_check_matrix n m g) /\ length (sys_check_matrix n m g) = m.
Proof.
  unfold sys_check_matrix. rewrite transpose_length. split; auto. set (Q := map _ _).
  assert (LQ : length Q = n) by (unfold Q; rewrite map_length, seq_length; auto). rewrite <- LQ. apply wf_transpose.
Qed.

(* ---- the check matrix of the non-systematic strategy ---- *)
Lemma testbit_reciprocal i : N.testbit (reciprocal h) (N.of_nat i) = if i <=? k then N.testbit h (N.of_nat (k - i)) else false.
Proof.
  unfold reciprocal. rewrite bits_to_int_testbit. unfold coefficients. cbn [Nat.eqb].
  replace (Nat.max (bit_length h) 1) with (S k) by (rewrite bl_h; lia).
  set (v := int_to_bits h (S k) LSB_first). assert (Lv : length v = S k) by apply int_to_bits_length.
  destruct (Nat.leb_spec i k).
  - rewrite rev_nth by lia. rewrite Lv. unfold v.
    change (int_to_bits h (S k) LSB_first) with (coefficients h (S k)). rewrite nth_coefficients by lia.
    destruct (Nat.ltb_spec (S k - S i) (S k)); try lia. f_equal.
  - apply nth_overflow. rewrite rev_length. lia.
Qed.

Lemma fold_xorb_ext l (f f' : nat -> bool) : (forall i, In i l -> f i = f' i) -> fold_right xorb false (map f l) = fold_right xorb false (map f' l).
Proof. intros H. f_equal. apply map_ext_in. auto. Qed.

Lemma dot_as_sum u v : length u = length v -> dot u v = fold_right xorb false (map (fun i => nth i u false && nth i v false) (seq 0 (length u))).
Proof.
  revert v; induction u as [|x u IH]; intros [|y v] L; cbn [length] in L; try lia; auto.
  cbn [dot length seq map fold_right nth]. f_equal. rewrite IH by lia. rewrite <- seq_shift, map_map. auto.
Qed.

Lemma fold_xorb_zero (f : nat -> bool) l : (forall i, In i l -> f i = false) -> fold_right xorb false (map f l) = false.
Proof. induction l as [|x l IH]; intros H; auto. cbn. rewrite (H x) by (left; auto). rewrite IH; auto. intros; apply H; right; auto. Qed.
Lemma fold_xorb_app l l' : fold_right xorb false (l ++ l') = xorb (fold_right xorb false l) (fold_right xorb false l').
Proof. induction l as [|x l IH]; cbn [app fold_right]; [destruct (fold_right _ _ _); auto|]. rewrite IH, xorb_assoc. auto. Qed.

(* row i of the matrix computes coefficient k + i of v * h *)
Lemma nonsys_row v i : length v = n -> i < m ->
  dot (coefficients (pmul (Xpow i) (reciprocal h)) n) v = N.testbit (pmul (pol v) h) (N.of_nat (k + i)).
Proof.
  intros L Hi. pose proof n_eq as En. pose proof Hn as Nn. rewrite Algebra_Proof.conv_spec. unfold conv_coeff.
  rewrite dot_as_sum by (rewrite coefficients_length; auto). rewrite coefficients_length by auto.
  assert (Es : seq 0 n = seq 0 (S (k + i)) ++ seq (0 + S (k + i)) (n - S (k + i))) by (rewrite <- seq_app; f_equal; lia).
  rewrite Es, map_app, fold_xorb_app.
  rewrite (fold_xorb_zero _ (seq (0 + S (k + i)) _)).
  - rewrite xorb_false_r. apply fold_xorb_ext. intros j Hj. apply in_seq in Hj. rewrite testbit_pol, andb_comm. f_equal.
    rewrite nth_coefficients by auto. destruct (Nat.ltb_spec j n); [|lia]. unfold Xpow. rewrite ppow_X, pmul_shiftl, testbit_shiftl.
    destruct (Nat.ltb_spec j i).
    + rewrite testbit_big; auto. rewrite bl_h. lia.
    + rewrite testbit_reciprocal. destruct (Nat.leb_spec (j - i) k); [|lia]. f_equal. lia.
  - intros j Hj. apply in_seq in Hj. rewrite nth_coefficients by auto. destruct (Nat.ltb_spec j n); auto.
    unfold Xpow. rewrite ppow_X, pmul_shiftl, testbit_shiftl. destruct (Nat.ltb_spec j i); auto.
    rewrite testbit_reciprocal. destruct (Nat.leb_spec (j - i) k); [lia|auto].
Qed.

Lemma nonsysH_wf : wf n (nonsys_check_matrix n m h) /\ length (nonsys_check_matrix n m h) = m.
Proof.
  split; [apply (wf_map_coefficients n (fun i => pmul (Xpow i) (reciprocal h))), Hn|].
  unfold nonsys_check_matrix. rewrite map_length, seq_length. auto.
Qed.

Lemma xe1_mul b : pmul b (xe1 (N.of_nat n)) = N.lxor (N.shiftl b (N.of_nat n)) b.
Proof.
  unfold xe1. rewrite pmul_lxor_r, (Algebra_Proof.pmulC b (N.shiftl 1 _)), pmul_shiftl, (Algebra_Proof.pmulC b 1), Algebra_Proof.pmul1. auto.
Qed.

Lemma nonsysH_zero v : length v = n -> (matvec (nonsys_check_matrix n m h) v = zeros m <-> ndvd g (pol v)).
Proof.
  intros L. pose proof n_eq as En.
  assert (E : matvec (nonsys_check_matrix n m h) v = zeros m <-> forall i, i < m -> N.testbit (pmul (pol v) h) (N.of_nat (k + i)) = false).
  { split.
    - intros E i Hi. rewrite <- nonsys_row by auto. pose proof (nth_zeros m i) as Z. rewrite <- E, nth_matvec in Z.
      unfold nonsys_check_matrix in Z. rewrite (nth_indep _ [] (coefficients (pmul (Xpow 0) (reciprocal h)) n)) in Z by (rewrite map_length, seq_length; auto).
      rewrite (map_nth (fun i => coefficients (pmul (Xpow i) (reciprocal h)) n)), seq_nth in Z by auto. exact Z.
    - intros H. apply vec_ext; [rewrite matvec_length, zeros_length; apply nonsysH_wf|]. intros i Hi. rewrite matvec_length, (proj2 nonsysH_wf) in Hi.
      rewrite nth_zeros, nth_matvec. unfold nonsys_check_matrix.
      rewrite (nth_indep _ [] (coefficients (pmul (Xpow 0) (reciprocal h)) n)) by (rewrite map_length, seq_length; auto).
      rewrite (map_nth (fun i => coefficients (pmul (Xpow i) (reciprocal h)) n)), seq_nth by auto. cbn [Nat.add]. rewrite nonsys_row; auto. }
  rewrite E. clear E. split.
  - intros H. set (p := pmul (pol v) h) in *. set (B := N.shiftr p (N.of_nat n)).
    assert (Bp : bit_length p <= n + k).
    { unfold p. pose proof (bit_length_pmul_le (pol v) h) as Q. rewrite bl_h in Q. pose proof (pol_bound v). lia. }
    assert (S : N.lxor p (pmul B (xe1 (N.of_nat n))) = pmul (N.lxor (pol v) (pmul B g)) h).
    { rewrite pmul_lxor_l. unfold p. f_equal. rewrite <- Hgh, Algebra_Proof.pmulA. auto. }
    assert (Z : N.lxor (pol v) (pmul B g) = 0%N).
    { destruct (N.eq_dec (N.lxor (pol v) (pmul B g)) 0) as [|Nz]; auto. exfalso.
      pose proof (Algebra_Proof.bit_length_pmul Nz h_nz) as Q. rewrite <- S, bl_h in Q.
      pose proof (bit_length_pos Nz) as Pz.
      assert (bit_length (N.lxor p (pmul B (xe1 (N.of_nat n)))) <= k); [|lia].
      apply bit_length_testbit. intros i Hi. rewrite xe1_mul, !N.lxor_spec, testbit_shiftl.
      unfold B. rewrite !testbit_shiftr. destruct (Nat.ltb_spec i n).
      - replace i with (k + (i - k)) at 1 by lia. rewrite H by lia. rewrite (testbit_big p (i + n)) by lia. auto.
      - replace (i - n + n) with i by lia. rewrite (testbit_big p (i + n)) by lia. rewrite xorb_false_r. apply xorb_nilpotent. }
    exists B. apply N.lxor_eq in Z. auto.
  - intros [q Eq] i Hi. rewrite Eq, <- Algebra_Proof.pmulA, Hgh, xe1_mul.
    assert (Bq : bit_length q <= k).
    { destruct (N.eq_dec q 0) as [->|Nq]; [cbn; lia|]. pose proof (Algebra_Proof.bit_length_pmul Nq g_nz) as Q. rewrite <- Eq, bl_g in Q.
      pose proof (pol_bound v). lia. }
    rewrite N.lxor_spec, testbit_shiftl. destruct (Nat.ltb_spec (k + i) n); [|lia]. rewrite testbit_big by lia. auto.
Qed.

Lemma H_zero v : length v = n -> (matvec (bc_H C) v = zeros m <-> is_codeword C v).
Proof.
  intros L. change (bc_H C) with (if systematic then sys_check_matrix n m g else nonsys_check_matrix n m h).
  generalize systematic at 1. intros [].
  - rewrite sysH_check by auto. apply check_zero; auto.
  - rewrite nonsysH_zero by auto. rewrite cyc_codeword. tauto.
Qed.
Lemma H_wf : wf n (bc_H C) /\ length (bc_H C) = m.
Proof. cbn [bc_H C cyclic_code]. fold k m. destruct systematic; [apply sysH_wf|apply nonsysH_wf]. Qed.

Lemma H_orth gr hr : In gr (bc_G C) -> In hr (bc_H C) -> dot gr hr = false.
Proof.
  intros Hg Hh. rewrite G_rows in Hg. apply in_map_iff in Hg as (i & <- & Hi). apply in_seq in Hi.
  assert (Cw : is_codeword C (bc_encode C (unit_vec k i))) by (exists (unit_vec k i); split; auto; apply unit_vec_length).
  apply H_zero in Cw; [|apply encode_length]. apply In_nth_row in Hh as (j & Hj & <-).
  rewrite dot_comm, <- nth_matvec, Cw. apply nth_zeros.
Qed.

Lemma cyclic_shift v b : is_codeword C (v ++ [b]) -> is_codeword C (b :: v).
Proof.
  rewrite !cyc_codeword, app_length. cbn [length]. intros [L D]. split; [lia|].
  assert (E : pol (b :: v) = N.lxor (N.shiftl (pol (v ++ [b])) (N.of_nat 1)) (if b then xe1 (N.of_nat n) else 0%N)).
  { apply N_bits_inj_nat. intros i. rewrite N.lxor_spec, testbit_shiftl, !testbit_pol.
    assert (Q : N.testbit (if b then xe1 (N.of_nat n) else 0%N) (N.of_nat i) = b && ((i =? 0) || (i =? n))).
    { destruct b; cbn [andb]; [apply xe1_bits, Hn|apply N.bits_0]. }
    rewrite Q. destruct i as [|i].
    - cbn. destruct b; auto.
    - destruct (Nat.ltb_spec (S i) 1); [lia|]. destruct (Nat.eqb_spec (S i) 0); [lia|]. cbn [orb nth].
      rewrite Nat.sub_succ, Nat.sub_0_r. destruct (Nat.eqb_spec (S i) n) as [En|Nn].
      + rewrite nth_overflow by lia. rewrite app_nth2 by lia. replace (i - length v) with 0 by lia. cbn [nth]. destruct b; auto.
      + rewrite andb_false_r, xorb_false_r. destruct (le_lt_dec (length v) i) as [Hi|Hi].
        * rewrite !nth_overflow; auto. rewrite app_length; cbn; lia.
        * rewrite app_nth1 by auto. auto. }
  rewrite E. apply ndvd_lxor.
  - rewrite <- pmul_shiftl. apply ndvd_mul; auto.
  - destruct b; [|apply ndvd_0]. rewrite <- Hgh, Algebra_Proof.pmulC. apply ndvd_mul, ndvd_refl.
Qed.

Lemma cyclic_systematic u : systematic = true -> length u = k -> skipn m (bc_encode C u) = u.
Proof.
  intros S L. pose proof n_eq as En. apply vec_ext; [rewrite skipn_length, encode_length; lia|]. rewrite skipn_length, encode_length. intros i Hi.
  rewrite <- (firstn_skipn m (bc_encode C u)) at 1.
  assert (LF : length (firstn m (bc_encode C u)) = m) by (rewrite firstn_length, encode_length; lia).
  replace (nth i (skipn m (firstn m (bc_encode C u) ++ skipn m (bc_encode C u))) false) with (nth (m + i) (bc_encode C u) false).
  2:{ rewrite firstn_skipn. rewrite <- (firstn_skipn m (bc_encode C u)) at 1. rewrite app_nth2 by lia. f_equal. lia. }
  rewrite <- testbit_pol, pol_encode by auto. unfold encN. rewrite S. unfold sys_encode, padd.
  rewrite N.lxor_spec, testbit_shiftl. destruct (Nat.ltb_spec (m + i) m); [lia|]. replace (m + i - m) with i by lia.
  rewrite (testbit_big (pmod _ _)) by (pose proof (pmod_bl (N.shiftl (pol u) (N.of_nat m))); lia).
  rewrite xorb_false_r. apply testbit_pol.
Qed.
End Cyclic.

Lemma cyclic_valid n g h : pmul g h = xe1 (N.of_nat n) -> deg h <> 0 -> deg g <> 0 -> valid_code (cyclic_code n g h true).
Proof.
  intros E Hk Hm. constructor.
  - apply (n_eq n g h E Hk Hm).
  - apply (cyclic_encoder n g h true E Hk Hm).
  - constructor.
    + apply (H_wf n g h true E Hk Hm).
    + intros r L. symmetry. apply (sysH_check n g h true E Hk Hm); auto.
    + intros r L. apply (check_zero n g h true E Hk Hm); auto.
    + apply (check_onto n g h true E Hk Hm).
    + apply (H_orth n g h true E Hk Hm).
Qed.
