(* C43-C44: BCH codes and the Berlekamp decoder.  Statements use BCH_Model (the code) and the specifications Algebra_Spec
   (poly_value, gf_npow, ndvd), Code_Spec, Linear_Spec and BCH_Spec (bose_distance). *)
From Coq Require Import Permutation.
From Verif Require Import Common Bits_Model BinPoly_Model Algebra_Spec Vec_Model LinAlg_Model Linear_Spec BlockCode_Model Code_Spec Cyclic_Model BCH_Model BCH_Spec.
From Verif Require Hamming_Proof BCH_Bridge PolyVec_Proof Props_Algebra Cyclic_Proof BlockCode_Proof ClassicCodes_Proof Decoders_Proof Vec_Proof Algebra_Proof.
Local Open Scope nat_scope.

(* the value of the polynomial with coefficient vector v at the i-th power of the field element X (= 2 as an integer) *)
Definition value_at (B : bch) (v : vec) (i : nat) : N := poly_value (bch_modulus B) (bin_coeffs (bits_to_int v LSB_first)) (gf_npow (bch_modulus B) 2%N i).

(* ---- plumbing *)
Lemma field_ctx mu : 2 <= mu <= 24 -> exists m, gf_make (N.of_nat mu) None = Some m /\ nirreducible m /\ bit_length m = S mu /\
  ndvd m (xe1 (N.of_nat (2 ^ mu - 1))) /\ forall e, 0 < e < 2 ^ mu - 1 -> ~ ndvd m (xe1 (N.of_nat e)).
Proof.
  intros H. destruct (Props_Algebra.C23_default_primitive (N.of_nat mu) ltac:(lia)) as (p & E & D & I & P1 & P2). exists p.
  assert (Pw : (2 ^ N.of_nat mu - 1)%N = N.of_nat (2 ^ mu - 1)).
  { rewrite Nat2N.inj_sub, Nat2N.inj_pow. reflexivity. }
  rewrite Pw in *. split; [|split; [exact I|]].
  - unfold gf_make. destruct (N.ltb_spec (N.of_nat mu) 1); [lia|]. rewrite E, D, Z.eqb_refl.
    assert (I' := I). apply Props_Algebra.C22_is_irreducible in I'. rewrite I'. reflexivity.
  - split; [unfold pdegree in D; lia|]. split; [exact P1|]. intros e He. apply P2. lia.
Qed.
Lemma no_field mu : 24 < mu -> gf_make (N.of_nat mu) None = None.
Proof. intros H. unfold gf_make. destruct (N.of_nat mu <? 1)%N; [reflexivity|]. rewrite Props_Algebra.C23_outside_raises by (right; lia). reflexivity. Qed.
(* what a constructed object contains *)
Lemma built_inv mu delta B : BCHCode mu delta = Built B -> 2 <= mu <= 24 /\ 2 <= delta <= 2 ^ mu - 1 /\
  bch_mu B = mu /\ bch_delta B = delta /\ gf_make (N.of_nat mu) None = Some (bch_modulus B) /\
  mem (phi (bch_modulus B) mu delta) (lcm_set (bch_modulus B) mu delta) = false /\
  reduce_mul (lcm_set (bch_modulus B) mu delta) = Some (bch_generator B) /\
  exists h, pmul (bch_generator B) h = xe1 (N.of_nat (2 ^ mu - 1)) /\ bch_code B = cyclic_code (2 ^ mu - 1) (bch_generator B) h true.
Proof.
  unfold BCHCode. destruct (Nat.leb_spec 2 mu) as [H2|]; [cbn [negb]|discriminate].
  destruct (Nat.leb_spec 2 delta) as [Hd|]; [cbn [negb andb]|discriminate].
  destruct (Nat.leb_spec delta (2 ^ mu - 1)) as [Hn|]; [cbn [negb]|discriminate].
  destruct (Nat.ltb_spec 24 mu) as [Hm|Hm]; [rewrite no_field by exact Hm; discriminate|].
  destruct (gf_make (N.of_nat mu) None) as [m|]; [|discriminate].
  destruct (mem _ _) eqn:Em; [destruct (find _ _); discriminate|].
  destruct (reduce_mul _) as [g|] eqn:Eg; [|discriminate].
  destruct (CyclicCode _ _ _) as [C|] eqn:EC; [|discriminate]. intros [= <-]. cbn [bch_mu bch_delta bch_modulus bch_generator bch_code].
  repeat (split; [lia || reflexivity || assumption|]).
  unfold CyclicCode in EC. destruct (cyclic_polys _ _) as [[g' h]|] eqn:Ep; [|discriminate]. cbn [option_map] in EC. injection EC as <-.
  apply Cyclic_Proof.cyclic_polys_spec in Ep; [|lia]. destruct Ep as [Ep [Ea|Ea]]; [|discriminate]. injection Ea as <-. exists h. auto.
Qed.
Ltac ctx H := 
  let M := fresh "M" in let D := fresh "D" in let E1 := fresh "Emu" in let E2 := fresh "Edl" in let E3 := fresh "Ef" in
  let E4 := fresh "Emem" in let E5 := fresh "Eg" in
  destruct (built_inv _ _ _ H) as (M & D & E1 & E2 & E3 & E4 & E5 & h & gh & EC);
  destruct (field_ctx _ M) as (m & Ef' & irrN & bl & pr1 & pr2);
  lazymatch type of H with BCHCode _ _ = Built ?B => assert (Em : m = bch_modulus B) by congruence end; subst m.

(* ================= C43 *)
(* The constructor: for 2 <= mu <= 24 and 2 <= delta <= 2^mu - 1 it succeeds exactly for Bose distances; otherwise the error names
   the next Bose distance; outside these ranges it raises (fields of degree above 24 have no built-in modulus). *)
Theorem C43_constructor : forall mu delta,
  (2 <= mu <= 24 -> 2 <= delta <= 2 ^ mu - 1 ->
     (bose_distance mu delta -> exists B, BCHCode mu delta = Built B) /\
     (~ bose_distance mu delta -> exists b, BCHCode mu delta = NotBose b /\ delta < b <= 2 ^ mu - 1 /\ bose_distance mu b /\
        forall d, delta < d < b -> ~ bose_distance mu d)) /\
  (~ (2 <= mu <= 24 /\ 2 <= delta <= 2 ^ mu - 1) -> BCHCode mu delta = Raises) /\
  (forall B, BCHCode mu delta = Built B -> bose_distance mu delta /\ 2 <= mu <= 24 /\ 2 <= delta <= 2 ^ mu - 1).
Proof.
  intros mu delta. split; [|split].
  - intros Hmu Hd. destruct (field_ctx mu Hmu) as (m & Ef & irrN & bl & pr1 & pr2).
    pose proof (@BCH_Bridge.mem_set m mu irrN bl ltac:(lia) pr1 pr2) as MS.
    pose proof (@BCH_Bridge.n_big m mu bl ltac:(lia) pr2) as NB.
    assert (MB : forall d, mem (phi m mu d) (lcm_set m mu d) = false <-> bose_distance mu d).
    { intros d. specialize (MS d d). split.
      - intros F i t Hi E. rewrite (proj2 MS) in F; [discriminate|]. exists i, t. split; [lia|exact E].
      - intros Bd. destruct (mem _ _) eqn:F; [|reflexivity]. destruct (proj1 MS eq_refl) as (i & t & Hi & E). exfalso. apply (Bd i t); [lia|exact E]. }
    unfold BCHCode. destruct (Nat.leb_spec 2 mu); [cbn [negb]|lia].
    destruct (Nat.leb_spec 2 delta); [cbn [negb andb]|lia]. destruct (Nat.leb_spec delta (2 ^ mu - 1)); [cbn [negb]|lia]. rewrite Ef.
    split.
    + intros Bo. apply MB in Bo. rewrite Bo.
      destruct (@BCH_Bridge.reduce_some m mu irrN bl ltac:(lia) pr2 delta ltac:(lia)) as [g Eg]. rewrite Eg.
      destruct (@BCH_Bridge.gen_factor m mu irrN bl ltac:(lia) pr1 pr2 delta g ltac:(lia) ltac:(lia) Eg) as [h gh].
      destruct (CyclicCode _ _ _) as [C|] eqn:EC; [eexists; reflexivity|].
      exfalso. unfold CyclicCode in EC. destruct (cyclic_polys _ _) as [|] eqn:Ep; [discriminate|].
      assert (X : cyclic_polys (2 ^ mu - 1) (Generator g) = Some (g, h)) by (apply Cyclic_Proof.cyclic_polys_spec; [lia|auto]). congruence.
    + intros Nb. assert (F : mem (phi m mu delta) (lcm_set m mu delta) = true).
      { destruct (mem _ _) eqn:F; [reflexivity|]. exfalso. apply Nb, MB, F. }
      rewrite F.
      assert (dn : delta < 2 ^ mu - 1).
      { destruct (Nat.eq_dec delta (2 ^ mu - 1)) as [->|]; [|lia]. exfalso. apply Nb. intros i t Hi.
        apply (@BCH_Bridge.n_last m mu bl ltac:(lia) pr2); lia. }
      (* exponents from delta on that are in the set add nothing *)
      assert (Inc : forall d, delta <= d -> (forall x, delta <= x < d -> mem (phi m mu x) (lcm_set m mu delta) = true) ->
         forall x, mem x (lcm_set m mu d) = true <-> mem x (lcm_set m mu delta) = true).
      { intros d Hdd Hall x. rewrite !BCH_Bridge.mem_In. unfold lcm_set. rewrite !nodup_In, !in_map_iff. split.
        - intros (i & <- & Hi). apply in_seq in Hi. destruct (Nat.ltb_spec i delta).
          + exists i. split; [reflexivity|]. apply in_seq. lia.
          + specialize (Hall i ltac:(lia)). apply BCH_Bridge.mem_In in Hall. unfold lcm_set in Hall. rewrite nodup_In, in_map_iff in Hall. exact Hall.
        - intros (i & <- & Hi). apply in_seq in Hi. exists i. split; [reflexivity|]. apply in_seq. lia. }
      destruct (find _ _) as [b|] eqn:Fi.
      * exists b. split; [reflexivity|]. pose proof (find_some _ _ Fi) as [Hin Hb]. apply in_seq in Hin. apply negb_true_iff in Hb.
        assert (First : forall x, delta <= x < b -> mem (phi m mu x) (lcm_set m mu delta) = true).
        { intros x Hx. destruct (Nat.eq_dec x delta) as [->|]; [exact F|].
          assert (G : forall l p, find p l = Some b -> forall a c, l = seq a c -> forall x, a <= x < b -> p x = false).
          { clear. induction l as [|y l IH]; intros p Hf a c El x Hx; [discriminate|]. destruct c as [|c]; [discriminate|]. cbn in El. injection El as -> El.
            cbn in Hf. destruct (p a) eqn:Pa; [injection Hf as <-; lia|].
            destruct (Nat.eq_dec x a) as [->|]; [exact Pa|]. apply (IH p Hf (S a) c El x). lia. }
          specialize (G _ _ Fi _ _ eq_refl x ltac:(lia)). cbn beta in G. now apply negb_false_iff in G. }
        split; [lia|]. split.
        -- apply MB. destruct (mem (phi m mu b) (lcm_set m mu b)) eqn:Q; [|reflexivity]. apply (Inc b ltac:(lia) First) in Q. congruence.
        -- intros d Hd2 Bo. apply MB in Bo. assert (Q : mem (phi m mu d) (lcm_set m mu d) = true); [|congruence].
           apply (Inc d ltac:(lia)); [intros; apply First; lia|]. apply First. lia.
      * exfalso. pose proof (find_none _ _ Fi (2 ^ mu - 1) ltac:(apply in_seq; lia)) as Q. cbn beta in Q. apply negb_false_iff in Q.
        apply MS in Q. destruct Q as (i & t & Hi & E). revert E. apply (@BCH_Bridge.n_last m mu bl ltac:(lia) pr2); lia.
  - intros H. unfold BCHCode. destruct (Nat.leb_spec 2 mu); [cbn [negb]|reflexivity].
    destruct (Nat.leb_spec 2 delta); [cbn [negb andb]|reflexivity]. destruct (Nat.leb_spec delta (2 ^ mu - 1)); [cbn [negb]|reflexivity].
    rewrite no_field; [reflexivity|lia].
  - intros B HB. ctx HB. split; [|auto]. intros i t Hi E.
    pose proof (@BCH_Bridge.mem_set _ mu irrN bl ltac:(lia) pr1 pr2 delta delta) as MS.
    rewrite (proj2 MS) in Emem; [discriminate|]. exists i, t. split; [lia|exact E].
Qed.

Theorem C43_parameters : forall mu delta B, BCHCode mu delta = Built B ->
  let C := bch_code B in
  valid_code C /\ bc_n C = 2 ^ mu - 1 /\ Nat.odd delta = true /\ bc_m C <= mu * ((delta - 1) / 2) /\ 1 <= bc_m C /\ 1 <= bc_k C /\
  bch_mu B = mu /\ bch_delta B = delta /\ (bch_modulus B < 2 ^ N.of_nat (mu + 1))%N /\ nirreducible (bch_modulus B).
Proof.
  intros mu delta B HB. pose proof (proj2 (proj2 (C43_constructor mu delta)) B HB) as (Bo & _). ctx HB.
  pose proof (@BCH_Bridge.deg_nz _ mu irrN bl ltac:(lia) pr1 pr2 delta (bch_generator B) ltac:(lia) ltac:(lia) Eg h gh) as [Dg Dh].
  assert (Od : Nat.odd delta = true).
  { destruct (Nat.odd delta) eqn:O; [reflexivity|]. exfalso. rewrite <- Nat.negb_even in O. apply negb_false_iff, Nat.even_spec in O. destruct O as [d ->].
    apply (Bo d 1); [lia|]. f_equal. cbn. lia. }
  cbn zeta. rewrite EC. split; [apply Cyclic_Proof.cyclic_valid; auto|]. split; [reflexivity|]. split; [exact Od|]. split; [|split; [|split; [|split; [|split; [|split]]]]].
  - cbn [bc_m cyclic_code]. pose proof (@BCH_Bridge.gen_deg _ mu irrN bl ltac:(lia) pr2 delta (bch_generator B) ltac:(lia) ltac:(lia) Eg) as G.
    replace ((delta - 1) / 2) with (delta / 2); [exact G|]. apply Nat.odd_spec in Od. destruct Od as [d ->].
    replace (2 * d + 1 - 1) with (d * 2) by lia. rewrite Nat.div_mul by lia. symmetry. apply (Nat.div_unique _ 2 _ 1); lia.
  - cbn [bc_m cyclic_code]. lia.
  - cbn [bc_k cyclic_code]. lia.
  - exact Emu.
  - exact Edl.
  - apply PolyVec_Proof.bit_length_bound. lia.
  - exact irrN.
Qed.

(* The generator polynomial is the least common multiple: its multiples are exactly the binary polynomials vanishing at
   alpha, alpha^2, ..., alpha^(delta-1); the codewords are those of degree < n. *)
Theorem C43_generator : forall mu delta B, BCHCode mu delta = Built B ->
  (forall f, ndvd (bch_generator B) f <-> forall i, 1 <= i < delta -> poly_value (bch_modulus B) (bin_coeffs f) (gf_npow (bch_modulus B) 2%N i) = 0%N) /\
  ndvd (bch_generator B) (xe1 (N.of_nat (2 ^ mu - 1))).
Proof.
  intros mu delta B HB. ctx HB. split.
  - intros f. apply (@BCH_Bridge.gen_multiples _ mu irrN bl ltac:(lia) pr2 delta (bch_generator B) ltac:(lia) ltac:(lia) Eg f).
  - exists h. rewrite <- gh. apply Algebra_Proof.pmulC.
Qed.
Theorem C43_codewords : forall mu delta B v, BCHCode mu delta = Built B ->
  (is_codeword (bch_code B) v <-> length v = 2 ^ mu - 1 /\ forall i, 1 <= i < delta -> value_at B v i = 0%N).
Proof.
  intros mu delta B v HB. ctx HB.
  apply (@BCH_Bridge.codeword_value _ mu irrN bl ltac:(lia) pr1 pr2 delta (bch_generator B) ltac:(lia) ltac:(lia) Eg h gh B eq_refl Emu Edl EC v).
Qed.
(* codes of larger designed distance are subcodes *)
Corollary C43_nested : forall mu d d' B B' v, BCHCode mu d = Built B -> BCHCode mu d' = Built B' -> d <= d' ->
  is_codeword (bch_code B') v -> is_codeword (bch_code B) v.
Proof.
  intros mu d d' B B' v HB HB' Hd Hc. apply (C43_codewords mu d' B' v HB') in Hc as [L Z]. apply (C43_codewords mu d B v HB). split; [exact L|].
  intros i Hi. specialize (Z i ltac:(lia)). unfold value_at in *.
  destruct (built_inv _ _ _ HB) as (_ & _ & _ & _ & E & _). destruct (built_inv _ _ _ HB') as (_ & _ & _ & _ & E' & _). rewrite E in E'. injection E' as ->. exact Z.
Qed.
(* The BCH bound: distinct codewords differ in at least delta positions; so does the value of minimum_distance(). *)
Theorem C43_minimum_distance : forall mu delta B, BCHCode mu delta = Built B ->
  (forall v w, is_codeword (bch_code B) v -> is_codeword (bch_code B) w -> v <> w -> delta <= hdist v w) /\
  (forall cached, exists d, minimum_distance (bch_code B) cached = Some d /\ delta <= d).
Proof.
  intros mu delta B HB. pose proof (C43_parameters mu delta B HB) as (V & En & _ & _ & _ & Hk & _). cbn zeta in *.
  assert (E : encoder_ok (bch_code B)) by apply V.
  assert (W : forall v, is_codeword (bch_code B) v -> weight v <> 0 -> delta <= weight v).
  { intros v Hv Nz. destruct (Nat.ltb_spec (weight v) delta) as [Lt|]; [|assumption]. exfalso. apply Nz. ctx HB.
    apply (@BCH_Bridge.distance _ mu irrN bl ltac:(lia) pr1 pr2 delta (bch_generator B) ltac:(lia) ltac:(lia) Eg h gh B eq_refl Emu Edl EC v Hv Lt). }
  assert (D : forall v w, is_codeword (bch_code B) v -> is_codeword (bch_code B) w -> v <> w -> delta <= hdist v w).
  { intros v w Hv Hw N. unfold hdist. apply W; [apply BlockCode_Proof.codeword_vxor; auto|]. intros Z.
    apply BlockCode_Proof.weight_zero in Z.
    destruct Hv as (a & La & Ea), Hw as (b & Lb & Eb). assert (Lv := ok_encode_length _ E a La). assert (Lw := ok_encode_length _ E b Lb). rewrite Ea in Lv. rewrite Eb in Lw.
    rewrite Vec_Proof.vxor_length in Z by congruence. apply N. apply Vec_Proof.vxor_eq_zeros; congruence. }
  split; [exact D|]. intros cached. destruct (BlockCode_Proof.minimum_distance_exists (bch_code B) cached E Hk) as [d Hd]. exists d. split; [exact Hd|].
  apply BlockCode_Proof.minimum_distance_spec in Hd; [|exact E]. destruct Hd as [_ (v & w & Hv & Hw & N & <-)]. apply D; auto.
Qed.
(* bch_syndrome(r) lists the values at alpha, ..., alpha^(delta-1); it is all zero exactly for the codewords. *)
Theorem C43_syndrome : forall mu delta B r, BCHCode mu delta = Built B -> length r = 2 ^ mu - 1 ->
  let s := bch_syndrome B (bits_to_int r LSB_first) in
  length s = delta - 1 /\ (forall i, 1 <= i < delta -> nth (i - 1) s 0%N = value_at B r i) /\
  (Forall (fun x => x = 0%N) s <-> is_codeword (bch_code B) r).
Proof.
  intros mu delta B r HB Lr s. assert (Ls : length s = delta - 1 /\ forall i, 1 <= i < delta -> nth (i - 1) s 0%N = value_at B r i).
  { ctx HB. split; [unfold s, bch_syndrome; rewrite map_length, seq_length; congruence|]. intros i Hi.
    apply (@BCH_Bridge.syndrome_value _ mu irrN bl ltac:(lia) pr2 delta (bch_generator B) ltac:(lia) ltac:(lia) h gh B eq_refl Emu Edl _ i). lia. }
  destruct Ls as [Ls Ns]. split; [exact Ls|]. split; [exact Ns|]. rewrite (C43_codewords mu delta B r HB), Forall_forall. split.
  - intros H. split; [exact Lr|]. intros i Hi. rewrite <- Ns by exact Hi. apply H. apply nth_In. rewrite Ls. lia.
  - intros [_ H] x Hx. apply In_nth with (d := 0%N) in Hx as (i & Hi & <-). rewrite Ls in Hi.
    replace i with (S i - 1) by lia. rewrite Ns by lia. apply H. lia.
Qed.
(* Python does not fix the iteration order of a set: any order gives the same generator polynomial *)
Theorem C43_set_order : forall mu delta B l, BCHCode mu delta = Built B -> Permutation l (lcm_set (bch_modulus B) mu delta) ->
  reduce_mul l = Some (bch_generator B).
Proof. intros mu delta B l HB P. ctx HB. rewrite <- Eg. apply (@BCH_Bridge.set_order l _ P). Qed.

(* designed distance 3: Hamming codes *)
Theorem C43_hamming : forall mu, 2 <= mu <= 24 -> exists B, BCHCode mu 3 = Built B /\
  bch_generator B = bch_modulus B /\ bc_m (bch_code B) = mu /\ bc_k (bch_code B) = 2 ^ mu - 1 - mu /\ is_minimum_distance (bch_code B) 3.
Proof.
  intros mu Hmu. destruct (field_ctx mu Hmu) as (m & Ef & irrN & bl & pr1 & pr2).
  pose proof (@BCH_Bridge.n_big m mu bl ltac:(lia) pr2) as NB.
  assert (Bo : bose_distance mu 3).
  { intros i t Hi E. assert (O : i * 2 ^ t = 1 * 2 ^ t \/ i * 2 ^ t = 1 * 2 ^ (S t)) by (cbn [Nat.pow]; assert (i = 1 \/ i = 2) as [->| ->] by lia; lia).
    assert (X : forall t, (1 * 2 ^ t) mod (2 ^ mu - 1) <> 3 mod (2 ^ mu - 1)); [|destruct O as [O|O]; rewrite O in E; exact (X _ E)].
    clear i t Hi E O. intros t. rewrite Nat.mul_1_l.
    (* powers of two modulo 2^mu - 1 are 2^(t mod mu) *)
    assert (P : forall a, 2 ^ (a * mu) mod (2 ^ mu - 1) = 1).
    { induction a as [|a IH]; [cbn; apply Nat.mod_1_l; lia|]. cbn [Nat.mul]. rewrite Nat.pow_add_r, Nat.mul_mod, IH by lia.
      replace (2 ^ mu mod (2 ^ mu - 1)) with 1; [rewrite Nat.mul_1_l; apply Nat.mod_1_l; lia|]. apply (Nat.mod_unique _ _ 1); lia. }
    assert (Q : 2 ^ t mod (2 ^ mu - 1) = 2 ^ (t mod mu)).
    { rewrite (Nat.div_mod t mu) at 1 by lia. rewrite Nat.pow_add_r, (Nat.mul_comm mu), Nat.mul_mod, P, Nat.mul_1_l, Nat.mod_mod by lia.
      apply Nat.mod_small. pose proof (Nat.mod_upper_bound t mu ltac:(lia)) as Hu. pose proof (Nat.pow_le_mono_r 2 (t mod mu) (mu - 1) ltac:(lia) ltac:(lia)).
      replace mu with (S (mu - 1)) at 2 by lia. cbn [Nat.pow]. assert (2 ^ 1 <= 2 ^ (mu - 1)) by (apply Nat.pow_le_mono_r; lia). cbn in *. lia. }
    rewrite Q. destruct (Nat.eq_dec mu 2) as [->|N2].
    - cbn -[Nat.modulo]. replace (3 mod (4 - 1)) with 0 by reflexivity. apply Nat.pow_nonzero. lia.
    - assert (2 ^ 3 <= 2 ^ mu) by (apply Nat.pow_le_mono_r; lia). cbn in H. rewrite (Nat.mod_small 3) by lia.
      destruct (t mod mu) as [|[|x]]; cbn [Nat.pow]; lia. }
  destruct (proj1 (proj1 (C43_constructor mu 3) Hmu ltac:(lia)) Bo) as [B HB]. exists B. split; [exact HB|].
  pose proof (C43_parameters mu 3 B HB) as (V & En & _). cbn zeta in *. pose proof (C43_minimum_distance mu 3 B HB) as [MD _].
  pose proof (fun v => C43_codewords mu 3 B v HB) as CW.
  destruct (built_inv _ _ _ HB) as (_ & _ & _ & _ & E3 & _ & E5 & h & gh & EC). rewrite Ef in E3. injection E3 as E3. rewrite <- E3 in *.
  assert (G : bch_generator B = m).
  { unfold lcm_set in E5. cbn [seq map Nat.sub] in E5.
    rewrite (@BCH_Bridge.mp1 m mu irrN bl ltac:(lia) pr2), (@BCH_Bridge.mp2 m mu irrN bl ltac:(lia) pr2) in E5.
    cbn [nodup] in E5. destruct (in_dec N.eq_dec m [m]) as [|N]; [|exfalso; apply N; now left]. cbn in E5. congruence. }
  assert (Hm : bc_m (bch_code B) = mu) by (rewrite EC; cbn [bc_m cyclic_code]; rewrite G; unfold deg; rewrite bl; lia).
  split; [exact G|]. split; [exact Hm|]. split; [pose proof (ok_params _ V); lia|].
  apply BlockCode_Proof.minimum_weight_distance; [apply V|]. split; [lia|]. split.
  - destruct (@BCH_Bridge.trinomial m mu irrN bl ltac:(lia) pr1 pr2) as [v [L W Z]]. exists v. split; [|exact W]. apply CW. split; [exact L|].
    intros i Hi. unfold value_at. rewrite <- E3. apply Z. exact Hi.
  - intros v Hv Nz. assert (Zc : is_codeword (bch_code B) (zeros (2 ^ mu - 1))).
    { exists (zeros (bc_k (bch_code B))). split; [apply Vec_Proof.zeros_length|]. rewrite <- En. apply BlockCode_Proof.codeword_zero. apply V. }
    assert (Lv : length v = 2 ^ mu - 1) by (apply CW in Hv; apply Hv).
    specialize (MD v _ Hv Zc). unfold hdist in MD. rewrite Vec_Proof.vxor_zeros_r in MD by exact Lv. apply MD. intros ->. apply Nz. apply BlockCode_Proof.weight_zeros.
Qed.
(* designed distance 2^mu - 1: the repetition code *)
Theorem C43_repetition : forall mu, 2 <= mu <= 24 -> exists B, BCHCode mu (2 ^ mu - 1) = Built B /\
  bc_k (bch_code B) = 1 /\ forall v, is_codeword (bch_code B) v <-> v = repeat false (2 ^ mu - 1) \/ v = repeat true (2 ^ mu - 1).
Proof.
  intros mu Hmu. destruct (field_ctx mu Hmu) as (m & Ef & irrN & bl & pr1 & pr2).
  pose proof (@BCH_Bridge.n_big m mu bl ltac:(lia) pr2) as NB. set (n := 2 ^ mu - 1) in *.
  assert (Bo : bose_distance mu n).
  { intros i t Hi. apply (@BCH_Bridge.n_last m mu bl ltac:(lia) pr2). exact Hi. }
  destruct (proj1 (proj1 (C43_constructor mu n) Hmu ltac:(fold n; lia)) Bo) as [B HB]. exists B. split; [exact HB|].
  pose proof (C43_parameters mu n B HB) as (V & En & _ & _ & _ & Hk & _). cbn zeta in *. pose proof (C43_minimum_distance mu n B HB) as [MD _].
  assert (E : encoder_ok (bch_code B)) by apply V. fold n in En.
  assert (Zc : is_codeword (bch_code B) (zeros n)).
  { exists (zeros (bc_k (bch_code B))). split; [apply Vec_Proof.zeros_length|]. rewrite <- En. apply BlockCode_Proof.codeword_zero. exact E. }
  assert (Full : forall v, length v = n -> n <= weight v -> v = repeat true n).
  { clear. intros v <-. induction v as [|b v IH]; intros W; [reflexivity|]. pose proof (BlockCode_Proof.weight_le v). rewrite Hamming_Proof.weight_cons in W; destruct b; cbn [length repeat] in *; [f_equal; apply IH; lia|lia]. }
  assert (Two : forall v, is_codeword (bch_code B) v -> v = zeros n \/ v = repeat true n).
  { intros v Hv. assert (Lv : length v = n). { destruct Hv as (u & Lu & <-). rewrite <- En. now apply ok_encode_length. }
    destruct (list_eq_dec Bool.bool_dec v (zeros n)) as [|N]; [now left|right]. apply Full; [exact Lv|].
    specialize (MD v _ Hv Zc N). unfold hdist in MD. now rewrite Vec_Proof.vxor_zeros_r in MD. }
  assert (One : forall u, length u = bc_k (bch_code B) -> u <> zeros (bc_k (bch_code B)) -> bc_encode (bch_code B) u = repeat true n).
  { intros u Lu N. destruct (Two (bc_encode (bch_code B) u)) as [Z|]; [now exists u| |assumption]. exfalso. apply N.
    apply (ok_encode_injective _ E); [exact Lu|apply Vec_Proof.zeros_length|]. rewrite Z, <- En. symmetry. apply BlockCode_Proof.codeword_zero. exact E. }
  assert (K1 : bc_k (bch_code B) = 1).
  { destruct (bc_k (bch_code B)) as [|[|k]] eqn:K; [lia|reflexivity|]. exfalso.
    assert (Q : true :: false :: zeros k = false :: true :: zeros k); [|discriminate].
    apply (ok_encode_injective _ E); rewrite ?K; cbn [length]; rewrite ?Vec_Proof.zeros_length; auto.
    rewrite !One; auto; cbn [length]; rewrite ?Vec_Proof.zeros_length; auto; discriminate. }
  split; [exact K1|]. intros v. split; [apply Two|]. intros [->| ->]; [exact Zc|].
  exists [true]. rewrite K1. split; [reflexivity|]. apply One; rewrite K1; [reflexivity|discriminate].
Qed.

(* ================= C44 *)
(* Every pattern of at most (delta - 1) / 2 errors is corrected. *)
Theorem C44_corrects : forall mu delta B u e, BCHCode mu delta = Built B -> length u = bc_k (bch_code B) -> length e = 2 ^ mu - 1 ->
  weight e <= (delta - 1) / 2 -> berlekamp_decode B (vxor (bc_encode (bch_code B) u) e) = Some u.
Proof.
  intros mu delta B u e HB Lu Le We. ctx HB.
  apply (@BCH_Bridge.corrects _ mu irrN bl ltac:(lia) pr1 pr2 delta (bch_generator B) ltac:(lia) ltac:(lia) Eg h gh B eq_refl Emu Edl EC u e Lu Le).
  pose proof (Nat.mul_div_le (delta - 1) 2 ltac:(lia)). lia.
Qed.
(* The decoder never raises: every word of length n is decoded to some message. *)
Theorem C44_total : forall mu delta B r, BCHCode mu delta = Built B -> length r = 2 ^ mu - 1 ->
  exists u, berlekamp_decode B r = Some u /\ length u = bc_k (bch_code B).
Proof.
  intros mu delta B r HB Lr. ctx HB.
  apply (@BCH_Bridge.total _ mu irrN bl ltac:(lia) pr1 pr2 delta (bch_generator B) ltac:(lia) ltac:(lia) Eg h gh B eq_refl Emu Edl EC r Lr).
Qed.
(* In particular the decoded message is the unique one within the radius, whenever there is one. *)
Corollary C44_unique : forall mu delta B r u, BCHCode mu delta = Built B -> length u = bc_k (bch_code B) -> length r = 2 ^ mu - 1 ->
  hdist r (bc_encode (bch_code B) u) <= (delta - 1) / 2 -> berlekamp_decode B r = Some u.
Proof.
  intros mu delta B r u HB Lu Lr H. pose proof (C43_parameters mu delta B HB) as (V & En & _). cbn zeta in *.
  pose proof (ok_encode_length _ (ok_encoder _ V) u Lu) as Lc.
  replace r with (vxor (bc_encode (bch_code B) u) (vxor r (bc_encode (bch_code B) u))).
  - apply (C44_corrects mu delta); auto. rewrite Vec_Proof.vxor_length; congruence.
  - rewrite (Vec_Proof.vxor_comm r). apply Vec_Proof.vxor_cancel. congruence.
Qed.

Example C43_example : exists B, BCHCode 4 5 = Built B /\ bch_modulus B = 19%N /\ bch_generator B = 465%N /\ bc_k (bch_code B) = 7 /\
  BCHCode 4 6 = NotBose 7 /\ BCHCode 4 16 = Raises.
Proof. eexists. split; [vm_compute; reflexivity|]. repeat split; vm_compute; reflexivity. Qed.
Example C44_example : exists B, BCHCode 4 5 = Built B /\
  let u := [true;false;false;true;true;false;true] in
  let e := [false;true;false;false;false;false;false;false;false;false;false;false;true;false;false] in
  length u = bc_k (bch_code B) /\ length e = 15 /\ weight e = 2 /\ berlekamp_decode B (vxor (bc_encode (bch_code B) u) e) = Some u /\
  berlekamp_decode B (repeat true 3 ++ repeat false 12) <> None.
Proof. eexists. split; [vm_compute; reflexivity|]. repeat split; vm_compute; try reflexivity. discriminate. Qed.

Print Assumptions C43_constructor.
Print Assumptions C43_hamming.
Print Assumptions C44_corrects.
