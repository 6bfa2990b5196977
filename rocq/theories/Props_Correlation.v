(* Correlation functions, Barker sequences, Zadoff-Chu sequences: C62, C67, C68. *)
From Coq Require Import Reals Lra.
From Coquelicot Require Import Complex.
From Verif Require Import Common Corr_Model Corr_Spec Walsh_Model.
From Verif Require Corr_Proof.
Local Open Scope Z_scope.

(* every returned value is the value of the defining sum: over all integers for the autocorrelation (any window containing the
   sequence gives the same sum), over one period for the cyclic one; the default shifts are 0 .. L-1 *)
Theorem C62_formula : forall (s : list C) (l : Z) (N : nat), (length s <= N)%nat ->
  autocorrelation complex_dtype s (Some [l]) = [Csum N (fun i => Cmult (zero_ext s (Z.of_nat i)) (Cconj (zero_ext s (Z.of_nat i - l))))] /\
  cyclic_autocorrelation complex_dtype s (Some [l]) = [Csum (length s) (fun i => Cmult (periodic_ext s (Z.of_nat i)) (Cconj (periodic_ext s (Z.of_nat i - l))))].
Proof.
  intros s l N H. unfold autocorrelation, cyclic_autocorrelation. cbn [map]. split; f_equal.
  - apply Corr_Proof.auto_formula. lia.
  - rewrite Corr_Proof.cyclic_formula. apply Corr_Proof.Csum_ext. intros i Hi. now rewrite Corr_Proof.periodic_nth.
Qed.
Theorem C62_shifts : forall (s : list C) shifts l i, nth_error (match shifts with None => map Z.of_nat (seq 0 (length s)) | Some x => x end) i = Some l ->
  nth_error (autocorrelation complex_dtype s shifts) i = Some (autocorrelation_at complex_dtype s l) /\
  nth_error (cyclic_autocorrelation complex_dtype s shifts) i = Some (cyclic_at complex_dtype s l) /\
  nth_error (autocorrelation_normalized s shifts) i = Some (Cdiv (autocorrelation_at complex_dtype s l) (RtoC (power_sum s))) /\
  nth_error (cyclic_autocorrelation_normalized s shifts) i = Some (Cdiv (cyclic_at complex_dtype s l) (RtoC (power_sum s))).
Proof.
  intros s shifts l i H. unfold autocorrelation_normalized, cyclic_autocorrelation_normalized, autocorrelation, cyclic_autocorrelation, default_shifts.
  rewrite Corr_Proof.energy_power. cbn [carrier complex_dtype].
  split; [now apply map_nth_error|split; [now apply map_nth_error|split]];
  (apply (map_nth_error (fun z => Cdiv z (RtoC (power_sum s)))); now apply map_nth_error).
Qed.
(* conjugate symmetry, support, energy, bound, periodicity, and the relation between the two *)
Theorem C62_laws : forall (s : list C) (l : Z),
  autocorrelation_at complex_dtype s (- l) = Cconj (autocorrelation_at complex_dtype s l) /\
  cyclic_at complex_dtype s (- l) = Cconj (cyclic_at complex_dtype s l) /\
  (Z.of_nat (length s) <= Z.abs l -> autocorrelation_at complex_dtype s l = RtoC 0) /\
  autocorrelation_at complex_dtype s 0 = RtoC (power_sum s) /\ cyclic_at complex_dtype s 0 = RtoC (power_sum s) /\
  (Cmod (autocorrelation_at complex_dtype s l) <= power_sum s)%R /\ (Cmod (cyclic_at complex_dtype s l) <= power_sum s)%R /\
  cyclic_at complex_dtype s (l + Z.of_nat (length s)) = cyclic_at complex_dtype s l /\
  (0 <= l < Z.of_nat (length s) -> cyclic_at complex_dtype s l = Cplus (autocorrelation_at complex_dtype s l) (autocorrelation_at complex_dtype s (l - Z.of_nat (length s)))).
Proof.
  intros s l. assert (E0 : autocorrelation_at complex_dtype s 0 = RtoC (power_sum s)) by apply Corr_Proof.energy_power.
  split; [apply Corr_Proof.auto_conj|]. split; [apply Corr_Proof.cyclic_conj|]. split; [apply Corr_Proof.auto_outside|]. split; [exact E0|].
  split. { destruct s as [|x s']; [exact E0|]. rewrite Corr_Proof.cyclic_auto by (cbn [length]; lia). rewrite E0, Corr_Proof.auto_outside by (cbn [length]; lia). apply Cplus_0_r. }
  split; [apply Corr_Proof.auto_bound|]. split; [apply Corr_Proof.cyclic_bound|]. split; [apply Corr_Proof.cyclic_period|apply Corr_Proof.cyclic_auto].
Qed.
(* the normalized versions are 1 at shift 0 and at most 1 in modulus, for every sequence that is not identically zero *)
Theorem C62_normalized : forall (s : list C) l, power_sum s <> 0%R -> exists a c a0 c0,
  autocorrelation_normalized s (Some [l; 0]) = [a; a0] /\ cyclic_autocorrelation_normalized s (Some [l; 0]) = [c; c0] /\
  a0 = RtoC 1 /\ c0 = RtoC 1 /\ (Cmod a <= 1)%R /\ (Cmod c <= 1)%R.
Proof.
  intros s l H. destruct (C62_laws s l) as (_ & _ & _ & E0 & E1 & B0 & B1 & _ & _). unfold autocorrelation_normalized, cyclic_autocorrelation_normalized, autocorrelation, cyclic_autocorrelation.
  cbn [map]. rewrite Corr_Proof.energy_power, E0, E1. do 4 eexists. split; [reflexivity|]. split; [reflexivity|].
  assert (HC : RtoC (power_sum s) <> RtoC 0) by (intros X; apply RtoC_inj in X; auto).
  assert (P : (0 < power_sum s)%R). { pose proof (Cmod_ge_0 (cyclic_at complex_dtype s l)) as G. lra. }
  assert (Q : forall z, (Cmod z <= power_sum s)%R -> (Cmod (Cdiv z (RtoC (power_sum s))) <= 1)%R).
  { intros z Hz. rewrite Cmod_div by auto. rewrite Cmod_R, Rabs_pos_eq by lra. apply (Rmult_le_reg_r (power_sum s)); [auto|]. unfold Rdiv. rewrite Rmult_assoc, Rinv_l by auto. lra. }
  assert (D : Cdiv (RtoC (power_sum s)) (RtoC (power_sum s)) = RtoC 1) by (unfold Cdiv; now apply Cinv_r).
  auto.
Qed.
(* integer sequences (binary sequences in polar form) give the integers that the complex computation gives *)
Theorem C62_integer : forall (s : list Z) l,
  autocorrelation_at complex_dtype (Z_to_C s) l = RtoC (IZR (autocorrelation_at int_dtype s l)) /\
  cyclic_at complex_dtype (Z_to_C s) l = RtoC (IZR (cyclic_at int_dtype s l)).
Proof. intros s l. split; [apply Corr_Proof.auto_Z_C|apply Corr_Proof.cyclic_Z_C]. Qed.
Example C62_satisfiable : autocorrelation int_dtype [1; 2; 3; 4] (Some [-2; -1; 0; 1; 2; 7]) = [11; 20; 30; 20; 11; 0] /\
  cyclic_autocorrelation int_dtype [1; 2; 3; 4] (Some [-2; -1; 0; 1; 2]) = [22; 24; 30; 24; 22] /\ autocorrelation int_dtype [1; 2] None = [5; 2].
Proof. vm_compute. repeat split. Qed.
(* ... and a complex sequence whose energy is not zero *)
Example C62_normalized_satisfiable : power_sum [RtoC 3; (0, 1)%R] = 10%R.
Proof. unfold power_sum. cbn [map fold_right]. rewrite Cmod_R. unfold Cmod. cbn [fst snd]. rewrite pow2_sqrt; [|lra]. rewrite Rabs_pos_eq by lra. ring. Qed.

(* C67: for every accepted length the sequence has that length, bits only, and every off-peak autocorrelation value of the
   polar sequence is -1, 0 or 1 *)
Theorem C67_barker : forall (L : nat) bits, barker_sequence L = Some bits ->
  length bits = L /\ Forall (fun b => b = 0 \/ b = 1) bits /\
  forall l, (if l =? 0 then autocorrelation_at int_dtype (polar_of_bits bits) l = Z.of_nat L else Z.abs (autocorrelation_at int_dtype (polar_of_bits bits) l) <= 1).
Proof.
  intros L bits H.
  assert (K : length bits = L /\ forallb (fun b => (b =? 0) || (b =? 1)) bits = true /\
    forallb (fun l => if l =? 0 then (autocorrelation_at int_dtype (polar_of_bits bits) l =? Z.of_nat L) else (Z.abs (autocorrelation_at int_dtype (polar_of_bits bits) l) <=? 1))
      (map (fun i => Z.of_nat i - Z.of_nat L) (seq 0 (L + L))) = true).
  { do 14 (destruct L as [|L]; [try discriminate H; injection H as <-; vm_compute; repeat split|]). discriminate H. }
  destruct K as (K1 & K2 & K3). split; [exact K1|]. split.
  - apply Forall_forall. intros b Hb. rewrite forallb_forall in K2. specialize (K2 b Hb). lia.
  - intros l. destruct (Z.lt_ge_cases (Z.abs l) (Z.of_nat L)) as [Hl|Hl].
    + rewrite forallb_forall in K3. specialize (K3 l). assert (I : In l (map (fun i => Z.of_nat i - Z.of_nat L) (seq 0 (L + L)))).
      { apply in_map_iff. exists (Z.to_nat (l + Z.of_nat L)). split; [lia|]. apply in_seq. lia. }
      specialize (K3 I). destruct (l =? 0); lia.
    + assert (E : autocorrelation_at int_dtype (polar_of_bits bits) l = 0).
      { apply eq_IZR. apply RtoC_inj. rewrite <- Corr_Proof.auto_Z_C. apply Corr_Proof.auto_outside. unfold Z_to_C, polar_of_bits. rewrite !map_length. lia. }
      rewrite E. destruct (Z.eqb_spec l 0); [|cbn; lia]. subst l. destruct L; [discriminate H|]. lia.
Qed.
Example C67_satisfiable : map (fun L => match barker_sequence L with Some s => length s | None => 0%nat end) [2; 3; 4; 5; 7; 11; 13; 6]%nat = [2; 3; 4; 5; 7; 11; 13; 0]%nat.
Proof. reflexivity. Qed.

(* C68 *)
(* exactly the documented arguments are accepted (a negative odd length is rejected because no root index fits) *)
Theorem C68_accepts : forall L q, (exists s, ZadoffChu L q = Some s) <-> L mod 2 = 1 /\ 1 <= q < L.
Proof.
  intros L q. unfold ZadoffChu. pose proof (Z.mod_pos_bound L 2). destruct (Z.eqb_spec (L mod 2) 0); [split; [intros (s & X); discriminate|lia]|].
  destruct (Z.leb_spec 1 q), (Z.ltb_spec q L); cbn [andb negb]; (split; [intros (s & X); try discriminate; lia|intros; try lia; eauto]).
Qed.
Theorem C68_amplitude : forall L q s, ZadoffChu L q = Some s -> Z.of_nat (length s) = L /\ Forall (fun z => Cmod z = 1%R) s.
Proof.
  intros L q s H. assert (A : L mod 2 = 1 /\ 1 <= q < L) by (apply C68_accepts; eauto). unfold ZadoffChu in H. destruct (_ =? 0); [discriminate|]. destruct (negb _); [discriminate|]. injection H as <-. split.
  - rewrite Corr_Proof.zc_seq_length. lia.
  - apply Forall_forall. intros z Hz. apply in_map_iff in Hz as (n & <- & _). apply Corr_Proof.cexp_mod.
Qed.
(* zero cyclic autocorrelation for root indices coprime to the length, at every shift that is not a multiple of the length *)
Theorem C68_autocorrelation : forall L q s l, ZadoffChu L q = Some s -> Z.gcd q L = 1 ->
  cyclic_at complex_dtype s l = if l mod L =? 0 then RtoC (IZR L) else RtoC 0.
Proof.
  intros L q s l H G. assert (A : L mod 2 = 1 /\ 1 <= q < L) by (apply C68_accepts; eauto). pose proof (C68_amplitude L q s H) as (Ls & Fs).
  unfold ZadoffChu in H. destruct (_ =? 0); [discriminate|]. destruct (negb _); [discriminate|]. injection H as <-.
  destruct (Z.eqb_spec (l mod L) 0) as [E|E].
  - rewrite Corr_Proof.cyclic_formula. rewrite (Corr_Proof.Csum_ext _ _ (fun _ => RtoC 1)).
    + rewrite Corr_Proof.Csum_const, INR_IZR_INZ, Ls. apply Cmult_1_r.
    + intros i Hi. rewrite <- Corr_Proof.periodic_nth by auto. rewrite <- (Corr_Proof.periodic_mod _ (_ - l)).
      assert (Em : (Z.of_nat i - l) mod Z.of_nat (length (zadoff_chu_sequence L q)) = Z.of_nat i) by (rewrite Ls, Zminus_mod, E, Z.sub_0_r, Z.mod_mod by lia; apply Z.mod_small; lia).
      rewrite Em, Corr_Proof.prod_conj, Corr_Proof.periodic_nth by auto.
      rewrite Forall_forall in Fs. rewrite Fs by (now apply nth_In). rewrite pow1. reflexivity.
  - apply Corr_Proof.zc_cyclic; [lia|tauto|]. intros D. apply E. apply Z.mod_divide in D; [|lia]. apply Z.gauss in D; [|now rewrite Z.gcd_comm]. apply Z.mod_divide; auto. lia.
Qed.
(* the coprimality condition is needed: otherwise some non-zero shift has the full energy *)
Theorem C68_not_coprime : forall L q s, ZadoffChu L q = Some s -> Z.gcd q L <> 1 -> exists l, l mod L <> 0 /\ Cmod (cyclic_at complex_dtype s l) = IZR L.
Proof.
  intros L q s H G. assert (A : L mod 2 = 1 /\ 1 <= q < L) by (apply C68_accepts; eauto).
  unfold ZadoffChu in H. destruct (_ =? 0); [discriminate|]. destruct (negb _); [discriminate|]. injection H as <-.
  set (g := Z.gcd q L) in *. assert (Hg : 0 <= g) by apply Z.gcd_nonneg. destruct (Z.gcd_divide_l q L) as (a & Ea), (Z.gcd_divide_r q L) as (b & Eb). fold g in Ea, Eb.
  assert (2 <= g) by (destruct (Z.eq_dec g 0); [rewrite e, Z.mul_0_r in Ea; lia|lia]). assert (0 < b) by nia. exists b. split.
  - rewrite Z.mod_small; nia.
  - apply Corr_Proof.zc_cyclic_full; [lia|tauto|]. apply Z.mod_divide; [lia|]. exists a. rewrite Ea, Eb. ring.
Qed.
(* sequences of the same length whose root indices differ by a number coprime to the length: cross-correlation of constant modulus *)
Theorem C68_crosscorrelation : forall L q q' s s' l, ZadoffChu L q = Some s -> ZadoffChu L q' = Some s' -> Z.gcd (q' - q) L = 1 ->
  Cmod (cyclic_crosscorrelation s s' l) = sqrt (IZR L).
Proof.
  intros L q q' s s' l H H' G. assert (A : L mod 2 = 1 /\ 1 <= q < L) by (apply C68_accepts; eauto).
  unfold ZadoffChu in H, H'. destruct (_ =? 0); [discriminate|]. destruct (negb _); [discriminate|]. destruct (negb _); [discriminate|]. injection H as <-. injection H' as <-.
  apply Corr_Proof.zc_cross; auto; lia.
Qed.
Example C68_satisfiable : (exists s, ZadoffChu 5 1 = Some s) /\ (exists s, ZadoffChu 9 3 = Some s) /\ ZadoffChu 6 1 = None /\ ZadoffChu 5 5 = None /\ Z.gcd 1 5 = 1 /\ Z.gcd (3 - 1) 5 = 1 /\ Z.gcd 3 9 <> 1.
Proof. repeat split; try (eexists; reflexivity); discriminate. Qed.
