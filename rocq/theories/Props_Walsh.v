(* Walsh-Hadamard sequences: C54. *)
From Verif Require Import Common Walsh_Model Walsh_Spec.
From Verif Require Labeling_Proof Walsh_Proof.
Local Open Scope Z_scope.

(* exactly the powers of two are accepted as length, and the indices 0 .. length - 1 *)
Theorem C54_accepts : forall length o index,
  (exists s, WalshHadamard length o index = Some s) <-> (exists m, length = 2 ^ Z.of_nat m) /\ 0 <= index < length.
Proof.
  intros length o index. assert (E : forall m, Z.of_nat (2 ^ m) = 2 ^ Z.of_nat m) by (intros m; rewrite <- (Nat2Z.inj_pow 2); reflexivity). split.
  - intros (s & H). apply Walsh_Proof.walsh_inv in H as (m & -> & B & _). split; auto. exists m. apply E.
  - intros ((m & ->) & B). rewrite <- E in *. now apply Walsh_Proof.walsh_accepts.
Qed.
(* every sequence has the given length and entries +1, -1 *)
Theorem C54_shape : forall length o i s, WalshHadamard length o i = Some s -> Z.of_nat (List.length s) = length /\ Forall (fun x => x = 1 \/ x = -1) s.
Proof.
  intros length o i s H. apply Walsh_Proof.walsh_inv in H as (m & -> & B & -> & _). split; [|apply Walsh_Proof.wrow_pm].
  rewrite Walsh_Proof.wrow_length, Walsh_Proof.row_bits_length. reflexivity.
Qed.
(* in both orderings *)
Theorem C54_orthogonal : forall length o i j s t, WalshHadamard length o i = Some s -> WalshHadamard length o j = Some t ->
  inner s t = if i =? j then length else 0.
Proof.
  intros length o i j s t Hs Ht. apply Walsh_Proof.walsh_inv in Hs as (m & E & Bi & -> & Ni), Ht as (m' & E' & Bj & -> & Nj).
  assert (m = m') by (apply (Nat.pow_inj_r 2); lia). subst m'. rewrite Walsh_Proof.inner_wrow by (now rewrite !Walsh_Proof.row_bits_length).
  rewrite Walsh_Proof.row_bits_length. destruct (list_eq_dec Bool.bool_dec _ _) as [El|N], (Z.eqb_spec i j) as [Ei|Ni']; auto.
  - exfalso. apply Walsh_Proof.row_bits_inj in El; auto. lia.
  - exfalso. subst. auto.
Qed.
(* in sequency ordering the index is the number of sign changes *)
Theorem C54_sequency : forall length i s, WalshHadamard length Sequency i = Some s -> Z.of_nat (sign_changes s) = i.
Proof.
  intros length i s H. apply Walsh_Proof.walsh_inv in H as (m & E & B & -> & N). cbn [Walsh_Proof.row_bits]. rewrite Walsh_Proof.sequency_changes by auto. lia.
Qed.
(* the two orderings list the same sequences *)
Theorem C54_same_set : forall length i s, WalshHadamard length Natural i = Some s -> exists j, WalshHadamard length Sequency j = Some s.
Proof.
  intros length i s H. apply Walsh_Proof.walsh_inv in H as (m & -> & B & -> & N).
  set (l := Walsh_Proof.row_bits m Natural (Z.to_N i)). assert (L : List.length l = m) by apply Walsh_Proof.row_bits_length.
  set (j := Labeling_Model.ungray m (Bits_Model.bits_to_int l Bits_Model.MSB_first)).
  assert (Bl : (Bits_Model.bits_to_int l Bits_Model.MSB_first < 2 ^ N.of_nat m)%N) by (rewrite <- L at 1; apply Bits_Proof.bits_to_int_bound).
  assert (Bj : (j < 2 ^ N.of_nat m)%N) by (now apply Labeling_Proof.ungray_bound). assert (Bz : 0 <= Z.of_N j < Z.of_nat (2 ^ m)) by (rewrite <- Labeling_Proof.pow2_N in Bj; lia).
  destruct (Walsh_Proof.walsh_accepts m Sequency (Z.of_N j) Bz) as (s & Es). exists (Z.of_N j). rewrite Es. f_equal.
  apply Walsh_Proof.walsh_inv in Es as (m' & E & _ & -> & _). assert (m = m') by (apply (Nat.pow_inj_r 2); lia). subst m'. f_equal.
  cbn [Walsh_Proof.row_bits]. rewrite N2Z.id. unfold j. rewrite Labeling_Proof.gray_ungray by auto. rewrite <- L at 1. apply Bits_Proof.int_bits_round_trip.
Qed.
(* the bit sequence kept by BinarySequence: 1 where the polar value is -1, and polar_of_bits recovers the polar sequence *)
Theorem C54_bits_polar : forall length o i s, WalshHadamard length o i = Some s -> polar_of_bits (bits_of_polar s) = s /\ Forall (fun b => b = 0 \/ b = 1) (bits_of_polar s).
Proof.
  intros length o i s H. apply C54_shape in H as [_ F]. split.
  - unfold polar_of_bits, bits_of_polar. rewrite map_map. rewrite <- (map_id s) at 2. apply map_ext_in. intros x Hx. rewrite Forall_forall in F. destruct (F x Hx); subst; reflexivity.
  - apply Forall_forall. intros b Hb. apply in_map_iff in Hb as (x & <- & _). destruct (x <? 0); auto.
Qed.
Example C54_satisfiable : WalshHadamard 8 Sequency 5 = Some [1; -1; -1; 1; -1; 1; 1; -1] /\ WalshHadamard 8 Natural 5 = Some [1; -1; 1; -1; -1; 1; -1; 1] /\
  WalshHadamard 6 Natural 0 = None /\ WalshHadamard 8 Natural 8 = None /\ WalshHadamard 1 Sequency 0 = Some [1].
Proof. vm_compute. repeat split. Qed.
