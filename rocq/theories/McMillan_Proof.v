(* McMillan's inequality: the lengths of a uniquely decodable code have Kraft sum at most 1. *)
From Verif Require Import Common Prefix_Model Prefix_Proof Canonical_Proof Parse_Proof Spec_Lossless Kraft_Proof.
From Coq Require Import QArith.
Local Open Scope N_scope.

Definition sumN (l : list N) : N := fold_right N.add 0 l.
Lemma sumN_app l l' : sumN (l ++ l') = sumN l + sumN l'.
Proof. induction l as [|x l IH]; cbn; [reflexivity|]. unfold sumN in *. lia. Qed.
Lemma sumN_scale c l : sumN (map (fun x => c * x) l) = c * sumN l.
Proof. induction l as [|x l IH]; cbn; [lia|]. unfold sumN in *. rewrite IH. lia. Qed.

(* growth *)
Lemma bernoulli B k : (B + k) * B ^ k <= B * (B + 1) ^ k.
Proof.
  induction k as [|k IH] using N.peano_ind; [rewrite !N.pow_0_r; lia|].
  rewrite !N.pow_succ_r'. 
  assert (H : (B + 1) * ((B + k) * B ^ k) <= (B + 1) * (B * (B + 1) ^ k)) by (apply N.mul_le_mono_l; exact IH).
  assert (H2 : (B + N.succ k) * (B * B ^ k) <= (B + 1) * ((B + k) * B ^ k)).
  { replace ((B + N.succ k) * (B * B ^ k)) with ((B + N.succ k) * B * B ^ k) by ring.
    rewrite N.mul_assoc. apply N.mul_le_mono_r. nia. }
  nia.
Qed.
Lemma pow_linear A B L : 1 <= B -> (forall m, A ^ m <= (m * L + 1) * B ^ m) -> A <= B.
Proof.
  intros HB H. destruct (N.le_gt_cases A B) as [C|C]; [exact C|exfalso].
  set (k := B * B * (2 * L + 1)). specialize (H (2 * k)).
  assert (H1 : (B + 1) ^ (2 * k) <= A ^ (2 * k)) by (apply N.pow_le_mono_l; lia).
  pose proof (bernoulli B k) as Bk.
  assert (E : (B + 1) ^ (2 * k) = (B + 1) ^ k * (B + 1) ^ k) by (rewrite <- N.pow_add_r; f_equal; lia).
  assert (E2 : B ^ (2 * k) = B ^ k * B ^ k) by (rewrite <- N.pow_add_r; f_equal; lia).
  rewrite E in H1. rewrite E2 in H. set (P := (B + 1) ^ k) in *. set (R := B ^ k) in *.
  assert (HR : 0 < R) by (unfold R; apply N.neq_0_lt_0, N.pow_nonzero; lia).
  assert (S1 : ((B + k) * R) * ((B + k) * R) <= (B * P) * (B * P)) by (apply N.mul_le_mono; exact Bk).
  assert (S2 : P * P <= (2 * k * L + 1) * (R * R)) by lia.
  assert (S3 : ((B + k) * (B + k)) * (R * R) <= (B * B * (2 * k * L + 1)) * (R * R)).
  { replace ((B + k) * (B + k) * (R * R)) with ((B + k) * R * ((B + k) * R)) by ring.
    replace (B * B * (2 * k * L + 1) * (R * R)) with (B * B * ((2 * k * L + 1) * (R * R))) by ring.
    eapply N.le_trans; [exact S1|]. replace (B * P * (B * P)) with (B * B * (P * P)) by ring.
    apply N.mul_le_mono_l. exact S2. }
  apply N.mul_le_mono_pos_r in S3; [|nia].
  assert (K : k * k = B * B * (2 * k * L + k)) by (unfold k; ring).
  assert (1 <= k) by (unfold k; nia). nia.
Qed.

Section MM.
Variables (b : N) (ws : list word).
Hypothesis Hb : 2 <= b.
Hypothesis HR : Forall (fun w => Forall (fun x => x < b) w) ws.
Hypothesis HU : uniquely_decodable ws.

Let n := N.of_nat (length ws).
Let L := list_max (map wlen ws).
Definition sel (s : word) : list nat := map N.to_nat s.
Definition tot (s : word) : nat := length (message ws (sel s)).

Lemma len_le i : (length (nth i ws []) <= L)%nat.
Proof.
  destruct (nth_in_or_default i ws []) as [H|E]; [|rewrite E; cbn; lia].
  assert (F : Forall (fun k => (k <= L)%nat) (map wlen ws)) by (apply list_max_le; unfold L; lia).
  rewrite Forall_forall in F. apply F. apply (in_map wlen) in H. exact H.
Qed.
Lemma tot_cons x s : tot (x :: s) = (length (nth (N.to_nat x) ws []) + tot s)%nat.
Proof. unfold tot, message, sel. cbn [map concat]. rewrite app_length. reflexivity. Qed.
Lemma tot_le m s : In s (tuples n m) -> (tot s <= m * L)%nat.
Proof.
  intros H. apply in_tuples in H as [E _]. subst m. induction s as [|x s IH]; [cbn; lia|].
  rewrite tot_cons. pose proof (len_le (N.to_nat x)). cbn [length]. lia.
Qed.

Let A := ksum b L (map wlen ws).

Lemma A_alt : sumN (map (fun x => b ^ N.of_nat (L - length (nth (N.to_nat x) ws []))) (range_N n)) = A.
Proof.
  unfold A, range_N, n. rewrite Nat2N.id, map_map.
  assert (E : map (fun x => b ^ N.of_nat (L - length (nth (N.to_nat (N.of_nat x)) ws []))) (seq 0 (length ws)) =
              map (fun w => b ^ N.of_nat (L - length w)) ws).
  { apply (list_ext 0); [rewrite !map_length, seq_length; auto|]. rewrite map_length, seq_length. intros i Hi.
    rewrite nth_map_seq by auto. rewrite Nat2N.id.
    rewrite (nth_indep _ 0 (b ^ N.of_nat (L - length (@nil N)))) by (rewrite map_length; auto).
    rewrite (map_nth (fun w => b ^ N.of_nat (L - length w))). reflexivity. }
  rewrite E. unfold ksum. clear E. generalize L. intros L'. clear. induction ws as [|w l IH]; cbn [map sumN fold_right]; [reflexivity|]. unfold sumN in IH. rewrite IH. reflexivity.
Qed.

Lemma flat_sum {X Y} (f : Y -> N) (g : X -> list Y) l : sumN (map f (flat_map g l)) = sumN (map (fun x => sumN (map f (g x))) l).
Proof. induction l as [|x l IH]; cbn [flat_map map]; [reflexivity|]. rewrite map_app, sumN_app, IH. reflexivity. Qed.

Lemma power_sum m : sumN (map (fun s => b ^ N.of_nat (m * L - tot s)) (tuples n m)) = A ^ N.of_nat m.
Proof.
  induction m as [|m IH]; [cbn; lia|]. cbn [tuples]. rewrite flat_sum.
  transitivity (sumN (map (fun x => A ^ N.of_nat m * b ^ N.of_nat (L - length (nth (N.to_nat x) ws []))) (range_N n))).
  - f_equal. apply map_ext. intros x. rewrite map_map, <- IH, N.mul_comm, <- sumN_scale, map_map. f_equal.
    apply map_ext_in. intros s Hs. rewrite tot_cons, <- N.pow_add_r. f_equal.
    pose proof (tot_le _ _ Hs). pose proof (len_le (N.to_nat x)). cbn [Nat.mul]. lia.
  - rewrite <- (map_map (fun x => b ^ N.of_nat (L - length (nth (N.to_nat x) ws []))) (fun y => A ^ N.of_nat m * y)).
    rewrite sumN_scale, A_alt, Nat2N.inj_succ, N.pow_succ_r'. lia.
Qed.

(* grouping by total length *)
Lemma group_sum {X} (f : X -> nat) (g : nat -> N) (l : list X) T : (forall x, In x l -> (f x <= T)%nat) ->
  sumN (map (fun x => g (f x)) l) =
  sumN (map (fun t => N.of_nat (length (filter (fun x => Nat.eqb (f x) t) l)) * g t) (seq 0 (S T))).
Proof.
  induction l as [|x l IH]; intros H.
  - cbn [map filter length]. assert (forall k s, sumN (map (fun t => N.of_nat 0 * g t) (seq s k)) = 0) as G.
    { induction k as [|k IH]; intros s; cbn [seq map]; [reflexivity|]. unfold sumN; cbn [fold_right]. fold (sumN (map (fun t => N.of_nat 0 * g t) (seq (S s) k))). rewrite IH. lia. }
    rewrite G. reflexivity.
  - cbn [map]. unfold sumN; cbn [fold_right]. fold (sumN (map (fun x => g (f x)) l)). rewrite IH by (intros; apply H; right; auto).
    fold (sumN (map (fun t => N.of_nat (length (filter (fun x0 : X => Nat.eqb (f x0) t) (x :: l))) * g t) (seq 0 (S T)))).
    assert (G : forall k s, (s <= f x < s + k)%nat ->
      sumN (map (fun t => N.of_nat (length (filter (fun x0 => Nat.eqb (f x0) t) (x :: l))) * g t) (seq s k)) =
      g (f x) + sumN (map (fun t => N.of_nat (length (filter (fun x0 => Nat.eqb (f x0) t) l)) * g t) (seq s k))).
    { assert (G0 : forall k s, (f x < s)%nat ->
        map (fun t => N.of_nat (length (filter (fun x0 => Nat.eqb (f x0) t) (x :: l))) * g t) (seq s k) =
        map (fun t => N.of_nat (length (filter (fun x0 => Nat.eqb (f x0) t) l)) * g t) (seq s k)).
      { intros k s Hs. apply map_ext_in. intros t Ht. apply in_seq in Ht. cbn [filter].
        destruct (Nat.eqb_spec (f x) t); [lia|reflexivity]. }
      induction k as [|k IHk]; intros s Hs; [lia|]. cbn [seq map]. unfold sumN; cbn [fold_right].
      fold (sumN (map (fun t => N.of_nat (length (filter (fun x0 => Nat.eqb (f x0) t) (x :: l))) * g t) (seq (S s) k))).
      fold (sumN (map (fun t => N.of_nat (length (filter (fun x0 => Nat.eqb (f x0) t) l)) * g t) (seq (S s) k))).
      destruct (Nat.eq_dec (f x) s) as [E|E].
      - rewrite G0 by lia. subst s. cbn [filter]. rewrite Nat.eqb_refl. cbn [length]. lia.
      - rewrite IHk by lia. cbn [filter]. rewrite (proj2 (Nat.eqb_neq (f x) s) E). lia. }
    rewrite G by (specialize (H x (or_introl eq_refl)); lia). reflexivity.
Qed.

Lemma sumN_le {X} (f g : X -> N) l : (forall x, In x l -> f x <= g x) -> sumN (map f l) <= sumN (map g l).
Proof.
  induction l as [|x l IH]; intros H; cbn; [lia|]. unfold sumN in IH.
  pose proof (H x (or_introl eq_refl)). assert (forall y, In y l -> f y <= g y) by (intros; apply H; right; auto). specialize (IH H1). lia.
Qed.
Lemma sumN_const {X} (c : N) (l : list X) : sumN (map (fun _ => c) l) = N.of_nat (length l) * c.
Proof. induction l as [|x l IH]; cbn [map length]; [reflexivity|]. unfold sumN in *; cbn [fold_right]. rewrite IH. lia. Qed.

Lemma NoDup_map_inj {X Y} (f : X -> Y) l : (forall x y, In x l -> In y l -> f x = f y -> x = y) -> NoDup l -> NoDup (map f l).
Proof.
  induction l as [|x l IH]; intros H ND; cbn; [constructor|]. inversion ND as [|? ? N1 N2]; subst. constructor.
  - intros Hin. apply in_map_iff in Hin as [y [E Hy]]. apply N1. rewrite <- (H y x); auto; [right|left]; auto.
  - apply IH; auto. intros y z Hy Hz. apply H; right; auto.
Qed.

Lemma sel_inj s s' : sel s = sel s' -> s = s'.
Proof.
  unfold sel. revert s'; induction s as [|x s IH]; intros [|y s'] H; cbn in H; try discriminate; auto.
  injection H as H1 H2. apply IH in H2. subst. f_equal. lia.
Qed.

Lemma count_le m t : N.of_nat (length (filter (fun s => Nat.eqb (tot s) t) (tuples n m))) <= b ^ N.of_nat t.
Proof.
  set (l := filter (fun s => Nat.eqb (tot s) t) (tuples n m)).
  assert (Hl : forall s, In s l -> In s (tuples n m) /\ tot s = t).
  { intros s Hs. apply filter_In in Hs as [H1 H2]. split; auto. apply Nat.eqb_eq; auto. }
  assert (Hsel : forall s, In s (tuples n m) -> Forall (fun i => (i < length ws)%nat) (sel s)).
  { intros s Hs. apply in_tuples in Hs as [_ Hs]. unfold sel. rewrite Forall_map. eapply Forall_impl; [|exact Hs].
    unfold n; cbn; intros; lia. }
  rewrite <- (tuples_length b t). 
  assert ((length (map (fun s => message ws (sel s)) l) <= length (tuples b t))%nat); [|rewrite map_length in *; lia].
  apply NoDup_incl_length.
  - apply NoDup_map_inj; [|apply NoDup_filter, tuples_NoDup]. intros s s' Hs Hs' E.
    apply sel_inj. apply HU; auto; apply Hsel; apply Hl; auto.
  - intros w Hw. apply in_map_iff in Hw as [s [<- Hs]]. apply in_tuples. destruct (Hl s Hs) as [H1 H2]. split; [exact H2|].
    unfold message. apply Forall_concat. rewrite Forall_map, Forall_forall. intros i Hi.
    destruct (nth_in_or_default i ws []) as [H|E]; [|rewrite E; constructor]. rewrite Forall_forall in HR. apply HR; auto.
Qed.

Lemma power_bound m : A ^ m <= (m * N.of_nat L + 1) * (b ^ N.of_nat L) ^ m.
Proof.
  rewrite <- (N2Nat.id m). set (k := N.to_nat m). rewrite <- power_sum.
  rewrite (group_sum tot (fun t => b ^ N.of_nat (k * L - t)) _ (k * L)) by apply tot_le.
  eapply N.le_trans.
  - apply (sumN_le _ (fun _ => b ^ N.of_nat (k * L))). intros t Ht. apply in_seq in Ht.
    eapply N.le_trans; [apply N.mul_le_mono_r, count_le|]. rewrite <- N.pow_add_r. apply N.pow_le_mono_r; lia.
  - rewrite sumN_const, seq_length. rewrite <- N.pow_mul_r.
    replace (N.of_nat (S (k * L))) with (N.of_nat k * N.of_nat L + 1) by lia.
    replace (N.of_nat (k * L)) with (N.of_nat L * N.of_nat k) by lia. lia.
Qed.

Lemma mcmillan : (kraft_sum b (map wlen ws) <= 1)%Q.
Proof.
  apply (kraft_iff b L); [lia|apply list_max_le; unfold L; lia|].
  apply (pow_linear _ _ (N.of_nat L)); [|apply power_bound].
  assert (b ^ N.of_nat L <> 0) by (apply N.pow_nonzero; lia). lia.
Qed.
End MM.
