(** Stream decoding, I: error events of the difference between the survivor and the transmitted path. *)
From Coq Require Import QArith Lqa.
From Verif Require Import Common Vec_Model Linear_Spec Vec_Proof Conv_Model Conv_Spec Conv_Proof Stream_Spec.
From Verif Require BlockCode_Proof ConvTerm_Proof FreeDist_Proof ConvViterbi_Proof.
Local Open Scope nat_scope.

(** sums over windows *)
Fixpoint sum (f : nat -> nat) (a len : nat) : nat := match len with 0 => 0 | S l => sum f a l + f (a + l) end.
Lemma sum_ext f g a len : (forall i, a <= i -> i < a + len -> f i = g i) -> sum f a len = sum g a len.
Proof. induction len as [|l IH]; intros H; cbn [sum]; [reflexivity|]. rewrite IH, H by (intros; try apply H; lia). reflexivity. Qed.
Lemma sum_le f g a len : (forall i, a <= i -> i < a + len -> f i <= g i) -> sum f a len <= sum g a len.
Proof. induction len as [|l IH]; intros H; cbn [sum]; [lia|]. specialize (IH ltac:(intros; apply H; lia)). specialize (H (a + l) ltac:(lia) ltac:(lia)). lia. Qed.
Lemma sum_app f a l1 l2 : sum f a (l1 + l2) = sum f a l1 + sum f (a + l1) l2.
Proof. induction l2 as [|l IH]; [rewrite Nat.add_0_r; cbn; lia|]. rewrite Nat.add_succ_r. cbn [sum]. rewrite IH, Nat.add_assoc. lia. Qed.
Lemma sum_plus f g a len : sum (fun i => f i + g i) a len = sum f a len + sum g a len.
Proof. induction len as [|l IH]; cbn [sum]; [reflexivity|]. rewrite IH. lia. Qed.
Lemma sum_const v a len : sum (fun _ => v) a len = v * len.
Proof. induction len as [|l IH]; cbn [sum]; lia. Qed.
Lemma sum_shift f a b len : sum (fun i => f (a + i)) b len = sum f (a + b) len.
Proof. induction len as [|l IH]; cbn [sum]; [reflexivity|]. rewrite IH, Nat.add_assoc. reflexivity. Qed.
Lemma sum_pos f a len i : a <= i -> i < a + len -> 0 < f i -> 0 < sum f a len.
Proof. induction len as [|l IH]; intros H1 H2 H3; [lia|]. cbn [sum]. destruct (Nat.eq_dec i (a + l)) as [<-|]; [lia|]. specialize (IH H1 ltac:(lia) H3). lia. Qed.
(** [q] full windows, each of positive sum *)
Lemma sum_windows f S a q : (forall b, a <= b -> b + S <= a + q * S -> 0 < sum f b S) -> q <= sum f a (q * S).
Proof.
  induction q as [|q IH]; intros H; [cbn; lia|]. replace (Datatypes.S q * S) with (q * S + S) in * by lia. rewrite sum_app.
  specialize (IH ltac:(intros; apply H; lia)). specialize (H (a + q * S) ltac:(lia) ltac:(lia)). lia.
Qed.
(** windows of bounded sum *)
Lemma sum_bounded f W E : 0 < W -> (forall i, sum f i W <= E) -> forall len a, 0 < len -> sum f a len <= E * ((len - 1) / W + 1).
Proof.
  intros HW H. induction len as [len IH] using lt_wf_ind. intros a Hl. destruct (le_lt_dec len W) as [L|L].
  - rewrite Nat.div_small, Nat.add_0_l, Nat.mul_1_r by lia. specialize (H a). replace W with (len + (W - len)) in H by lia. rewrite sum_app in H. lia.
  - specialize (IH (len - W) ltac:(lia) (a + W) ltac:(lia)). replace len with (W + (len - W)) at 1 by lia. rewrite sum_app. specialize (H a).
    replace ((len - 1) / W) with ((len - W - 1) / W + 1); [nia|]. replace (len - 1) with (len - W - 1 + 1 * W) by lia. rewrite Nat.div_add by lia. reflexivity.
Qed.

(** sums of rationals *)
Fixpoint qsum (f : nat -> Q) (a len : nat) : Q := match len with 0 => 0%Q | S l => Qplus (qsum f a l) (f (a + l)) end.
Lemma qsum_ext f g a len : (forall i, a <= i -> i < a + len -> (f i == g i)%Q) -> (qsum f a len == qsum g a len)%Q.
Proof. induction len as [|l IH]; intros H; cbn [qsum]; [reflexivity|]. rewrite IH, H by (intros; try apply H; lia). reflexivity. Qed.
Lemma qsum_le f g a len : (forall i, a <= i -> i < a + len -> (f i <= g i)%Q) -> (qsum f a len <= qsum g a len)%Q.
Proof. induction len as [|l IH]; intros H; cbn [qsum]; [lra|]. specialize (IH ltac:(intros; apply H; lia)). specialize (H (a + l) ltac:(lia) ltac:(lia)). lra. Qed.
Lemma qsum_app f a l1 l2 : (qsum f a (l1 + l2)%nat == qsum f a l1 + qsum f (a + l1)%nat l2)%Q.
Proof. induction l2 as [|l IH]; [rewrite Nat.add_0_r; cbn [qsum]; lra|]. rewrite Nat.add_succ_r. cbn [qsum]. rewrite IH, Nat.add_assoc. lra. Qed.
Definition qn (x : nat) : Q := inject_Z (Z.of_nat x).
Lemma qn_add x y : (qn (x + y)%nat == qn x + qn y)%Q. Proof. unfold qn. rewrite Nat2Z.inj_add, inject_Z_plus. reflexivity. Qed.
Lemma qn_mul x y : (qn (x * y)%nat == qn x * qn y)%Q. Proof. unfold qn. rewrite Nat2Z.inj_mul, inject_Z_mult. reflexivity. Qed.
Lemma qn_le x y : x <= y <-> (qn x <= qn y)%Q. Proof. unfold qn. rewrite <- Zle_Qle. lia. Qed.
(** b + m f - q g, summed *)
Lemma qsum_combine (b : nat -> Q) (m q : Q) (f g : nat -> nat) a len :
  (qsum (fun i => b i + m * qn (f i) - q * qn (g i))%Q a len == qsum b a len + m * qn (sum f a len) - q * qn (sum g a len))%Q.
Proof. induction len as [|l IH]; cbn [qsum sum]; [change (qn 0) with 0%Q; lra|]. rewrite IH, !qn_add. lra. Qed.

Section Core.
Context (c : conv) (OK : conv_ok c).
Let d := cv_deg c. Let k := cv_k c. Let n := cv_n c.
Context (NS : no_silent_loops c).
(** states and inputs of a path from the zero state *)
Definition traj (e s : nat -> vec) (t : nat) : Prop :=
  s 0 = zeros d /\ forall i, i < t -> length (e i) = k /\ s (S i) = conv_next c (s i) (e i).
Definition out (e s : nat -> vec) (i : nat) : vec := conv_output c (s i) (e i).
Lemma traj_length e s t i : traj e s t -> i <= t -> length (s i) = d.
Proof. intros [H0 H] Hi. destruct i as [|i]; [rewrite H0; apply zeros_length|]. rewrite (proj2 (H i ltac:(lia))). apply next_length. exact OK. Qed.
Lemma out_length e s i : length (out e s i) = n.
Proof. apply output_length. exact OK. Qed.
(** a piece of a path, as a run of the encoder *)
Lemma traj_run e s t : traj e s t -> forall len p, p + len <= t ->
  conv_run c (map e (seq p len)) (s p) = (map (out e s) (seq p len), s (p + len)) /\ blocks k (map e (seq p len)).
Proof.
  intros [H0 H]. induction len as [|l IH]; intros p Hp; [rewrite Nat.add_0_r; split; [reflexivity|constructor]|].
  cbn [seq map conv_run]. cbv zeta. destruct (H p ltac:(lia)) as [Le Es]. rewrite <- Es. destruct (IH (S p) ltac:(lia)) as [-> B].
  split; [|constructor; assumption]. unfold out at 1. replace (S p + l) with (p + S l) by lia. reflexivity.
Qed.
Lemma traj_reachable e s t i : traj e s t -> i <= t -> reachable c i (s i).
Proof.
  intros T Hi. destruct (traj_run e s t T i 0 ltac:(lia)) as [R B]. exists (map e (seq 0 i)). split; [exact B|]. rewrite map_length, seq_length. split; [reflexivity|].
  destruct T as [E0 _]. rewrite E0 in R. fold d. rewrite R. reflexivity.
Qed.
(** a loop that is not the zero loop has positive weight *)
Lemma loop_weight e s t p q : traj e s t -> p < q -> q <= t -> s p = s q ->
  (s p <> zeros d \/ exists i, p <= i /\ i < q /\ e i <> zeros k) -> exists i, p <= i /\ i < q /\ 0 < weight (out e s i).
Proof.
  intros T Hpq Hq E D. destruct (traj_run e s t T (q - p) p ltac:(lia)) as [R B]. replace (p + (q - p)) with q in R by lia.
  destruct (List.Exists_dec (fun i => 0 < weight (out e s i)) (seq p (q - p)) (fun i => lt_dec _ _)) as [X|X].
  - apply Exists_exists in X as (i & Hi & W). apply in_seq in Hi. exists i. split; [lia|]. split; [lia|exact W].
  - exfalso. assert (Z : map (out e s) (seq p (q - p)) = repeat (zeros n) (q - p)).
    { rewrite <- (seq_length (q - p) p) at 2. assert (X' : forall i, In i (seq p (q - p)) -> out e s i = zeros n).
      { intros i Hi. destruct (Nat.eq_dec (weight (out e s i)) 0) as [W|W].
        - apply BlockCode_Proof.weight_zero in W. rewrite out_length in W. exact W.
        - exfalso. apply X, Exists_exists. exists i. split; [exact Hi|lia]. }
      revert X'. generalize (seq p (q - p)). clear. intros l. induction l as [|i l IH]; intros H; [reflexivity|]. cbn [map length repeat].
      rewrite (H i (or_introl eq_refl)), IH by (intros; apply H; right; assumption). reflexivity. }
    destruct (NS p (s p) (map e (seq p (q - p)))) as [Z1 Z2].
    + eapply traj_reachable; [exact T|lia].
    + exact B.
    + destruct (q - p) eqn:Eq; [lia|]. discriminate.
    + rewrite R. cbn [snd]. auto.
    + rewrite R, map_length, seq_length. exact Z.
    + destruct D as [D|(i & H1 & H2 & D)]; [apply D; exact Z1|]. apply D. rewrite map_length, seq_length in Z2.
      assert (I : In (e i) (map e (seq p (q - p)))) by (apply in_map, in_seq; lia). rewrite Z2 in I. apply repeat_spec in I. exact I.
Qed.

(** pigeonhole: the path cannot avoid the zero state for 2^d steps without output *)
Lemma duplicate (f : nat -> nat) : forall l, ~ NoDup (map f l) -> NoDup l -> exists x y, In x l /\ In y l /\ x <> y /\ f x = f y.
Proof.
  induction l as [|a l IH]; intros H N; [exfalso; apply H; constructor|]. inversion N as [|? ? Na Nl]; subst. cbn [map] in H.
  destruct (in_dec Nat.eq_dec (f a) (map f l)) as [I|I].
  - apply in_map_iff in I as (b & Eb & Ib). exists a, b. split; [left; reflexivity|]. split; [right; exact Ib|]. split; [intros ->; contradiction|auto].
  - destruct IH as (x & y & Hx & Hy & Ne & E); [intros M; apply H; constructor; assumption|exact Nl|]. exists x, y. split; [right; exact Hx|]. split; [right; exact Hy|auto].
Qed.
Lemma bitsn_inj w u v : length u = w -> length v = w -> bitsn u = bitsn v -> u = v.
Proof. intros Lu Lv E. rewrite <- (nbits_bitsn u w Lu), <- (nbits_bitsn v w Lv), E. reflexivity. Qed.
Lemma window_weight e s t b : traj e s t -> b + 2 ^ d <= S t -> (forall i, b <= i -> i < b + 2 ^ d -> s i <> zeros d) ->
  0 < sum (fun i => weight (out e s i)) b (2 ^ d).
Proof.
  intros T Hb Nz. assert (Ls : forall i, i <= t -> length (s i) = d) by (intros i Hi; apply (traj_length e s t i T Hi)).
  assert (D : ~ NoDup (map (fun i => bitsn (s i)) (seq b (2 ^ d)))).
  { intros N. assert (H : length (map (fun i => bitsn (s i)) (seq b (2 ^ d))) <= length (seq 1 (2 ^ d - 1))).
    2:{ rewrite map_length, !seq_length in H. pose proof (pow2_pos d). lia. }
    apply NoDup_incl_length; [exact N|]. intros x Hx. apply in_map_iff in Hx as (i & <- & Hi). apply in_seq in Hi. apply in_seq.
    pose proof (bitsn_bound (s i)) as B. rewrite Ls in B by lia. assert (bitsn (s i) <> 0); [|lia].
      intros Z. apply (Nz i); [lia|lia|]. apply (bitsn_inj d); [apply Ls; lia|apply zeros_length|]. rewrite Z. symmetry. apply FreeDist_Proof.bitsn_zeros. }
  destruct (duplicate _ _ D (seq_NoDup _ _)) as (x & y & Hx & Hy & Ne & Exy). apply in_seq in Hx, Hy.
  apply bitsn_inj with (w := d) in Exy; [|apply Ls; lia|apply Ls; lia].
  assert (H : exists p q, b <= p /\ p < q /\ q < b + 2 ^ d /\ s p = s q) by (destruct (lt_dec x y); [exists x, y|exists y, x]; repeat split; auto; lia).
  destruct H as (p & q & H1 & H2 & H3 & E). destruct (loop_weight e s t p q T H2 ltac:(lia) E) as (i & I1 & I2 & W); [left; apply Nz; lia|].
  apply (sum_pos _ _ _ i); [lia|lia|exact W].
Qed.

(** noise, cost and optimality: [cst i v] is the cost of a path that differs in the block v from the transmitted one at time i *)
Context (Tm : nat) (cst : nat -> vec -> Q) (base : nat -> Q) (wn : nat -> nat) (m B : Q) (r : nat) (Hm : (0 < m)%Q) (Hr : (B <= qn r * m)%Q).
Context (cst_zero : forall i, i < Tm -> (cst i (zeros n) == base i)%Q).
Context (cst_low : forall i v, i < Tm -> length v = n -> (base i + m * qn (weight v) - (m + B) * qn (wn i) <= cst i v)%Q).
Context (cst_up : forall i v, i < Tm -> length v = n -> (cst i v <= base i + B * qn n)%Q).
Definition cost (e s : nat -> vec) (i : nat) : Q := cst i (out e s i).
Definition optimal (e s : nat -> vec) (t : nat) : Prop :=
  forall e' s', traj e' s' t -> s' t = s t -> (qsum (cost e s) 0%nat t <= qsum (cost e' s') 0%nat t)%Q.
Lemma cost_zero e s i : i < Tm -> s i = zeros d -> e i = zeros k -> (cost e s i == base i)%Q.
Proof.
  intros Hi Hs He. unfold cost, out. rewrite Hs, He. replace (conv_output c (zeros d) (zeros k)) with (zeros n) by (symmetry; apply FreeDist_Proof.output_zero; exact OK). apply cst_zero, Hi.
Qed.
Let wo e s i := weight (out e s i).
Lemma qsum_split3 f a len t : a + len <= t -> (qsum f 0%nat t == qsum f 0%nat a + qsum f a len + qsum f (a + len)%nat (t - (a + len))%nat)%Q.
Proof. intros H. replace t with (a + len + (t - (a + len))) at 1 by lia. rewrite !qsum_app. cbn [Nat.add]. lra. Qed.
Lemma cost_low e s a len : a + len <= Tm -> (qsum base a len + m * qn (sum (wo e s) a len) - (m + B) * qn (sum wn a len) <= qsum (cost e s) a len)%Q.
Proof. intros H. rewrite <- qsum_combine. apply qsum_le. intros i H1 H2. apply cst_low; [lia|apply out_length]. Qed.
Lemma scale x y z : (m * qn x <= (m + B) * qn y + B * qn z)%Q -> x <= (r + 1) * y + r * z.
Proof.
  intros H. apply qn_le. rewrite qn_add, !qn_mul, qn_add. change (qn 1) with 1%Q.
  assert (Qy : (0 <= qn y)%Q) by (change 0%Q with (qn 0); apply qn_le; lia). assert (Qz : (0 <= qn z)%Q) by (change 0%Q with (qn 0); apply qn_le; lia).
  apply Qmult_le_l with m; [exact Hm|]. nra.
Qed.
(** splice: zero between two visits to the zero state *)
Lemma splice_zero e s t a j : traj e s t -> a <= j -> j <= t -> s a = zeros d -> s j = zeros d ->
  let e' i := if (a <=? i) && (i <? j) then zeros k else e i in let s' i := if (a <=? i) && (i <=? j) then zeros d else s i in
  traj e' s' t /\ s' t = s t.
Proof.
  intros [T0 T] Haj Hjt Ea Ej e' s'. split; [split|].
  - unfold s'. destruct (Nat.leb_spec a 0); cbn [andb]; [destruct (0 <=? j); [reflexivity|exact T0]|exact T0].
  - intros i Hi. destruct (T i Hi) as [Le Es]. unfold e', s'.
    destruct (Nat.leb_spec a i), (Nat.ltb_spec i j), (Nat.leb_spec i j), (Nat.leb_spec a (S i)), (Nat.leb_spec (S i) j); cbn [andb]; try lia;
      (split; [first [apply zeros_length|exact Le]|]); try exact Es.
    + symmetry. apply FreeDist_Proof.next_zero. exact OK.
    + assert (i = j) as -> by lia. rewrite Es, Ej. reflexivity.
    + assert (S i = a) by lia. subst a. rewrite <- Ea. exact Es.
  - unfold s'. destruct (Nat.leb_spec a t); cbn [andb]; [|reflexivity]. destruct (Nat.leb_spec t j); [|reflexivity]. assert (t = j) by lia. subst. auto.
Qed.


(** an error event ends: its weight is bounded by the weight of the noise *)
Lemma event_closed e s t a j : t <= Tm -> traj e s t -> optimal e s t -> a <= j -> j <= t -> s a = zeros d -> s j = zeros d ->
  sum (wo e s) a (j - a) <= (r + 1) * sum wn a (j - a).
Proof.
  intros HT Tr O Haj Hjt Ea Ej. destruct (splice_zero e s t a j Tr Haj Hjt Ea Ej) as [T' E']. specialize (O _ _ T' E').
  set (e' := fun i => if (a <=? i) && (i <? j) then zeros k else e i) in *. set (s' := fun i => if (a <=? i) && (i <=? j) then zeros d else s i) in *.
  rewrite !(qsum_split3 _ a (j - a) t) in O by lia. replace (a + (j - a)) with j in O by lia.
  assert (S1 : (qsum (cost e' s') 0%nat a == qsum (cost e s) 0%nat a)%Q).
  { apply qsum_ext. intros i _ Hi. unfold cost, out, e', s'. destruct (Nat.leb_spec a i); [lia|]. reflexivity. }
  assert (S3 : (qsum (cost e' s') j (t - j)%nat == qsum (cost e s) j (t - j)%nat)%Q).
  { apply qsum_ext. intros i Hi _. unfold cost, out, e', s'. destruct (Nat.ltb_spec i j); [lia|]. rewrite andb_false_r.
    destruct (Nat.leb_spec i j); [|rewrite andb_false_r; reflexivity]. assert (i = j) as -> by lia. destruct (Nat.leb_spec a j); [|lia]. cbn [andb]. rewrite Ej. reflexivity. }
  assert (S2 : (qsum (cost e' s') a (j - a)%nat == qsum base a (j - a)%nat)%Q).
  { apply qsum_ext. intros i H1 H2. apply cost_zero; [lia| |]; unfold e', s'; destruct (Nat.leb_spec a i); try lia; [destruct (Nat.leb_spec i j)|destruct (Nat.ltb_spec i j)]; try lia; reflexivity. }
  rewrite S1, S2, S3 in O. pose proof (cost_low e s a (j - a) ltac:(lia)) as L.
  pose proof (scale (sum (wo e s) a (j - a)) (sum wn a (j - a)) 0) as Sc. rewrite Nat.mul_0_r, Nat.add_0_r in Sc. apply Sc. change (qn 0) with 0%Q. lra.
Qed.
Lemma path_of ws : blocks k ws -> exists w o, (forall i, i < length ws -> length (w i) = k /\ o (S i) = conv_next c (o i) (w i)) /\ o 0 = zeros d /\ o (length ws) = snd (conv_run c ws (zeros d)).
Proof.
  intros Bw. exists (fun i => nth i ws []), (fun i => snd (conv_run c (firstn i ws) (zeros d))). split; [|split; [reflexivity|rewrite firstn_all; reflexivity]].
  intros i Hi. split; [unfold blocks in Bw; rewrite Forall_forall in Bw; apply Bw, nth_In, Hi|].
  assert (E : firstn (S i) ws = firstn i ws ++ [nth i ws []]).
  { clear -Hi. revert i Hi. induction ws as [|x ws IH]; intros i Hi; [cbn in Hi; lia|]. destruct i as [|i]; [reflexivity|]. cbn [firstn nth app]. f_equal. apply IH. cbn in Hi. lia. }
  rewrite E, run_snoc. reflexivity.
Qed.
Lemma weight_le v : weight v <= length v.
Proof. unfold weight. induction v as [|[] v IH]; cbn; lia. Qed.
(** an error event that is still open: the path could have left the transmitted one in the last d steps only *)
Lemma event_open e s t a : t <= Tm -> traj e s t -> optimal e s t -> a + d <= t -> s a = zeros d ->
  sum (wo e s) a (t - a) <= (r + 1) * sum wn a (t - a) + r * (d * n).
Proof.
  intros HT Tr O Ha Ea.
  assert (R : reachable c d (s t)).
  { pose proof (traj_reachable e s t t Tr (le_n _)) as R. replace t with (d + (t - d)) in R at 1 by lia. apply (ConvTerm_Proof.reachable_stable c OK d (t - d)); [apply le_n|exact R]. }
  destruct R as (ws & Bw & Lw & Ew). destruct (path_of ws Bw) as (w & o & Hw & Ho0 & Hot). rewrite Lw in *. fold d in Ew.
  set (e' := fun i => if i <? a then e i else if i <? t - d then zeros k else w (i - (t - d))).
  set (s' := fun i => if i <? a then s i else if i <? t - d then zeros d else o (i - (t - d))).
  assert (T' : traj e' s' t).
  { destruct Tr as [T0 Ts]. split.
    - unfold s'. destruct (Nat.ltb_spec 0 a); [exact T0|]. destruct (Nat.ltb_spec 0 (t - d)); [reflexivity|]. exact Ho0.
    - intros i Hi. destruct (Ts i Hi) as [Le Es]. unfold e', s'.
      destruct (Nat.ltb_spec i a), (Nat.ltb_spec (S i) a), (Nat.ltb_spec i (t - d)), (Nat.ltb_spec (S i) (t - d)); try lia.
      + auto.
      + split; [exact Le|]. assert (S i = a) by lia. subst a. rewrite <- Ea. exact Es.
      + split; [exact Le|]. assert (S i = a) by lia. assert (S i = t - d) as <- by lia. rewrite Nat.sub_diag, Ho0, <- Ea. subst a. exact Es.
      + split; [apply zeros_length|]. symmetry. apply FreeDist_Proof.next_zero. exact OK.
      + split; [apply zeros_length|]. assert (S i = t - d) as <- by lia. rewrite Nat.sub_diag, Ho0. symmetry. apply FreeDist_Proof.next_zero. exact OK.
      + destruct (Hw (i - (t - d)) ltac:(lia)) as [L1 L2]. split; [exact L1|]. replace (S i - (t - d)) with (S (i - (t - d))) by lia. exact L2. }
  assert (E' : s' t = s t).
  { unfold s'. destruct (Nat.ltb_spec t a); [lia|]. destruct (Nat.ltb_spec t (t - d)); [lia|]. replace (t - (t - d)) with d by lia. rewrite Hot. exact Ew. }
  specialize (O _ _ T' E'). rewrite !(qsum_split3 _ a (t - a) t) in O by lia. replace (a + (t - a)) with t in O by lia. rewrite Nat.sub_diag in O. cbn [qsum] in O.
  assert (S1 : (qsum (cost e' s') 0%nat a == qsum (cost e s) 0%nat a)%Q).
  { apply qsum_ext. intros i _ Hi. unfold cost, out, e', s'. destruct (Nat.ltb_spec i a); [|lia]. reflexivity. }
  assert (S2 : (qsum (cost e' s') a (t - a)%nat <= qsum base a (t - a)%nat + B * qn (d * n)%nat)%Q).
  { replace (t - a) with (t - d - a + d) by lia. rewrite !qsum_app. replace (a + (t - d - a)) with (t - d) by lia.
    assert (X1 : (qsum (cost e' s') a (t - d - a)%nat == qsum base a (t - d - a)%nat)%Q).
    { apply qsum_ext. intros i H1 H2. apply cost_zero; [lia| |]; unfold e', s'; (destruct (Nat.ltb_spec i a); [lia|]; destruct (Nat.ltb_spec i (t - d)); [reflexivity|lia]). }
    assert (X2 : (qsum (cost e' s') (t - d)%nat d <= qsum (fun i => base i + B * qn n - 0 * qn n) (t - d)%nat d)%Q).
    { apply qsum_le. intros i H1 H2. setoid_replace (base i + B * qn n - 0 * qn n)%Q with (base i + B * qn n)%Q by lra. apply cst_up; [lia|apply out_length]. }
    rewrite (qsum_combine base B 0 (fun _ => n) (fun _ => n)), sum_const, (Nat.mul_comm n d) in X2. lra. }
  pose proof (cost_low e s a (t - a) ltac:(lia)) as L. apply scale. lra.
Qed.
Lemma sum_weights e s len : forall p, sum (wo e s) p len = weight (concat (map (out e s) (seq p len))).
Proof.
  induction len as [|l IH]; intros p; [reflexivity|]. rewrite seq_S, map_app, concat_app, ConvViterbi_Proof.weight_app, <- IH. cbn [sum map concat]. rewrite app_nil_r. reflexivity.
Qed.


Context (D E : nat) (HDE : (r + 1) * E < D).
Context (FD : forall us, blocks k us -> snd (conv_run c us (zeros d)) = zeros d -> 0 < weight (concat (fst (conv_run c us (zeros d)))) -> D <= weight (concat (fst (conv_run c us (zeros d))))).
Context (noise : forall i, sum wn i (2 ^ d * (2 * (r + 1) * E + 1)) <= E).
Lemma last_zero s i : s 0 = zeros d -> s i <> zeros d -> exists a, a < i /\ s a = zeros d /\ forall x, a < x -> x <= i -> s x <> zeros d.
Proof.
  intros Z. induction i as [|i IH]; intros N; [contradiction|]. destruct (list_eq_dec Bool.bool_dec (s i) (zeros d)) as [Zi|Ni].
  - exists i. split; [lia|]. split; [exact Zi|]. intros x H1 H2. assert (x = S i) as -> by lia. exact N.
  - destruct (IH Ni) as (a & Ha & Za & Na). exists a. split; [lia|]. split; [exact Za|]. intros x H1 H2. destruct (Nat.eq_dec x (S i)) as [->|]; [exact N|apply Na; lia].
Qed.
Lemma first_zero s i len : s i <> zeros d -> (exists j, i < j /\ j <= i + len /\ s j = zeros d /\ forall x, i <= x -> x < j -> s x <> zeros d) \/
  (forall x, i <= x -> x <= i + len -> s x <> zeros d).
Proof.
  intros N. induction len as [|l [(j & H1 & H2 & H3 & H4)|H]].
  - right. intros x H1 H2. assert (x = i) as -> by lia. exact N.
  - left. exists j. split; [exact H1|]. split; [lia|]. split; assumption.
  - destruct (list_eq_dec Bool.bool_dec (s (i + S l)) (zeros d)) as [Z|Nz].
    + left. exists (i + S l). split; [lia|]. split; [lia|]. split; [exact Z|]. intros x H1 H2. apply H; lia.
    + right. intros x H1 H2. destruct (Nat.eq_dec x (i + S l)) as [->|]; [exact Nz|apply H; lia].
Qed.
Lemma open_windows e s t a len : traj e s t -> a + len <= t -> (forall x, a < x -> x < a + len -> s x <> zeros d) -> (len - 1) / 2 ^ d <= sum (wo e s) a len.
Proof.
  intros T Hl Nz. destruct len as [|len]; [cbn; pose proof (pow2_pos d); rewrite Nat.div_small by lia; lia|].
  replace (S len - 1) with len by lia. set (p := len / 2 ^ d). pose proof (Nat.mul_div_le len (2 ^ d) ltac:(pose proof (pow2_pos d); lia)) as M. fold p in M.
  replace (S len) with (1 + (p * 2 ^ d + (len - p * 2 ^ d))) by lia. rewrite !sum_app.
  assert (p <= sum (wo e s) (a + 1) (p * 2 ^ d)); [|lia].
  apply sum_windows. intros b H1 H2. apply (window_weight e s t b T); [lia|]. intros i I1 I2. apply Nz; lia.
Qed.
Theorem quiet e s t : t <= Tm -> traj e s t -> optimal e s t -> forall i, i + 2 ^ d * (2 * (r + 1) * E + 2 * (r * (d * n)) + 1) <= t -> s i = zeros d.
Proof.
  intros HT Tr O i Hi. destruct (list_eq_dec Bool.bool_dec (s i) (zeros d)) as [|N]; [assumption|exfalso].
  pose proof (pow2_pos d) as P2. set (W := 2 ^ d * (2 * (r + 1) * E + 1)) in *.
  assert (HW : 0 < W) by (unfold W; nia).
  destruct (last_zero s i (proj1 Tr) N) as (a & Ha & Za & Na).
  assert (Err : forall len, 0 < len -> sum wn a len <= E * ((len - 1) / 2 ^ d / (2 * (r + 1) * E + 1) + 1)).
  { intros len Hl. rewrite Nat.div_div by lia. exact (sum_bounded wn W E HW noise len a Hl). }
  destruct (first_zero s i (t - i) N) as [(j & H1 & H2 & H3 & H4)|H].
  - assert (Nz : forall x, a < x -> x < a + (j - a) -> s x <> zeros d). { intros x X1 X2. destruct (le_lt_dec x i); [apply Na|apply H4]; lia. }
    pose proof (event_closed e s t a j HT Tr O ltac:(lia) ltac:(lia) Za H3) as Bd.
    pose proof (open_windows e s t a (j - a) Tr ltac:(lia) Nz) as Wd. specialize (Err (j - a) ltac:(lia)).
    assert (WD : D <= sum (wo e s) a (j - a)).
    { destruct (traj_run e s t Tr (j - a) a ltac:(lia)) as [R Bl]. replace (a + (j - a)) with j in R by lia. rewrite Za in R.
      rewrite sum_weights. specialize (FD _ Bl). rewrite R in FD. cbn [fst snd] in FD. apply FD; [exact H3|]. rewrite <- sum_weights.
      destruct (loop_weight e s t a j Tr ltac:(lia) ltac:(lia)) as (x & X1 & X2 & X3); [congruence| |apply (sum_pos _ _ _ x); [lia|lia|exact X3]].
      right. destruct (List.Exists_dec (fun x => e x <> zeros k) (seq a (j - a)) (fun x => match list_eq_dec Bool.bool_dec (e x) (zeros k) with left h => right (fun f => f h) | right h => left h end)) as [X|X].
      - apply Exists_exists in X as (x & Hx & Ex). apply in_seq in Hx. exists x. split; [lia|]. split; [lia|exact Ex].
      - exfalso. assert (Z : forall z, a + z <= j -> s (a + z) = zeros d).
        { induction z as [|z IH]; intros Hz; [rewrite Nat.add_0_r; exact Za|]. rewrite Nat.add_succ_r. rewrite (proj2 (proj2 Tr (a + z) ltac:(lia))), IH by lia.
          replace (e (a + z)) with (zeros k); [apply FreeDist_Proof.next_zero; exact OK|]. destruct (list_eq_dec Bool.bool_dec (e (a + z)) (zeros k)) as [Ez|Ez]; [symmetry; exact Ez|].
          exfalso. apply X, Exists_exists. exists (a + z). split; [apply in_seq; lia|exact Ez]. }
        apply N. replace i with (a + (i - a)) by lia. apply Z. lia. }
    set (p := (j - a - 1) / 2 ^ d) in *. pose proof (Nat.mul_div_le p (2 * (r + 1) * E + 1) ltac:(lia)) as Q. set (q := p / (2 * (r + 1) * E + 1)) in *.
    destruct q as [|q]; nia.
  - assert (Nz : forall x, a < x -> x < a + (t - a) -> s x <> zeros d). { intros x X1 X2. destruct (le_lt_dec x i); [apply Na|apply H]; lia. }
    assert (Dd : d <= 2 ^ d) by (clear; induction d as [|m IH]; [lia|cbn; pose proof (pow2_pos m); lia]).
    pose proof (event_open e s t a HT Tr O ltac:(nia) Za) as Bd.
    pose proof (open_windows e s t a (t - a) Tr ltac:(lia) Nz) as Wd. specialize (Err (t - a) ltac:(lia)).
    assert (Pp : 2 * (r + 1) * E + 2 * (r * (d * n)) + 1 <= (t - a - 1) / 2 ^ d). { apply Nat.div_le_lower_bound; lia. }
    set (p := (t - a - 1) / 2 ^ d) in *. pose proof (Nat.mul_div_le p (2 * (r + 1) * E + 1) ltac:(lia)) as Q. set (q := p / (2 * (r + 1) * E + 1)) in *.
    nia.
Qed.
End Core.
