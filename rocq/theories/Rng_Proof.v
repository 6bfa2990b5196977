From Coq Require Import Reals Lra.
From Coquelicot Require Import Complex.
From Verif Require Import Common Quant_Model Array_Model Array_Spec Array_Proof Array_Lift NdMaps_Model Rng_Model Rng_Spec.
Local Open Scope nat_scope.

Lemma Rleb_spec x y : Rleb x y = true <-> (x <= y)%R.
Proof. unfold Rleb. destruct (Rle_dec x y); split; intros; try lra; try discriminate; reflexivity. Qed.
Lemma Rleb_false x y : Rleb x y = false <-> (y < x)%R.
Proof. unfold Rleb. destruct (Rle_dec x y); split; intros; try lra; try discriminate; reflexivity. Qed.
Lemma Rltb_spec x y : Rltb x y = true <-> (x < y)%R.
Proof. unfold Rltb. destruct (Rlt_dec x y); split; intros; try lra; try discriminate; reflexivity. Qed.

Lemma count_prefix (P : nat -> bool) : forall n s, (forall i j, s <= i <= j -> j < s + n -> P j = true -> P i = true) ->
  let y := length (filter P (seq s n)) in y <= n /\ (forall i, s <= i < s + y -> P i = true) /\ (forall i, s + y <= i < s + n -> P i = false).
Proof.
  induction n as [|n IH]; intros s H; cbn [seq filter length]; [repeat split; intros; lia|].
  destruct (IH (S s)) as (L & T & F); [intros i j Hi Hj; apply H; lia|]. destruct (P s) eqn:E; cbn [length].
  - split; [lia|]. split; intros i Hi; [|apply F; lia]. destruct (Nat.eq_dec i s) as [->|]; [exact E|]. apply T. lia.
  - assert (Z : length (filter P (seq (S s) n)) = 0).
    { destruct (length (filter P (seq (S s) n))) as [|m] eqn:Em; [reflexivity|]. exfalso.
      assert (P s = true) by (apply (H s (S s)); [lia|lia|apply T; lia]). congruence. }
    rewrite Z in *. split; [lia|]. split; intros i Hi; [lia|]. destruct (Nat.eq_dec i s) as [->|]; [exact E|]. apply F. lia.
Qed.
Lemma Rsum_app l1 l2 : Rsum (l1 ++ l2) = (Rsum l1 + Rsum l2)%R.
Proof. unfold Rsum. induction l1 as [|x l IH]; cbn; [lra|]. rewrite IH. lra. Qed.
Lemma Rsum_nonneg l : Forall (fun x => (0 <= x)%R) l -> (0 <= Rsum l)%R.
Proof. unfold Rsum. induction 1; cbn; lra. Qed.
Lemma Rsum_firstn_mono p i j : Forall (fun x => (0 <= x)%R) p -> i <= j -> (Rsum (firstn i p) <= Rsum (firstn j p))%R.
Proof.
  intros F H. replace (firstn j p) with (firstn i p ++ skipn i (firstn j p)).
  - rewrite Rsum_app. assert (0 <= Rsum (skipn i (firstn j p)))%R; [|lra]. apply Rsum_nonneg. rewrite Forall_forall in *. intros x Hx. apply F.
    rewrite <- (firstn_skipn j p). apply in_or_app. left. rewrite <- (firstn_skipn i (firstn j p)). apply in_or_app. right. exact Hx.
  - rewrite <- (firstn_skipn i (firstn j p)) at 2. f_equal. rewrite firstn_firstn. f_equal. lia.
Qed.
Lemma accepts_total p : choice_accepts p = true -> (1 / 2 < Rsum p)%R.
Proof.
  unfold choice_accepts. intros H. apply Rleb_spec in H. assert (1 / 2 ^ 26 <= 1 / 4)%R by (change (2 ^ 26)%R with (2 ^ (24 + 2))%R; rewrite pow_add;
    assert (1 <= 2 ^ 24)%R by (apply pow_R1_Rle; lra); apply Rmult_le_reg_r with (2 ^ 24 * 2 ^ 2)%R; [lra|]; field_simplify; lra).
  revert H. unfold Rabs. destruct (Rcase_abs _); lra.
Qed.
Lemma searchsorted_selected p u : Forall (fun x => (0 <= x)%R) p -> (0 < Rsum p)%R -> unit_interval u -> selected p u (searchsorted p u).
Proof.
  intros F S [U0 U1]. unfold searchsorted. set (P := fun k => Rleb (Rsum (firstn (Datatypes.S k) p) / Rsum p) u).
  destruct (count_prefix P (length p) 0) as (L & T & Fa).
  { intros i j Hij Hj Hp. unfold P in *. apply Rleb_spec in Hp. apply Rleb_spec. apply Rle_trans with (Rsum (firstn (Datatypes.S j) p) / Rsum p)%R; [|exact Hp].
    apply Rmult_le_compat_r; [left; apply Rinv_0_lt_compat; exact S|]. apply Rsum_firstn_mono; [exact F|lia]. }
  set (y := length (filter P (seq 0 (length p)))) in *. cbn [Nat.add] in *.
  assert (K : forall k, P k = true <-> (Rsum (firstn (Datatypes.S k) p) <= u * Rsum p)%R).
  { intros k. unfold P. rewrite Rleb_spec. split; intros H.
    - apply Rmult_le_compat_r with (r := Rsum p) in H; [|lra]. unfold Rdiv in H. rewrite Rmult_assoc, Rinv_l, Rmult_1_r in H by lra. exact H.
    - apply Rmult_le_reg_r with (Rsum p); [exact S|]. unfold Rdiv. rewrite Rmult_assoc, Rinv_l, Rmult_1_r by lra. exact H. }
  assert (Y : y < length p).
  { destruct (Nat.eq_dec y (length p)) as [E|]; [|lia]. exfalso. destruct p as [|x p']; [cbn in S; lra|]. set (p := x :: p') in *.
    assert (H : P (length p - 1) = true) by (apply T; unfold p in *; cbn [length] in *; lia). apply K in H.
    replace (Datatypes.S (length p - 1)) with (length p) in H by (unfold p; cbn; lia). rewrite firstn_all in H.
    assert (u * Rsum p < 1 * Rsum p)%R by (apply Rmult_lt_compat_r; lra). lra. }
  split; [exact Y|]. split.
  - destruct y as [|y']; [cbn; apply Rmult_le_pos; lra|]. apply K. apply T. lia.
  - apply Rnot_le_lt. intros H. apply K in H. rewrite Fa in H by lia. discriminate.
Qed.
Lemma draws_length {G} (next : G -> R * G) n : forall g, length (fst (draws next n g)) = n.
Proof. induction n as [|n IH]; intros g; [reflexivity|]. cbn. destruct (next g) as [x g1]. specialize (IH g1). destruct (draws next n g1). cbn in *. lia. Qed.
Lemma draws_add {G} (next : G -> R * G) m n : forall g,
  draws next (m + n) g = (fst (draws next m g) ++ fst (draws next n (snd (draws next m g))), snd (draws next n (snd (draws next m g)))).
Proof.
  induction m as [|m IH]; intros g; cbn; [destruct (draws next n g); reflexivity|]. destruct (next g) as [x g1]. rewrite IH.
  destruct (draws next m g1) as [l g2]. cbn. destruct (draws next n g2). reflexivity.
Qed.
Lemma combine_app {A B} (x1 x2 : list A) (y1 y2 : list B) : length x1 = length y1 -> combine (x1 ++ x2) (y1 ++ y2) = combine x1 y1 ++ combine x2 y2.
Proof. revert y1. induction x1 as [|a x1 IH]; intros [|b y1] H; try discriminate; [reflexivity|]. cbn. f_equal. apply IH. cbn in H. lia. Qed.

(** element-wise methods *)
Lemma zip_get {A B D} (dA : A) (dB : B) (dD : D) (f : A -> B -> D) (a : array A) (l : list B) idx : well_formed a -> length l = prod (shape a) -> valid_index (shape a) idx ->
  get dD (zip_nd f a l) idx = f (get dA a idx) (nth (ravel (shape a) idx) l dB).
Proof.
  intros W L V. unfold get, zip_nd. cbn [shape data]. pose proof (ravel_lt _ _ V) as R.
  set (h := fun '(x, y) => f x y). rewrite (nth_indep _ dD (h (dA, dB))) by (rewrite map_length, combine_length; unfold well_formed in W; rewrite W, L; lia).
  rewrite map_nth, combine_nth by (unfold well_formed in W; congruence). reflexivity.
Qed.
Lemma zip_wf {A B D} (f : A -> B -> D) (a : array A) (l : list B) : well_formed a -> length l = prod (shape a) -> well_formed (zip_nd f a l).
Proof. intros W L. unfold well_formed, zip_nd in *. cbn [shape data]. rewrite map_length, combine_length, W, L. lia. Qed.
Lemma get_ok {A} (d : A) (P : A -> Prop) (a : array A) idx : well_formed a -> Forall P (data a) -> valid_index (shape a) idx -> P (get d a idx).
Proof. intros W F V. rewrite Forall_forall in F. apply F. unfold get. apply nth_In. unfold well_formed in W. rewrite W. apply ravel_lt. exact V. Qed.
Lemma zip_symbolwise {G} (r : generator G) (ok : Z -> Prop) (rule : Z -> R -> Z -> Prop) (f : Z -> R -> Z) T :
  (forall a g, T a g = (Some (zip_nd f a (fst (draws (next_uniform r) (prod (shape a)) g))), snd (draws (next_uniform r) (prod (shape a)) g))) ->
  (forall x u, ok x -> unit_interval u -> rule x u (f x u)) -> symbolwise (next_uniform r) ok rule T.
Proof.
  intros HT Hf a g W O U. rewrite HT. eexists. split; [reflexivity|]. split; [apply zip_wf; [exact W|apply draws_length]|]. split; [reflexivity|].
  intros idx V. rewrite (zip_get 0%Z 0%R 0%Z) by (try exact V; try exact W; apply draws_length). apply Hf; [apply (get_ok 0%Z ok a idx W O V)|].
  rewrite Forall_forall in U. apply U, nth_In. rewrite draws_length. apply ravel_lt. exact V.
Qed.
Lemma zip_streams {G A B} (d : G -> nat -> list B * G) (f : A -> B -> A) (T : array A -> G -> option (array A) * G) :
  (forall a g, T a g = (Some (zip_nd f a (fst (d g (prod (shape a))))), snd (d g (prod (shape a))))) ->
  (forall g m, length (fst (d g m)) = m) ->
  (forall g m n, d g (m + n) = (fst (d g m) ++ fst (d (snd (d g m)) n), snd (d (snd (d g m)) n))) ->
  streams T.
Proof.
  intros HT HL HA x y g. rewrite !HT. cbn [shape]. replace (prod [length (x ++ y)]) with (length x + length y) by (rewrite app_length; unfold prod; cbn; lia).
  replace (prod [length x]) with (length x) by (unfold prod; cbn; lia). replace (prod [length y]) with (length y) by (unfold prod; cbn; lia).
  rewrite HA. cbn [fst snd]. unfold zip_nd. cbn [shape data]. rewrite combine_app by (symmetry; apply HL). rewrite map_app. do 3 f_equal.
  rewrite !app_length, !map_length, !combine_length, !HL. rewrite !Nat.min_id. reflexivity.
Qed.

(** DMC *)
Definition row_ok (p : list R) : Prop := Forall (fun x => (0 <= x)%R) p /\ choice_accepts p = true.
Lemma wrap_of_nonneg n x : (0 <= x)%Z -> wrap n x = Z.to_nat x.
Proof. intros H. unfold wrap. destruct (Z.ltb_spec x 0); [lia|reflexivity]. Qed.
Lemma index_ok_range n x : (0 <= x < Z.of_nat n)%Z -> index_ok n x = true.
Proof. intros H. unfold index_ok. apply andb_true_intro. split; lia. Qed.
Lemma dmc_loop_ok {G} (r : generator G) W : Forall row_ok W -> forall l g, Forall (fun x => 0 <= x < Z.of_nat (length W))%Z l ->
  dmc_loop r W l g = (Some (map (fun '(x, u) => Z.of_nat (searchsorted (nth (Z.to_nat x) W []) u)) (combine l (fst (draws (next_uniform r) (length l) g)))),
                      snd (draws (next_uniform r) (length l) g)).
Proof.
  intros HW. induction l as [|x l IH]; intros g F; [reflexivity|]. inversion_clear F. cbn [dmc_loop]. rewrite index_ok_range, wrap_of_nonneg by lia.
  assert (RO : row_ok (nth (Z.to_nat x) W [])) by (rewrite Forall_forall in HW; apply HW, nth_In; lia).
  unfold choice. destruct RO as [_ ->]. cbn [length draws]. destruct (next_uniform r g) as [u g1]. rewrite IH by assumption.
  destruct (draws (next_uniform r) (length l) g1) as [us g2]. reflexivity.
Qed.
Lemma dmc_zip {G} (r : generator G) W a g : Forall row_ok W -> well_formed a -> Forall (fun x => 0 <= x < Z.of_nat (length W))%Z (data a) ->
  dmc_transmit r W a g = (Some (zip_nd (fun x u => Z.of_nat (searchsorted (nth (Z.to_nat x) W []) u)) a (fst (draws (next_uniform r) (prod (shape a)) g))),
                          snd (draws (next_uniform r) (prod (shape a)) g)).
Proof. intros HW Wf F. unfold dmc_transmit. rewrite dmc_loop_ok by assumption. unfold well_formed in Wf. rewrite Wf. reflexivity. Qed.
Lemma dmc_loop_app {G} (r : generator G) W x y : forall g,
  dmc_loop r W (x ++ y) g = match dmc_loop r W x g with
                            | (None, g1) => (None, g1)
                            | (Some ox, g1) => match dmc_loop r W y g1 with (None, g2) => (None, g2) | (Some oy, g2) => (Some (ox ++ oy), g2) end
                            end.
Proof.
  induction x as [|a x IH]; intros g; cbn [app dmc_loop]; [destruct (dmc_loop r W y g) as [[l|] g2]; reflexivity|].
  destruct (index_ok (length W) a); [|reflexivity]. destruct (choice r _ g) as [[z|] g1]; [|reflexivity]. rewrite IH.
  destruct (dmc_loop r W x g1) as [[ox|] g2]; [|reflexivity]. destruct (dmc_loop r W y g2) as [[oy|] g3]; reflexivity.
Qed.
Lemma dmc_loop_length {G} (r : generator G) W x : forall g l g', dmc_loop r W x g = (Some l, g') -> length l = length x.
Proof.
  induction x as [|a x IH]; intros g l g' H; cbn [dmc_loop] in H; [inversion H; reflexivity|].
  destruct (index_ok (length W) a); [|discriminate]. destruct (choice r _ g) as [[z|] g1]; [|discriminate].
  destruct (dmc_loop r W x g1) as [[ox|] g2] eqn:E; [|discriminate]. inversion H; subst. cbn. f_equal. eapply IH. exact E.
Qed.
Lemma dmc_streams {G} (r : generator G) W : streams (dmc_transmit r W).
Proof.
  intros x y g. unfold dmc_transmit. cbn [data shape]. rewrite dmc_loop_app. destruct (dmc_loop r W x g) as [[ox|] g1] eqn:E; [|reflexivity]. cbn [data].
  destruct (dmc_loop r W y g1) as [[oy|] g2] eqn:E2; [|reflexivity]. cbn [data]. apply dmc_loop_length in E. apply dmc_loop_length in E2. rewrite !app_length, E, E2. reflexivity.
Qed.

(** simulate *)
Fixpoint path (P : list (list R)) (state : Z) (us : list R) : list Z :=
  match us with [] => [] | u :: us => state :: path P (Z.of_nat (searchsorted (nth (Z.to_nat state) P []) u)) us end.
Lemma simulate_ok {G} (r : generator G) P : Forall row_ok P -> Forall (fun row => length row = length P) P -> forall n s g, (0 <= s < Z.of_nat (length P))%Z ->
  Forall unit_interval (fst (draws (next_uniform r) n g)) ->
  simulate r P s n g = (Some (path P s (fst (draws (next_uniform r) n g))), snd (draws (next_uniform r) n g)).
Proof.
  intros HP HS. induction n as [|n IH]; intros s g Hs U; [reflexivity|]. cbn [simulate]. rewrite index_ok_range, wrap_of_nonneg by lia.
  assert (I1 : In (nth (Z.to_nat s) P []) P) by (apply nth_In; lia).
  assert (RO : row_ok (nth (Z.to_nat s) P [])) by (rewrite Forall_forall in HP; apply HP; exact I1).
  assert (L : length (nth (Z.to_nat s) P []) = length P) by (rewrite Forall_forall in HS; apply HS; exact I1).
  unfold choice. destruct RO as [NN CA]. rewrite CA. cbn [draws] in *. destruct (next_uniform r g) as [u g1]. specialize (IH (Z.of_nat (searchsorted (nth (Z.to_nat s) P []) u)) g1).
  destruct (draws (next_uniform r) n g1) as [us g2]. cbn [fst snd] in *. inversion_clear U. rewrite IH; [reflexivity| |assumption].
  assert (Sel : selected (nth (Z.to_nat s) P []) u (searchsorted (nth (Z.to_nat s) P []) u)) by (apply searchsorted_selected; [exact NN|apply accepts_total in CA; lra|assumption]).
  destruct Sel as [B _]. lia.
Qed.
Lemma path_length P us : forall s, length (path P s us) = length us.
Proof. induction us as [|u us IH]; intros s; [reflexivity|]. cbn. f_equal. apply IH. Qed.
Lemma path_step P us : forall s t, S t < length us -> nth (S t) (path P s us) 0%Z = Z.of_nat (searchsorted (nth (Z.to_nat (nth t (path P s us) 0%Z)) P []) (nth t us 0%R)).
Proof.
  induction us as [|u us IH]; intros s t H; [cbn in H; lia|]. cbn [path nth length] in *. destruct t as [|t].
  - destruct us as [|u' us]; [cbn in H; lia|]. reflexivity.
  - apply IH. lia.
Qed.
Lemma path_range P us : Forall row_ok P -> Forall (fun row => length row = length P) P -> Forall unit_interval us -> forall s, (0 <= s < Z.of_nat (length P))%Z ->
  Forall (fun x => 0 <= x < Z.of_nat (length P))%Z (path P s us).
Proof.
  intros HP HS. induction 1 as [|u us U Us IH]; intros s Hs; cbn [path]; constructor; [exact Hs|]. apply IH.
  assert (I1 : In (nth (Z.to_nat s) P []) P) by (apply nth_In; lia).
  assert (RO : row_ok (nth (Z.to_nat s) P [])) by (rewrite Forall_forall in HP; apply HP; exact I1).
  assert (L : length (nth (Z.to_nat s) P []) = length P) by (rewrite Forall_forall in HS; apply HS; exact I1).
  destruct RO as [NN CA]. destruct (searchsorted_selected _ u NN ltac:(apply accepts_total in CA; lra) U) as [B _]. lia.
Qed.

(** validators *)
Lemma valid_matrix_rows sq W cols : valid_matrix sq W cols = true ->
  Forall (fun row => length row = cols) W /\ Forall (Forall (fun x => (0 <= x)%R)) W /\ (sq = true -> length W = cols).
Proof.
  unfold valid_matrix. rewrite !Bool.andb_true_iff. intros [[[L N] C] Q]. rewrite !forallb_forall in *. repeat split.
  - apply Forall_forall. intros row H. apply Nat.eqb_eq, L, H.
  - apply Forall_forall. intros row H. apply Forall_forall. intros x Hx. specialize (N row H). rewrite forallb_forall in N. apply Rleb_spec, N, Hx.
  - intros ->. cbn in Q. apply Nat.eqb_eq. exact Q.
Qed.
Lemma valid_pmf_nonneg p : valid_pmf p = true -> Forall (fun x => (0 <= x)%R) p.
Proof. unfold valid_pmf. rewrite Bool.andb_true_iff. intros [H _]. rewrite forallb_forall in H. apply Forall_forall. intros x Hx. apply Rleb_spec, H, Hx. Qed.
