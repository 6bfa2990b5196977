(** Facts about multidimensional arrays. *)
From Verif Require Import Common Array_Model Array_Spec.
Local Open Scope nat_scope.

Lemma prod_app (s t : list nat) : prod (s ++ t) = prod s * prod t.
Proof. induction s as [|x s IH]; [unfold prod; cbn; lia|]. cbn [app]. unfold prod in *. cbn [fold_right]. rewrite IH. apply Nat.mul_assoc. Qed.
Lemma prod_cons (x : nat) (s : list nat) : prod (x :: s) = x * prod s.
Proof. reflexivity. Qed.
Lemma prod_pos (s : list nat) : Forall (lt 0) s -> 0 < prod s.
Proof. induction 1; unfold prod in *; cbn; nia. Qed.
Lemma valid_length (sh idx : list nat) : valid_index sh idx -> length idx = length sh.
Proof. induction 1; cbn; congruence. Qed.
Lemma ravel_lt (sh idx : list nat) : valid_index sh idx -> ravel sh idx < prod sh.
Proof.
  induction 1 as [|i n idx sh Hi H IH]; [cbn; lia|]. cbn [ravel]. rewrite prod_cons. nia.
Qed.
Lemma ravel_app (s t i j : list nat) : length i = length s -> ravel (s ++ t) (i ++ j) = ravel s i * prod t + ravel t j.
Proof.
  revert i. induction s as [|n s IH]; intros i Hl; destruct i as [|x i]; try discriminate; [reflexivity|].
  cbn [app ravel]. rewrite IH by (cbn in Hl; lia). rewrite prod_app. nia.
Qed.
Lemma ravel_mid (pre post p q : list nat) (n k : nat) : length p = length pre ->
  ravel (pre ++ n :: post) (p ++ k :: q) = (ravel pre p * n + k) * prod post + ravel post q.
Proof. intros Hl. rewrite ravel_app by exact Hl. cbn [ravel]. rewrite prod_cons. nia. Qed.
Lemma valid_app (s t i j : list nat) : valid_index s i -> valid_index t j -> valid_index (s ++ t) (i ++ j).
Proof. apply Forall2_app. Qed.
(** every position is the position of a valid multi-index *)
Lemma unravel (sh : list nat) : forall x, x < prod sh -> exists idx, valid_index sh idx /\ ravel sh idx = x.
Proof.
  induction sh as [|n sh IH]; intros x Hx; [exists []; cbn in *; split; [constructor|unfold prod in Hx; cbn in Hx; lia]|].
  rewrite prod_cons in Hx. assert (P : prod sh <> 0) by nia.
  destruct (IH (x mod prod sh)) as (idx & V & E); [apply Nat.mod_upper_bound; exact P|].
  exists (x / prod sh :: idx). split.
  - constructor; [apply Nat.div_lt_upper_bound; lia|exact V].
  - cbn [ravel]. rewrite E. rewrite (Nat.div_mod x (prod sh) P) at 3. lia.
Qed.
(** two arrays of the same shape with the same elements are equal *)
Lemma array_ext {A} (d : A) (a b : array A) : well_formed a -> well_formed b -> shape a = shape b ->
  (forall idx, valid_index (shape a) idx -> get d a idx = get d b idx) -> a = b.
Proof.
  destruct a as [sa da], b as [sb db]. unfold well_formed, get. cbn [shape data]. intros Wa Wb -> H. f_equal.
  apply (list_ext d); [congruence|]. intros i Hi. destruct (unravel sb i ltac:(lia)) as (idx & V & E).
  specialize (H idx V). rewrite E in H. exact H.
Qed.

Lemma flat_map_seq_length {A} (F : nat -> list A) (w N s : nat) : (forall x, s <= x < s + N -> length (F x) = w) ->
  length (flat_map F (seq s N)) = N * w.
Proof.
  revert s. induction N as [|N IH]; intros s H; [reflexivity|]. cbn. rewrite app_length, H, IH by (intros; try apply H; lia). lia.
Qed.
Lemma flat_map_seq_nth {A} (F : nat -> list A) (w N x y : nat) (d : A) : (forall x, x < N -> length (F x) = w) ->
  x < N -> y < w -> nth (x * w + y) (flat_map F (seq 0 N)) d = nth y (F x) d.
Proof.
  intros H Hx Hy.
  assert (G : forall n s u, (forall z, s <= z < s + n -> length (F z) = w) -> u < n ->
              nth (u * w + y) (flat_map F (seq s n)) d = nth y (F (s + u)) d).
  { induction n as [|n IH]; intros s u Hn Hu; [lia|]. cbn [seq flat_map]. destruct u as [|u].
    - rewrite app_nth1 by (rewrite Hn; lia). rewrite Nat.add_0_r. reflexivity.
    - rewrite app_nth2 by (rewrite Hn by lia; nia). rewrite Hn by lia.
      replace (S u * w + y - w) with (u * w + y) by nia. rewrite IH; [f_equal; f_equal; lia|intros; apply Hn; lia|lia]. }
  apply (G N 0 x); [intros; apply H; lia|exact Hx].
Qed.

Lemma nth_firstn_lt {A} (d : A) (l : list A) (n i : nat) : i < n -> nth i (firstn n l) d = nth i l d.
Proof. revert l i. induction n as [|n IH]; intros l i H; [lia|]. destruct l as [|x l]; [reflexivity|]. destruct i; [reflexivity|]. cbn. apply IH. lia. Qed.
Lemma nth_skipn_add {A} (d : A) (l : list A) (n i : nat) : nth i (skipn n l) d = nth (n + i) l d.
Proof. revert l. induction n as [|n IH]; intros l; [reflexivity|]. destruct l as [|x l]; [destruct i; reflexivity|]. cbn. apply IH. Qed.

Section Along.
Context {A B : Type} (dA : A) (dB : B).
Variables (pre post : list nat) (n : nat) (a : array A).
Hypothesis Hsh : shape a = pre ++ n :: post.
Hypothesis Hwf : well_formed a.
Lemma sh_first : firstn (length pre) (shape a) = pre.
Proof. rewrite Hsh. apply firstn_app_exact. Qed.
Lemma sh_skip : skipn (S (length pre)) (shape a) = post.
Proof.
  rewrite Hsh. replace (pre ++ n :: post) with ((pre ++ [n]) ++ post) by (rewrite <- app_assoc; reflexivity).
  replace (S (length pre)) with (length (pre ++ [n])) by (rewrite app_length; cbn; lia). apply skipn_app_exact.
Qed.
Lemma sh_nth : nth (length pre) (shape a) 0 = n.
Proof. rewrite Hsh, app_nth2, Nat.sub_diag by lia. reflexivity. Qed.
Lemma flat_line_spec (p q : list nat) : valid_index pre p -> valid_index post q ->
  flat_line dA n (prod post) (data a) (ravel pre p) (ravel post q) = line dA a n p q.
Proof.
  intros Hp Hq. unfold flat_line, line, get. apply map_ext. intros k. rewrite Hsh.
  rewrite ravel_mid by exact (valid_length _ _ Hp). reflexivity.
Qed.
Lemma along_shape (f : list A -> list B) (m : nat) : shape (along dA dB f m (length pre) a) = pre ++ m :: post.
Proof. unfold along. cbn [shape]. rewrite sh_first, sh_skip. reflexivity. Qed.
Lemma along_wf (f : list A -> list B) (m : nat) : well_formed (along dA dB f m (length pre) a).
Proof.
  unfold well_formed. rewrite along_shape. unfold along. cbn [data]. unfold outer_of, inner_of. rewrite sh_first, sh_skip.
  rewrite (flat_map_seq_length _ (m * prod post)).
  - rewrite prod_app, prod_cons. reflexivity.
  - intros x _. rewrite (flat_map_seq_length _ (prod post)); [reflexivity|]. intros y _. rewrite map_length, seq_length. reflexivity.
Qed.
Lemma along_get (f : list A -> list B) (m k : nat) (p q : list nat) :
  valid_index pre p -> valid_index post q -> k < m ->
  get dB (along dA dB f m (length pre) a) (p ++ k :: q) = nth k (f (line dA a n p q)) dB.
Proof.
  intros Hp Hq Hk. unfold get. rewrite along_shape. rewrite ravel_mid by exact (valid_length _ _ Hp).
  pose proof (ravel_lt _ _ Hp). pose proof (ravel_lt _ _ Hq).
  unfold along. cbn [data]. unfold outer_of, inner_of. rewrite sh_first, sh_skip, sh_nth.
  replace ((ravel pre p * m + k) * prod post + ravel post q) with (ravel pre p * (m * prod post) + (k * prod post + ravel post q)) by nia.
  rewrite (flat_map_seq_nth _ (m * prod post)); [| |assumption|nia].
  - rewrite (flat_map_seq_nth _ (prod post)); [| |exact Hk|assumption].
    + rewrite nth_map_seq by assumption. rewrite flat_line_spec by assumption. reflexivity.
    + intros x _. rewrite map_length, seq_length. reflexivity.
  - intros x _. rewrite (flat_map_seq_length _ (prod post)); [reflexivity|]. intros y _. rewrite map_length, seq_length. reflexivity.
Qed.
Lemma along_line (f : list A -> list B) (m : nat) (p q : list nat) :
  valid_index pre p -> valid_index post q -> length (f (line dA a n p q)) = m ->
  line dB (along dA dB f m (length pre) a) m p q = f (line dA a n p q).
Proof.
  intros Hp Hq Hl. apply (list_ext dB); [unfold line; rewrite map_length, seq_length; symmetry; exact Hl|].
  intros i Hi. unfold line at 1 in Hi. rewrite map_length, seq_length in Hi. unfold line at 1.
  rewrite nth_map_seq by exact Hi. apply along_get; assumption.
Qed.

(** [numpy.apply_along_axis] *)
Lemma sequence_spec {X} (l : list (option X)) (r : list X) : sequence l = Some r <-> l = map Some r.
Proof.
  revert r. induction l as [|[x|] l IH]; intros r; cbn.
  - destruct r; cbn; split; congruence.
  - destruct (sequence l) as [s|].
    + destruct r as [|y r]; cbn; split; try congruence; intros E.
      * injection E as -> ->. f_equal. apply IH. reflexivity.
      * injection E as -> E. apply IH in E. congruence.
    + destruct r as [|y r]; cbn; split; try congruence. intros E. injection E as -> E. apply IH in E. congruence.
  - destruct r; cbn; split; congruence.
Qed.
Lemma all_lines (P : list A -> Prop) :
  (forall o i, o < prod pre -> i < prod post -> P (flat_line dA n (prod post) (data a) o i)) <->
  (forall p q, valid_index pre p -> valid_index post q -> P (line dA a n p q)).
Proof.
  split; intros H.
  - intros p q Hp Hq. rewrite <- flat_line_spec by assumption. apply H; apply ravel_lt; assumption.
  - intros o i Ho Hi. destruct (unravel _ _ Ho) as (p & Hp & <-). destruct (unravel _ _ Hi) as (q & Hq & <-).
    rewrite flat_line_spec by assumption. apply H; assumption.
Qed.
Definition normal_axis (axis : Z) : Prop := norm_axis (length (shape a)) axis = Some (length pre).
Lemma apply_ok (f : list A -> option (list B)) (axis : Z) (m : nat) : normal_axis axis ->
  0 < prod pre * prod post ->
  (forall p q, valid_index pre p -> valid_index post q -> exists r, f (line dA a n p q) = Some r /\ length r = m) ->
  exists out, apply_along_axis dA dB f axis a = Some out /\ well_formed out /\ shape out = pre ++ m :: post /\
    forall p q, valid_index pre p -> valid_index post q -> f (line dA a n p q) = Some (line dB out m p q).
Proof.
  intros Hax Hpos Hf. unfold apply_along_axis. rewrite Hax.
  unfold outer_of, inner_of. rewrite sh_first, sh_skip, sh_nth.
  set (all := flat_map _ _).
  pose proof (proj2 (all_lines (fun l => exists r, f l = Some r /\ length r = m)) Hf) as Hflat.
  set (res := flat_map (fun o => map (fun i => match f (flat_line dA n (prod post) (data a) o i) with Some r => r | None => [] end) (seq 0 (prod post))) (seq 0 (prod pre))).
  assert (Hl : forall r, In r res -> length r = m).
  { intros r Hr. unfold res in Hr. apply in_flat_map in Hr as (o & Ho & Hr). apply in_map_iff in Hr as (i & <- & Hi).
    apply in_seq in Ho, Hi. destruct (Hflat o i ltac:(lia) ltac:(lia)) as (r & -> & L). exact L. }
  assert (E : all = map Some res).
  { unfold all, res. rewrite flat_map_concat_map, flat_map_concat_map, concat_map, map_map. f_equal.
    apply map_ext_in. intros o Ho. rewrite map_map. apply map_ext_in. intros i Hi. apply in_seq in Ho, Hi.
    destruct (Hflat o i ltac:(lia) ltac:(lia)) as (r & -> & _). reflexivity. }
  apply sequence_spec in E. rewrite E.
  assert (Hres : length res = prod pre * prod post).
  { unfold res. rewrite (flat_map_seq_length _ (prod post)); [reflexivity|]. intros x _. rewrite map_length, seq_length. reflexivity. }
  destruct res as [|r0 rs] eqn:Er; [cbn in Hres; lia|].
  assert (L0 : length r0 = m) by (apply Hl; left; reflexivity). rewrite L0.
  assert (FB : forallb (fun r => (length r =? m) || (length r =? 1)) rs = true).
  { apply forallb_forall. intros r Hr. rewrite (Hl r) by (right; exact Hr). rewrite Nat.eqb_refl. reflexivity. }
  rewrite FB. eexists. split; [reflexivity|]. split; [apply along_wf|]. split; [apply along_shape|].
  intros p q Hp Hq. destruct (Hf p q Hp Hq) as (r & Er' & Lr). rewrite Er'. f_equal.
  assert (Br : broadcast m r = r).
  { unfold broadcast. destruct r as [|x [|]]; [reflexivity| |reflexivity]. cbn in Lr. rewrite <- Lr. reflexivity. }
  rewrite along_line; [rewrite Er'; symmetry; exact Br|assumption|assumption|]. rewrite Er', Br. exact Lr.
Qed.
(** it raises when f raises on some line, and for arrays without lines *)
Lemma apply_raises (f : list A -> option (list B)) (axis : Z) :
  (exists p q, valid_index pre p /\ valid_index post q /\ f (line dA a n p q) = None) \/ prod pre * prod post = 0 ->
  normal_axis axis -> apply_along_axis dA dB f axis a = None.
Proof.
  intros H Hax. unfold apply_along_axis. rewrite Hax. unfold outer_of, inner_of. rewrite sh_first, sh_skip, sh_nth.
  set (all := flat_map _ _). destruct (sequence all) as [res|] eqn:E; [|reflexivity].
  apply sequence_spec in E. destruct H as [(p & q & Hp & Hq & Hn)|H].
  - exfalso. assert (I : In None all).
    { unfold all. apply in_flat_map. exists (ravel pre p). split; [apply in_seq; pose proof (ravel_lt _ _ Hp); lia|].
      apply in_map_iff. exists (ravel post q). split; [rewrite flat_line_spec by assumption; exact Hn|].
      apply in_seq. pose proof (ravel_lt _ _ Hq). lia. }
    rewrite E in I. apply in_map_iff in I as (x & C & _). discriminate.
  - assert (L : length all = 0).
    { unfold all. rewrite (flat_map_seq_length _ (prod post)); [exact H|]. intros x _. rewrite map_length, seq_length. reflexivity. }
    rewrite E, map_length in L. destruct res; [reflexivity|discriminate].
Qed.
End Along.

Lemma norm_axis_last {A} (a : array A) (pre : list nat) (n : nat) : shape a = pre ++ [n] -> normal_axis pre a (-1).
Proof.
  intros E. unfold normal_axis, norm_axis. rewrite E, app_length. cbn [length].
  destruct (Z.leb_spec (- Z.of_nat (length pre + 1)) (-1)); [|lia]. destruct (Z.ltb_spec (-1) (Z.of_nat (length pre + 1))); [|lia].
  cbn [andb]. change (-1 <? 0)%Z with true. cbv iota. f_equal. lia.
Qed.

(** ** Reshaping *)
Lemma reshape_auto_ok {A} (a : array A) (pre post : list nat) (k : nat) :
  0 < prod pre * prod post -> length (data a) = prod pre * k * prod post ->
  reshape_auto pre post a = Some (Arr (pre ++ k :: post) (data a)).
Proof.
  intros H E. unfold reshape_auto. destruct (Nat.eqb_spec (prod pre * prod post) 0); [lia|].
  replace (length (data a)) with (k * (prod pre * prod post)) by (rewrite E; nia).
  rewrite Nat.mod_mul, Nat.div_mul by assumption. reflexivity.
Qed.
Lemma split_line {A} (d : A) (a : array A) (pre p : list nat) (k b : nat) : shape a = pre ++ [k * b] ->
  valid_index pre p ->
  blocks b (line d a (k * b) p []) = map (fun i => line d (Arr (pre ++ [k; b]) (data a)) b (p ++ [i]) []) (seq 0 k) \/ b = 0.
Proof.
  intros E Hp. destruct b as [|b']; [right; reflexivity|left]. set (b := S b') in *.
  assert (L : length (line d a (k * b) p []) = k * b) by (unfold line; rewrite map_length, seq_length; reflexivity).
  unfold blocks. rewrite L, Nat.div_mul by lia. apply map_ext_in. intros i Hi. apply in_seq in Hi.
  assert (Hkb : i * b + b <= k * b) by nia.
  apply (list_ext d).
  - rewrite firstn_length, skipn_length, L. unfold line. rewrite map_length, seq_length. lia.
  - intros j Hj. rewrite firstn_length, skipn_length, L in Hj. assert (Hj' : j < b) by lia.
    assert (FN : nth j (firstn b (skipn (i * b) (line d a (k * b) p []))) d = nth (i * b + j) (line d a (k * b) p []) d).
    { rewrite nth_firstn_lt by exact Hj'. apply nth_skipn_add. }
    rewrite FN. unfold line. rewrite !nth_map_seq by lia. unfold get. cbn [shape data]. rewrite E. f_equal.
    rewrite (ravel_app pre [k * b] p [i * b + j]) by exact (valid_length _ _ Hp).
    rewrite <- app_assoc. rewrite (ravel_app pre [k; b] p ([i] ++ [j])) by exact (valid_length _ _ Hp). unfold prod. cbn. lia.
Qed.
(** a line of the array with its last two axes merged *)
Lemma merge_line {A} (d : A) (s : list A) (pre p : list nat) (k m : nat) :
  valid_index pre p ->
  line d (Arr (pre ++ [k * m]) s) (k * m) p [] = concat (map (fun i => line d (Arr (pre ++ [k; m]) s) m (p ++ [i]) []) (seq 0 k)).
Proof.
  intros Hp. rewrite <- flat_map_concat_map.
  assert (LL : length (line d (Arr (pre ++ [k * m]) s) (k * m) p []) = k * m) by (unfold line; rewrite map_length, seq_length; reflexivity).
  apply (list_ext d).
  - rewrite LL. rewrite (flat_map_seq_length _ m); [reflexivity|]. intros x _. unfold line. rewrite map_length, seq_length. reflexivity.
  - intros t Ht. rewrite LL in Ht. unfold line at 1. rewrite nth_map_seq by exact Ht.
    assert (M : m <> 0) by nia. rewrite (Nat.div_mod t m M). rewrite (Nat.mul_comm m (t / m)).
    pose proof (Nat.mod_upper_bound t m M). assert (t / m < k) by (apply Nat.div_lt_upper_bound; nia).
    rewrite (flat_map_seq_nth _ m); [| |assumption|assumption].
    + unfold line. rewrite nth_map_seq by assumption. unfold get. cbn [shape data]. f_equal.
      rewrite (ravel_app pre [k * m] p [t / m * m + t mod m]) by exact (valid_length _ _ Hp).
      rewrite <- app_assoc. rewrite (ravel_app pre [k; m] p ([t / m] ++ [t mod m])) by exact (valid_length _ _ Hp). unfold prod. cbn. lia.
    + intros x _. unfold line. rewrite map_length, seq_length. reflexivity.
Qed.

(** ** Blockwise *)
Section Blockwise.
Context {A B : Type} (dA : A) (dB : B).
Variables (pre : list nat) (k b : nat) (a : array A).
Hypothesis Hb : 0 < b.
Hypothesis Hpre : 0 < prod pre.
Hypothesis Hsh : shape a = pre ++ [k * b].
Hypothesis Hwf : well_formed a.
Let split := Arr (pre ++ [k; b]) (data a).
Lemma split_shape : shape split = (pre ++ [k]) ++ [b].
Proof. unfold split. cbn [shape]. rewrite <- app_assoc. reflexivity. Qed.
Lemma split_wf : well_formed split.
Proof. unfold well_formed in *. rewrite Hsh in Hwf. unfold split. cbn [shape data]. rewrite prod_app in *. unfold prod in *. cbn in *. lia. Qed.
Lemma blockwise_unfold (func : array A -> option (array B)) :
  blockwise b func a = match func split with
    | None => None
    | Some processed => reshape_auto (firstn (length (shape processed) - 2) (shape processed)) [] processed end.
Proof.
  unfold blockwise. rewrite Hsh, rev_app_distr. cbn [rev app].
  destruct (Nat.eqb_spec b 0); [lia|]. rewrite Nat.mod_mul by lia. cbn [Nat.eqb negb].
  rewrite removelast_last. rewrite (reshape_auto_ok a pre [b] k).
  - reflexivity.
  - unfold prod at 2. cbn. nia.
  - unfold well_formed in Hwf. rewrite Hwf, Hsh, prod_app. unfold prod. cbn. nia.
Qed.
Lemma valid_block (p : list nat) (i : nat) : valid_index pre p -> i < k -> valid_index (pre ++ [k]) (p ++ [i]).
Proof. intros Hp Hi. apply valid_app; [exact Hp|]. constructor; [exact Hi|constructor]. Qed.
Lemma valid_block_inv (pi : list nat) : valid_index (pre ++ [k]) pi -> exists p i, pi = p ++ [i] /\ valid_index pre p /\ i < k.
Proof.
  intros H. destruct (Forall2_app_inv_r pre [k] H) as (p & q & Hp & Hq & ->).
  inversion Hq as [|i k' q' l' Hi Hq']; subst. inversion Hq'; subst. exists p, i. auto.
Qed.
Lemma blocks_spec (p : list nat) : valid_index pre p ->
  blocks b (line dA a (k * b) p []) = map (fun i => line dA split b (p ++ [i]) []) (seq 0 k).
Proof. intros Hp. destruct (split_line dA a pre p k b Hsh Hp) as [E|E]; [exact E|lia]. Qed.
(** the output of [func] is an array of shape pre ++ [k; m] whose rows are given; result of merging *)
Lemma blockwise_merge (func : array A -> option (array B)) (m : nat) (out : array B) :
  func split = Some out -> well_formed out -> shape out = (pre ++ [k]) ++ [m] ->
  exists res, blockwise b func a = Some res /\ well_formed res /\ shape res = pre ++ [k * m] /\
    forall p, valid_index pre p -> line dB res (k * m) p [] = concat (map (fun i => line dB out m (p ++ [i]) []) (seq 0 k)).
Proof.
  intros E W S. rewrite blockwise_unfold, E, S. rewrite !app_length. cbn [length].
  replace (length pre + 1 + 1 - 2) with (length pre) by lia. rewrite <- app_assoc, firstn_app_exact.
  assert (L : length (data out) = prod pre * (k * m)) by (unfold well_formed in W; rewrite W, S, <- app_assoc, prod_app; unfold prod; cbn; lia).
  rewrite (reshape_auto_ok out pre [] (k * m)); [|unfold prod at 2; cbn; nia|unfold prod at 2; cbn [fold_right]; lia].
  eexists. split; [reflexivity|]. split; [|split; [reflexivity|]].
  - unfold well_formed. cbn [shape data]. rewrite L, prod_app. unfold prod. cbn. lia.
  - intros p Hp. rewrite merge_line by exact Hp. f_equal. apply map_ext. intros i.
    destruct out as [so do]. cbn [shape data] in *. rewrite S, <- app_assoc. reflexivity.
Qed.
End Blockwise.
