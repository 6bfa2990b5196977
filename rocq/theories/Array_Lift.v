(** Lifting functions on words to arrays. *)
From Verif Require Import Common Array_Model Array_Spec Array_Proof.
Local Open Scope nat_scope.

(** [func] maps the rows (last axis) of an array by [f]. *)
Definition row_acts {A B} (dA : A) (dB : B) (P : list A -> Prop) (f : list A -> list B) (b m : nat)
  (func : array A -> option (array B)) : Prop :=
  forall sh a, well_formed a -> shape a = sh ++ [b] -> Forall (lt 0) sh ->
  (forall p, valid_index sh p -> P (line dA a b p [])) ->
  exists out, func a = Some out /\ well_formed out /\ shape out = sh ++ [m] /\
    forall p, valid_index sh p -> line dB out m p [] = f (line dA a b p []).

Lemma line_length {A} (d : A) (a : array A) n p q : length (line d a n p q) = n.
Proof. unfold line. rewrite map_length, seq_length. reflexivity. Qed.

Lemma vectorize_acts {A B} (dA : A) (dB : B) (P : list A -> Prop) (f : list A -> list B) (b m : nat) :
  (forall l, length l = b -> P l -> length (f l) = m) ->
  row_acts dA dB P f b m (vectorize dA dB (fun l => Some (f l))).
Proof.
  intros Hf sh a W S Hpos HP. unfold vectorize.
  destruct (apply_ok dA dB sh [] b a S (fun l => Some (f l)) (-1) m) as (out & E & Wo & So & Lo).
  - apply norm_axis_last with b. exact S.
  - pose proof (prod_pos _ Hpos). unfold prod at 2. cbn. lia.
  - intros p q Hp Hq. inversion Hq; subst. eexists. split; [reflexivity|]. apply Hf; [apply line_length|apply HP; exact Hp].
  - exists out. split; [exact E|]. split; [exact Wo|]. split; [exact So|]. intros p Hp.
    specialize (Lo p [] Hp (Forall2_nil _)). injection Lo as Lo. symmetry. exact Lo.
Qed.
Lemma rowwise_acts {A B} (dA : A) (dB : B) (P : list A -> Prop) (f : list A -> list B) (b m : nat) :
  (forall l, length l = b -> P l -> length (f l) = m) ->
  row_acts dA dB P f b m (rowwise dA dB f m).
Proof.
  intros Hf sh a W S Hpos HP. unfold rowwise. replace (length (shape a) - 1) with (length sh) by (rewrite S, app_length; cbn; lia).
  eexists. split; [reflexivity|]. split; [apply (along_wf dA dB sh [] b a S)|]. split; [apply (along_shape dA dB sh [] b a S)|].
  intros p Hp. apply (along_line dA dB sh [] b a S); [exact Hp|constructor|]. apply Hf; [apply line_length|apply HP; exact Hp].
Qed.
Lemma row_compose {A B D} (dA : A) (dB : B) (dD : D) (P : list A -> Prop) (Q : list B -> Prop) (f : list A -> list B) (g : list B -> list D)
  (b m c : nat) (F : array A -> option (array B)) (G : array B -> option (array D)) :
  (forall l, length l = b -> P l -> Q (f l)) ->
  row_acts dA dB P f b m F -> row_acts dB dD Q g m c G ->
  row_acts dA dD P (fun l => g (f l)) b c (fun a => match F a with None => None | Some x => G x end).
Proof.
  intros HQ HF HG sh a W S Hpos HP. destruct (HF sh a W S Hpos HP) as (o & E & Wo & So & Lo). rewrite E.
  destruct (HG sh o Wo So Hpos) as (o2 & E2 & W2 & S2 & L2).
  - intros p Hp. rewrite Lo by exact Hp. apply HQ; [apply line_length|apply HP; exact Hp].
  - exists o2. split; [exact E2|]. split; [exact W2|]. split; [exact S2|]. intros p Hp. rewrite L2, Lo by exact Hp. reflexivity.
Qed.

Lemma blocks_In {A} (b : nat) (l x : list A) : In x (blocks b l) <-> exists i, i < length l / b /\ x = firstn b (skipn (i * b) l).
Proof.
  unfold blocks. rewrite in_map_iff. split; intros (i & H1 & H2).
  - apply in_seq in H2. exists i. split; [lia|symmetry; exact H1].
  - exists i. split; [symmetry; exact H2|apply in_seq; lia].
Qed.
Lemma blocks_one {A} (b : nat) (l : list A) : length l = b -> 0 < b -> blocks b l = [l].
Proof. intros H Hb. unfold blocks. rewrite H, Nat.div_same by lia. cbn. rewrite <- H at 1. rewrite firstn_all. reflexivity. Qed.
Lemma blocks_cons {A} (b k : nat) (x l : list A) : 0 < b -> length x = b -> length l = k * b -> blocks b (x ++ l) = x :: blocks b l.
Proof.
  intros Hb Hx Hl. unfold blocks. rewrite app_length, Hx, Hl.
  replace (b + k * b) with (S k * b) by lia. rewrite !Nat.div_mul by lia. cbn [seq map]. f_equal.
  - cbn. rewrite <- Hx. apply firstn_app_exact.
  - rewrite <- seq_shift, map_map. apply map_ext. intros i.
    replace (S i * b) with (length x + i * b) by lia. rewrite skipn_app, skipn_all2 by lia.
    replace (length x + i * b - length x) with (i * b) by lia. reflexivity.
Qed.
Lemma blocks_concat {A} (b : nat) (ll : list (list A)) : 0 < b -> Forall (fun l => length l = b) ll -> blocks b (concat ll) = ll.
Proof.
  intros Hb H. induction H as [|x ll Hx H IH]; [unfold blocks; cbn; rewrite Nat.div_0_l by lia; reflexivity|].
  assert (L : forall r : list (list A), Forall (fun l => length l = b) r -> length (concat r) = length r * b).
  { induction 1; cbn; [reflexivity|]. rewrite app_length. lia. }
  cbn [concat]. rewrite (blocks_cons b (length ll)); [rewrite IH; reflexivity|assumption|assumption|]. apply L. assumption.
Qed.
Lemma concat_blocks {A} (b k : nat) (l : list A) : 0 < b -> length l = k * b -> concat (blocks b l) = l.
Proof.
  intros Hb. revert l. induction k as [|k IH]; intros l H.
  - destruct l; [|discriminate]. unfold blocks. cbn. rewrite Nat.div_0_l by lia. reflexivity.
  - assert (E : firstn b l ++ skipn b l = l) by apply firstn_skipn.
    rewrite <- E at 1. rewrite (blocks_cons b k); [|assumption|rewrite firstn_length; nia|rewrite skipn_length; nia].
    cbn. rewrite IH by (rewrite skipn_length; nia). exact E.
Qed.
Lemma blocks_lengths {A} (b k : nat) (l : list A) : 0 < b -> length l = k * b -> Forall (fun x => length x = b) (blocks b l) /\ length (blocks b l) = k.
Proof.
  intros Hb H. split.
  - apply Forall_forall. intros x Hx. apply blocks_In in Hx as (i & Hi & ->). rewrite H, Nat.div_mul in Hi by lia.
    rewrite firstn_length, skipn_length. nia.
  - unfold blocks. rewrite map_length, seq_length, H, Nat.div_mul by lia. reflexivity.
Qed.

(** The decorator. *)
Theorem blockwise_acts {A B} (dA : A) (dB : B) (P : list A -> Prop) (f : list A -> list B) (b m : nat) (func : array A -> option (array B)) :
  0 < b -> row_acts dA dB P f b m func -> acts_blockwise dA dB P f b m (blockwise b func).
Proof.
  intros Hb HF pre k a W S Hpos Hk HP. pose proof (prod_pos _ Hpos) as Hpp.
  destruct (HF (pre ++ [k]) (Arr (pre ++ [k; b]) (data a))) as (out & E & Wo & So & Lo).
  - apply (split_wf pre k b a Hb Hpp S W).
  - cbn [shape]. rewrite <- app_assoc. reflexivity.
  - apply Forall_app. split; [exact Hpos|]. constructor; [exact Hk|constructor].
  - intros pi Hpi. destruct (valid_block_inv pre k pi Hpi) as (p & i & -> & Hp & Hi).
    specialize (HP p Hp). rewrite (blocks_spec dA pre k b a Hb Hpp S p Hp) in HP. rewrite Forall_forall in HP.
    apply HP. apply in_map_iff. exists i. split; [reflexivity|apply in_seq; lia].
  - destruct (blockwise_merge dB pre k b a Hb Hpp S W func m out E Wo So) as (res & E' & W' & S' & L').
    exists res. split; [exact E'|]. split; [exact W'|]. split; [exact S'|]. intros p Hp.
    rewrite L' by exact Hp. rewrite (blocks_spec dA pre k b a Hb Hpp S p Hp), map_map. f_equal. apply map_ext_in.
    intros i Hi. apply in_seq in Hi. apply Lo. apply valid_block; [exact Hp|lia].
Qed.
(** A blockwise function maps rows of exactly one block by f: it can be used inside another one. *)
Lemma blockwise_row {A B} (dA : A) (dB : B) (P : list A -> Prop) (f : list A -> list B) (b m : nat) (F : array A -> option (array B)) :
  0 < b -> acts_blockwise dA dB P f b m F -> row_acts dA dB P f b m F.
Proof.
  intros Hb HF sh a W S Hpos HP.
  destruct (HF sh 1 a W) as (out & E & Wo & So & Lo).
  - rewrite Nat.mul_1_l. exact S.
  - exact Hpos.
  - lia.
  - intros p Hp. rewrite Nat.mul_1_l. rewrite blocks_one by (try apply line_length; assumption). constructor; [apply HP; exact Hp|constructor].
  - rewrite Nat.mul_1_l in So. exists out. split; [exact E|]. split; [exact Wo|]. split; [exact So|]. intros p Hp.
    specialize (Lo p Hp). rewrite !Nat.mul_1_l in Lo. rewrite Lo, blocks_one by (try apply line_length; assumption). cbn. apply app_nil_r.
Qed.
(** wrong last dimension *)
Lemma blockwise_rejects {A B} (b : nat) (func : array A -> option (array B)) (a : array A) (pre : list nat) (n : nat) :
  shape a = pre ++ [n] -> n mod b <> 0 -> blockwise b func a = None.
Proof.
  intros S H. unfold blockwise. rewrite S, rev_app_distr. cbn [rev app]. destruct (Nat.eqb_spec b 0); [reflexivity|].
  destruct (Nat.eqb_spec (n mod b) 0); [lia|]. reflexivity.
Qed.
Lemma blockwise_scalar {A B} (b : nat) (func : array A -> option (array B)) (a : array A) : shape a = [] -> blockwise b func a = None.
Proof. intros S. unfold blockwise. rewrite S. reflexivity. Qed.
(** composition of blockwise functions, and the identity *)
Lemma acts_compose {A B D} (dA : A) (dB : B) (dD : D) (P : list A -> Prop) (Q : list B -> Prop) (f : list A -> list B) (g : list B -> list D)
  (b m c : nat) (F : array A -> option (array B)) (G : array B -> option (array D)) : 0 < b -> 0 < m ->
  (forall l, length l = b -> P l -> length (f l) = m /\ Q (f l)) ->
  acts_blockwise dA dB P f b m F -> acts_blockwise dB dD Q g m c G ->
  acts_blockwise dA dD P (fun l => g (f l)) b c (fun a => match F a with None => None | Some x => G x end).
Proof.
  intros Hb Hm HQ HF HG pre k a W S Hpos Hk HP. destruct (HF pre k a W S Hpos Hk HP) as (o & E & Wo & So & Lo). rewrite E.
  assert (K : forall p, valid_index pre p -> blocks m (line dB o (k * m) p []) = map f (blocks b (line dA a (k * b) p []))).
  { intros p Hp. rewrite Lo by exact Hp. apply blocks_concat; [exact Hm|]. apply Forall_map.
    destruct (blocks_lengths b k (line dA a (k * b) p []) Hb (line_length _ _ _ _ _)) as [BL _].
    specialize (HP p Hp). rewrite Forall_forall in *. intros x Hx. apply HQ; auto. }
  destruct (HG pre k o Wo So Hpos Hk) as (o2 & E2 & W2 & S2 & L2).
  - intros p Hp. rewrite K by exact Hp. apply Forall_map.
    destruct (blocks_lengths b k (line dA a (k * b) p []) Hb (line_length _ _ _ _ _)) as [BL _].
    specialize (HP p Hp). rewrite Forall_forall in *. intros x Hx. apply HQ; auto.
  - exists o2. split; [exact E2|]. split; [exact W2|]. split; [exact S2|]. intros p Hp. rewrite L2, K, map_map by exact Hp. reflexivity.
Qed.
Lemma acts_identity {A} (d : A) (P : list A -> Prop) (f : list A -> list A) (b : nat) (F : array A -> option (array A))
  (pre : list nat) (k : nat) (a : array A) : 0 < b ->
  acts_blockwise d d P f b b F -> (forall l, length l = b -> P l -> f l = l) ->
  well_formed a -> shape a = pre ++ [k * b] -> Forall (lt 0) pre -> 0 < k -> all_blocks d P b k pre a ->
  F a = Some a.
Proof.
  intros Hb HF Hf W S Hpos Hk HP. destruct (HF pre k a W S Hpos Hk HP) as (o & E & Wo & So & Lo). rewrite E. f_equal.
  apply (array_ext d); [exact Wo|exact W|congruence|].
  intros idx V. rewrite So in V. destruct (Forall2_app_inv_r pre [k * b] V) as (p & q & Hp & Hq & ->).
  inversion Hq as [|j y q' l' Hj Hq']; subst. inversion Hq'; subst. specialize (Lo p Hp).
  rewrite (map_ext_in f (fun l => l)), map_id, (concat_blocks b k) in Lo; [|exact Hb|apply line_length|].
  - apply (f_equal (fun l => nth j l d)) in Lo. unfold line in Lo. rewrite !nth_map_seq in Lo by exact Hj. exact Lo.
  - intros x Hx. specialize (HP p Hp). rewrite Forall_forall in HP. apply Hf; [|apply HP; exact Hx].
    destruct (blocks_lengths b k (line d a (k * b) p []) Hb (line_length _ _ _ _ _)) as [BL _]. rewrite Forall_forall in BL. auto.
Qed.
Lemma is_axis_norm {A} (a : array A) (pre post : list nat) (n : nat) (axis : Z) : shape a = pre ++ n :: post -> is_axis axis pre post ->
  norm_axis (length (shape a)) axis = Some (length pre).
Proof.
  intros E H. unfold is_axis in H. unfold norm_axis. rewrite E, app_length. cbn [length].
  destruct (Z.leb_spec (- Z.of_nat (length pre + S (length post))) axis); [|lia].
  destruct (Z.ltb_spec axis (Z.of_nat (length pre + S (length post)))); [|lia]. cbn [andb]. f_equal. destruct (Z.ltb_spec axis 0); lia.
Qed.
Lemma index_split (pre post idx : list nat) (n : nat) : valid_index (pre ++ n :: post) idx ->
  exists p k q, idx = p ++ k :: q /\ valid_index pre p /\ k < n /\ valid_index post q.
Proof.
  intros V. destruct (Forall2_app_inv_r pre (n :: post) V) as (p & q' & Hp & Hq & ->). inversion Hq as [|j y q'' l' Hj Hq']; subst.
  exists p, j, q''. auto.
Qed.
Lemma nth_line {A} (d : A) (a : array A) (n k : nat) (p q : list nat) : k < n -> nth k (line d a n p q) d = get d a (p ++ k :: q).
Proof. intros H. unfold line. rewrite nth_map_seq by exact H. reflexivity. Qed.
