(** Proofs for C106: lifting of partial functions, and recovery of arrays of messages. *)
From Verif Require Import Common Vec_Model Array_Model Array_Spec Array_Proof Array_Lift NdMaps_Model NdMaps_Proof DecodersNd_Model DecodersNd_Spec.
Local Open Scope nat_scope.

Definition total {A B} (f : list A -> option (list B)) (l : list A) : list B := match f l with Some r => r | None => [] end.
Lemma vectorize_some {A B} (dA : A) (dB : B) (f : list A -> option (list B)) (b m : nat) :
  (forall l r, length l = b -> f l = Some r -> length r = m) ->
  row_acts dA dB (fun l => f l <> None) (total f) b m (vectorize dA dB f).
Proof.
  intros Hf sh a W S Hpos HP. unfold vectorize.
  destruct (apply_ok dA dB sh [] b a S f (-1) m) as (out & E & Wo & So & Lo).
  - apply norm_axis_last with b. exact S.
  - pose proof (prod_pos _ Hpos). unfold prod at 2. cbn. lia.
  - intros p q Hp Hq. inversion Hq; subst. specialize (HP p Hp). destruct (f (line dA a b p [])) as [r|] eqn:Er; [|congruence].
    exists r. split; [reflexivity|]. apply (Hf _ _ (line_length _ _ _ _ _) Er).
  - exists out. split; [exact E|]. split; [exact Wo|]. split; [exact So|]. intros p Hp.
    specialize (Lo p [] Hp (Forall2_nil _)). unfold total. rewrite Lo. reflexivity.
Qed.
Lemma vectorize_none {A B} (dA : A) (dB : B) (f : list A -> option (list B)) sh b (a : array A) p :
  well_formed a -> shape a = sh ++ [b] -> valid_index sh p -> f (line dA a b p []) = None -> vectorize dA dB f a = None.
Proof.
  intros W S Hp Hf. unfold vectorize, apply_along_axis. rewrite (norm_axis_last a sh b S). unfold outer_of, inner_of.
  rewrite (sh_first sh [] b a S), (sh_skip sh [] b a S), (sh_nth sh [] b a S). change (prod []) with 1. cbn [seq map].
  pose proof (ravel_lt _ _ Hp) as R.
  replace (flat_map (fun o => [f (flat_line dA b 1 (data a) o 0)]) (seq 0 (prod sh)))
    with (map (fun o => f (flat_line dA b 1 (data a) o 0)) (seq 0 (prod sh))).
  - rewrite (sequence_none (fun o => f (flat_line dA b 1 (data a) o 0)) (seq 0 (prod sh)) (ravel sh p)); [reflexivity|apply in_seq; lia|].
    rewrite <- Hf. f_equal. exact (flat_line_spec dA sh [] b a S p [] Hp (Forall2_nil _)).
  - generalize (seq 0 (prod sh)). intros l. induction l as [|o l IH]; [reflexivity|]. cbn. rewrite IH. reflexivity.
Qed.
Lemma none_dec {A B} (f : list A -> option (list B)) (l : list (list A)) : {Forall (fun r => f r <> None) l} + {exists r, In r l /\ f r = None}.
Proof.
  induction l as [|r l [IH|IH]]; [left; constructor| |].
  - destruct (f r) eqn:E; [left; constructor; [congruence|exact IH]|right; exists r; split; [left; reflexivity|exact E]].
  - right. destruct IH as (x & Hx & Ex). exists x. split; [right; exact Hx|exact Ex].
Qed.

Theorem lifted_maps {A B} (dA : A) (dB : B) (f : list A -> option (list B)) (b m : nat) : 0 < b -> 0 < m ->
  (forall l r, length l = b -> f l = Some r -> length r = m) -> maps_blocks dA dB f b m (lifted dA dB b f).
Proof.
  intros Hb Hm Hf pre k a W S Hpos Hk. pose proof (prod_pos _ Hpos) as Hpp. unfold lifted.
  pose proof (split_wf pre k b a Hb Hpp S W) as Ws. set (sp := Arr (pre ++ [k; b]) (data a)) in *.
  assert (Ss : shape sp = (pre ++ [k]) ++ [b]) by (cbn [shape sp]; rewrite <- app_assoc; reflexivity).
  assert (Row : forall p, valid_index pre p -> blocks b (line dA a (k * b) p []) = map (fun i => line dA sp b (p ++ [i]) []) (seq 0 k)).
  { intros p Hp. exact (blocks_spec dA pre k b a Hb Hpp S p Hp). }
  destruct (none_dec f (rows (pre ++ [k]) b sp)) as [F|F].
  - assert (HP : all_blocks dA (fun l => f l <> None) b k pre a).
    { intros p Hp. rewrite (Row p Hp). apply Forall_forall. intros r Hr. apply in_map_iff in Hr as (i & <- & Hi). apply in_seq in Hi.
      assert (V : valid_index (pre ++ [k]) (p ++ [i])) by (apply valid_block; [exact Hp|lia]).
      rewrite (line_row dA sp (pre ++ [k]) b (p ++ [i]) Ws Ss V). rewrite Forall_forall in F. apply F, nth_In.
      rewrite rows_length. apply ravel_lt. exact V. }
    destruct (blockwise_acts dA dB _ _ b m _ Hb (vectorize_some dA dB f b m Hf) pre k a W S Hpos Hk HP) as (out & E & Wo & So & Lo).
    rewrite E. split; [exact Wo|]. split; [exact So|]. intros p Hp. rewrite (Lo p Hp).
    specialize (HP p Hp). destruct (blocks_lengths b k (line dA a (k * b) p []) Hb (line_length _ _ _ _ _)) as [BL _].
    rewrite blocks_concat; [|exact Hm|].
    + rewrite map_map. apply map_ext_in. intros r Hr. rewrite Forall_forall in HP. specialize (HP r Hr). unfold total. destruct (f r); congruence.
    + apply Forall_map. rewrite Forall_forall in *. intros r Hr. specialize (HP r Hr). unfold total. destruct (f r) eqn:E'; [|congruence]. eapply Hf; eauto.
  - destruct F as (r & Hr & Er). apply (In_nth _ _ []) in Hr as (x & Hx & Ex). rewrite rows_length in Hx. destruct (unravel _ _ Hx) as (pi & Hpi & Epi).
    assert (El : line dA sp b pi [] = r) by (rewrite (line_row dA sp (pre ++ [k]) b pi Ws Ss Hpi), Epi; exact Ex).
    rewrite (blockwise_unfold pre k b a Hb Hpp S W). fold sp.
    rewrite (vectorize_none dA dB f (pre ++ [k]) b sp pi Ws Ss Hpi) by (rewrite El; exact Er).
    destruct (valid_block_inv pre k pi Hpi) as (p & i & -> & Hp & Hi). exists p, r. split; [exact Hp|]. split; [|exact Er].
    rewrite (Row p Hp). apply in_map_iff. exists i. split; [exact El|apply in_seq; lia].
Qed.
Lemma maps_acts {A B} (dA : A) (dB : B) (P : list A -> Prop) (f : list A -> option (list B)) (g : list A -> list B) (b m : nat) F : 0 < b -> 0 < m ->
  maps_blocks dA dB f b m F -> (forall l, length l = b -> P l -> f l = Some (g l)) -> acts_blockwise dA dB P g b m F.
Proof.
  intros Hb Hm MF HP pre k a W S Hpos Hk HA. specialize (MF pre k a W S Hpos Hk).
  assert (BL : forall p r, In r (blocks b (line dA a (k * b) p [])) -> length r = b).
  { intros p r Hr. destruct (blocks_lengths b k (line dA a (k * b) p []) Hb (line_length _ _ _ _ _)) as [H _]. rewrite Forall_forall in H. apply H, Hr. }
  destruct (F a) as [out|].
  - destruct MF as (Wo & So & Lo). exists out. split; [reflexivity|]. split; [exact Wo|]. split; [exact So|]. intros p Hp. specialize (Lo p Hp).
    specialize (HA p Hp). rewrite Forall_forall in HA.
    rewrite (map_ext_in _ (fun l => Some (g l))) in Lo by (intros r Hr; apply HP; [exact (BL p r Hr)|apply HA; exact Hr]).
    rewrite <- map_map in Lo. assert (E : map g (blocks b (line dA a (k * b) p [])) = blocks m (line dB out (k * m) p [])).
    { revert Lo. generalize (map g (blocks b (line dA a (k * b) p []))) (blocks m (line dB out (k * m) p [])). clear.
      induction l as [|x l IH]; intros [|y l'] E; try discriminate; [reflexivity|]. injection E as -> E. f_equal. apply IH, E. }
    rewrite E. symmetry. apply (concat_blocks m k); [exact Hm|apply line_length].
  - destruct MF as (p & r & Hp & Hr & Er). exfalso. specialize (HA p Hp). rewrite Forall_forall in HA. rewrite (HP r (BL p r Hr) (HA r Hr)) in Er. discriminate.
Qed.

(** Recovery, from a property of single blocks. *)
Theorem recovers_intro {A} (dA : A) (k n : nat) (reception : vec -> list A -> Prop) (f : vec -> vec) (g : list A -> vec) encode decode : 0 < k -> 0 < n ->
  (forall u, length u = k -> length (f u) = n) ->
  acts_blockwise false false (fun _ => True) f k n encode ->
  acts_blockwise dA false (fun r => exists u, length u = k /\ reception (f u) r) g n k decode ->
  (forall u r, length u = k -> length r = n -> reception (f u) r -> g r = u) ->
  recovers dA k n reception encode decode.
Proof.
  intros Hk Hn Lf AE AD HG pre m a W S Hpos Hm.
  destruct (AE pre m a W S Hpos Hm) as (v & Ev & Wv & Sv & Lv); [intros p _; apply Forall_forall; intros; exact Logic.I|].
  exists v. split; [exact Ev|]. split; [exact Wv|]. split; [exact Sv|]. intros r Wr Sr HR.
  assert (BU : forall p, Forall (fun x => length x = k) (blocks k (line false a (m * k) p []))).
  { intros p. exact (proj1 (blocks_lengths k m (line false a (m * k) p []) Hk (line_length _ _ _ _ _))). }
  assert (BR : forall p, Forall (fun x => length x = n) (blocks n (line dA r (m * n) p []))).
  { intros p. exact (proj1 (blocks_lengths n m (line dA r (m * n) p []) Hn (line_length _ _ _ _ _))). }
  assert (K : forall p, valid_index pre p -> Forall2 (fun u x => length u = k /\ length x = n /\ reception (f u) x) (blocks k (line false a (m * k) p [])) (blocks n (line dA r (m * n) p []))).
  { intros p Hp. specialize (HR p Hp). rewrite (Lv p Hp), blocks_concat in HR; [|exact Hn|apply Forall_map; eapply Forall_impl; [|apply BU]; cbn; auto].
    pose proof (BU p) as B1. pose proof (BR p) as B2. revert HR B1 B2. clear.
    generalize (blocks k (line false a (m * k) p [])) as us, (blocks n (line dA r (m * n) p [])) as rs. induction us as [|u us IH]; intros rs HR B1 B2.
    - inversion HR. constructor.
    - cbn [map] in HR. inversion HR as [|x y us' rs' Hx HR']; subst. inversion B1; inversion B2; subst. constructor; [auto|]. apply IH; assumption. }
  destruct (AD pre m r Wr Sr Hpos Hm) as (o & Eo & Wo & So & Lo).
  { intros p Hp. specialize (K p Hp). revert K. generalize (blocks k (line false a (m * k) p [])) as us, (blocks n (line dA r (m * n) p [])) as rs. clear.
    induction 1 as [|u x us rs (H1 & _ & H2) _ IH]; constructor; [exists u; auto|exact IH]. }
  rewrite Eo. f_equal. apply (array_ext false); [exact Wo|exact W|congruence|].
  intros idx V. rewrite So in V. destruct (index_split pre [] idx (m * k) V) as (p & j & q & -> & Hp & Hj & Hq). inversion Hq; subst q.
  specialize (Lo p Hp). assert (E : map g (blocks n (line dA r (m * n) p [])) = blocks k (line false a (m * k) p [])).
  { specialize (K p Hp). revert K HG. generalize (blocks k (line false a (m * k) p [])) as us, (blocks n (line dA r (m * n) p [])) as rs. clear.
    induction 1 as [|u x us rs (H1 & H3 & H2) _ IH]; intros HG; [reflexivity|]. cbn [map]. rewrite (HG u x H1 H3 H2), IH by exact HG. reflexivity. }
  rewrite E, (concat_blocks k m) in Lo; [|exact Hk|apply line_length].
  apply (f_equal (fun l => nth j l false)) in Lo. rewrite !nth_line in Lo by exact Hj. exact Lo.
Qed.

(** a ufunc applied to the whole output *)
Lemma line_elementwise {A B} (dA : A) (dB : B) (h : A -> B) pre n (a : array A) p : well_formed a -> shape a = pre ++ [n] -> valid_index pre p ->
  line dB (elementwise h a) n p [] = map h (line dA a n p []).
Proof.
  intros W S Hp. assert (W' : well_formed (elementwise h a)) by (unfold well_formed, elementwise; cbn [shape data]; rewrite map_length; exact W).
  rewrite (line_row dB (elementwise h a) pre n p W' S Hp), (line_row dA a pre n p W S Hp). unfold rows, elementwise. cbn [data].
  pose proof (ravel_lt _ _ Hp) as R. set (x := ravel pre p) in *.
  rewrite !nth_map_seq by exact R. rewrite skipn_map, firstn_map. reflexivity.
Qed.
Lemma maps_elementwise {A B D} (dA : A) (dB : B) (dD : D) (h : B -> D) f b m F : 0 < m ->
  maps_blocks dA dB f b m F -> maps_blocks dA dD (fun l => option_map (map h) (f l)) b m (fun a => option_map (elementwise h) (F a)).
Proof.
  intros Hm MF pre k a W S Hpos Hk. specialize (MF pre k a W S Hpos Hk). destruct (F a) as [out|]; cbn [option_map].
  - destruct MF as (Wo & So & Lo). split; [unfold well_formed, elementwise; cbn [shape data]; rewrite map_length; exact Wo|]. split; [exact So|].
    intros p Hp. specialize (Lo p Hp). rewrite (line_elementwise dB dD h pre (k * m) out p Wo So Hp).
    rewrite <- (map_map f (option_map (map h))), Lo. rewrite map_map. unfold Array_Spec.blocks. rewrite map_map, map_map, map_length. apply map_ext. intros i.
    cbn [option_map]. rewrite skipn_map, firstn_map. reflexivity.
  - destruct MF as (p & r & Hp & Hr & Er). exists p, r. split; [exact Hp|]. split; [exact Hr|]. rewrite Er. reflexivity.
Qed.
(** recovery from a decoder that maps blocks *)
Theorem recovers_of_maps {A} (dA : A) (k n : nat) (reception : vec -> list A -> Prop) (f : vec -> vec) (g : list A -> option vec) encode decode : 0 < k -> 0 < n ->
  (forall u, length u = k -> length (f u) = n) ->
  acts_blockwise false false (fun _ => True) f k n encode ->
  maps_blocks dA false g n k decode ->
  (forall u r, length u = k -> length r = n -> reception (f u) r -> g r = Some u) ->
  recovers dA k n reception encode decode.
Proof.
  intros Hk Hn Lf AE MD HG. apply (recovers_intro dA k n reception f (total g)); [exact Hk|exact Hn|exact Lf|exact AE| |].
  - apply (maps_acts dA false _ g (total g) n k decode Hn Hk MD). intros l Ll (u & Lu & Hu). unfold total. rewrite (HG u l Lu Ll Hu). reflexivity.
  - intros u r Lu Lr Hr. unfold total. rewrite (HG u r Lu Lr Hr). reflexivity.
Qed.
