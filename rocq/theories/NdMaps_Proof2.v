From Verif Require Import Common Labeling_Model Labeling_Proof Conv_Model Array_Model Array_Spec Array_Proof Array_Lift NdMaps_Spec NdMaps_Model NdMaps_Proof.
Local Open Scope nat_scope.

Lemma forallb_concat {A} (q : A -> bool) (rs : list (list A)) : forallb q (concat rs) = forallb (forallb q) rs.
Proof. induction rs as [|r rs IH]; [reflexivity|]. cbn. rewrite forallb_app, IH. reflexivity. Qed.
Lemma forallb_false {A} (q : A -> bool) (l : list A) : forallb q l = false -> exists x, In x l /\ q x = false.
Proof.
  induction l as [|x l IH]; [discriminate|]. cbn. destruct (q x) eqn:E; [|exists x; auto]. intros H. destruct (IH H) as (y & Hy & Ey). exists y. auto.
Qed.
Lemma flat_map_concat {A B} (h : A -> list B) (rs : list (list A)) : flat_map h (concat rs) = concat (map (flat_map h) rs).
Proof. induction rs as [|r rs IH]; [reflexivity|]. cbn. rewrite flat_map_app, IH. reflexivity. Qed.
Lemma flat_map_length_m {A B} (h : A -> list B) m (l : list A) : (forall x, In x l -> length (h x) = m) -> length (flat_map h l) = length l * m.
Proof. induction l as [|x l IH]; intros H; [reflexivity|]. cbn. rewrite app_length, H, IH by (intros; try apply H; cbn; auto). reflexivity. Qed.

(** checked look-ups, element by element *)
Lemma lifts_checked {A B} (dA : A) (dB : B) (q : A -> bool) (h : A -> list B) (m : nat) (f : list A -> option (list B)) (F : array A -> option (array B)) :
  (forall x, q x = true -> length (h x) = m) ->
  (forall l, f l = if forallb q l then Some (flat_map h l) else None) ->
  (forall a, F a = if forallb q (data a) then reshape_like (shape a) (Arr (shape a ++ [m]) (flat_map h (data a))) else None) ->
  lifts dA dB f F.
Proof.
  intros Hh Hf HF. apply lifts_intro with (outlen := fun n => n * m).
  - intros l r E. rewrite Hf in E. destruct (forallb q l) eqn:Q; [|discriminate]. injection E as <-. apply flat_map_length_m.
    intros x Hx. apply Hh. rewrite forallb_forall in Q. auto.
  - intros pre n a W S Hpos. rewrite HF. destruct (data_rows a pre n W S) as [D FR].
    assert (E : forallb q (data a) = forallb (forallb q) (rows pre n a)) by (rewrite D at 1; apply forallb_concat).
    destruct (forallb q (data a)) eqn:Q.
    + symmetry in E. rewrite forallb_forall in E. rewrite (map_ext_in f (fun l => Some (flat_map h l))) by (intros r Hr; rewrite Hf, E by exact Hr; reflexivity).
      rewrite sequence_map_some. cbn [option_map]. unfold reshape_like. rewrite D at 1. rewrite flat_map_concat.
      apply reshape_pre with (n := n); [exact Hpos| |exact S]. rewrite <- flat_map_concat, <- D.
      rewrite (flat_map_length_m h m) by (intros x Hx; apply Hh; rewrite forallb_forall in Q; auto).
      unfold well_formed in W. rewrite W, S, prod_app. unfold prod at 2. cbn. lia.
    + symmetry in E. apply forallb_false in E as (r & Hr & Er).
      rewrite (sequence_none f _ r Hr); [reflexivity|]. rewrite Hf, Er. reflexivity.
Qed.
(** ufuncs *)
Lemma lifts_elementwise {A B} (dA : A) (dB : B) (h : A -> B) : lifts dA dB (fun l => Some (map h l)) (fun a => Some (elementwise h a)).
Proof.
  apply lifts_intro with (outlen := fun n => n).
  - intros l r E. injection E as <-. apply map_length.
  - intros pre n a W S Hpos. destruct (data_rows a pre n W S) as [D FR]. rewrite sequence_map_some. cbn [option_map].
    unfold elementwise. rewrite S. do 2 f_equal. rewrite D at 1. apply concat_map.
Qed.
Lemma lifts_compose {A B D} (dA : A) (dB : B) (dD : D) (f : list A -> option (list B)) (g : list B -> option (list D)) F G :
  lifts dA dB f F -> lifts dB dD g G ->
  lifts dA dD (fun l => match f l with None => None | Some r => g r end) (fun a => match F a with None => None | Some b => G b end).
Proof.
  intros HF HG pre n a W S Hpos. specialize (HF pre n a W S Hpos). destruct (F a) as [o|].
  - destruct HF as (Wo & m & So & Lo). specialize (HG pre m o Wo So Hpos). destruct (G o) as [out|].
    + destruct HG as (Wu & m2 & Su & Lu). split; [exact Wu|]. exists m2. split; [exact Su|]. intros p Hp. rewrite Lo by exact Hp. apply Lu. exact Hp.
    + destruct HG as (p & Hp & E). exists p. split; [exact Hp|]. rewrite Lo by exact Hp. exact E.
  - destruct HF as (p & Hp & E). exists p. split; [exact Hp|]. rewrite E. reflexivity.
Qed.
Lemma lifts_ext {A B} (dA : A) (dB : B) f f' F F' : (forall l, f l = f' l) ->
  (forall pre n a, well_formed a -> shape a = pre ++ [n] -> Forall (lt 0) pre -> F a = F' a) -> lifts dA dB f F -> lifts dA dB f' F'.
Proof.
  intros Hf HF H pre n a W S Hpos. specialize (H pre n a W S Hpos). rewrite <- (HF pre n a W S Hpos). destruct (F a) as [o|].
  - destruct H as (Wo & m & So & Lo). split; [exact Wo|]. exists m. split; [exact So|]. intros p Hp. rewrite <- Hf. apply Lo. exact Hp.
  - destruct H as (p & Hp & E). exists p. split; [exact Hp|]. rewrite <- Hf. exact E.
Qed.

(** block by block, with or without a check of the last dimension; [eb]: no block at all is an error *)
Lemma lifts_blocks {A B} (dA : A) (dB : B) (b m : nat) (eb chk : bool) (g : list A -> option (list B)) (f : list A -> option (list B)) (F : array A -> option (array B)) :
  0 < b -> (forall l r, length l = b -> g l = Some r -> length r = m) -> (chk = false -> m = 1) ->
  (forall l, f l = if negb (length l mod b =? 0) then None else if eb && (length l / b =? 0) then None
                   else option_map (@concat B) (sequence (map g (reshape b l)))) ->
  (forall pre n a, well_formed a -> shape a = pre ++ [n] -> Forall (lt 0) pre ->
     F a = if chk && negb (n mod b =? 0) then None else if negb (length (data a) mod b =? 0) then None
           else if eb && (length (data a) / b =? 0) then None
           else match sequence (map g (reshape b (data a))) with
                | None => None
                | Some rs => reshape_auto pre [] (Arr [] (concat rs))
                end) ->
  lifts dA dB f F.
Proof.
  intros Hb Hg Hchk Hf HF.
  assert (SL : forall l rs, length l mod b = 0 -> sequence (map g (reshape b l)) = Some rs -> length (concat rs) = length l / b * m).
  { intros l rs Hl E. apply sequence_spec in E. apply Nat.mod_divides in Hl as [k Hk]; [|lia].
    assert (Lk : length l = k * b) by lia. rewrite Lk, Nat.div_mul by lia.
    destruct (concat_chunks b k l Lk) as (_ & C2 & C3). rewrite reshape_chunks, Lk, Nat.div_mul in E by lia.
    assert (FM : Forall (fun r => length r = m) rs).
    { apply Forall_forall. intros r Hr. apply (in_map Some) in Hr. rewrite <- E in Hr. apply in_map_iff in Hr as (c & Ec & Hc).
      rewrite Forall_forall in C2. exact (Hg c r (C2 c Hc) Ec). }
    rewrite (concat_length_m m) by exact FM. f_equal. apply (f_equal (@length _)) in E. rewrite !map_length in E. lia. }
  apply lifts_intro with (outlen := fun n => n / b * m).
  - intros l r E. rewrite Hf in E. destruct (Nat.eqb_spec (length l mod b) 0) as [Hm|]; [|discriminate]. cbn [negb] in E.
    destruct (eb && (length l / b =? 0)); [discriminate|].
    destruct (sequence (map g (reshape b l))) as [rs|] eqn:Es; [|discriminate]. injection E as <-. exact (SL l rs Hm Es).
  - intros pre n a W S Hpos. rewrite (HF pre n a W S Hpos). destruct (data_rows a pre n W S) as [D FR]. pose proof (prod_pos _ Hpos) as PP.
    assert (DL : length (data a) = prod pre * n) by (unfold well_formed in W; rewrite W, S, prod_app; unfold prod at 2; cbn; lia).
    destruct (rows_nonempty pre n a Hpos) as (r0 & Hr0).
    assert (Lr : forall r, In r (rows pre n a) -> length r = n) by (rewrite Forall_forall in FR; exact FR).
    destruct (Nat.eqb_spec (n mod b) 0) as [Hn|Hn]; cbn [negb].
    + rewrite andb_false_r. assert (Hd : length (data a) mod b = 0).
      { rewrite DL. apply Nat.mod_divides in Hn as [k ->]; [|lia]. replace (prod pre * (b * k)) with (prod pre * k * b) by lia. apply Nat.mod_mul. lia. }
      rewrite Hd. cbn [Nat.eqb negb].
      assert (Dv : length (data a) / b = prod pre * (n / b)).
      { rewrite DL. apply Nat.mod_divides in Hn as [k ->]; [|lia]. replace (prod pre * (b * k)) with (prod pre * k * b) by lia.
        rewrite (Nat.mul_comm b k), !Nat.div_mul by lia. reflexivity. }
      assert (Hf' : forall r, In r (rows pre n a) -> f r = if eb && (n / b =? 0) then None else option_map (@concat B) (sequence (map g (reshape b r)))).
      { intros r Hr. rewrite Hf, (Lr r Hr), Hn. reflexivity. }
      destruct (eb && (n / b =? 0)) eqn:Ee.
      * apply andb_true_iff in Ee as [-> E0]. apply Nat.eqb_eq in E0. rewrite Dv, E0, Nat.mul_0_r. cbn [Nat.eqb andb].
        rewrite (sequence_none f _ r0 Hr0 (Hf' r0 Hr0)). reflexivity.
      * replace (eb && (length (data a) / b =? 0)) with false.
        2: { symmetry. apply andb_false_iff in Ee as [->|E0]; [reflexivity|]. apply Nat.eqb_neq in E0. rewrite Dv.
             destruct (Nat.eqb_spec (prod pre * (n / b)) 0) as [Z|]; [apply Nat.eq_mul_0 in Z; destruct Z; [rewrite H in PP; inversion PP|contradiction]|apply andb_false_r]. }
        assert (E : sequence (map g (reshape b (data a))) = option_map (@concat _) (sequence (map (fun l => sequence (map g (reshape b l))) (rows pre n a)))).
        { rewrite D at 1. rewrite (reshape_rows_concat b n) by assumption. rewrite sequence_concat, map_map. reflexivity. }
        rewrite E. rewrite (map_ext_in f (fun l => option_map (@concat B) (sequence (map g (reshape b l))))) by exact Hf'.
        assert (E' : forall (ls : list (list A)), sequence (map (fun l => option_map (@concat B) (sequence (map g (reshape b l)))) ls) =
                       option_map (map (@concat B)) (sequence (map (fun l => sequence (map g (reshape b l))) ls))).
        { intros ls. induction ls as [|l ls IH]; [reflexivity|]. cbn [map sequence]. destruct (sequence (map g (reshape b l))); cbn [option_map]; [|reflexivity].
          rewrite IH. destruct (sequence (map (fun l1 => sequence (map g (reshape b l1))) ls)); reflexivity. }
        rewrite E'. destruct (sequence (map (fun l => sequence (map g (reshape b l))) (rows pre n a))) as [rss|] eqn:Es; cbn [option_map]; [|reflexivity].
        cbn [option_map] in E. pose proof (SL (data a) _ Hd E) as L. rewrite Dv in L.
        assert (CC : concat (concat rss) = concat (map (@concat B) rss)) by (clear; induction rss as [|x rss IH]; [reflexivity|]; cbn; rewrite concat_app, IH; reflexivity).
        rewrite <- CC. apply reshape_auto_ok; [change (prod []) with 1; lia|]. cbn [data]. rewrite L. change (prod []) with 1. ring.
    + rewrite (sequence_none f _ r0 Hr0) by (rewrite Hf, (Lr r0 Hr0); destruct (Nat.eqb_spec (n mod b) 0); [contradiction|reflexivity]). cbn [option_map].
      destruct chk; [reflexivity|]. cbn [andb]. destruct (Nat.eqb_spec (length (data a) mod b) 0) as [Hd|]; [|reflexivity]. cbn [negb].
      destruct (eb && (length (data a) / b =? 0)); [reflexivity|]. destruct (sequence (map g (reshape b (data a)))) as [rs|] eqn:Es; [|reflexivity].
      pose proof (SL (data a) rs Hd Es) as L. rewrite (Hchk eq_refl), Nat.mul_1_r in L.
      rewrite <- (removelast_last pre 0). apply reshape_pre_none with (pre := pre) (n := 0); [|reflexivity].
      rewrite L, DL. intros Z. apply Hn. rewrite DL in Hd. exact (flat_divides (prod pre) n b PP Hb Hd Z).
Qed.

(** two-dimensional views *)
Lemma chunks_pieces {A} b : forall k (l : list A), chunks k b l = map (fun i => firstn b (skipn (i * b) l)) (seq 0 k).
Proof.
  induction k as [|k IH]; intros l; [reflexivity|]. cbn [chunks seq map]. rewrite Nat.mul_0_l. f_equal. rewrite IH, <- seq_shift, map_map.
  apply map_ext. intros i. rewrite skipn_skipn. do 2 f_equal. lia.
Qed.
Lemma rows_split {A} (sh : list nat) b (l : list A) : 0 < b -> length l = prod sh * b -> rows sh b (Arr (sh ++ [b]) l) = reshape b l.
Proof. intros Hb L. rewrite reshape_chunks, L, Nat.div_mul, chunks_pieces by lia. reflexivity. Qed.
Lemma rowwise_rows {A B} (dA : A) (dB : B) (f : list A -> list B) m sh b (a : array A) : well_formed a -> shape a = sh ++ [b] ->
  (forall r, length r = b -> length (f r) = m) ->
  rowwise dA dB f m a = Some (Arr (sh ++ [m]) (concat (map f (rows sh b a)))).
Proof.
  intros W S Hf. unfold rowwise. replace (length (shape a) - 1) with (length sh) by (rewrite S, app_length; cbn; lia). f_equal.
  set (out := along dA dB f m (length sh) a).
  assert (So : shape out = sh ++ [m]) by (apply (along_shape dA dB sh [] b a S)).
  assert (Wo : well_formed out) by (apply (along_wf dA dB sh [] b a S)).
  destruct (data_rows out sh m Wo So) as [D _]. destruct out as [s d] eqn:Eo. cbn [shape] in So. subst s. f_equal. cbn [data] in D. rewrite D. f_equal.
  apply (list_ext []); [rewrite map_length, !rows_length; reflexivity|]. intros i Hi. rewrite rows_length in Hi.
  destruct (unravel _ _ Hi) as (p & Hp & <-). rewrite <- (line_row dB _ sh m p Wo eq_refl Hp).
  destruct (data_rows a sh b W S) as [_ FR].
  rewrite (nth_indep _ [] (f [])), map_nth by (rewrite map_length, rows_length; exact Hi). rewrite <- (line_row dA a sh b p W S Hp).
  pose proof (along_line dA dB sh [] b a S f m p [] Hp (Forall2_nil _)) as Q. fold out in Q. rewrite Eo in Q. apply Q. apply Hf. apply line_length.
Qed.
Lemma concat_singles {A} (l : list A) : concat (map (fun x => [x]) l) = l.
Proof. induction l as [|x l IH]; [reflexivity|]. cbn. rewrite IH. reflexivity. Qed.
Lemma sequence_singles {A B} (g : A -> option B) (l : list A) :
  sequence (map (fun x => option_map (fun y => [y]) (g x)) l) = option_map (map (fun y => [y])) (sequence (map g l)).
Proof. induction l as [|x l IH]; [reflexivity|]. cbn [map sequence]. destruct (g x); cbn [option_map]; [|reflexivity]. rewrite IH. destruct (sequence (map g l)); reflexivity. Qed.
