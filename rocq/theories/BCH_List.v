(* List-level facts about the Berlekamp model: row selection, slice assignment, bincount. *)
From Verif Require Import Common Bits_Model BinPoly_Model Vec_Model Vec_Proof LinAlg_Model BlockCode_Model BCH_Model.
Local Open Scope nat_scope.

Lemma key_app_l t r p : p < length t -> key (t ++ [r]) p = key t p.
Proof. intros H. unfold key. now rewrite app_nth1. Qed.
Lemma key_app_r t r : key (t ++ [r]) (length t) = r.
Proof. unfold key. now rewrite app_nth2, Nat.sub_diag by lia. Qed.

Definition val (t : list bm_row) (p : nat) : Z := (Z.of_nat p - 1 - Z.of_nat (bm_deg (key t p)))%Z.
Lemma select_fold t : forall l acc, bm_disc (key t (fst acc)) <> 0%N -> snd acc = val t (fst acc) ->
  let r := fold_left (fun (acc : nat * Z) p =>
      let row := key t p in
      let v := (Z.of_nat p - 1 - Z.of_nat (bm_deg row))%Z in
      if negb (bm_disc row =? 0)%N && (snd acc <? v)%Z then (p, v) else acc) l acc in
  bm_disc (key t (fst r)) <> 0%N /\ snd r = val t (fst r) /\ (snd acc <= snd r)%Z /\
  (fst r = fst acc \/ In (fst r) l) /\ forall p, In p l -> bm_disc (key t p) <> 0%N -> (val t p <= snd r)%Z.
Proof.
  induction l as [|p l IH]; intros acc Hd Hv; cbn [fold_left].
  - cbn zeta. split; [exact Hd|]. split; [exact Hv|]. split; [lia|]. split; [now left|]. intros p [].
  - cbn zeta in IH. destruct (N.eqb_spec (bm_disc (key t p)) 0) as [E|E]; cbn [negb andb].
    + destruct (IH acc Hd Hv) as (A & B & C & D & F). cbn zeta. repeat split; auto.
      * destruct D; [now left|right; now right].
      * intros p' [<-|Hp] Hn; [congruence|auto].
    + destruct (Z.ltb_spec (snd acc) (Z.of_nat p - 1 - Z.of_nat (bm_deg (key t p)))) as [Hlt|Hge].
      * destruct (IH (p, (Z.of_nat p - 1 - Z.of_nat (bm_deg (key t p)))%Z) E eq_refl) as (A & B & C & D & F). cbn zeta. cbn [fst snd] in *.
        repeat split; auto; try lia.
        -- right. destruct D as [D|D]; [left; now symmetry|now right].
        -- intros p' [<-|Hp] Hn; [unfold val; lia|auto].
      * destruct (IH acc Hd Hv) as (A & B & C & D & F). cbn zeta. repeat split; auto.
        -- destruct D; [now left|right; now right].
        -- intros p' [<-|Hp] Hn; [unfold val; lia|auto].
Qed.
Lemma select_spec t j : bm_disc (key t 0) <> 0%N -> bm_deg (key t 0) = 0 ->
  let p := fst (bm_select t j) in
  p <= j /\ bm_disc (key t p) <> 0%N /\
  forall p', p' <= j -> bm_disc (key t p') <> 0%N -> p' + bm_deg (key t p) <= p + bm_deg (key t p').
Proof.
  intros Hd H0. unfold bm_select.
  destruct (select_fold t (seq 0 (j + 1)) (0, (-1)%Z) Hd) as (A & B & C & D & F).
  { cbn [fst snd]. unfold val. rewrite H0. lia. }
  cbn zeta in *. split; [|split; [exact A|]].
  - destruct D as [->|D]; [cbn; lia|]. apply in_seq in D. lia.
  - intros p' Hp Hn. specialize (F p' ltac:(apply in_seq; lia) Hn). rewrite B in F. unfold val in F. lia.
Qed.

Lemma nth_repeat0 w i : nth i (repeat 0%N w) 0%N = 0%N.
Proof. revert i. induction w as [|w IH]; intros [|i]; cbn; auto. Qed.
Lemma nth_skipn0 w b i : nth i (skipn b (repeat 0%N w)) 0%N = 0%N.
Proof. revert b. induction w as [|w IH]; intros [|b]; cbn [repeat skipn]; try (destruct i; reflexivity); auto. apply (nth_repeat0 (S w)). Qed.
Lemma nth_firstn0 w b i : nth i (firstn b (repeat 0%N w)) 0%N = 0%N.
Proof. revert b i. induction w as [|w IH]; intros [|b] [|i]; cbn [repeat firstn nth]; auto. Qed.
Lemma slice_nth w a b x i : a <= w -> nth i (slice_assign (repeat 0%N w) a b x) 0%N = if i <? a then 0%N else nth (i - a) x 0%N.
Proof.
  intros Ha. unfold slice_assign. destruct (Nat.ltb_spec i a) as [H|H].
  - rewrite app_nth1 by (rewrite firstn_length, repeat_length; lia).
    apply nth_firstn0.
  - rewrite app_nth2 by (rewrite firstn_length, repeat_length; lia). rewrite firstn_length, repeat_length, Nat.min_l by lia.
    destruct (Nat.ltb_spec (i - a) (length x)) as [L|L]; [now rewrite app_nth1|].
    rewrite app_nth2 by lia. rewrite nth_skipn0, nth_overflow by lia. reflexivity.
Qed.

Lemma all_some_spec {A} (f : A -> option nat) l : (forall x, In x l -> exists i, f x = Some i) ->
  exists r, all_some (map f l) = Some r /\ length r = length l /\
    (forall i, In i r <-> exists x, In x l /\ f x = Some i) /\
    ((forall x y i, In x l -> In y l -> f x = Some i -> f y = Some i -> x = y) -> NoDup l -> NoDup r).
Proof.
  induction l as [|a l IH]; intros H.
  - exists []. split; [reflexivity|]. split; [reflexivity|]. split; [|constructor]. intros i. split; [intros []|intros (x & [] & _)].
  - destruct (H a ltac:(now left)) as [i Ei]. destruct IH as (r & E & L & M & ND); [intros; apply H; now right|].
    exists (i :: r). cbn [map all_some]. rewrite Ei, E. split; [reflexivity|]. split; [cbn; lia|]. split.
    + intros i'. cbn [In]. rewrite M. split.
      * intros [<-|(x & Hx & Ex)]; [exists a; auto|exists x; auto].
      * intros (x & [<-|Hx] & Ex); [left; congruence|right; eauto].
    + intros Inj N. inversion N as [|? ? Na Nl]; subst. constructor.
      * rewrite M. intros (x & Hx & Ex). apply Na. rewrite (Inj a x i); auto; [now left|now right].
      * apply ND; auto. intros x y j Hx Hy. apply Inj; now right.
Qed.

Lemma list_max_bound l n : (forall x, In x l -> x < n) -> match l with [] => 0 | _ => S (list_max l) end <= n.
Proof.
  intros H. destruct l as [|a l]; [lia|]. assert (list_max (a :: l) <= n - 1).
  { apply list_max_le. apply Forall_forall. intros x Hx. specialize (H x Hx). lia. }
  specialize (H a ltac:(now left)). lia.
Qed.
Lemma bincount_length n l : (forall x, In x l -> x < n) -> length (bincount n l) = n.
Proof. intros H. unfold bincount. rewrite map_length, seq_length. pose proof (list_max_bound l n H). lia. Qed.
Lemma bincount_nth n l j : (forall x, In x l -> x < n) -> j < n -> nth j (bincount n l) 0 = count_occ Nat.eq_dec l j.
Proof.
  intros H Hj. unfold bincount. pose proof (list_max_bound l n H) as B.
  replace (Nat.max n _) with n by lia. rewrite nth_map_seq by exact Hj. reflexivity.
Qed.
Lemma add_mod2_length r e v : add_mod2 r e = Some v -> length v = length r.
Proof.
  unfold add_mod2. destruct (Nat.eqb_spec (length r) (length e)); [|discriminate]. intros [= <-]. rewrite map_length, combine_length. lia.
Qed.
Lemma add_mod2_total r e : length r = length e -> exists v, add_mod2 r e = Some v /\ length v = length r.
Proof. intros H. unfold add_mod2. rewrite H, Nat.eqb_refl. eexists. split; [reflexivity|]. rewrite map_length, combine_length. lia. Qed.
Lemma add_mod2_ind r e l : length r = length e -> (forall x, In x l -> x < length r) -> NoDup l ->
  (forall j, j < length r -> (In j l <-> nth j e false = true)) -> add_mod2 r (bincount (length r) l) = Some (vxor r e).
Proof.
  intros L B ND H. unfold add_mod2. rewrite bincount_length, Nat.eqb_refl by exact B. f_equal.
  apply (list_ext false).
  - rewrite map_length, combine_length, bincount_length, vxor_length by auto. lia.
  - rewrite map_length, combine_length, bincount_length by exact B. intros j Hj.
    assert (Hj' : j < length r) by lia. set (f := fun '(b, x) => Nat.odd ((if b : bool then 1 else 0) + x)).
    rewrite (nth_indep _ false (f (false, 0))) by (rewrite map_length, combine_length, bincount_length by exact B; lia).
    rewrite (map_nth f). rewrite combine_nth by (now rewrite bincount_length). rewrite bincount_nth by auto. rewrite nth_vxor by auto.
    specialize (H j Hj'). unfold f. pose proof (proj1 (NoDup_count_occ Nat.eq_dec l) ND j) as C.
    pose proof (count_occ_In Nat.eq_dec l j) as I.
    destruct (nth j e false).
    + assert (count_occ Nat.eq_dec l j = 1) as -> by (apply Nat.le_antisymm; [exact C|apply I, H; reflexivity]). now destruct (nth j r false).
    + assert (count_occ Nat.eq_dec l j = 0) as ->.
      { apply Nat.le_0_r. apply Nat.le_ngt. intros Hc. apply I, H in Hc. discriminate. }
      now destruct (nth j r false).
Qed.
