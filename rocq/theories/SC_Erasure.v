(* Successive cancellation over erasures. *)
From Coq Require Import Reals Lra Psatz.
From Verif Require Import Common Vec_Model Vec_Proof LinAlg_Model LinAlg_Proof BlockCode_Model Polar_Model Polar_Proof SC_Model SC_Proof SC_Spec.
Local Open Scope nat_scope.

Definition sees (x : R) (eb : bool * bool) : Prop := if fst eb then x = 0%R else agrees x (snd eb).
Inductive S3 : list R -> list bool -> vec -> Prop :=
| S3_nil : S3 [] [] []
| S3_cons : forall (x : R) (e b : bool) li le v, (if e then x = 0%R else agrees x b) -> S3 li le v -> S3 (x :: li) (e :: le) (b :: v).
Lemma seen_S3 li e v : seen li e v -> S3 li e v.
Proof.
  revert e v. induction li as [|x li IH]; intros [|a e] [|b v] (L1 & L2 & H); try discriminate; constructor.
  - exact (H 0 ltac:(cbn; lia)).
  - apply IH. split; [cbn in L1; lia|]. split; [cbn in L2; lia|]. intros j Hj. exact (H (S j) ltac:(cbn; lia)).
Qed.
Lemma S3_seen li e v : S3 li e v -> seen li e v.
Proof.
  induction 1 as [|x a b li e v H S (L1 & L2 & IH)]; (split; [cbn; congruence|split; [cbn; congruence|]]); [cbn; intros; lia|]. intros [|j] Hj; cbn in Hj |- *; [exact H|apply IH; lia].
Qed.
Lemma S3_split li e x y : S3 li e (x ++ y) -> S3 (firstn (length x) li) (firstn (length x) e) x /\ S3 (skipn (length x) li) (skipn (length x) e) y.
Proof.
  revert li e. induction x as [|b x IH]; intros li e H; cbn [length firstn skipn app] in *; [split; [constructor|exact H]|]. inversion H; subst. destruct (IH _ _ H5) as [A B]. cbn [firstn skipn]. split; [constructor; assumption|exact B].
Qed.
Lemma S3_f l r el er c d : S3 l el (vxor c d) -> S3 r er d -> length c = length d -> S3 (map2 boxplus l r) (map (fun lr => fst lr || snd lr) (combine el er)) c.
Proof.
  revert r el er c d. induction l as [|x l IH]; intros r el er c d H1 H2 L; destruct c as [|y c], d as [|z d]; try discriminate; cbn [vxor] in H1; inversion H1; subst; inversion H2; subst; cbn [map2 combine map]; try constructor.
  2: eapply IH; eauto. cbn [fst snd]. unfold agrees in *.
  pose proof (boxplus_sign x x0) as P. pose proof (boxplus_sign_neg x x0) as N. set (q := boxplus x x0) in *. clearbody q.
  destruct e, e0; cbn [orb]; try (destruct (Rtotal_order q 0) as [Q|[Q|Q]]; [apply N in Q; lra|exact Q|apply P in Q; lra]).
  destruct y, z; cbn [xorb] in *; try (apply N; lra); apply P; lra.
Qed.
Lemma S3_g l r el er c d : S3 l el (vxor c d) -> S3 r er d -> length c = length d -> S3 (g_node l r c) (map (fun lr => fst lr && snd lr) (combine el er)) d.
Proof.
  unfold g_node. revert r el er c d. induction l as [|x l IH]; intros r el er c d H1 H2 L; destruct c as [|y c], d as [|z d]; try discriminate; cbn [vxor] in H1; inversion H1; subst; inversion H2; subst; cbn [map2 combine map]; try constructor.
  2: eapply IH; eauto. cbn [fst snd]. unfold agrees in *. destruct e, e0, y, z; cbn [andb xorb] in *; lra.
Qed.
Lemma polar_erased_length h : forall e, length e = 2 ^ h -> length (polar_erased h e) = 2 ^ h.
Proof.
  induction h as [|h IH]; intros e L; [exact L|]. cbn [polar_erased]. assert (A : length (firstn (2 ^ h) e) = 2 ^ h /\ length (skipn (2 ^ h) e) = 2 ^ h) by (cbn in L; rewrite firstn_length, skipn_length; lia).
  rewrite app_length, !IH by (rewrite map_length, combine_length; lia). cbn; lia.
Qed.
Lemma S3_lengths li e v : S3 li e v -> length li = length v /\ length e = length v.
Proof. induction 1; cbn; intuition. Qed.
Lemma S3_app a b c a' b' c' : S3 a b c -> S3 a' b' c' -> S3 (a ++ a') (b ++ b') (c ++ c').
Proof. induction 1; intros; cbn [app]; [assumption|constructor; auto]. Qed.
Lemma sc_erasure frozen h : forall index x msg e, length x = 2 ^ h ->
  (forall j, j < 2 ^ h -> In (index * 2 ^ h + j) frozen -> nth j x false = false) ->
  S3 msg e (ptrans h x) -> (forall j, j < 2 ^ h -> ~ In (index * 2 ^ h + j) frozen -> nth j (polar_erased h e) false = false) ->
  fst (sc_rec frozen h index msg) = ptrans h x /\ S3 (snd (sc_rec frozen h index msg)) (polar_erased h e) x.
Proof.
  induction h as [|h IH]; intros index x msg e L F A G.
  - destruct x as [|b [|c x]]; try discriminate. cbn [ptrans sc_rec fst snd polar_erased] in *. split; [|exact A]. inversion A as [|y a ? m m' ? Hy Hm]; subst. inversion Hm; subst. cbn [map].
    specialize (F 0 ltac:(cbn; lia)). specialize (G 0 ltac:(cbn; lia)). cbn [nth] in F, G. rewrite Nat.mul_1_r, Nat.add_0_r in F, G.
    destruct (existsb (Nat.eqb index) frozen) eqn:E.
    + apply existsb_exists in E as (i & Hi & Ei). apply Nat.eqb_eq in Ei. subst i. now rewrite F.
    + assert (N : ~ In index frozen). { intros I. enough (existsb (Nat.eqb index) frozen = true) by congruence. apply existsb_exists. exists index. split; [exact I|apply Nat.eqb_refl]. }
      rewrite (G N) in Hy. now rewrite (agrees_neg y b Hy).
  - destruct (split_half h x L) as (a & b & -> & La & Lb). rewrite ptrans_S in * by auto. pose proof (ptrans_length h a La) as Ta. pose proof (ptrans_length h b Lb) as Tb.
    destruct (S3_lengths _ _ _ A) as [Lm Le]. rewrite app_length, vxor_length, Ta, Tb in Lm, Le by congruence.
    apply S3_split in A as [A1 A2]. rewrite vxor_length, Ta in A1, A2 by congruence. cbn [sc_rec polar_erased] in *. set (l := firstn (2 ^ h) msg) in *. set (r := skipn (2 ^ h) msg) in *. set (el := firstn (2 ^ h) e) in *. set (er := skipn (2 ^ h) e) in *.
    assert (Lel : length el = 2 ^ h) by (unfold el; rewrite firstn_length; lia). assert (Ler : length er = 2 ^ h) by (unfold er; rewrite skipn_length; lia).
    set (ef := map (fun lr => fst lr || snd lr) (combine el er)) in *. set (eg := map (fun lr => fst lr && snd lr) (combine el er)) in *.
    assert (Lf : length (polar_erased h ef) = 2 ^ h) by (apply polar_erased_length; unfold ef; rewrite map_length, combine_length; lia).
    destruct (IH (index * 2) a (map2 boxplus l r) ef) as [E1 V1]; auto.
    { intros j Hj Hin. specialize (F j). rewrite app_nth1 in F by lia. apply F; [cbn; lia|]. replace (index * 2 ^ S h + j) with (index * 2 * 2 ^ h + j) by (cbn; lia). auto. }
    { eapply S3_f; eauto. congruence. }
    { intros j Hj Hin. specialize (G j). rewrite app_nth1 in G by lia. apply G; [cbn; lia|]. replace (index * 2 ^ S h + j) with (index * 2 * 2 ^ h + j) by (cbn; lia). auto. }
    destruct (sc_rec frozen h (index * 2) (map2 boxplus l r)) as [a' la]. cbn [fst snd] in E1, V1. subst a'.
    destruct (IH (index * 2 + 1) b (g_node l r (ptrans h a)) eg) as [E2 V2]; auto.
    { intros j Hj Hin. specialize (F (2 ^ h + j)). rewrite app_nth2 in F by lia. rewrite La in F. replace (2 ^ h + j - 2 ^ h) with j in F by lia.
      apply F; [cbn; lia|]. replace (index * 2 ^ S h + (2 ^ h + j)) with ((index * 2 + 1) * 2 ^ h + j) by (cbn; nia). auto. }
    { eapply S3_g; eauto. congruence. }
    { intros j Hj Hin. specialize (G (2 ^ h + j)). rewrite app_nth2 in G by lia. rewrite Lf in G. replace (2 ^ h + j - 2 ^ h) with j in G by lia.
      apply G; [cbn; lia|]. replace (index * 2 ^ S h + (2 ^ h + j)) with ((index * 2 + 1) * 2 ^ h + j) by (cbn; nia). auto. }
    destruct (sc_rec frozen h (index * 2 + 1) _) as [b' lb]. cbn [fst snd] in *. subst b'. split; [reflexivity|]. now apply S3_app.
Qed.
(* up to and including the first unknown active position *)
Lemma S3_nth li e v j : S3 li e v -> j < length v -> if nth j e false then nth j li 0%R = 0%R else agrees (nth j li 0%R) (nth j v false).
Proof. intros H Hj. apply S3_seen in H as (_ & _ & H). exact (H j Hj). Qed.
Lemma sc_erasure_first frozen h : forall index x msg e i, length x = 2 ^ h ->
  (forall j, j < 2 ^ h -> In (index * 2 ^ h + j) frozen -> nth j x false = false) ->
  S3 msg e (ptrans h x) -> i < 2 ^ h -> (forall j, j < i -> ~ In (index * 2 ^ h + j) frozen -> nth j (polar_erased h e) false = false) ->
  if nth i (polar_erased h e) false then nth i (snd (sc_rec frozen h index msg)) 0%R = 0%R else agrees (nth i (snd (sc_rec frozen h index msg)) 0%R) (nth i x false).
Proof.
  induction h as [|h IH]; intros index x msg e i L F A Hi G.
  - cbn [Nat.pow] in *. cbn [sc_rec snd polar_erased ptrans] in *. apply (S3_nth msg e x i A). lia.
  - destruct (split_half h x L) as (a & b & -> & La & Lb). rewrite ptrans_S in * by auto. pose proof (ptrans_length h a La) as Ta. pose proof (ptrans_length h b Lb) as Tb.
    destruct (S3_lengths _ _ _ A) as [Lm Le]. rewrite app_length, vxor_length, Ta, Tb in Lm, Le by congruence.
    apply S3_split in A as [A1 A2]. rewrite vxor_length, Ta in A1, A2 by congruence. cbn [sc_rec polar_erased] in *. set (l := firstn (2 ^ h) msg) in *. set (r := skipn (2 ^ h) msg) in *. set (el := firstn (2 ^ h) e) in *. set (er := skipn (2 ^ h) e) in *.
    assert (Lel : length el = 2 ^ h) by (unfold el; rewrite firstn_length; lia). assert (Ler : length er = 2 ^ h) by (unfold er; rewrite skipn_length; lia).
    assert (Lml : length l = 2 ^ h) by (unfold l; rewrite firstn_length; lia). assert (Lmr : length r = 2 ^ h) by (unfold r; rewrite skipn_length; lia).
    set (ef := map (fun lr => fst lr || snd lr) (combine el er)) in *. set (eg := map (fun lr => fst lr && snd lr) (combine el er)) in *.
    assert (Lf : length (polar_erased h ef) = 2 ^ h) by (apply polar_erased_length; unfold ef; rewrite map_length, combine_length; lia).
    assert (Fa : forall j, j < 2 ^ h -> In (index * 2 * 2 ^ h + j) frozen -> nth j a false = false).
    { intros j Hj Hin. specialize (F j). rewrite app_nth1 in F by lia. apply F; [cbn; lia|]. replace (index * 2 ^ S h + j) with (index * 2 * 2 ^ h + j) by (cbn; lia). auto. }
    assert (Sf : S3 (map2 boxplus l r) ef (ptrans h a)) by (eapply S3_f; eauto; congruence).
    destruct (sc_rec_length frozen h (index * 2) (map2 boxplus l r)) as [_ Lla]; [rewrite map2_length; congruence|].
    destruct (Nat.lt_ge_cases i (2 ^ h)) as [I|I].
    + specialize (IH (index * 2) a (map2 boxplus l r) ef i La Fa Sf I). destruct (sc_rec frozen h (index * 2) (map2 boxplus l r)) as [a' la]. destruct (sc_rec frozen h (index * 2 + 1) (g_node l r a')) as [b' lb]. cbn [fst snd] in *.
      rewrite !app_nth1 by lia. apply IH. intros j Hj Hin. specialize (G j Hj). rewrite app_nth1 in G by lia. apply G. replace (index * 2 ^ S h + j) with (index * 2 * 2 ^ h + j) by (cbn; lia). auto.
    + destruct (sc_erasure frozen h (index * 2) a (map2 boxplus l r) ef La Fa Sf) as [E1 _].
      { intros j Hj Hin. specialize (G j ltac:(lia)). rewrite app_nth1 in G by lia. apply G. replace (index * 2 ^ S h + j) with (index * 2 * 2 ^ h + j) by (cbn; lia). auto. }
      destruct (sc_rec frozen h (index * 2) (map2 boxplus l r)) as [a' la]. cbn [fst snd] in E1, Lla. subst a'.
      assert (Sg : S3 (g_node l r (ptrans h a)) eg (ptrans h b)) by (eapply S3_g; eauto; congruence).
      specialize (IH (index * 2 + 1) b (g_node l r (ptrans h a)) eg (i - 2 ^ h) Lb). destruct (sc_rec frozen h (index * 2 + 1) (g_node l r (ptrans h a))) as [b' lb]. cbn [fst snd] in *.
      rewrite !app_nth2 by lia. rewrite La, Lf, Lla. apply IH; [|exact Sg|cbn in Hi; lia|].
      * intros j Hj Hin. specialize (F (2 ^ h + j)). rewrite app_nth2 in F by lia. rewrite La in F. replace (2 ^ h + j - 2 ^ h) with j in F by lia.
        apply F; [cbn; lia|]. replace (index * 2 ^ S h + (2 ^ h + j)) with ((index * 2 + 1) * 2 ^ h + j) by (cbn; nia). auto.
      * intros j Hj Hin. specialize (G (2 ^ h + j) ltac:(lia)). rewrite app_nth2 in G by lia. rewrite Lf in G. replace (2 ^ h + j - 2 ^ h) with j in G by lia.
        apply G. replace (index * 2 ^ S h + (2 ^ h + j)) with ((index * 2 + 1) * 2 ^ h + j) by (cbn; nia). auto.
Qed.
