From Verif Require Import Common Prefix_Model Prefix_Proof Cover_Proof Canonical_Proof.

(* -------------------------------------------------------------- dictionaries *)
Definition keys (d : dict) : list word := map fst d.
Definition values (d : dict) : list word := map snd d.

Lemma dict_get_In k v d : NoDup (keys d) -> dict_get k d = Some v <-> In (k, v) d.
Proof.
  unfold keys. induction d as [|[k' v'] d IH]; intros ND; cbn in *; [split; [discriminate|tauto]|].
  inversion ND as [|? ? H1 H2]; subst. destruct (word_eqb_spec k k') as [->|Hne].
  - split.
    + intros H; inversion H; auto.
    + intros [H|H]; [inversion H; auto|]. exfalso. apply H1. apply in_map_iff. exists (k', v); auto.
  - rewrite (IH H2). split; [auto|]. intros [H|H]; auto. inversion H; congruence.
Qed.

Lemma dict_get_None k d : dict_get k d = None <-> ~ In k (keys d).
Proof.
  unfold keys. induction d as [|[k' v'] d IH]; cbn; [tauto|].
  destruct (word_eqb_spec k k') as [->|Hne]; [split; [discriminate|tauto]|].
  rewrite IH. split; [intros H [X|X]; [congruence|tauto]|tauto].
Qed.

Lemma dict_get_key k v d : dict_get k d = Some v -> In (k, v) d.
Proof.
  induction d as [|[k' v'] d IH]; cbn; [discriminate|]. destruct (word_eqb_spec k k') as [->|]; intros H; [inversion H; auto|right; auto].
Qed.

Lemma dict_set_fresh k v d : ~ In k (keys d) -> dict_set k v d = d ++ [(k, v)].
Proof.
  unfold keys. induction d as [|[k' v'] d IH]; cbn; intros H; auto.
  destruct (word_eqb_spec k k') as [->|]; [tauto|]. rewrite IH by tauto. reflexivity.
Qed.

Lemma dict_of_pairs_fresh l : NoDup (keys l) -> dict_of_pairs l = l.
Proof.
  unfold dict_of_pairs, keys. intros ND.
  assert (G : forall d, NoDup (map fst (d ++ l)) -> fold_left (fun d kv => dict_set (fst kv) (snd kv) d) l d = d ++ l).
  { clear ND. induction l as [|[k v] l IH]; intros d ND; cbn [fold_left]; [rewrite app_nil_r; auto|].
    cbn [fst snd]. rewrite dict_set_fresh.
    - rewrite IH; rewrite <- app_assoc; auto.
    - rewrite map_app in ND. cbn in ND. apply NoDup_remove_2 in ND. unfold keys. intros H. apply ND.
      apply in_app_iff; auto. }
  apply (G []). exact ND.
Qed.

Lemma dict_inverse_fresh d : NoDup (values d) -> dict_inverse d = map (fun kv => (snd kv, fst kv)) d.
Proof.
  intros H. unfold dict_inverse. apply dict_of_pairs_fresh. unfold keys. rewrite map_map. cbn. exact H.
Qed.

Lemma keys_swap (d : dict) : keys (map (fun kv => (snd kv, fst kv)) d) = values d.
Proof. unfold keys, values. rewrite map_map. reflexivity. Qed.

(* ---------------------------------------------------------- greedy parsing *)
(* outcome of the scan: input split into keys plus a remainder without key prefixes *)
Lemma prefix_loop_spec d : NoDup (keys d) -> forall input cur out rem,
  (forall q, prefix q cur -> ~ In q (keys d)) ->
  prefix_loop d cur input = (out, rem) ->
  exists kvs, incl kvs d /\ cur ++ input = concat (map fst kvs) ++ rem /\ out = concat (map snd kvs) /\
    (forall q, prefix q rem -> q <> [] -> ~ In q (keys d)).
Proof.
  intros ND. induction input as [|x r IH]; intros cur out rem Hc H; cbn [prefix_loop] in H.
  - inversion H; subst. exists []. cbn. rewrite app_nil_r. repeat split; auto. intros y [].
  - destruct (dict_get (cur ++ [x]) d) as [v|] eqn:E.
    + destruct (prefix_loop d [] r) as [out' rem'] eqn:E2. inversion H; subst.
      destruct (in_dec (list_eq_dec N.eq_dec) [] (keys d)) as [Hin|Hnin].
      { exfalso. apply (Hc [] (ex_intro _ cur eq_refl)). exact Hin. }
      destruct (IH [] out' rem) as [kvs [K1 [K2 [K3 K4]]]]; auto.
      { intros q [s Hs]. destruct q; [exact Hnin|discriminate]. }
      exists ((cur ++ [x], v) :: kvs). cbn [map concat fst snd app] in *. repeat split; auto.
      * intros y [<-|Hy]; auto. apply dict_get_key; auto.
      * rewrite <- !app_assoc. cbn. rewrite K2; reflexivity.
      * rewrite K3; reflexivity.
    + apply dict_get_None in E. destruct (IH (cur ++ [x]) out rem) as [kvs [K1 [K2 [K3 K4]]]]; auto.
      { intros q [s Hs]. destruct s as [|y s] using rev_ind.
        - rewrite app_nil_r in Hs. subst q. exact E.
        - rewrite app_assoc in Hs. apply app_inj_tail in Hs as [Hs _]. apply Hc. exists s; auto. }
      exists kvs. repeat split; auto. rewrite <- K2, <- app_assoc. reflexivity.
Qed.

Lemma prefix_loop_spec0 d input out rem : NoDup (keys d) -> Forall (fun w => w <> []) (keys d) ->
  prefix_loop d [] input = (out, rem) ->
  exists kvs, incl kvs d /\ input = concat (map fst kvs) ++ rem /\ out = concat (map snd kvs) /\
    (forall q, prefix q rem -> q <> [] -> ~ In q (keys d)).
Proof.
  intros ND NE E. apply (prefix_loop_spec d ND input [] out rem); auto.
  intros q [r Hq]. destruct q; [|discriminate]. intros Hin. rewrite Forall_forall in NE. apply (NE _ Hin); auto.
Qed.

(* greedy parsing of a concatenation of keys *)
Lemma concat_keys_unique d : Forall (fun w => w <> []) (keys d) -> PF (keys d) -> forall us kvs rem,
  incl us (keys d) -> incl kvs d -> concat us = concat (map fst kvs) ++ rem ->
  (forall q, prefix q rem -> q <> [] -> ~ In q (keys d)) -> us = map fst kvs /\ rem = [].
Proof.
  intros NE HP. rewrite Forall_forall in NE. induction us as [|u us IH]; intros kvs rem Hu Hk E Hr.
  - cbn in E. symmetry in E. apply app_eq_nil in E as [E1 E2]. split; auto.
    destruct kvs as [|[k v] kvs]; auto. cbn in E1. apply app_eq_nil in E1 as [E1 _].
    exfalso. apply (NE k); auto. apply (in_map fst _ _ (Hk _ (or_introl eq_refl))).
  - assert (Hu1 : In u (keys d)) by (apply Hu; left; auto).
    destruct kvs as [|[k v] kvs].
    + cbn in E. exfalso. apply (Hr u); auto. exists (concat us); auto.
    + cbn [map concat fst] in E. assert (Hk1 : In k (keys d)) by apply (in_map fst _ _ (Hk _ (or_introl eq_refl))).
      assert (u = k).
      { rewrite <- app_assoc in E. destruct (prefix_comparable u k (u ++ concat us)) as [P|P].
        - eexists; reflexivity.
        - cbn [concat] in E. rewrite E. eexists; reflexivity.
        - eapply PF_In; eauto.
        - symmetry; eapply PF_In; eauto. }
      subst k. cbn [concat] in E. rewrite <- app_assoc in E. apply app_inv_head in E.
      destruct (IH kvs rem) as [-> ->]; auto.
      * intros y Hy. apply Hu; right; auto.
      * intros y Hy. apply Hk; right; auto.
Qed.

Lemma parse_prefix_free_concat d kvs b : NoDup (keys d) -> Forall (fun w => w <> []) (keys d) -> PF (keys d) ->
  incl kvs d -> parse_prefix_free (concat (map fst kvs)) d b = Some (concat (map snd kvs)).
Proof.
  intros ND NE HP Hk. unfold parse_prefix_free.
  destruct (prefix_loop d [] (concat (map fst kvs))) as [out rem] eqn:E.
  destruct (prefix_loop_spec0 d _ _ _ ND NE E) as [kvs' [K1 [K2 [K3 K4]]]].
  destruct (concat_keys_unique d NE HP (map fst kvs) kvs' rem) as [E1 E2]; auto.
  { intros y Hy. apply in_map_iff in Hy as [[k v] [<- Hin]]. apply (in_map fst _ _ (Hk _ Hin)). }
  subst rem out. f_equal. f_equal.
  clear -ND E1 K1 Hk. revert kvs' E1 K1. induction kvs as [|[k v] kvs IH]; intros [|[k' v'] kvs'] E1 K1; cbn in E1; try discriminate; auto.
  inversion E1; subst. cbn. f_equal.
  - assert (dict_get k' d = Some v) by (apply dict_get_In; auto; apply Hk; left; auto).
    assert (dict_get k' d = Some v') by (apply dict_get_In; auto; apply K1; left; auto). congruence.
  - apply IH; auto; [intros y Hy; apply Hk; right; auto|intros y Hy; apply K1; right; auto].
Qed.

(* -------------------------------------------------------- fixed-length parsing *)
Lemma fixed_loop_concat d bs kvs : 1 <= bs -> NoDup (keys d) -> incl kvs d -> Forall (fun k => length k = bs) (map fst kvs) ->
  forall fuel, length (concat (map fst kvs)) <= fuel -> fixed_loop fuel d bs (concat (map fst kvs)) = Some (concat (map snd kvs)).
Proof.
  intros Hb ND. induction kvs as [|[k v] kvs IH]; intros Hk Hl fuel Hf; [destruct fuel; reflexivity|].
  cbn [map fst snd concat] in *. inversion Hl as [|? ? Hl1 Hl2]; subst. rewrite app_length in Hf.
  destruct k as [|x k]; [cbn in Hb; lia|]. destruct fuel as [|f]; [cbn in Hf; lia|].
  change (fixed_loop (S f) d (length (x :: k)) ((x :: k) ++ concat (map fst kvs))) with
    (match dict_get (firstn (length (x :: k)) ((x :: k) ++ concat (map fst kvs))) d,
       fixed_loop f d (length (x :: k)) (skipn (length (x :: k)) ((x :: k) ++ concat (map fst kvs))) with
     | Some v, Some out => Some (v ++ out) | _, _ => None end).
  rewrite firstn_app_exact, skipn_app_exact.
  rewrite (proj2 (dict_get_In (x :: k) v d ND)) by (apply Hk; left; auto).
  rewrite IH; auto; [intros y Hy; apply Hk; right; auto|]. cbn [length] in Hf. lia.
Qed.

Lemma concat_const_length {A} (l : list (list A)) n : Forall (fun k => length k = n) l -> length (concat l) = length l * n.
Proof. induction 1 as [|x l H Hl IH]; cbn; auto. rewrite app_length, IH. lia. Qed.

Lemma parse_fixed_concat d bs kvs : 1 <= bs -> NoDup (keys d) -> incl kvs d -> Forall (fun k => length k = bs) (map fst kvs) ->
  parse_fixed_length (concat (map fst kvs)) d bs = Some (concat (map snd kvs)).
Proof.
  intros Hb ND Hk Hl. unfold parse_fixed_length. rewrite (concat_const_length _ bs) by auto.
  rewrite Nat.mod_mul by lia. cbn [negb Nat.eqb]. 
  rewrite fixed_loop_concat; auto. rewrite (concat_const_length _ bs) by auto. lia.
Qed.

Lemma split_blocks bs (input : word) : 1 <= bs -> length input mod bs = 0 ->
  exists blocks, Forall (fun k => length k = bs) blocks /\ concat blocks = input.
Proof.
  intros Hb Hm.
  assert (G : forall n (input : word), length input = n * bs -> exists blocks, Forall (fun k => length k = bs) blocks /\ concat blocks = input).
  { induction n as [|n IH]; intros i Hi.
    - exists []. split; auto. destruct i; [auto|cbn in Hi; lia].
    - destruct (IH (skipn bs i)) as [bl [H1 H2]]; [rewrite skipn_length, Hi; lia|].
      exists (firstn bs i :: bl). split; [constructor; auto; rewrite firstn_length; nia|].
      cbn. rewrite H2. apply firstn_skipn. }
  apply (G (length input / bs)). pose proof (Nat.div_mod (length input) bs). lia.
Qed.

(* ---------------------------------------------------------------- tuples *)
Lemma in_tuples c k w : In w (tuples c k) <-> length w = k /\ Forall (fun x => (x < c)%N) w.
Proof.
  revert w; induction k as [|k IH]; intros w; cbn [tuples].
  - split.
    + intros [<-|[]]. auto.
    + intros [H _]. destruct w; [left; auto|discriminate].
  - rewrite in_flat_map. split.
    + intros [s [Hs H]]. apply in_map_iff in H as [t [<- Ht]]. apply IH in Ht as [H1 H2]. apply in_range_N in Hs.
      cbn. split; auto.
    + intros [H1 H2]. destruct w as [|s w]; [discriminate|]. inversion H2; subst. exists s.
      split; [apply in_range_N; auto|]. apply in_map. apply IH. cbn in H1. split; auto.
Qed.

Lemma tuples_length c k : N.of_nat (length (tuples c k)) = (c ^ N.of_nat k)%N.
Proof.
  induction k as [|k IH]; [reflexivity|]. cbn [tuples].
  assert (G : forall l, length (flat_map (fun s => map (cons s) (tuples c k)) l) = length l * length (tuples c k)).
  { induction l as [|s l IHl]; cbn; auto. rewrite app_length, map_length, IHl. reflexivity. }
  rewrite G. unfold range_N. rewrite map_length, seq_length, Nat2N.inj_mul, IH, N2Nat.id, Nat2N.inj_succ, N.pow_succ_r'. reflexivity.
Qed.

Lemma tuples_NoDup c k : NoDup (tuples c k).
Proof.
  induction k as [|k IH]; cbn [tuples]; [repeat constructor; auto|].
  assert (G : forall l, NoDup l -> NoDup (flat_map (fun s => map (cons s) (tuples c k)) l)).
  { induction 1 as [|s l Hs Hl IHl]; cbn; [constructor|].
    assert (N1 : NoDup (map (cons s) (tuples c k))) by (apply FinFun.Injective_map_NoDup; auto; intros a b H; congruence).
    assert (D : forall x, In x (map (cons s) (tuples c k)) -> ~ In x (flat_map (fun s => map (cons s) (tuples c k)) l)).
    { intros x Hx Hx'. apply in_map_iff in Hx as [t [<- _]]. apply in_flat_map in Hx' as [s' [Hs' H]].
      apply in_map_iff in H as [t' [E _]]. inversion E; subst. tauto. }
    revert N1 D. generalize (map (cons s) (tuples c k)) as a. induction a as [|y a IHa]; intros N1 D; cbn; auto.
    inversion N1; subst. constructor.
    - rewrite in_app_iff. intros [X|X]; [tauto|]. apply (D y); [left; auto|auto].
    - apply IHa; auto. intros x Hx. apply D; right; auto. }
  apply G, range_N_NoDup.
Qed.

(* ------------------------------------------------------- FixedToVariableCode *)
Lemma f2v_make_inv src tgt k m c : f2v_make src tgt k m = Some c ->
  (2 <= src)%N /\ (2 <= tgt)%N /\ 1 <= k /\ (forall w, In w (keys m) <-> In w (tuples src k)) /\
  Forall (fun w : word => Forall (fun x => (x < tgt)%N) w) (values m) /\
  c = {| f2v_src := src; f2v_tgt := tgt; f2v_k := k; f2v_map := m |}.
Proof.
  unfold f2v_make. destruct (N.ltb_spec src 2); [discriminate|]. destruct (N.ltb_spec tgt 2); [discriminate|].
  destruct (Nat.ltb_spec k 1); [discriminate|].
  destruct (incl_b (map fst m) (tuples src k) && incl_b (tuples src k) (map fst m)) eqn:E1; [|discriminate]. cbn [negb].
  destruct (forallb (forallb (fun x : N => (x <? tgt)%N)) (map snd m)) eqn:E2; [|discriminate]. cbn [negb].
  intros Hc; inversion Hc. apply andb_prop in E1 as [E1 E3]. unfold incl_b in *. rewrite forallb_forall in E1, E3, E2.
  repeat split; auto.
  - intros Hw. apply E1 in Hw. apply mem_In in Hw; auto.
  - intros Hw. apply E3 in Hw. apply mem_In in Hw; auto.
  - apply Forall_forall. intros w Hw. apply E2 in Hw. rewrite forallb_forall in Hw.
    apply Forall_forall. intros x Hx. apply Hw in Hx. apply N.ltb_lt in Hx; auto.
Qed.

Lemma f2v_make_ok src tgt k m : (2 <= src)%N -> (2 <= tgt)%N -> 1 <= k -> (forall w, In w (keys m) <-> In w (tuples src k)) ->
  Forall (fun w : word => Forall (fun x => (x < tgt)%N) w) (values m) ->
  f2v_make src tgt k m = Some {| f2v_src := src; f2v_tgt := tgt; f2v_k := k; f2v_map := m |}.
Proof.
  intros H1 H2 H3 H4 H5. unfold f2v_make. destruct (N.ltb_spec src 2); [lia|]. destruct (N.ltb_spec tgt 2); [lia|].
  destruct (Nat.ltb_spec k 1); [lia|].
  assert (incl_b (map fst m) (tuples src k) = true) as ->.
  { apply forallb_forall. intros w Hw. apply mem_In, H4; auto. }
  assert (incl_b (tuples src k) (map fst m) = true) as ->.
  { apply forallb_forall. intros w Hw. apply mem_In, H4; auto. }
  assert (forallb (forallb (fun x : N => (x <? tgt)%N)) (map snd m) = true) as ->; [|reflexivity].
  apply forallb_forall. intros w Hw. rewrite Forall_forall in H5. specialize (H5 _ Hw). rewrite Forall_forall in H5.
  apply forallb_forall. intros x Hx. apply N.ltb_lt; auto.
Qed.

Lemma f2v_round_trip src tgt k m c input :
  f2v_make src tgt k m = Some c -> NoDup (keys m) ->
  Forall (fun w => w <> []) (values m) -> f2v_is_prefix_free c = true ->
  length input mod k = 0 -> Forall (fun x => (x < src)%N) input ->
  exists out, f2v_encode c input = Some out /\ f2v_decode c out = Some input.
Proof.
  intros Hm ND NE HP Hl Hr. apply f2v_make_inv in Hm as (H1 & H2 & H3 & H4 & H5 & ->).
  unfold f2v_encode, f2v_decode, f2v_is_prefix_free, f2v_is_uniquely_decodable, f2v_codewords in *; cbn [f2v_map f2v_k] in *.
  fold (values m) in *. pose proof HP as HPF. rewrite is_prefix_free_PF, filter_non_empty_id in HPF by auto.
  rewrite (PF_uniquely_parsable _ NE HPF), HP. cbn [negb].
  destruct (split_blocks k input H3 Hl) as [blocks [B1 B2]].
  assert (K : exists kvs, incl kvs m /\ map fst kvs = blocks).
  { assert (F : Forall (fun b => In b (keys m)) blocks).
    { apply Forall_forall. intros b Hb. apply H4, in_tuples. rewrite Forall_forall in B1. split; auto.
      subst input. apply Forall_forall. intros x Hx. rewrite Forall_forall in Hr. apply Hr. apply in_concat; eauto. }
    clear -F. induction F as [|b bl Hb Hbl IH]; [exists []; split; auto; intros x []|].
    destruct IH as [kvs [I1 I2]]. apply in_map_iff in Hb as [[k' v] [<- Hin]].
    exists ((k', v) :: kvs). split; [intros y [<-|Hy]; auto|]. cbn; f_equal; auto. }
  destruct K as [kvs [K1 K2]]. rewrite <- K2 in B1. subst input. rewrite <- K2.
  rewrite parse_fixed_concat; auto. eexists; split; [reflexivity|].
  rewrite dict_inverse_fresh by (apply PF_NoDup; auto).
  set (d := map (fun kv : word * word => (snd kv, fst kv)) m).
  assert (Kd : keys d = values m) by apply keys_swap.
  replace (concat (map snd kvs)) with (concat (map fst (map (fun kv : word * word => (snd kv, fst kv)) kvs))).
  2:{ rewrite map_map. reflexivity. }
  rewrite parse_prefix_free_concat.
  - rewrite map_map. reflexivity.
  - rewrite Kd. apply PF_NoDup; auto.
  - rewrite Kd; auto.
  - rewrite Kd; auto.
  - intros y Hy. apply in_map_iff in Hy as [kv [<- Hin]]. apply in_map_iff. exists kv; split; auto.
Qed.

(* decode rejects what it cannot parse, and accepted inputs re-encode to themselves *)
Lemma f2v_decode_sound src tgt k m c bits out :
  f2v_make src tgt k m = Some c -> NoDup (keys m) ->
  Forall (fun w => w <> []) (values m) -> f2v_decode c bits = Some out -> f2v_encode c out = Some bits.
Proof.
  intros Hm ND NE H. pose proof Hm as Hm'. apply f2v_make_inv in Hm' as (H1 & H2 & H3 & H4 & H5 & ->).
  unfold f2v_encode, f2v_decode, f2v_is_prefix_free, f2v_is_uniquely_decodable, f2v_codewords in *; cbn [f2v_map f2v_k] in *.
  fold (values m) in *. destruct (is_uniquely_parsable (values m)) as [[|]|]; try discriminate.
  destruct (is_prefix_free (values m)) eqn:HP; [|discriminate]. cbn [negb] in H.
  rewrite is_prefix_free_PF, filter_non_empty_id in HP by auto.
  rewrite dict_inverse_fresh in H by (apply PF_NoDup; auto).
  set (d := map (fun kv : word * word => (snd kv, fst kv)) m) in *.
  assert (Kd : keys d = values m) by apply keys_swap.
  unfold parse_prefix_free in H. destruct (prefix_loop d [] bits) as [o rem] eqn:E.
  destruct rem; [|discriminate]. inversion H; subst o.
  assert (NDd : NoDup (keys d)) by (rewrite Kd; apply PF_NoDup; auto).
  destruct (prefix_loop_spec0 d _ _ _ NDd ltac:(rewrite Kd; exact NE) E) as [kvs [K1 [K2 [K3 K4]]]].
  rewrite app_nil_r in K2. subst bits out.
  replace (concat (map snd kvs)) with (concat (map fst (map (fun kv : word * word => (snd kv, fst kv)) kvs))) by (rewrite map_map; reflexivity).
  rewrite parse_fixed_concat; auto.
  - rewrite map_map. reflexivity.
  - intros y Hy. apply in_map_iff in Hy as [kv [<- Hin]]. apply K1 in Hin. apply in_map_iff in Hin as [kv' [<- Hin]].
    cbn. destruct kv'; exact Hin.
  - apply Forall_forall. intros y Hy. rewrite map_map in Hy. apply in_map_iff in Hy as [kv [<- Hin]]. cbn.
    apply K1 in Hin. apply in_map_iff in Hin as [kv' [<- Hin]]. cbn.
    assert (In (fst kv') (keys m)) as Hk by (apply in_map; auto). apply H4, in_tuples in Hk. tauto.
Qed.

(* ------------------------------------------------------- VariableToFixedCode *)
Lemma v2f_make_inv tgt src n m c : v2f_make tgt src n m = Some c ->
  (2 <= tgt)%N /\ (2 <= src)%N /\ 1 <= n /\ (forall w, In w (keys m) -> In w (tuples tgt n)) /\
  Forall (fun w : word => Forall (fun x => (x < src)%N) w /\ w <> []) (values m) /\
  c = {| v2f_tgt := tgt; v2f_src := src; v2f_n := n; v2f_map := m |}.
Proof.
  unfold v2f_make. destruct (N.ltb_spec tgt 2); [discriminate|]. destruct (N.ltb_spec src 2); [discriminate|].
  destruct (Nat.ltb_spec n 1); [discriminate|].
  destruct (incl_b (map fst m) (tuples tgt n)) eqn:E1; [|discriminate]. cbn [negb].
  match goal with |- context [forallb ?f (map snd m)] => destruct (forallb f (map snd m)) eqn:E2; [|discriminate] end. cbn [negb].
  intros Hc; inversion Hc. unfold incl_b in *. rewrite forallb_forall in E1, E2.
  repeat split; auto.
  - intros w Hw. apply E1 in Hw. apply mem_In in Hw; auto.
  - apply Forall_forall. intros w Hw. apply E2 in Hw. apply andb_prop in Hw as [Hw1 Hw2]. rewrite forallb_forall in Hw1. split.
    + apply Forall_forall. intros x Hx. apply Hw1 in Hx. apply N.ltb_lt in Hx; auto.
    + intros ->. discriminate.
Qed.

Lemma complete_spec rem d v : complete rem d = Some v -> exists k, In (k, v) d /\ prefix rem k.
Proof.
  induction d as [|[k v'] d IH]; cbn; [discriminate|]. destruct (is_prefix_of rem k) eqn:E; intros H.
  - inversion H; subst. exists k. split; auto. apply is_prefix_of_spec; auto.
  - destruct (IH H) as [k' [H1 H2]]. exists k'; auto.
Qed.

Lemma complete_exists rem d k v : In (k, v) d -> prefix rem k -> exists v', complete rem d = Some v'.
Proof.
  induction d as [|[k' v'] d IH]; intros Hin P; [destruct Hin|]. cbn.
  destruct (is_prefix_of rem k') eqn:E; [eauto|]. destruct Hin as [Heq|Hin]; [|auto].
  inversion Heq; subst. apply is_prefix_of_spec in P. congruence.
Qed.

Lemma v2f_round_trip tgt src n m c input :
  v2f_make tgt src n m = Some c -> NoDup (keys m) ->
  v2f_is_fully_covering c = Some true -> v2f_is_prefix_free c = true ->
  Forall (fun x => (x < src)%N) input ->
  exists out pad sw, v2f_encode c input = Some out /\ v2f_decode c out = Some (input ++ pad) /\
    (pad = [] \/ In sw (v2f_sourcewords c) /\ length pad < length sw) /\
    (forall us, incl us (v2f_sourcewords c) -> input = concat us -> pad = []).
Proof.
  intros Hm ND HC HP Hr. apply v2f_make_inv in Hm as (H1 & H2 & H3 & H4 & H5 & ->).
  unfold v2f_encode, v2f_decode. rewrite HC.
  unfold v2f_is_fully_covering, v2f_is_uniquely_encodable, v2f_is_prefix_free, v2f_sourcewords in *; cbn [v2f_map v2f_n v2f_src] in *.
  fold (values m) in *.
  assert (NE : Forall (fun w => w <> []) (values m)) by (eapply Forall_impl; [|exact H5]; intros a [_ X]; exact X).
  pose proof HP as HPF. rewrite is_prefix_free_PF, filter_non_empty_id in HPF by auto.
  rewrite (PF_uniquely_parsable _ NE HPF), HP. cbn [negb].
  apply is_fully_covering_iff in HC; auto.
  rewrite dict_inverse_fresh by (apply PF_NoDup; auto).
  set (d := map (fun kv : word * word => (snd kv, fst kv)) m) in *.
  assert (Kd : keys d = values m) by apply keys_swap.
  assert (NDd : NoDup (keys d)) by (rewrite Kd; apply PF_NoDup; auto).
  assert (NEd : Forall (fun w => w <> []) (keys d)) by (rewrite Kd; auto).
  assert (PFd : PF (keys d)) by (rewrite Kd; auto).
  destruct (prefix_loop d [] input) as [o rem] eqn:E.
  destruct (prefix_loop_spec0 d _ _ _ NDd ltac:(rewrite Kd; exact NE) E) as [kvs [K1 [K2 [K3 K4]]]].
  subst o.
  (* decoding a list of dictionary entries *)
  assert (DEC : forall kvs, incl kvs d -> parse_fixed_length (concat (map snd kvs)) m n = Some (concat (map fst kvs))).
  { intros l Hl. replace (concat (map snd l)) with (concat (map fst (map (fun kv : word * word => (snd kv, fst kv)) l))) by (rewrite map_map; reflexivity).
    rewrite parse_fixed_concat; auto.
    - rewrite map_map. reflexivity.
    - intros y Hy. apply in_map_iff in Hy as [kv [<- Hin]]. apply Hl in Hin. apply in_map_iff in Hin as [kv' [<- Hin]].
      cbn. destruct kv'; exact Hin.
    - apply Forall_forall. intros y Hy. rewrite map_map in Hy. apply in_map_iff in Hy as [kv [<- Hin]]. cbn.
      apply Hl in Hin. apply in_map_iff in Hin as [kv' [<- Hin]]. cbn.
      assert (In (fst kv') (keys m)) as Hk by (apply in_map; auto). apply H4, in_tuples in Hk. tauto. }
  assert (UNI : forall us, incl us (values m) -> input = concat us -> rem = []).
  { intros us Hus Ei. rewrite <- Kd in Hus. apply (concat_keys_unique d NEd PFd us kvs rem); auto. congruence. }
  unfold parse_prefix_free. rewrite E. destruct rem as [|x rem].
  - exists (concat (map snd kvs)), [], []. repeat split; auto.
    rewrite DEC, app_nil_r by auto. rewrite app_nil_r in K2. congruence.
  - cbn [negb]. set (rem' := x :: rem) in *.
    assert (Hex : exists k v, In (k, v) d /\ prefix rem' k /\ length rem' <= length k).
    { assert (Hrem : Forall (fun x => (x < src)%N) rem').
      { rewrite K2 in Hr. apply Forall_app in Hr. tauto. }
      destruct (HC (fun i => nth i rem' 0%N)) as [w [Hw1 Hw2]].
      { intros i. destruct (le_lt_dec (length rem') i) as [Hi|Hi]; [rewrite nth_overflow by auto; lia|].
        rewrite Forall_forall in Hrem. apply Hrem, nth_In; auto. }
      assert (S1 : starts_with (fun i => nth i rem' 0%N) rem').
      { intros i y Hy. apply nth_error_nth with (d := 0%N) in Hy; auto. }
      apply starts_fprefix in S1, Hw2. set (g := fun i => nth i rem' 0%N) in *. clearbody g.
      rewrite <- Kd in Hw1. pose proof Hw1 as Hw1'. apply in_map_iff in Hw1 as [[k v] [Hk Hin]]. cbn in Hk. subst k.
      assert (L : length rem' <= length w).
      { destruct (le_lt_dec (length rem') (length w)) as [L|L]; auto. exfalso.
        apply (K4 w); auto.
        - rewrite S1, Hw2. apply fprefix_prefix. lia.
        - intros ->. rewrite Forall_forall in NEd. apply (NEd [] Hw1'); auto. }
      exists w, v. repeat split; auto. rewrite S1, Hw2. apply fprefix_prefix. lia. }
    destruct Hex as [k [v [Hin [P L]]]]. destruct (complete_exists rem' d k v Hin P) as [v' Hv'].
    rewrite Hv'. destruct (complete_spec _ _ _ Hv') as [k' [Hin' [pad Hpad]]].
    exists (concat (map snd kvs) ++ v'), pad, k'. repeat split; auto.
    + replace (concat (map snd kvs) ++ v') with (concat (map snd (kvs ++ [(k', v')]))).
      2:{ rewrite map_app, concat_app. cbn. rewrite app_nil_r; auto. }
      rewrite DEC by (intros y Hy; apply in_app_iff in Hy as [Hy|[<-|[]]]; auto).
      rewrite map_app, concat_app. cbn [map fst concat]. rewrite app_nil_r, Hpad, app_assoc, <- K2. reflexivity.
    + right. split.
      * rewrite <- Kd. apply (in_map fst _ _ Hin').
      * rewrite Hpad, app_length. unfold rem'. cbn. lia.
    + intros us Hus Ei. exfalso. specialize (UNI us Hus Ei). discriminate.
Qed.

(* ------------------------------------------------------------ infer_block_size *)
Lemma infer_loop_spec fuel size card k power r : infer_loop fuel size card k power = Some r ->
  exists j, r = k + j /\ size = (power * card ^ N.of_nat j)%N.
Proof.
  revert k power; induction fuel as [|f IH]; intros k power H; cbn in H;
  destruct (N.ltb_spec power size) as [L|L]; try discriminate;
  try (destruct (N.eqb_spec power size); [|discriminate]; inversion H; subst; exists 0; cbn; split; lia).
  apply IH in H as [j [-> ->]]. exists (S j). split; [lia|]. rewrite Nat2N.inj_succ, N.pow_succ_r'. lia.
Qed.

Lemma infer_loop_complete fuel size card k power j : (2 <= card)%N -> size = (power * card ^ N.of_nat j)%N -> power <> 0%N ->
  j <= fuel -> infer_loop fuel size card k power = Some (k + j).
Proof.
  intros Hc. revert k power j; induction fuel as [|f IH]; intros k power j Hs Hp Hf.
  - assert (j = 0) by lia; subst j. cbn [infer_loop]. cbn in Hs.
    destruct (N.ltb_spec power size); [lia|]. destruct (N.eqb_spec power size); [f_equal; lia|lia].
  - cbn [infer_loop]. destruct (N.ltb_spec power size).
    + destruct j as [|j]; [cbn in Hs; lia|]. rewrite (IH (S k) _ j); [f_equal; lia| |nia|lia].
      rewrite Nat2N.inj_succ, N.pow_succ_r' in Hs. lia.
    + assert (j = 0).
      { destruct j as [|j]; auto. exfalso. rewrite Nat2N.inj_succ, N.pow_succ_r' in Hs.
        assert (card ^ N.of_nat j <> 0)%N by (apply N.pow_nonzero; lia). assert (2 <= card * card ^ N.of_nat j)%N by nia. set (Y := (card * card ^ N.of_nat j)%N) in *. clearbody Y. assert (power * 2 <= power * Y)%N by (apply N.mul_le_mono_l; auto). lia. }
      subst. cbn. destruct (N.eqb_spec power (power * 1)); [f_equal; lia|lia].
Qed.

Lemma infer_block_size_iff size card k : (2 <= card)%N ->
  infer_block_size size card = Some k <-> 1 <= k /\ size = (card ^ N.of_nat k)%N.
Proof.
  intros Hc. unfold infer_block_size. split.
  - intros H. apply infer_loop_spec in H as [j [-> ->]]. split; [lia|].
    cbn [Nat.add]. rewrite Nat2N.inj_succ, N.pow_succ_r'. reflexivity.
  - intros [H1 H2]. destruct k as [|k]; [lia|]. rewrite (infer_loop_complete _ _ _ 1 card k); auto; [|lia|].
    + rewrite H2, Nat2N.inj_succ, N.pow_succ_r'. reflexivity.
    + subst size. 
      assert (N.of_nat k < N.of_nat (N.size_nat (card ^ N.of_nat (S k))))%N; [|lia].
      assert (S1 : (2 ^ N.of_nat k <= card ^ N.of_nat k)%N) by (apply N.pow_le_mono_l; lia).
      assert (S2 : (card ^ N.of_nat k < card ^ N.of_nat (S k))%N) by (apply N.pow_lt_mono_r; lia).
      set (s := (card ^ N.of_nat (S k))%N) in *.
      assert (S3 : (s < 2 ^ N.of_nat (N.size_nat s))%N).
      { clearbody s. destruct s as [|p]; [reflexivity|].
        assert (E: N.of_nat (N.size_nat (N.pos p)) = N.size (N.pos p)).
        { clear. cbn. induction p as [p IH|p IH|]; cbn [Pos.size_nat Pos.size]; try reflexivity; lia. }
        rewrite E. apply N.size_gt. }
      apply (N.pow_lt_mono_r_iff 2); [lia|]. lia.
Qed.

(* ------------------------------------------------------------- from_lengths *)
Lemma keys_combine (a b : list word) : length a = length b -> keys (combine a b) = a.
Proof. unfold keys. revert b; induction a as [|x a IH]; intros [|y b] H; cbn in *; try discriminate; auto. f_equal; auto. Qed.
Lemma values_combine (a b : list word) : length a = length b -> values (combine a b) = b.
Proof. unfold values. revert b; induction a as [|x a IH]; intros [|y b] H; cbn in *; try discriminate; auto. f_equal; auto. Qed.

Lemma from_lengths_spec lengths src tgt k : (2 <= src)%N -> (2 <= tgt)%N -> 1 <= k ->
  N.of_nat (length lengths) = (src ^ N.of_nat k)%N -> Forall (fun l => 0 < l) lengths ->
  match canonical_code lengths tgt with
  | None => f2v_from_lengths lengths (Some src) tgt = None
  | Some ws => f2v_from_lengths lengths (Some src) tgt =
                 Some {| f2v_src := src; f2v_tgt := tgt; f2v_k := k; f2v_map := combine (tuples src k) ws |}
               /\ length (tuples src k) = length ws
  end.
Proof.
  intros H1 H2 H3 H4 H5. unfold f2v_from_lengths.
  destruct (N.ltb_spec src 2); [lia|]. destruct (N.ltb_spec tgt 2); [lia|].
  rewrite (proj2 (infer_block_size_iff _ _ k H1)) by auto.
  destruct (canonical_code lengths tgt) as [ws|] eqn:E; [|reflexivity].
  pose proof (canonical_lengths tgt H2 lengths ws E) as EL.
  assert (length (tuples src k) = length ws) as L.
  { pose proof (tuples_length src k). rewrite <- EL in H4. unfold wlen in H4. rewrite map_length in H4. lia. }
  split; auto.
  destruct (existsb (fun w => negb (non_empty w)) ws) eqn:E2.
  - exfalso. apply existsb_exists in E2 as [w [Hw1 Hw2]]. rewrite Forall_forall in H5.
    assert (0 < wlen w) by (apply H5; rewrite <- EL; apply in_map; auto). destruct w; cbn in *; [lia|discriminate].
  - apply f2v_make_ok; auto.
    + intros w. rewrite keys_combine by auto. tauto.
    + rewrite values_combine by auto. apply canonical_range with (lengths := lengths); auto.
Qed.
