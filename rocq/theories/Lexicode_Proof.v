(* Lexicodes: the greedy code is linear and the recorded words form a basis of it. *)
From Coq Require Import Permutation.
From Verif Require Import Common Bits_Model Bits_Proof Vec_Model Vec_Proof LinAlg_Model Linear_Spec
  LinAlg_Proof XRref_Proof Null_Proof BlockCode_Model Code_Spec BlockCode_Proof CosetLeaders_Proof
  ClassicCodes_Model.
Local Open Scope N_scope.

(* ---- comparing words that differ by x ---- *)
Lemma lxor_high a x i : N.log2 x < i -> N.testbit (N.lxor a x) i = N.testbit a i.
Proof. intros H. rewrite N.lxor_spec, (N.bits_above_log2 x i H). apply xorb_false_r. Qed.

Lemma half_bit a p : a / 2 ^ p = 2 * (a / 2 ^ (p + 1)) + N.b2n (N.testbit a p).
Proof.
  rewrite N.testbit_spec', N.pow_add_r, N.pow_1_r, <- N.div_div by (try apply N.pow_nonzero; lia).
  apply N.div_mod'.
Qed.

Lemma lt_bit a b p : N.testbit a p = false -> N.testbit b p = true -> (forall i, p < i -> N.testbit a i = N.testbit b i) -> a < b.
Proof.
  intros Ha Hb H. apply N.lt_nge. intros L.
  assert (E : a / 2 ^ (p + 1) = b / 2 ^ (p + 1)).
  { rewrite <- !N.shiftr_div_pow2. apply N.bits_inj. intros i. rewrite !N.shiftr_spec'. apply H. lia. }
  pose proof (half_bit a p) as A. pose proof (half_bit b p) as B. rewrite Ha in A. rewrite Hb in B. cbn [N.b2n] in A, B.
  assert (b / 2 ^ p <= a / 2 ^ p) by (apply N.div_le_mono; [apply N.pow_nonzero; lia|auto]).
  rewrite A, B, E in H0. lia.
Qed.

Lemma lxor_lt a x : x <> 0 -> (N.lxor a x < a <-> N.testbit a (N.log2 x) = true).
Proof.
  intros Hx. pose proof (N.bit_log2 x Hx) as B. split.
  - intros L. destruct (N.testbit a (N.log2 x)) eqn:E; auto. exfalso.
    assert (a < N.lxor a x); [|lia]. apply (lt_bit _ _ (N.log2 x)); auto.
    + rewrite N.lxor_spec, E, B. auto.
    + intros i Hi. symmetry. apply lxor_high; auto.
  - intros E. apply (lt_bit _ _ (N.log2 x)); auto.
    + rewrite N.lxor_spec, E, B. auto.
    + intros i Hi. apply lxor_high; auto.
Qed.

Lemma lxor_0 a b : N.lxor a b = 0 <-> a = b.
Proof. apply N.lxor_eq_0_iff. Qed.

Lemma lxor_cancel a b : N.lxor a (N.lxor a b) = b.
Proof. rewrite <- N.lxor_assoc, N.lxor_nilpotent, N.lxor_0_l. auto. Qed.
Lemma lxor_cancel_r a b : N.lxor (N.lxor a b) b = a.
Proof. rewrite N.lxor_assoc, N.lxor_nilpotent, N.lxor_0_r. auto. Qed.

Ltac xs := apply N.bits_inj; intros ?z; rewrite ?N.lxor_spec;
  repeat match goal with |- context [N.testbit ?a z] => destruct (N.testbit a z) end; reflexivity.

(* ---- spans ---- *)
Fixpoint span (B : list N) : list N :=
  match B with [] => [0] | b :: B' => span B' ++ map (N.lxor b) (span B') end.

Lemma in_span_cons b B x : In x (span (b :: B)) <-> In x (span B) \/ In (N.lxor b x) (span B).
Proof.
  cbn [span]. rewrite in_app_iff, in_map_iff. split.
  - intros [H|(y & <- & H)]; auto. right. rewrite lxor_cancel. auto.
  - intros [H|H]; auto. right. exists (N.lxor b x). split; auto. apply lxor_cancel.
Qed.

Lemma in_span_snoc B b : forall x, In x (span (B ++ [b])) <-> In x (span B) \/ In (N.lxor b x) (span B).
Proof.
  induction B as [|a B IH]; intros x.
  - cbn [app]. apply in_span_cons.
  - cbn [app]. rewrite !in_span_cons, !IH. replace (N.lxor b (N.lxor a x)) with (N.lxor a (N.lxor b x)) by xs. tauto.
Qed.

Lemma span_length B : length (span B) = (2 ^ length B)%nat.
Proof. induction B as [|b B IH]; auto. cbn [span length Nat.pow]. rewrite app_length, map_length, IH. lia. Qed.

(* ---- the greedy loop ---- *)
Section Greedy.
Variable good : N -> bool.
Hypothesis good0 : good 0 = false.

Definition ok (L : list N) (i : N) : bool := forallb (fun c => good (N.lxor c i)) L.

Lemma ok_spec L i : ok L i = true <-> forall c, In c L -> good (N.lxor c i) = true.
Proof. apply forallb_forall. Qed.

Lemma not_ok L i : ok L i = false -> exists c, In c L /\ good (N.lxor c i) = false.
Proof.
  unfold ok. induction L as [|c L IH]; cbn; intros H; [discriminate|]. destruct (good (N.lxor c i)) eqn:E.
  - destruct (IH H) as (c' & Hc & G). exists c'; auto.
  - exists c; auto.
Qed.

Definition closed (C : list N) : Prop := In 0 C /\ forall x y, In x C -> In y C -> In (N.lxor x y) C.

(* C: a completed linear part; T: those c in C for which b xor c has been accepted already *)
Record Part (i : N) (L B : list N) (k : nat) (C : list N) (b : N) (T : list N) : Prop := {
  p_closed : closed C;
  p_nodup : NoDup C;
  p_size : length C = (2 ^ k)%nat;
  p_L : L = C ++ map (N.lxor b) T;
  p_below : forall c, In c L -> c < i;
  p_cover : forall j, j < i -> ~ In j L -> exists c, In c L /\ c < j /\ good (N.lxor c j) = false;
  p_dist : forall x y, In x L -> In y L -> x <> y -> good (N.lxor x y) = true;
  p_T : NoDup T /\ incl T C /\ (length T < 2 ^ k)%nat;
  p_b : T <> [] -> (forall c, In c C -> c < b) /\ b < i /\
        (forall j, j < b -> ~ In j C -> exists c, In c C /\ c < j /\ good (N.lxor c j) = false) /\
        (forall c, In c C -> good (N.lxor c b) = true);
  p_basis : exists B0, length B0 = k /\ (forall x, In x C <-> In x (span B0)) /\
        B = (match T with [] => B0 | _ => B0 ++ [b] end) }.

Definition Inv (i : N) (L B : list N) : Prop := exists k C b T, Part i L B k C b T.

(* words b xor c not yet accepted lie ahead *)
Lemma pending i L B k C b T c : Part i L B k C b T -> T <> [] -> In c C -> ~ In c T -> i <= N.lxor b c.
Proof.
  intros [[C0 Cx] ND Sz EL Bl Cov Ds [NT [IT LT]] Pb _] HT Hc Hn. destruct (Pb HT) as (Bb & Bi & _ & Gb).
  destruct (N.le_gt_cases i (N.lxor b c)) as [|Lt]; auto. exfalso.
  assert (NL : ~ In (N.lxor b c) L).
  { rewrite EL, in_app_iff, in_map_iff. intros [H|(t & Et & Ht)].
    - assert (Hb : In b C) by (rewrite <- (lxor_cancel_r b c); apply Cx; auto). specialize (Bb b Hb). lia.
    - apply Hn. replace c with t; auto. rewrite <- (lxor_cancel b t), <- (lxor_cancel b c), Et. auto. }
  destruct (Cov _ Lt NL) as (e & He & _ & Ge). rewrite EL, in_app_iff, in_map_iff in He. destruct He as [He|(t & <- & Ht)].
  - replace (N.lxor e (N.lxor b c)) with (N.lxor (N.lxor e c) b) in Ge by xs. rewrite Gb in Ge by auto. discriminate.
  - replace (N.lxor (N.lxor b t) (N.lxor b c)) with (N.lxor t c) in Ge by xs.
    assert (t <> c) by (intros ->; auto).
    rewrite Ds in Ge; auto; try discriminate; rewrite EL, in_app_iff; auto.
Qed.

Lemma incomplete k (C T : list N) : NoDup C -> NoDup T -> incl T C -> length C = (2 ^ k)%nat -> (length T < 2 ^ k)%nat ->
  exists c, In c C /\ ~ In c T.
Proof.
  intros NC NT I LC LT. destruct (Forall_Exists_dec (fun c => In c T) (fun c => in_dec N.eq_dec c T) C) as [F|E].
  - exfalso. rewrite Forall_forall in F. pose proof (NoDup_incl_length NC F). lia.
  - apply Exists_exists in E as (c & Hc & Hn). eauto.
Qed.

(* an accepted word is b xor (an element of C) *)
Lemma next_word i L B k C b T : Part i L B k C b T -> T <> [] -> ok L i = true -> In (N.lxor b i) C.
Proof.
  intros P HT Ok. pose proof P as [[C0 Cx] ND Sz EL Bl Cov Ds [NT [IT LT]] Pb _]. destruct (Pb HT) as (Bb & Bi & Cb & Gb).
  rewrite ok_spec in Ok. set (i' := N.lxor b i).
  destruct (in_dec N.eq_dec i' C) as [|NI]; auto. exfalso.
  assert (b0 : b <> 0) by (specialize (Bb 0 C0); lia).
  (* i has the same leading bit as b *)
  destruct (incomplete k C T ND NT IT Sz LT) as (c & Hc & Hn).
  pose proof (pending _ _ _ _ _ _ _ _ P HT Hc Hn) as Pe.
  assert (Lg : N.log2 i = N.log2 b).
  { apply N.le_antisymm; [|apply N.log2_le_mono; lia].
    apply N.le_trans with (N.log2 (N.lxor b c)); [apply N.log2_le_mono; auto|].
    eapply N.le_trans; [apply N.log2_lxor|]. apply N.max_lub; [lia|]. apply N.log2_le_mono. specialize (Bb c Hc). lia. }
  assert (Hi' : i' < b). { apply lxor_lt; [lia|]. rewrite Lg. apply N.bit_log2; auto. }
  destruct (Cb i' Hi' NI) as (c' & Hc' & Lt' & Gc').
  set (x := N.lxor c' i') in *.
  assert (x0 : x <> 0) by (unfold x; rewrite lxor_0; lia).
  assert (Bit : N.testbit i' (N.log2 x) = true).
  { apply lxor_lt; auto. replace (N.lxor i' x) with c' by (unfold x; xs). auto. }
  destruct (N.testbit b (N.log2 x)) eqn:Eb.
  - (* z = b xor x precedes b and is at distance from C: impossible *)
    assert (Hz : N.lxor b x < b) by (apply lxor_lt; auto).
    assert (Gz : forall e, In e C -> good (N.lxor e (N.lxor b x)) = true).
    { intros e He. replace (N.lxor e (N.lxor b x)) with (N.lxor (N.lxor e c') i) by (unfold x, i'; xs).
      apply Ok. rewrite EL, in_app_iff. auto. }
    destruct (in_dec N.eq_dec (N.lxor b x) C) as [Hin|Hin].
    + specialize (Gz _ Hin). rewrite N.lxor_nilpotent, good0 in Gz. discriminate.
    + destruct (Cb _ Hz Hin) as (e & He & _ & Ge). rewrite Gz in Ge by auto. discriminate.
  - (* b xor c' precedes i, so it has been accepted, and it is too close to i *)
    assert (Ei : N.lxor b c' < i).
    { replace (N.lxor b c') with (N.lxor i x) by (unfold x, i'; xs). apply lxor_lt; auto.
      replace i with (N.lxor b i') by (unfold i'; xs). rewrite N.lxor_spec, Eb, Bit. auto. }
    destruct (in_dec N.eq_dec c' T) as [HcT|HcT].
    + assert (In (N.lxor b c') L) by (rewrite EL, in_app_iff, in_map_iff; right; eauto).
      specialize (Ok _ H). replace (N.lxor (N.lxor b c') i) with x in Ok by (unfold x, i'; xs). congruence.
    + pose proof (pending _ _ _ _ _ _ _ _ P HT Hc' HcT). lia.
Qed.

Lemma bit_count_pow2 k : bit_count (2 ^ N.of_nat k) = 1%nat.
Proof.
  induction k as [|k IH]; auto. rewrite Nnat.Nat2N.inj_succ, N.pow_succ_r'.
  destruct (2 ^ N.of_nat k) eqn:E; [cbn in IH; discriminate|]. auto.
Qed.

Lemma bit_count_step n : bit_count n = ((if N.odd n then 1 else 0) + bit_count (N.div2 n))%nat.
Proof. destruct n as [|[p|p|]]; reflexivity. Qed.

Lemma bit_count_0 n : bit_count n = 0%nat -> n = 0.
Proof. destruct n as [|p]; auto. cbn. induction p; cbn; try discriminate. intros H. specialize (IHp H). discriminate. Qed.

Lemma bit_count_pow2_add k t : t < 2 ^ N.of_nat k -> bit_count (2 ^ N.of_nat k + t) = 1%nat -> t = 0.
Proof.
  revert t; induction k as [|k IH]; intros t Ht H; [cbn in Ht; lia|].
  rewrite Nnat.Nat2N.inj_succ, N.pow_succ_r' in *. rewrite bit_count_step in H.
  assert (O : N.odd (2 * 2 ^ N.of_nat k + t) = N.odd t) by (rewrite N.odd_add_mul_2 || rewrite N.add_comm, N.odd_add_mul_2; auto).
  assert (D : N.div2 (2 * 2 ^ N.of_nat k + t) = 2 ^ N.of_nat k + N.div2 t).
  { rewrite !N.div2_div. rewrite N.add_comm, N.mul_comm, N.div_add by lia. lia. }
  rewrite O, D in H. assert (T : t = 2 * N.div2 t + (if N.odd t then 1 else 0)).
  { rewrite (N.div2_odd t) at 1. destruct (N.odd t); auto. }
  destruct (N.odd t).
  - exfalso. assert (Z : bit_count (2 ^ N.of_nat k + N.div2 t) = 0%nat) by lia. apply bit_count_0 in Z.
    assert (2 ^ N.of_nat k <> 0) by (apply N.pow_nonzero; lia). lia.
  - assert (N.div2 t = 0) by (apply IH; [|auto]; rewrite N.div2_div; apply N.div_lt_upper_bound; lia). lia.
Qed.

Definition step (st : list N * list N) (i : N) : list N * list N :=
  let (L, B) := st in
  if ok L i then (L ++ [i], if (bit_count (N.of_nat (length L)) =? 1)%nat then B ++ [i] else B) else st.

Lemma pow2_of_nat k : N.of_nat (2 ^ k) = 2 ^ N.of_nat k.
Proof. apply BlockCode_Proof.pow2_N. Qed.

(* completing the coset *)
Lemma complete i L B k C b T : Part i L B k C b T \/ True ->
  forall (Cl : closed C) (ND : NoDup C) (Sz : length C = (2 ^ k)%nat) (EL : L = C ++ map (N.lxor b) T)
    (Bl : forall c, In c L -> c < i)
    (Cov : forall j, j < i -> ~ In j L -> exists c, In c L /\ c < j /\ good (N.lxor c j) = false)
    (Ds : forall x y, In x L -> In y L -> x <> y -> good (N.lxor x y) = true)
    (NT : NoDup T) (IT : incl T C) (LT : length T = (2 ^ k)%nat) (Nb : ~ In b C) B0
    (LB : length B0 = k) (SB : forall x, In x C <-> In x (span B0)) (EB : B = B0 ++ [b]),
  Inv i L B.
Proof.
  intros _ [C0 Cx] ND Sz EL Bl Cov Ds NT IT LT Nb B0 LB SB EB.
  assert (TC : forall c, In c C -> In c T) by (apply NoDup_length_incl; auto; lia).
  exists (S k), L, 0, []. constructor; auto.
  - split; [rewrite EL, in_app_iff; auto|]. assert (G : forall x, In x L <-> In x C \/ In (N.lxor b x) C).
    { intros x. rewrite EL, in_app_iff, in_map_iff. split.
      - intros [H|(t & <- & Ht)]; auto. right. rewrite lxor_cancel. auto.
      - intros [H|H]; auto. right. exists (N.lxor b x). rewrite lxor_cancel. auto. }
    intros x y. rewrite !G. intros [Hx|Hx] [Hy|Hy].
    + left; auto.
    + right. replace (N.lxor b (N.lxor x y)) with (N.lxor x (N.lxor b y)) by xs. auto.
    + right. replace (N.lxor b (N.lxor x y)) with (N.lxor (N.lxor b x) y) by xs. auto.
    + left. replace (N.lxor x y) with (N.lxor (N.lxor b x) (N.lxor b y)) by xs. auto.
  - rewrite EL. apply NoDup_app_intro; auto.
    + apply NoDup_map_inj_in; auto. intros x y _ _ E. rewrite <- (lxor_cancel b x), E, lxor_cancel. auto.
    + intros x Hx Hm. apply in_map_iff in Hm as (t & Et & Ht). apply Nb.
      replace b with (N.lxor x t) by (rewrite <- Et, lxor_cancel_r; auto). auto.
  - rewrite EL, app_length, map_length, Sz, LT. cbn [Nat.pow]. lia.
  - cbn [map]. rewrite app_nil_r. auto.
  - split; [constructor|]. split; [intros ? []|]. cbn [length]. pose proof (Nat.pow_nonzero 2 (S k)). lia.
  - congruence.
  - exists B. split; [rewrite EB, app_length; cbn; lia|]. split; auto. intros x. rewrite EB, in_span_snoc, <- !SB.
    rewrite EL, in_app_iff, in_map_iff. split.
    + intros [H|(t & <- & Ht)]; auto. right. rewrite lxor_cancel. auto.
    + intros [H|H]; auto. right. exists (N.lxor b x). rewrite lxor_cancel. auto.
Qed.

Lemma step_inv i L B : Inv i L B -> Inv (i + 1) (fst (step (L, B) i)) (snd (step (L, B) i)).
Proof.
  intros (k & C & b & T & P). unfold step. destruct (ok L i) eqn:Ok.
  - (* accepted *)
    pose proof P as [[C0 Cx] ND Sz EL Bl Cov Ds [NT [IT LT]] Pb (B0 & LB & SB & EB)].
    pose proof Ok as Ok'. rewrite ok_spec in Ok'. cbn [fst snd].
    assert (Bl' : forall c, In c (L ++ [i]) -> c < i + 1).
    { intros c. rewrite in_app_iff. intros [H|[<-|[]]]; [specialize (Bl c H)|]; lia. }
    assert (Cov' : forall j, j < i + 1 -> ~ In j (L ++ [i]) -> exists c, In c (L ++ [i]) /\ c < j /\ good (N.lxor c j) = false).
    { intros j Hj Nj. rewrite in_app_iff in Nj. assert (j <> i) by (intros ->; apply Nj; right; left; auto).
      destruct (Cov j) as (c & Hc & R); [lia|tauto|]. exists c. rewrite in_app_iff. auto. }
    assert (Ds' : forall x y, In x (L ++ [i]) -> In y (L ++ [i]) -> x <> y -> good (N.lxor x y) = true).
    { intros x y. rewrite !in_app_iff. intros [Hx|[<-|[]]] [Hy|[<-|[]]] D; try congruence; auto. rewrite N.lxor_comm. auto. }
    assert (iC : ~ In i C). { intros H. specialize (Bl i). rewrite EL, in_app_iff in Bl. specialize (Bl (or_introl H)). lia. }
    destruct T as [|t T'] eqn:ET.
    + (* a new basis element *)
      cbn [map] in EL. rewrite app_nil_r in EL. subst L.
      assert (Bc : (bit_count (N.of_nat (length C)) =? 1)%nat = true).
      { rewrite Sz, pow2_of_nat, bit_count_pow2. auto. }
      rewrite Bc. subst B.
      destruct k as [|k'].
      * (* C = {0}: the coset is complete at once *)
        apply (complete (i + 1) (C ++ [i]) (B0 ++ [i]) 0 C i [0] (or_intror I)) with (B0 := B0); auto.
        -- split; auto.
        -- cbn [map]. rewrite N.lxor_0_r. auto.
        -- repeat constructor. intros [].
        -- intros x [<-|[]]; auto.
      * exists (S k'), C, i, [0]. constructor; auto.
        -- split; auto.
        -- cbn [map]. rewrite N.lxor_0_r. auto.
        -- split; [repeat constructor; intros []|]. split; [intros x [<-|[]]; auto|]. cbn [length Nat.pow].
           pose proof (Nat.pow_nonzero 2 k'). lia.
        -- intros _. split; auto. split; [lia|]. split; auto.
        -- exists B0. auto.
    + assert (HT : t :: T' <> []) by discriminate. destruct (Pb HT) as (Bb & Bi & Cb & Gb).
      pose proof (next_word _ _ _ _ _ _ _ P HT Ok) as Hn. set (c0 := N.lxor b i) in *.
      assert (c0T : ~ In c0 (t :: T')).
      { intros H. assert (In i L). { rewrite EL, in_app_iff, in_map_iff. right. exists c0. split; auto. apply lxor_cancel. }
        specialize (Bl i H0). lia. }
      assert (Bc : (bit_count (N.of_nat (length L)) =? 1)%nat = false).
      { apply Nat.eqb_neq. intros H. rewrite EL, app_length, map_length, Sz, Nnat.Nat2N.inj_add, pow2_of_nat in H.
        apply bit_count_pow2_add in H; [cbn [length] in H; lia|]. rewrite <- pow2_of_nat. lia. }
      rewrite Bc.
      assert (EL' : L ++ [i] = C ++ map (N.lxor b) ((t :: T') ++ [c0])).
      { rewrite map_app, app_assoc, <- EL. cbn [map]. unfold c0. rewrite lxor_cancel. auto. }
      assert (NT' : NoDup ((t :: T') ++ [c0])).
      { apply NoDup_app_intro; auto; [repeat constructor; intros []|]. intros x Hx [<-|[]]. auto. }
      assert (IT' : incl ((t :: T') ++ [c0]) C).
      { intros x. rewrite in_app_iff. intros [H|[<-|[]]]; auto. }
      destruct (Nat.eq_dec (S (length (t :: T'))) (2 ^ k)) as [Eq|Ne].
      * apply (complete (i + 1) (L ++ [i]) B k C b ((t :: T') ++ [c0]) (or_intror I)) with (B0 := B0); auto.
        -- split; auto.
        -- rewrite app_length. cbn [length] in *. lia.
        -- intros H. specialize (Bb b H). lia.
      * exists k, C, b, ((t :: T') ++ [c0]). constructor; auto.
        -- split; auto.
        -- split; auto. split; auto. rewrite app_length. cbn [length] in *. lia.
        -- intros _. split; auto. split; [lia|]. split; auto.
        -- exists B0. split; auto.
  - (* rejected *)
    cbn [fst snd]. destruct (not_ok L i Ok) as (c & Hc & Gc). destruct P as [Cl ND Sz EL Bl Cov Ds TT Pb BB].
    exists k, C, b, T. constructor; auto.
    + intros x Hx. specialize (Bl x Hx). lia.
    + intros j Hj Nj. destruct (N.eq_dec j i) as [->|]; [|apply Cov; auto; lia]. exists c. auto.
    + intros HT. destruct (Pb HT) as (H1 & H2 & H3 & H4). repeat split; auto. lia.
Qed.

Lemma loop_inv m : forall i st, Inv i (fst st) (snd st) ->
  Inv (i + N.of_nat m) (fst (fold_left step (map N.of_nat (seq (N.to_nat i) m)) st))
                       (snd (fold_left step (map N.of_nat (seq (N.to_nat i) m)) st)).
Proof.
  induction m as [|m IH]; intros i [L B] H; cbn [seq map fold_left].
  - cbn [N.of_nat]. rewrite N.add_0_r. auto.
  - rewrite Nnat.N2Nat.id. apply step_inv in H. specialize (IH (i + 1) _ H).
    replace (N.to_nat (i + 1)) with (S (N.to_nat i)) in IH by lia. replace (i + N.of_nat (S m)) with (i + 1 + N.of_nat m) by lia. exact IH.
Qed.

Lemma init_inv : Inv 1 [0] [].
Proof.
  exists 0%nat, [0], 0, []. constructor; auto; try (cbn; tauto).
  - split; [left; auto|]. intros x y [<-|[]] [<-|[]]. left. auto.
  - repeat constructor. intros [].
  - intros c [<-|[]]. lia.
  - intros j Hj Nj. exfalso. apply Nj. left. lia.
  - intros x y [<-|[]] [<-|[]]. congruence.
  - split; [constructor|]. split; [intros ? []|]. cbn. lia.
  - exists []. split; auto. split; auto. intros x. reflexivity.
Qed.

Theorem greedy_linear n : let st := fold_left step (map N.of_nat (seq 1 (2 ^ n - 1))) ([0], []) in
  let L := fst st in let B := snd st in
  NoDup L /\ length L = (2 ^ length B)%nat /\ (forall x, In x L <-> In x (span B)) /\
  (forall x, In x L -> x < 2 ^ N.of_nat n) /\
  (forall x y, In x L -> In y L -> x <> y -> good (N.lxor x y) = true) /\
  (forall j, j < 2 ^ N.of_nat n -> ~ In j L -> exists c, In c L /\ c < j /\ good (N.lxor c j) = false).
Proof.
  intros st L B. pose proof (loop_inv (2 ^ n - 1) 1 ([0], []) init_inv) as H. change (N.to_nat 1) with 1%nat in H.
  fold st in H. fold L B in H.
  assert (E : 1 + N.of_nat (2 ^ n - 1) = 2 ^ N.of_nat n).
  { rewrite <- pow2_of_nat. pose proof (Nat.pow_nonzero 2 n). lia. }
  rewrite E in H. destruct H as (k & C & b & T & P).
  assert (ET : T = []).
  { destruct T as [|t T]; auto. exfalso. assert (HT : t :: T <> []) by discriminate.
    pose proof P as [[C0 Cx] ND Sz EL Bl Cov Ds [NT [IT LT]] Pb _]. destruct (Pb HT) as (Bb & Bi & _ & _).
    destruct (incomplete k C (t :: T) ND NT IT Sz LT) as (c & Hc & Hn).
    pose proof (pending _ _ _ _ _ _ _ _ P HT Hc Hn) as Q. assert (c < 2 ^ N.of_nat n) by (specialize (Bb c Hc); lia).
    assert (N.lxor b c < 2 ^ N.of_nat n); [|lia].
    destruct (N.eq_dec (N.lxor b c) 0) as [->|NZ]; [lia|]. apply N.log2_lt_pow2; [lia|].
    eapply N.le_lt_trans; [apply N.log2_lxor|]. 
    assert (b <> 0) by (specialize (Bb 0 C0); lia).
    apply N.max_lub_lt; [apply N.log2_lt_pow2; lia|].
    destruct (N.eq_dec c 0) as [->|]; [|apply N.log2_lt_pow2; lia]. cbn [N.log2].
    assert (N.log2 b < N.of_nat n) by (apply N.log2_lt_pow2; lia). lia. }
  subst T. destruct P as [Cl ND Sz EL Bl Cov Ds _ _ (B0 & LB & SB & EB)]. cbn [map] in EL. rewrite app_nil_r in EL.
  rewrite EL, EB in *. clear EL EB. rewrite LB. repeat apply conj; auto; apply SB.
Qed.
End Greedy.

(* ---- from integers to words ---- *)
Local Open Scope nat_scope.
Definition value (v : vec) : N := bits_to_int v MSB_first.

Lemma rev_vxor u v : length u = length v -> rev (vxor u v) = vxor (rev u) (rev v).
Proof.
  intros L. apply vec_ext; rewrite ?rev_length, ?vxor_length, ?rev_length by (rewrite ?rev_length; auto); auto.
  intros i Hi. rewrite rev_nth by (rewrite vxor_length; auto). rewrite !nth_vxor by (rewrite ?rev_length; auto).
  rewrite vxor_length by auto. rewrite !rev_nth by congruence. rewrite L. auto.
Qed.

Lemma value_vxor u v : length u = length v -> value (vxor u v) = N.lxor (value u) (value v).
Proof.
  intros L. unfold value. rewrite !bits_to_int_msb, rev_vxor by auto. rewrite <- !bits_to_int_lsb.
  apply bits_to_int_vxor. rewrite !rev_length; auto.
Qed.

Lemma value_bound v : (value v < 2 ^ N.of_nat (length v))%N.
Proof. apply bits_to_int_bound. Qed.

Lemma value_inj u v : length u = length v -> value u = value v -> u = v.
Proof.
  intros L E. rewrite <- (int_bits_round_trip u MSB_first), <- (int_bits_round_trip v MSB_first), L. unfold value in E. rewrite E. auto.
Qed.

Lemma bit_count_byte v : bit_count (byte_of v) = weight v.
Proof.
  induction v as [|b v IH]; auto. cbn [byte_of fold_right]. fold (byte_of v).
  transitivity ((if b then 1 else 0) + bit_count (byte_of v)).
  - destruct b.
    + destruct (byte_of v); reflexivity.
    + destruct (byte_of v); reflexivity.
  - rewrite IH. destruct b; auto.
Qed.

Lemma weight_rev v : weight (rev v) = weight v.
Proof. unfold weight. induction v as [|b v IH]; auto. cbn [rev]. rewrite filter_app, app_length, IH. destruct b; cbn; lia. Qed.

Lemma bit_count_value v : bit_count (value v) = weight v.
Proof. unfold value. rewrite bits_to_int_msb, bit_count_byte, weight_rev. auto. Qed.

Lemma value_zeros n : value (zeros n) = 0%N.
Proof.
  unfold value. rewrite bits_to_int_msb. unfold zeros.
  assert (E : rev (repeat false n) = repeat false n).
  { apply vec_ext; rewrite rev_length; auto. rewrite repeat_length. intros i Hi. rewrite rev_nth by (rewrite repeat_length; auto).
    rewrite !nth_repeat. auto. }
  rewrite E. clear E. induction n as [|n IH]; auto. cbn [repeat]. unfold byte_of in *. cbn [fold_right]. rewrite IH. reflexivity.
Qed.

Lemma value_toB n b : (b < 2 ^ N.of_nat n)%N -> value (int_to_bits b n MSB_first) = b.
Proof. intros H. apply bits_int_round_trip; auto. Qed.

Definition rows (n : nat) (B : list N) : mat := map (fun b => int_to_bits b n MSB_first) B.

Lemma rows_wf n B : wf n (rows n B).
Proof. unfold wf, rows. rewrite Forall_forall. intros r Hr. apply in_map_iff in Hr as (b & <- & _). apply int_to_bits_length. Qed.

Lemma row_space_span n B v : Forall (fun b => (b < 2 ^ N.of_nat n)%N) B -> length v = n ->
  (row_space n (rows n B) v <-> In (value v) (span B)).
Proof.
  intros F Lv. rewrite row_space_iff by apply rows_wf. revert v Lv. induction B as [|b B IH]; intros v Lv.
  - cbn [rows map span In length]. split.
    + intros (c & _ & <-). left. destruct c; cbn [vecmat]; rewrite value_zeros; auto.
    + intros [E|[]]. exists []. split; auto. cbn [vecmat]. apply value_inj; [rewrite zeros_length; auto|]. rewrite value_zeros; auto.
  - inversion F as [|? ? Hb F']; subst. specialize (IH F').
    rewrite in_span_cons. cbn [rows map length]. fold (rows (length v) B).
    assert (Lb : length (int_to_bits b (length v) MSB_first) = length v) by apply int_to_bits_length. split.
    + intros (c & Lc & E). destruct c as [|x c]; [discriminate|]. cbn [vecmat] in E. cbn [length] in Lc.
      assert (LM : length (vecmat (length v) c (rows (length v) B)) = length v) by (apply vecmat_length, rows_wf).
      destruct x.
      * right. replace (N.lxor b (value v)) with (value (vecmat (length v) c (rows (length v) B))).
        { apply IH; [auto|]. exists c. split; [lia|auto]. }
        pose proof (value_vxor (int_to_bits b (length v) MSB_first) (vecmat (length v) c (rows (length v) B))) as V.
        rewrite E, value_toB in V by auto. rewrite V by congruence. rewrite lxor_cancel. auto.
      * left. apply IH; auto. exists c. split; [lia|auto].
    + intros [H|H].
      * apply IH in H as (c & Lc & E); auto. exists (false :: c). cbn [length vecmat]. auto.
      * assert (E : N.lxor b (value v) = value (vxor (int_to_bits b (length v) MSB_first) v)).
        { rewrite value_vxor, value_toB by auto. auto. }
        rewrite E in H. apply IH in H as (c & Lc & Ec); [|rewrite vxor_length; auto].
        exists (true :: c). cbn [length vecmat]. split; auto. rewrite Ec, vxor_cancel; auto.
Qed.

Lemma forallb_rev {A} (f : A -> bool) l : forallb f (rev l) = forallb f l.
Proof. apply eq_true_iff_eq. rewrite !forallb_forall. split; intros H x Hx; apply H; [apply in_rev; rewrite rev_involutive|apply in_rev]; auto. Qed.

Definition far (d : nat) (x : N) : bool := d <=? bit_count x.

Lemma lexicode_step_eq d st i : lexicode_step d st i = step (far d) st i.
Proof. destruct st as [L B]. unfold lexicode_step, step, ok. rewrite forallb_rev. reflexivity. Qed.

Lemma fold_left_ext {A B} (f g : A -> B -> A) l : (forall a b, f a b = g a b) -> forall a, fold_left f l a = fold_left g l a.
Proof. intros H. induction l as [|x l IH]; intros a; cbn; auto. rewrite H; auto. Qed.

Lemma weight_full v : weight v = length v -> v = repeat true (length v).
Proof.
  induction v as [|b v IH]; intros H; auto. assert (E : weight (b :: v) = (if b then 1 else 0) + weight v) by (destruct b; auto).
  rewrite E in H. pose proof (weight_le v). cbn [length repeat] in *. destruct b; [f_equal; apply IH; lia|lia].
Qed.

Lemma weight_repeat_true n : weight (repeat true n) = n.
Proof. induction n; auto. unfold weight in *. cbn. rewrite IHn; auto. Qed.

Theorem lexicode_spec n d : 1 <= d -> d <= n ->
  exists C, Lexicode n d = Some C /\ bc_n C = n /\ valid_code C /\ is_minimum_distance C d /\
  (forall v, length v = n ->
     (is_codeword C v <-> forall c, is_codeword C c -> (value c < value v)%N -> d <= hdist c v)).
Proof.
  intros Hd Hn. unfold Lexicode.
  replace ((1 <=? d) && (d <=? n)) with true by (symmetry; apply andb_true_intro; split; apply Nat.leb_le; auto).
  assert (good0 : far d 0 = false) by (unfold far; cbn [bit_count]; apply Nat.leb_gt; lia).
  pose proof (greedy_linear (far d) good0 n) as G. cbn zeta in G.
  assert (EL : lexicode_loop n d = fold_left (step (far d)) (map N.of_nat (seq 1 (2 ^ n - 1))) ([0%N], [])).
  { unfold lexicode_loop. apply fold_left_ext. intros; apply lexicode_step_eq. }
  rewrite <- EL in G. unfold lexicode_generator_matrix. destruct (lexicode_loop n d) as [L B]. cbn [fst snd] in *. clear EL.
  destruct G as (NL & LL & SL & BL & DL & CL). fold (rows n B).
  assert (In0 : In 0%N L).
  { apply SL. clear. induction B as [|b B IH]; [left; auto|]. apply in_span_cons. auto. }
  assert (SB : forall b, In b B -> In b (span B)).
  { assert (Z : forall X, In 0%N (span X)). { induction X; [left; auto|]. apply in_span_cons; auto. }
    clear - Z. induction B as [|a B IH]; intros b H; [destruct H|]. apply in_span_cons. destruct H as [<-|H]; auto.
    right. rewrite N.lxor_nilpotent. auto. }
  assert (BB : Forall (fun b => (b < 2 ^ N.of_nat n)%N) B).
  { apply Forall_forall. intros b Hb. apply BL, SL, SB; auto. }
  assert (RS : forall v, length v = n -> (row_space n (rows n B) v <-> In (value v) L)).
  { intros v Lv. rewrite SL. apply row_space_span; auto. }
  (* the first non-zero word is 1...1 with d ones *)
  set (e := zeros (n - d) ++ repeat true d).
  assert (Le : length e = n) by (unfold e; rewrite app_length, zeros_length, repeat_length; lia).
  assert (We : weight e = d). { unfold e, weight. rewrite filter_app, app_length. fold (weight (zeros (n - d))) (weight (repeat true d)).
    rewrite weight_zeros, weight_repeat_true. auto. }
  assert (He : In (value e) L).
  { destruct (in_dec N.eq_dec (value e) L) as [|Ni]; auto. exfalso.
    destruct (CL (value e)) as (c & Hc & Lt & Gc); auto. { rewrite <- Le. apply value_bound. }
    assert (Ve : (value e < 2 ^ N.of_nat d)%N).
    { unfold value, e. rewrite bits_to_int_msb, rev_app_distr, byte_of_app.
      assert (Z : byte_of (rev (zeros (n - d))) = 0%N) by (rewrite <- bits_to_int_msb; apply value_zeros).
      rewrite Z, N.mul_0_r, N.add_0_r. rewrite <- (repeat_length true d) at 2. rewrite <- (rev_length (repeat true d)). apply byte_of_bound. }
    (* c < 2^d - 1 as a d-bit word *)
    set (w := int_to_bits c d MSB_first). assert (Lw : length w = d) by apply int_to_bits_length.
    assert (Vw : value w = c) by (apply value_toB; lia).
    destruct (N.eq_dec c 0) as [->|Nz].
    - rewrite N.lxor_0_l in Gc. unfold far in Gc. rewrite bit_count_value, We in Gc. apply Nat.leb_gt in Gc. lia.
    - pose proof (DL c 0%N Hc In0 Nz) as Gd. rewrite N.lxor_0_r in Gd. unfold far in Gd. apply Nat.leb_le in Gd.
      rewrite <- Vw, bit_count_value in Gd. pose proof (weight_le w) as Wl. rewrite Lw in Wl.
      assert (Fw : w = repeat true d) by (rewrite <- Lw; apply weight_full; lia).
      assert (value e = c); [|lia]. rewrite <- Vw, Fw. unfold value, e. rewrite !bits_to_int_msb, rev_app_distr, byte_of_app.
      assert (Z : byte_of (rev (zeros (n - d))) = 0%N) by (rewrite <- bits_to_int_msb; apply value_zeros).
      rewrite Z. lia. }
  assert (Ind : independent n (rows n B)).
  { apply rank_full_independent; [apply rows_wf|]. destruct (rank_spec n (rows n B) (rows_wf n B)) as (B' & WB & LB & IB & _ & RS' & _).
    assert (H1 : has_card (row_space n (rows n B)) (2 ^ rank n (rows n B))).
    { rewrite <- LB. apply (has_card_ext (row_space n B')); [intros; symmetry; auto|]. apply independent_card; auto. }
    assert (H2 : has_card (row_space n (rows n B)) (2 ^ length B)).
    { exists (map (fun x => int_to_bits x n MSB_first) L). split; [|split].
      - apply NoDup_map_inj_in; auto. intros x y Hx Hy E. rewrite <- (value_toB n x), <- (value_toB n y), E by (apply BL; auto). auto.
      - rewrite map_length. auto.
      - intros v. rewrite in_map_iff. split.
        + intros (x & <- & Hx). apply RS; [apply int_to_bits_length|]. rewrite value_toB; auto.
        + intros H. assert (Lv : length v = n) by (apply (row_space_length n (rows n B)); [apply rows_wf|auto]).
          exists (value v). split; [unfold value; rewrite <- Lv; apply int_bits_round_trip|]. apply RS; auto. }
    pose proof (has_card_unique _ _ _ H1 H2) as E. apply Nat.pow_inj_r in E; [|lia]. unfold rows at 2. rewrite map_length. auto. }
  destruct (code_of_generator_valid n (rows n B) (rows_wf n B) Ind) as (C & EC & An & Bk & GG & V & Cw).
  { unfold rows. rewrite map_length. intros Z. rewrite Z in LL. cbn in LL.
    assert (value e <> 0%N). { intros Q. assert (bit_count (value e) = 0) by (rewrite Q; auto). rewrite bit_count_value in H. lia. }
    destruct L as [|x [|y L']]; cbn in LL; try lia. destruct In0 as [->|[]]. destruct He as [He|[]]. congruence. }
  exists C. split; auto. split; auto. split; auto. pose proof (ok_encoder C V) as OE.
  assert (CW : forall v, is_codeword C v <-> length v = n /\ In (value v) L).
  { intros v. split.
    - intros H. assert (Lv : length v = n) by (rewrite <- An; apply codeword_length; auto). split; auto. apply RS; auto. apply Cw; auto.
    - intros [Lv H]. apply Cw, RS; auto. }
  assert (Dist : forall u v, is_codeword C u -> is_codeword C v -> u <> v -> d <= hdist u v).
  { intros u v Hu Hv N. apply CW in Hu as [Lu Hu]. apply CW in Hv as [Lv Hv].
    pose proof (DL _ _ Hu Hv) as D. assert (value u <> value v) by (intros Q; apply N; apply value_inj; congruence).
    specialize (D H). unfold far in D. apply Nat.leb_le in D. rewrite <- value_vxor, bit_count_value in D by congruence. exact D. }
  split.
  - split; auto. exists e, (zeros n). assert (Ce : is_codeword C e) by (apply CW; auto).
    assert (C0 : is_codeword C (zeros n)). { apply CW. rewrite zeros_length, value_zeros. auto. }
    assert (HD : hdist e (zeros n) = d) by (unfold hdist; rewrite vxor_zeros_r; auto).
    repeat split; auto. intros ->. rewrite hdist_self in HD. lia.
  - intros v Lv. split.
    + intros Hv c Hc Lt. apply Dist; auto. intros ->. lia.
    + intros H. apply CW. split; auto. destruct (in_dec N.eq_dec (value v) L) as [|Ni]; auto. exfalso.
      destruct (CL (value v)) as (c & Hc & Lt & Gc); auto. { rewrite <- Lv. apply value_bound. }
      set (w := int_to_bits c n MSB_first). assert (Vw : value w = c) by (apply value_toB; apply BL; auto).
      assert (Lw : length w = n) by apply int_to_bits_length.
      specialize (H w). rewrite Vw in H. specialize (H ltac:(apply CW; rewrite Vw; auto) Lt).
      unfold far in Gc. apply Nat.leb_gt in Gc. rewrite <- Vw, <- value_vxor, bit_count_value in Gc by congruence. unfold hdist in H. lia.
Qed.
