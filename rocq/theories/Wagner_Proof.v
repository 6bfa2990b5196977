(* Wagner decoding of single-parity-check codes is maximum likelihood. *)
From Coq Require Import QArith Qabs Lqa.
From Verif Require Import Common Vec_Model Vec_Proof LinAlg_Model LinAlg_Proof Linear_Spec BlockCode_Model Code_Spec BlockCode_Proof
  Decoders_Proof ClassicCodes_Model ClassicCodes_Proof Hamming_Proof ReedMuller_Model Wagner_Model.
Local Open Scope nat_scope.

Fixpoint mass (r : list Q) : Q := match r with [] => 0%Q | x :: r' => (Qabs x + mass r')%Q end.

Lemma correlation_cons x r b c : correlation (x :: r) (b :: c) = (x * (if b then (-1) else 1) + correlation r c)%Q.
Proof. reflexivity. Qed.
Lemma mass_cons x r : mass (x :: r) = (Qabs x + mass r)%Q.
Proof. reflexivity. Qed.

Lemma Qneg_cases x : (Qneg x = true /\ (x < 0)%Q /\ (Qabs x == - x)%Q) \/ (Qneg x = false /\ (0 <= x)%Q /\ (Qabs x == x)%Q).
Proof.
  unfold Qneg. destruct (Qle_bool 0 x) eqn:E.
  - right. apply Qle_bool_iff in E. rewrite Qabs_pos; auto. split; [auto|]. split; [auto|reflexivity].
  - left. assert (H : (x < 0)%Q) by (apply Qnot_le_lt; intros H; apply Qle_bool_iff in H; congruence).
    rewrite Qabs_neg by lra. split; [auto|]. split; [auto|reflexivity].
Qed.

Lemma corr_signs r : (correlation r (map Qneg r) == mass r)%Q.
Proof.
  induction r as [|x r IH]; [reflexivity|]. cbn [map]. rewrite correlation_cons, mass_cons, IH.
  destruct (Qneg_cases x) as [(-> & _ & ->)|(-> & _ & ->)]; lra.
Qed.

Lemma corr_le r : forall c, length c = length r -> (correlation r c <= mass r)%Q.
Proof.
  induction r as [|x r IH]; intros [|b c] L; cbn [length] in L; try lia; [apply Qle_refl|].
  rewrite correlation_cons, mass_cons. specialize (IH c ltac:(lia)).
  destruct (Qneg_cases x) as [(_ & H & ->)|(_ & H & ->)]; destruct b; lra.
Qed.

Lemma corr_diff r : forall c j, length c = length r -> j < length r -> nth j c false <> Qneg (nth j r 0%Q) ->
  (correlation r c <= mass r - 2 * Qabs (nth j r 0%Q))%Q.
Proof.
  induction r as [|x r IH]; intros [|b c] j L Hj D; cbn [length] in L, Hj; try lia.
  rewrite correlation_cons, mass_cons. destruct j as [|j]; cbn [nth] in *.
  - pose proof (corr_le r c ltac:(lia)). destruct (Qneg_cases x) as [(E & H1 & ->)|(E & H1 & ->)]; rewrite E in D; destruct b; try congruence; lra.
  - specialize (IH c j ltac:(lia) ltac:(lia) D). destruct (Qneg_cases x) as [(_ & H & ->)|(_ & H & ->)]; destruct b; lra.
Qed.

Lemma corr_flip r : forall j, j < length r ->
  (correlation r (upd j (negb (nth j (map Qneg r) false)) (map Qneg r)) == mass r - 2 * Qabs (nth j r 0%Q))%Q.
Proof.
  induction r as [|x r IH]; intros j Hj; cbn [length] in Hj; [lia|]. destruct j as [|j]; cbn [map nth upd].
  - rewrite correlation_cons, mass_cons, corr_signs. destruct (Qneg_cases x) as [(-> & _ & ->)|(-> & _ & ->)]; cbn [negb]; lra.
  - rewrite correlation_cons, mass_cons, IH by lia. destruct (Qneg_cases x) as [(-> & _ & ->)|(-> & _ & ->)]; lra.
Qed.

Lemma weight_upd_flip v : forall j, j < length v -> Nat.odd (weight (upd j (negb (nth j v false)) v)) = negb (Nat.odd (weight v)).
Proof.
  induction v as [|b v IH]; intros j Hj; cbn [length] in Hj; [lia|]. destruct j as [|j]; cbn [upd nth].
  - rewrite !weight_cons, !Nat.odd_add. destruct b; cbn [negb]; destruct (Nat.odd (weight v)); reflexivity.
  - rewrite !weight_cons, !Nat.odd_add, IH by lia. destruct b, (Nat.odd (weight v)); reflexivity.
Qed.

Lemma diff_exists u : forall v, length u = length v -> u <> v -> exists j, j < length u /\ nth j u false <> nth j v false.
Proof.
  induction u as [|x u IH]; intros [|y v] L N; cbn [length] in L; try lia; [congruence|].
  destruct (Bool.bool_dec x y) as [->|D].
  - destruct (IH v ltac:(lia)) as (j & Hj & Dj); [congruence|]. exists (S j). cbn. split; [lia|auto].
  - exists 0. cbn. split; [lia|auto].
Qed.

Lemma even_not_odd w : Nat.even w = true <-> Nat.odd w = false.
Proof. unfold Nat.odd. destruct (Nat.even w); cbn; split; congruence. Qed.

Definition wagner_word (r : list Q) : vec :=
  let v_hat := map Qneg r in
  if Nat.odd (vsum v_hat) then
      let i := argmin_by Qle_bool (map Qabs r) in upd i (negb (nth i v_hat false)) v_hat
    else v_hat.

Lemma wagner_word_spec r : r <> [] -> length (wagner_word r) = length r /\ Nat.odd (weight (wagner_word r)) = false /\
  forall c, length c = length r -> Nat.odd (weight c) = false -> (correlation r c <= correlation r (wagner_word r))%Q.
Proof.
  intros NE. unfold wagner_word. rewrite vsum_weight. destruct (Nat.odd (weight (map Qneg r))) eqn:O.
  - assert (Tot : forall x y, Qle_bool x y = true \/ Qle_bool y x = true).
    { intros x y. rewrite !Qle_bool_iff. destruct (Qlt_le_dec x y); [left; apply Qlt_le_weak|right]; auto. }
    assert (Tr : forall x y z, Qle_bool x y = true -> Qle_bool y z = true -> Qle_bool x z = true).
    { intros x y z. rewrite !Qle_bool_iff. apply Qle_trans. }
    assert (NE' : map Qabs r <> []) by (destruct r; [congruence|discriminate]).
    pose proof (argmin_by_spec Qle_bool Tot Tr (map Qabs r) (Qabs 0) NE') as S. cbv zeta in S. destruct S as (I1 & I2 & _).
    set (i := argmin_by Qle_bool (map Qabs r)) in *. rewrite map_length in I1.
    split; [rewrite upd_length, map_length; auto|]. split; [rewrite weight_upd_flip, O by (rewrite map_length; auto); auto|].
    intros c Lc Oc. destruct (diff_exists c (map Qneg r)) as (j & Hj & Dj); [rewrite map_length; auto|intros ->; congruence|].
    rewrite (nth_indep (map Qneg r) false (Qneg 0)), map_nth in Dj by (rewrite map_length; lia).
    rewrite corr_flip by auto. pose proof (corr_diff r c j Lc ltac:(lia) Dj) as B.
    specialize (I2 j). rewrite map_length in I2. specialize (I2 ltac:(lia)). rewrite !map_nth in I2. apply Qle_bool_iff in I2. lra.
  - split; [apply map_length|]. split; auto. intros c Lc _. rewrite corr_signs. apply corr_le; auto.
Qed.
