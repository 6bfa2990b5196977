(* Proofs for C116. *)
From Coq Require Import QArith Reals Lra Lqa.
From Coquelicot Require Import Complex.
From Verif Require Import Common Vec_Model Linear_Spec BlockCode_Model Code_Spec Soft_Spec.
Local Open Scope Q_scope.

Lemma euclid2_correlation A a r : forall c, length c = length r ->
  a * euclid2 r (antipodal A c) == a * (fold_right (fun x s => x * x + A * A + s) 0 r) - 2 * A * correlation (scaled a r) c.
Proof.
  induction r as [|x r IH]; intros [|b c] L; cbn in L; try discriminate; [cbn; ring|]. specialize (IH c ltac:(now injection L)).
  cbn [euclid2 antipodal map scaled correlation fold_right] in *. fold (antipodal A c). fold (scaled a r). setoid_replace (a * ((x - (if b then A else - A)) * (x - (if b then A else - A)) + euclid2 r (antipodal A c)))
    with (a * (x - (if b then A else - A)) * (x - (if b then A else - A)) + a * euclid2 r (antipodal A c)) by ring.
  rewrite IH. destruct b; ring.
Qed.
Lemma correlation_euclid A a r c c' : 0 < A -> 0 < a -> length c = length r -> length c' = length r ->
  correlation (scaled a r) c' <= correlation (scaled a r) c -> euclid2 r (antipodal A c) <= euclid2 r (antipodal A c').
Proof.
  intros HA Ha L L' H. pose proof (euclid2_correlation A a r c L) as E. pose proof (euclid2_correlation A a r c' L') as E'.
  apply (Qmult_le_l _ _ a Ha). rewrite E, E'. nra.
Qed.
Lemma euclid2_par A r : forall c c', length c = length r -> length c' = length r ->
  4 * (A * A) * inject_Z (Z.of_nat (hdist c c')) <= 2 * euclid2 r (antipodal A c) + 2 * euclid2 r (antipodal A c').
Proof.
  induction r as [|x r IH]; intros c c' L L'.
  - apply length_zero_iff_nil in L, L'. subst. cbn [euclid2 antipodal map hdist vxor]. change (inject_Z (Z.of_nat (hdist [] []))) with 0. lra.
  - destruct c as [|b c]; [discriminate L|]. destruct c' as [|b' c']; [discriminate L'|].
    injection L as L. injection L' as L'. specialize (IH c c' L L').
    assert (E : forall b c, euclid2 (x :: r) (antipodal A (b :: c)) = (x - (if b : bool then A else - A)) * (x - (if b then A else - A)) + euclid2 r (antipodal A c)) by reflexivity.
    rewrite !E. assert (H : inject_Z (Z.of_nat (hdist (b :: c) (b' :: c'))) == (if xorb b b' then 1 else 0) + inject_Z (Z.of_nat (hdist c c'))).
    { assert (hdist (b :: c) (b' :: c') = (if xorb b b' then 1 else 0) + hdist c c')%nat as -> by (unfold hdist; destruct b, b'; reflexivity).
      rewrite Nat2Z.inj_add, inject_Z_plus. destruct b, b'; reflexivity. }
    rewrite H. generalize dependent (inject_Z (Z.of_nat (hdist c c'))). intros h IH _. set (S1 := euclid2 r (antipodal A c)) in *. set (S2 := euclid2 r (antipodal A c')) in *. clearbody S1 S2.
    assert (SQ : forall y : Q, 0 <= y * y) by (intros y; nra). pose proof (SQ x). pose proof (SQ (x - A)). pose proof (SQ (x - - A)).
    destruct b, b'; cbn [xorb]; nra.
Qed.
