(** C21, completed: exactly when BinaryPolynomial.lcm returns a least common multiple. *)
From Coq Require Import NArith List Lia.
From Verif Require Import BinPoly_Model Algebra_Spec Lcm_Spec.
From Verif Require Algebra_Proof Lcm_Proof.
Import ListNotations.
Local Open Scope N_scope.

(** It raises exactly without arguments and when all of them are zero. *)
Theorem C21_lcm_raises : forall l, lcm_list l = None <-> forall x, In x l -> x = 0.
Proof.
  intros l. split; [|apply Lcm_Proof.lcm_all_zero]. intros H x Hx. destruct (N.eq_dec x 0) as [|NZ]; [assumption|].
  destruct (@Lcm_Proof.lcm_value l (ex_intro _ x (conj Hx NZ))) as (m & g & E & _). congruence.
Qed.
(** Otherwise it returns the least common multiple exactly in these cases: the single argument 1; two
    arguments; three or more arguments of which one is zero, or which are pairwise coprime. *)
Theorem C21_lcm_characterisation : forall l, (exists x, In x l /\ x <> 0) ->
  exists m, lcm_list l = Some m /\
    (is_lcm l m <-> l = [1] \/ length l = 2%nat \/ ((3 <= length l)%nat /\ (In 0 l \/ pairwise_coprime l))).
Proof.
  intros l NZ. destruct l as [|x [|y [|z l]]].
  - destruct NZ as (x & [] & _).
  - assert (x0 : x <> 0) by (destruct NZ as (w & [->|[]] & H); exact H).
    exists 1. split; [apply Lcm_Proof.lcm_single; exact x0|]. rewrite (Lcm_Proof.is_lcm_single x0). split.
    + intros ->. left. reflexivity.
    + intros [E|[E|[E _]]]; [injection E; auto|discriminate|cbn in E; lia].
  - assert (H : x <> 0 \/ y <> 0) by (destruct NZ as (w & [->|[->|[]]] & H); auto).
    destruct (Algebra_Proof.domain_lcm_spec x y) as (m & E & D1 & D2 & D3). rewrite <- (@Algebra_Proof.lcm_list2 x y H) in E.
    exists m. split; [exact E|]. split; [intros _; right; left; reflexivity|]. intros _. split.
    + intros w [<-|[<-|[]]]; assumption.
    + intros c Hc. apply D3; apply Hc; [left|right; left]; reflexivity.
  - set (L := x :: y :: z :: l) in *. assert (L3 : (3 <= length L)%nat) by (cbn; lia).
    destruct (in_dec N.eq_dec 0 L) as [Z|Z].
    + destruct (Lcm_Proof.lcm_with_zero Z NZ) as (m & E & H). exists m. split; [exact E|]. split; [intros _; right; right; auto|auto].
    + destruct (@Lcm_Proof.lcm_value L NZ) as (m & g & E & _). exists m. split; [exact E|]. split.
      * intros H. right; right. split; [exact L3|]. right. exact (Lcm_Proof.lcm_only_if L3 Z E H).
      * intros [X|[X|[_ [X|X]]]]; [discriminate|cbn in X; discriminate|contradiction|].
        destruct (@Lcm_Proof.lcm_if L ltac:(lia) X NZ) as (m' & E' & H). rewrite E in E'. injection E' as <-. exact H.
Qed.
(** lcm(X, X + 1, X^2 + X + 1) = X^4 + X: pairwise coprime *)
Example C21_three_coprime : lcm_list [2; 3; 7] = Some 18.
Proof. reflexivity. Qed.
