(* Integers.prime_factors: termination and correctness (standard library only). *)
From Coq Require Import Sorted.
From Verif Require Import Common BinPoly_Model Algebra_Spec.
Local Open Scope N_scope.

Lemma nprod_app a b : nprod (a ++ b) = nprod a * nprod b.
Proof. induction a as [|x a IH]; cbn [nprod app]; [lia|].  rewrite IH. lia. Qed.

Lemma nsize_mono a b : a <= b -> (N.size_nat a <= N.size_nat b)%nat.
Proof.
  intros H. assert (S : forall x, N.size_nat x = N.to_nat (N.size x)).
  { intros [|p]; [reflexivity|]. cbn. induction p; cbn; try lia. }
  rewrite !S. destruct (N.eq_dec a 0) as [->|Ha]; [cbn; lia|]. destruct (N.eq_dec b 0) as [->|Hb]; [lia|].
  rewrite !N.size_log2 by assumption. pose proof (N.log2_le_mono a b H). lia.
Qed.
Lemma nsize_half a : 0 < a -> (N.size_nat (a / 2) < N.size_nat a)%nat.
Proof. intros H. destruct a as [|[p|p|]]; try lia; rewrite <- N.div2_div; cbn; lia. Qed.

Definition no_small (i n : N) := forall d, 2 <= d < i -> ~ (d | n).

Lemma no_small_prime i n : 2 <= i -> no_small i n -> n < i * i -> 1 < n -> nprime n.
Proof.
  intros Hi NS Hn H1. split; [exact H1|]. intros d [c Hc].
  destruct (N.eq_dec d 1) as [->|D1]; [now left|]. destruct (N.eq_dec d n) as [->|Dn]; [now right|]. exfalso.
  assert (d <> 0) by (intros ->; lia).
  assert (c <> 0) by (intros ->; lia). assert (c <> 1) by (intros ->; lia).
  assert (~ d < i). { intros L. apply (NS d); [lia|]. exists c; lia. }
  assert (~ c < i). { intros L. apply (NS c); [lia|]. exists d; lia. }
  nia.
Qed.

Lemma no_small_self i n : 2 <= i -> no_small i n -> (i | n) -> nprime i.
Proof.
  intros Hi NS Hd. split; [lia|]. intros d [c Hc].
  destruct (N.eq_dec d 1) as [->|D1]; [now left|]. destruct (N.eq_dec d i) as [->|Dn]; [now right|]. exfalso.
  assert (d <> 0) by (intros ->; lia). assert (c <> 0) by (intros ->; lia).
  assert (d < i) by nia. apply (NS d); [lia|]. destruct Hd as [e He]. exists (e * c). nia.
Qed.

Lemma pf_loop_spec : forall fuel i n fs, 2 <= i -> 1 <= n -> no_small i n ->
  (N.to_nat (N.sqrt n) + 1 - N.to_nat i + N.size_nat n <= fuel)%nat ->
  exists l, pf_loop fuel i n fs = Some (fs ++ l) /\ Forall nprime l /\ nprod l = n /\ Forall (fun q => i <= q) l /\ Sorted N.le l.
Proof.
  induction fuel as [|f IH]; intros i n fs Hi Hn NS HF.
  - exfalso. assert (0 < N.size_nat n)%nat by (destruct n as [|[]]; cbn; lia). lia.
  - cbn [pf_loop]. destruct (N.leb_spec (i * i) n) as [L|L].
    + assert (Hs : i <= N.sqrt n) by (apply N.sqrt_le_square; exact L).
      destruct (N.eqb_spec (n mod i) 0) as [E|E]; cbn [negb].
      * assert (Hd : (i | n)) by (apply N.mod_divide; lia).
        assert (En : n = i * (n / i)) by (apply N.div_exact; lia).
        assert (Hq : 1 <= n / i) by (apply N.div_le_lower_bound; nia).
        assert (NS' : no_small i (n / i)).
        { intros d Hdr [c Hc]. apply (NS d Hdr). exists (c * i). rewrite En, Hc. lia. }
        destruct (IH i (n / i) (fs ++ [i]) Hi Hq NS') as (l & E1 & F1 & P1 & G1 & S1).
        { assert (n / i <= n / 2) by (apply N.div_le_compat_l; lia).
          pose proof (nsize_mono _ _ H). pose proof (nsize_half n ltac:(lia)).
          assert (n / i <= n) by nia. pose proof (N.sqrt_le_mono _ _ H2). lia. }
        exists (i :: l). rewrite E1, <- app_assoc. split; [reflexivity|]. split; [|split; [|split]].
        { constructor; [|exact F1]. exact (no_small_self i n Hi NS Hd). }
        { cbn [nprod].  rewrite P1. lia. }
        { constructor; [lia|exact G1]. }
        { constructor; [exact S1|]. destruct l as [|x l]; constructor. now inversion G1. }
      * assert (NS' : no_small (i + 1) n).
        { intros d Hdr [c Hc]. destruct (N.eq_dec d i) as [->|Ne].
          - apply E. rewrite Hc. apply N.mod_mul. lia.
          - apply (NS d); [lia|]. now exists c. }
        destruct (IH (i + 1) n fs ltac:(lia) Hn NS' ltac:(lia)) as (l & E1 & F1 & P1 & G1 & S1).
        exists l. repeat split; auto. eapply Forall_impl; [|exact G1]. cbn. lia.
    + destruct (N.ltb_spec 1 n) as [L1|L1].
      * exists [n]. repeat split; auto.
        { constructor; [|constructor]. exact (no_small_prime i n Hi NS L L1). }
        { cbn. lia. }
        { constructor; [|constructor]. destruct (N.le_gt_cases i n) as [H|H]; [exact H|]. exfalso. apply (NS n); [lia|]. exists 1; lia. }
      * exists []. rewrite app_nil_r. repeat split; auto. cbn. lia.
Qed.

Lemma prime_factors_spec n : 1 <= n ->
  exists l, prime_factors n = Some l /\ Forall nprime l /\ nprod l = n /\ Sorted N.le l.
Proof.
  intros Hn. destruct (pf_loop_spec (N.to_nat (N.sqrt n) + N.size_nat n) 2 n []) as (l & E & F & Pr & _ & S); auto; try lia.
  - intros d Hd. lia.
  - exists l. auto.
Qed.

Lemma prime_factors_small n : n <= 1 -> prime_factors n = Some [].
Proof. intros H. destruct (N.eq_dec n 0) as [->|]; [reflexivity|]. replace n with 1 by lia. reflexivity. Qed.

Lemma nprod_in l q : In q l -> (q | nprod l).
Proof.
  induction l as [|x l IH]; [intros []|]. intros [->|H]; cbn [nprod].
  - exists (nprod l). lia.
  - destruct (IH H) as [c Hc]. exists (x * c). rewrite Hc. apply N.mul_assoc.
Qed.

Lemma nprime_div_prod p l : nprime p -> Forall nprime l -> (p | nprod l) -> In p l.
Proof.
  intros [P1 P2]. induction l as [|x l IH]; cbn [nprod]; intros F D.
  - destruct D as [c Hc]. destruct (N.eq_dec c 0) as [->|]; nia.
  - inversion F as [|? ? [X1 X2] F']; subst.
    destruct (P2 (N.gcd p x) (N.gcd_divide_l _ _)) as [G|G].
    + right. apply IH; [exact F'|]. apply N.gauss with x; assumption.
    + left. destruct (X2 p) as [H|H]; [rewrite <- G; apply N.gcd_divide_r|lia|auto].
Qed.

Lemma prime_factors_in n l q : 1 <= n -> prime_factors n = Some l -> (In q l <-> nprime q /\ (q | n)).
Proof.
  intros Hn E. destruct (prime_factors_spec n Hn) as (l' & E' & F & Pr & _). rewrite E in E'. injection E' as <-.
  split.
  - intros H. split; [eapply Forall_forall; eauto|]. rewrite <- Pr. now apply nprod_in.
  - intros [H1 H2]. rewrite <- Pr in H2. now apply nprime_div_prod.
Qed.
