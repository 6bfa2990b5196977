(* Proofs about LFSR sequences. *)
From Coq Require Import Permutation.
From Verif Require Import Common Bits_Model BinPoly_Model Algebra_Spec LFSR_Model LFSR_Spec Vec_Model.
From Verif Require Import Bits_Proof Vec_Proof.
From Verif Require LFSR_Poly Corr_Model Corr_Spec Corr_Proof Walsh_Model.
From Coq Require FinFun.
Local Open Scope nat_scope.
Notation bl := BinPoly_Model.bit_length.

Definition xs (l : list bool) : bool := fold_right xorb false l.
Lemma xs_app l m : xs (l ++ m) = xorb (xs l) (xs m).
Proof. unfold xs. induction l as [|x l IH]; cbn [app fold_right]; [now destruct (fold_right _ _ m)|]. rewrite IH. destruct x, (fold_right _ _ l), (fold_right _ _ m); reflexivity. Qed.
Lemma odd_count l : Nat.odd (length (filter (fun b : bool => b) l)) = xs l.
Proof. induction l as [|[] l IH]; cbn [filter length xs fold_right]; auto. rewrite Nat.odd_succ, <- Nat.negb_odd, IH. reflexivity. rewrite IH. unfold xs. now destruct (fold_right _ _ _). Qed.
Lemma xs_xor {A} (f g : A -> bool) l : xs (map (fun x => xorb (f x) (g x)) l) = xorb (xs (map f l)) (xs (map g l)).
Proof. induction l as [|x l IH]; cbn; auto. unfold xs in *. rewrite IH. destruct (f x), (g x), (fold_right xorb false (map f l)), (fold_right xorb false (map g l)); reflexivity. Qed.
Lemma xs_filter {A} (c g : A -> bool) l : xs (map g (filter c l)) = xs (map (fun x => c x && g x)%bool l).
Proof. induction l as [|x l IH]; cbn; auto. destruct (c x); cbn; unfold xs in *; rewrite IH; [reflexivity|]. now destruct (fold_right xorb false (map (fun x => c x && g x)%bool l)). Qed.
Lemma xs_ext {A} (f g : A -> bool) l : (forall x, In x l -> f x = g x) -> xs (map f l) = xs (map g l).
Proof. intros H. f_equal. now apply map_ext_in. Qed.

Lemma size_nat_log2 f : f <> 0%N -> bl f = S (N.to_nat (N.log2 f)).
Proof.
  destruct f as [|p]; [easy|]. intros _. unfold bl. cbn [N.size_nat]. assert (E : Pos.size_nat p = N.to_nat (N.pos (Pos.size p))).
  { induction p; cbn [Pos.size_nat Pos.size]; [rewrite IHp|rewrite IHp|reflexivity]; cbn [N.to_nat]; now rewrite Pos2Nat.inj_succ. }
  rewrite E. change (N.pos (Pos.size p)) with (N.size (N.pos p)). rewrite N.size_log2 by easy. apply N2Nat.inj_succ.
Qed.
Lemma bl_pos f : f <> 0%N -> exists n, bl f = S n /\ N.testbit f (N.of_nat n) = true /\ forall i, n < i -> N.testbit f (N.of_nat i) = false.
Proof.
  intros H. exists (N.to_nat (N.log2 f)). split; [now apply size_nat_log2|]. rewrite N2Nat.id. split; [now apply N.bit_log2|].
  intros i Hi. apply N.bits_above_log2. lia.
Qed.
Lemma testbit_xor1 f i : N.testbit (padd f 1) (N.of_nat i) = if i =? 0 then negb (N.odd f) else N.testbit f (N.of_nat i).
Proof.
  unfold padd. rewrite N.lxor_spec. destruct i; cbn [Nat.eqb N.of_nat]; [rewrite N.bit0_odd; cbn; now destruct (N.odd f)|].
  destruct f; cbn; [reflexivity|]. now rewrite xorb_false_r.
Qed.
Section Reg.
Context (f : N) (n : nat) (Hn : bl f = S n) (Hpos : 1 <= n).
Lemma top_bit : N.testbit f (N.of_nat n) = true /\ forall i, n < i -> N.testbit f (N.of_nat i) = false.
Proof. destruct (bl_pos f) as (m & E & T & A). { intros ->. discriminate. } assert (m = n) by lia. subst. auto. Qed.
Lemma bl_add1 : bl (padd f 1) = S n.
Proof.
  destruct top_bit as [T A]. destruct (bl_pos (padd f 1)) as (m & E & T' & A').
  { intros E. assert (N.testbit (padd f 1) (N.of_nat n) = false) by (rewrite E; apply N.bits_0). rewrite testbit_xor1 in H. destruct (Nat.eqb_spec n 0); [lia|congruence]. }
  rewrite E. f_equal. destruct (Nat.lt_trichotomy m n) as [L|[L|L]]; auto; exfalso.
  - specialize (A' n L). rewrite testbit_xor1 in A'. destruct (Nat.eqb_spec n 0); [lia|congruence].
  - specialize (A m L). rewrite testbit_xor1 in T'. destruct (Nat.eqb_spec m 0); [lia|congruence].
Qed.
Notation taps := (exponents (padd f 1)).
Lemma taps_eq : taps = (if N.odd f then [] else [0]) ++ filter (fun i => N.testbit f (N.of_nat i)) (seq 1 n).
Proof.
  unfold exponents. rewrite bl_add1. replace (Nat.max (S n) 1) with (S n) by lia. cbn [seq filter]. rewrite testbit_xor1. cbn [Nat.eqb].
  assert (E : filter (fun i => N.testbit (padd f 1) (N.of_nat i)) (seq 1 n) = filter (fun i => N.testbit f (N.of_nat i)) (seq 1 n)).
  { apply filter_ext_in. intros i Hi. apply in_seq in Hi. rewrite testbit_xor1. destruct (Nat.eqb_spec i 0); [lia|reflexivity]. }
  rewrite E. destruct (N.odd f); reflexivity.
Qed.
Lemma seq_last : seq 1 n = seq 1 (n - 1) ++ [n].
Proof. assert (E : n = (n - 1) + 1) by lia. rewrite E at 1. rewrite seq_app. cbn [seq]. do 2 f_equal. lia. Qed.
Lemma seq_first : seq 0 n = 0 :: seq 1 (n - 1).
Proof. assert (E : n = S (n - 1)) by lia. rewrite E at 1. reflexivity. Qed.
Lemma taps_top : exists l, rev taps = n :: l.
Proof.
  destruct top_bit as [T A]. rewrite taps_eq, seq_last, filter_app, app_assoc, rev_app_distr. cbn [filter]. rewrite T. cbn [rev app]. eauto.
Qed.
Lemma lfsr_eq start : lfsr_sequence f start = Some (lfsr_loop taps (2 ^ n - 1) (int_to_bits start n LSB_first)).
Proof. unfold lfsr_sequence. destruct taps_top as (l & ->). rewrite Hn. cbn [Nat.sub]. now rewrite Nat.sub_0_r. Qed.

(* the feedback bit *)
Lemma feedback_eq st : length st = n -> feedback_bit taps st =
  xorb (negb (N.odd f) && nth (n - 1) st false) (xs (map (fun t => N.testbit f (N.of_nat t) && nth (t - 1) st false)%bool (seq 1 n))).
Proof.
  intros L. unfold feedback_bit. rewrite odd_count, taps_eq, map_app, xs_app. f_equal.
  - destruct (N.odd f); [reflexivity|]. cbn [map tapped xs fold_right negb andb]. rewrite xorb_false_r.
    destruct (exists_last (l:=st)) as (l & x & ->). { intros ->. cbn in L. lia. } rewrite last_last. rewrite app_length in L. cbn in L. rewrite app_nth2 by lia.
    replace (n - 1 - length l) with 0 by lia. reflexivity.
  - rewrite xs_filter. apply xs_ext. intros t Ht. apply in_seq in Ht. destruct t; [lia|]. cbn [tapped]. now rewrite Nat.sub_succ, Nat.sub_0_r.
Qed.
Lemma step_length st : length st = n -> length (lfsr_step taps st) = n.
Proof.
  intros L. unfold lfsr_step. cbn [length]. destruct (exists_last (l:=st)) as (l & x & ->). { intros ->. cbn in L. lia. }
  rewrite removelast_last. rewrite app_length in L. cbn in L. lia.
Qed.
Lemma step_nth st i : length st = n -> S i < n -> nth (S i) (lfsr_step taps st) false = nth i st false.
Proof.
  intros L Hi. unfold lfsr_step. cbn [nth]. destruct (exists_last (l:=st)) as (l & x & ->). { intros ->. cbn in L. lia. }
  rewrite removelast_last. rewrite app_length in L. cbn in L. rewrite app_nth1 by lia. reflexivity.
Qed.
Fixpoint steps (j : nat) (st : list bool) : list bool := match j with O => st | S j => steps j (lfsr_step taps st) end.
Lemma steps_S j st : steps (S j) st = lfsr_step taps (steps j st).
Proof. revert st. induction j; intros; [reflexivity|]. cbn [steps] in *. now rewrite IHj. Qed.
Lemma steps_add i j st : steps (i + j) st = steps i (steps j st).
Proof. revert st. induction j; intros; [now rewrite Nat.add_0_r|]. rewrite Nat.add_succ_r. cbn [steps]. apply IHj. Qed.
Lemma steps_length j st : length st = n -> length (steps j st) = n.
Proof. revert st. induction j; intros; [auto|]. cbn [steps]. auto using step_length. Qed.
Lemma loop_length len st : length (lfsr_loop taps len st) = len.
Proof. revert st. induction len; intros; cbn; auto. Qed.
Lemma last_nth st : length st = n -> last st false = nth (n - 1) st false.
Proof.
  intros L. destruct (exists_last (l:=st)) as (l & x & ->). { intros ->. cbn in L. lia. } rewrite last_last. rewrite app_length in L. cbn in L.
  rewrite app_nth2 by lia. replace (n - 1 - length l) with 0 by lia. reflexivity.
Qed.
Definition out (st : list bool) (j : nat) : bool := last (steps j st) false.
Lemma loop_nth len st j : j < len -> nth j (lfsr_loop taps len st) false = out st j.
Proof. unfold out. revert st j. induction len; intros st [|j] H; try lia; cbn; auto. apply IHlen. lia. Qed.
Lemma loop_map len st : lfsr_loop taps len st = map (out st) (seq 0 len).
Proof. apply list_ext with (d := false). { now rewrite loop_length, map_length, seq_length. } intros i Hi. rewrite loop_length in Hi. rewrite loop_nth, nth_map_seq by auto. reflexivity. Qed.
(* the register holds the next n outputs *)
Lemma steps_nth st j i : length st = n -> i < n -> nth i (steps j st) false = out st (j + (n - 1 - i)).
Proof.
  intros L. remember (n - 1 - i) as d eqn:Ed. revert i Ed j. induction d as [|d IH]; intros i Ed j Hi.
  - rewrite Nat.add_0_r. unfold out. rewrite last_nth by now apply steps_length. f_equal. lia.
  - replace (j + S d) with (S j + d) by lia. rewrite <- (IH (S i)) by lia. rewrite steps_S, step_nth by (auto using steps_length; lia). reflexivity.
Qed.
Lemma out_rec st j : length st = n -> out st (j + n) = feedback_bit taps (steps j st).
Proof.
  intros L. replace (j + n) with (S j + (n - 1 - 0)) by lia. rewrite <- steps_nth by (auto; lia). rewrite steps_S. reflexivity.
Qed.
Lemma out_tap_sum st j : length st = n -> out st (j + n) = xorb (negb (N.odd f) && out st j) (tap_sum f n (out st) j).
Proof.
  intros L. rewrite out_rec, feedback_eq by auto using steps_length. f_equal.
  - rewrite steps_nth by (auto; lia). f_equal. f_equal. lia.
  - unfold tap_sum. fold (xs (map (fun t => N.testbit f (N.of_nat t) && out st (j + n - t))%bool (seq 1 n))). apply xs_ext. intros t Ht. apply in_seq in Ht.
    rewrite steps_nth by (auto; lia). do 2 f_equal. lia.
Qed.
Lemma out_start st j : length st = n -> j < n -> out st j = nth (n - 1 - j) st false.
Proof. intros L Hj. pose proof (steps_nth st 0 (n - 1 - j) L ltac:(lia)) as E. cbn [steps Nat.add] in E. rewrite E. f_equal. lia. Qed.

(* linearity *)
Lemma nth_vxor u v i : length u = length v -> nth i (vxor u v) false = xorb (nth i u false) (nth i v false).
Proof. revert v i. induction u as [|x u IH]; intros [|y v] [|i] H; cbn in *; try lia; auto. Qed.
Lemma step_vxor u v : length u = n -> length v = n -> lfsr_step taps (vxor u v) = vxor (lfsr_step taps u) (lfsr_step taps v).
Proof.
  intros Lu Lv. assert (Lx : length (vxor u v) = n) by (rewrite vxor_length; lia).
  apply list_ext with (d := false). { rewrite vxor_length; rewrite !step_length; auto. }
  intros i Hi. rewrite step_length in Hi by auto. rewrite nth_vxor by (now rewrite !step_length). destruct i as [|i].
  - unfold lfsr_step. cbn [nth]. rewrite !feedback_eq by auto. rewrite nth_vxor by lia.
    rewrite (xs_ext (fun t => N.testbit f (N.of_nat t) && nth (t - 1) (vxor u v) false)%bool (fun t => xorb (N.testbit f (N.of_nat t) && nth (t - 1) u false) (N.testbit f (N.of_nat t) && nth (t - 1) v false))).
    + rewrite xs_xor. destruct (N.odd f), (nth (n - 1) u false), (nth (n - 1) v false), (xs _), (xs _); reflexivity.
    + intros t _. rewrite nth_vxor by lia. destruct (N.testbit _ _); reflexivity.
  - rewrite !step_nth by auto. apply nth_vxor. lia.
Qed.
Lemma steps_vxor j u v : length u = n -> length v = n -> steps j (vxor u v) = vxor (steps j u) (steps j v).
Proof. revert u v. induction j; intros; [reflexivity|]. cbn [steps]. rewrite step_vxor by auto. apply IHj; now apply step_length. Qed.
Lemma out_vxor u v j : length u = n -> length v = n -> out (vxor u v) j = xorb (out u j) (out v j).
Proof.
  intros. unfold out. rewrite steps_vxor by auto. rewrite !last_nth; auto using steps_length. { apply nth_vxor. now rewrite !steps_length. } rewrite vxor_length; rewrite !steps_length; auto.
Qed.

(* running backwards, for odd f *)
Context (Hodd : N.odd f = true).
Definition back (st : list bool) : list bool := tl st ++ [xs (map (fun t => N.testbit f (N.of_nat t) && nth t st false)%bool (seq 0 n))].
Lemma back_length st : length st = n -> length (back st) = n.
Proof. intros L. unfold back. rewrite app_length. cbn. destruct st; cbn in *; lia. Qed.
Lemma back_nth st i : length st = n -> nth i (back st) false = if i <? n - 1 then nth (S i) st false else if i =? n - 1 then xs (map (fun t => N.testbit f (N.of_nat t) && nth t st false)%bool (seq 0 n)) else false.
Proof.
  intros L. unfold back. assert (Lt : length (tl st) = n - 1) by (destruct st; cbn in *; lia). destruct (Nat.ltb_spec i (n - 1)).
  - rewrite app_nth1 by lia. destruct st; reflexivity || (destruct i; reflexivity).
  - rewrite app_nth2 by lia. rewrite Lt. destruct (Nat.eqb_spec i (n - 1)); [subst; rewrite Nat.sub_diag; reflexivity|]. apply nth_overflow. cbn. lia.
Qed.
Lemma odd_bit0 : N.testbit f (N.of_nat 0) = true.
Proof. cbn. now rewrite N.bit0_odd. Qed.
Lemma step_back st : length st = n -> lfsr_step taps (back st) = st.
Proof.
  intros L. pose proof (back_length st L) as Lb. apply list_ext with (d := false). { now rewrite step_length. } intros i Hi. rewrite step_length in Hi by auto. destruct i as [|i].
  - unfold lfsr_step. cbn [nth]. rewrite feedback_eq by auto. rewrite Hodd. cbn [negb andb]. rewrite xorb_false_l. destruct top_bit as [T _].
    assert (E : forall m, m < n -> xs (map (fun t => N.testbit f (N.of_nat t) && nth (t - 1) (back st) false)%bool (seq 1 m)) = xs (map (fun t => N.testbit f (N.of_nat t) && nth t st false)%bool (seq 1 m))).
    { intros m Hm. apply xs_ext. intros t Ht. apply in_seq in Ht. rewrite back_nth by auto. destruct (Nat.ltb_spec (t - 1) (n - 1)); [|lia]. do 2 f_equal. lia. }
    rewrite seq_last, map_app, xs_app, E by lia. cbn [map xs fold_right]. rewrite T, back_nth by auto.
    rewrite Nat.ltb_irrefl, Nat.eqb_refl. cbn [andb]. rewrite xorb_false_r. rewrite seq_first. cbn [map xs fold_right].
    rewrite odd_bit0. cbn [andb]. fold (xs (map (fun t => N.testbit f (N.of_nat t) && nth t st false)%bool (seq 1 (n - 1)))).
    destruct (xs _), (nth 0 st false); reflexivity.
  - rewrite step_nth, back_nth by auto. destruct (Nat.ltb_spec i (n - 1)); [reflexivity|lia].
Qed.
Lemma back_step st : length st = n -> back (lfsr_step taps st) = st.
Proof.
  intros L. pose proof (step_length st L) as Ls. apply list_ext with (d := false). { now rewrite back_length. } intros i Hi. rewrite back_length in Hi by auto.
  rewrite back_nth by auto. destruct (Nat.ltb_spec i (n - 1)); [now rewrite step_nth by (auto; lia)|]. destruct (Nat.eqb_spec i (n - 1)); [|lia].
  destruct top_bit as [T _].
  rewrite seq_first. cbn [map xs fold_right]. rewrite odd_bit0. cbn [andb]. unfold lfsr_step at 1. cbn [nth]. rewrite feedback_eq by auto. rewrite Hodd. cbn [negb andb]. rewrite xorb_false_l.
  rewrite seq_last, map_app, xs_app. cbn [map xs fold_right]. rewrite T. cbn [andb]. rewrite xorb_false_r.
  match goal with |- xorb (xorb ?x ?y) ?z = _ => assert (E : z = x) end.
  { fold (xs (map (fun t => N.testbit f (N.of_nat t) && nth t (lfsr_step taps st) false)%bool (seq 1 (n - 1)))). apply xs_ext. intros t Ht. apply in_seq in Ht.
    destruct t; [lia|]. rewrite step_nth by (auto; lia). do 2 f_equal. lia. }
  rewrite E. subst i. destruct (xs _), (nth (n - 1) st false); reflexivity.
Qed.
Fixpoint backs (j : nat) (st : list bool) : list bool := match j with O => st | S j => back (backs j st) end.
Lemma backs_length j st : length st = n -> length (backs j st) = n.
Proof. intros. induction j; cbn; auto using back_length. Qed.
Lemma backs_add i j st : backs (i + j) st = backs i (backs j st).
Proof. induction i; cbn; congruence. Qed.
Lemma steps_backs j st : length st = n -> steps j (backs j st) = st.
Proof. intros L. induction j; [reflexivity|]. cbn [steps backs]. rewrite step_back by now apply backs_length. exact IHj. Qed.
Lemma backs_steps j st : length st = n -> backs j (steps j st) = st.
Proof. intros L. revert st L. induction j; intros; [reflexivity|]. rewrite <- Nat.add_1_r, backs_add, Nat.add_1_r. cbn [backs]. rewrite steps_S, back_step by now apply steps_length. auto. Qed.
(* the sequence read off the backward run *)
Definition bseq (st : list bool) (k : nat) : bool := nth 0 (backs k st) false.
Lemma backs_nth st k i : length st = n -> i < n -> nth i (backs k st) false = bseq st (k + i).
Proof.
  intros L. revert k. induction i as [|i IH]; intros k Hi; [now rewrite Nat.add_0_r|]. rewrite Nat.add_succ_r, <- Nat.add_succ_l, <- IH by lia. cbn [backs].
  rewrite back_nth by now apply backs_length. destruct (Nat.ltb_spec i (n - 1)); [reflexivity|lia].
Qed.
Lemma bseq_rec st k : length st = n -> bseq st (k + n) = LFSR_Poly.xsumb (map (fun t => N.testbit f (N.of_nat t) && bseq st (k + t))%bool (seq 0 n)).
Proof.
  intros L. replace (k + n) with (S k + (n - 1)) by lia. rewrite <- backs_nth by (auto; lia). cbn [backs]. rewrite back_nth by now apply backs_length.
  rewrite Nat.ltb_irrefl, Nat.eqb_refl. apply xs_ext. intros t Ht. apply in_seq in Ht. rewrite backs_nth by (auto; lia). reflexivity.
Qed.
Lemma backs_period st e : length st = n -> backs e st = st -> forall k, bseq st (k + e) = bseq st k.
Proof. intros L E k. unfold bseq. now rewrite backs_add, E. Qed.
Lemma period_backs st e : length st = n -> (forall k, bseq st (k + e) = bseq st k) -> backs e st = st.
Proof.
  intros L H. apply list_ext with (d := false). { rewrite backs_length; auto. } intros i Hi. rewrite backs_length in Hi by auto. rewrite backs_nth by auto.
  rewrite Nat.add_comm, H. pose proof (backs_nth st 0 i L Hi) as E. cbn [backs Nat.add] in E. now rewrite E.
Qed.
Lemma nonzero_bseq st : length st = n -> st <> zeros n -> exists k, bseq st k = true.
Proof.
  intros L N. destruct (in_dec Bool.bool_dec true st) as [I|I].
  - apply (In_nth _ _ false) in I as (i & Hi & E). exists i. pose proof (backs_nth st 0 i L ltac:(lia)) as E'. cbn [backs Nat.add] in E'. congruence.
  - exfalso. apply N. rewrite <- L. clear - I. induction st as [|x st IH]; [reflexivity|]. cbn. unfold zeros in *. rewrite <- IH by (intros X; apply I; now right).
    f_equal. destruct x; auto. exfalso. apply I. now left.
Qed.
Lemma back_zeros : back (zeros n) = zeros n.
Proof.
  apply list_ext with (d := false). { rewrite back_length; [symmetry|]; apply zeros_length. } intros i Hi.
  assert (Z : forall i, nth i (zeros n) false = false) by (intros; apply nth_repeat). rewrite back_nth by apply zeros_length. rewrite !Z.
  assert (E : xs (map (fun t => N.testbit f (N.of_nat t) && nth t (zeros n) false)%bool (seq 0 n)) = false).
  { rewrite (xs_ext _ (fun _ => false)). { unfold xs. induction (seq 0 n); cbn [map fold_right]; [reflexivity|]. now rewrite IHl. } intros t _. rewrite Z. apply andb_false_r. }
  rewrite E. destruct (i <? n - 1), (i =? n - 1); reflexivity.
Qed.
Lemma step_zeros : lfsr_step taps (zeros n) = zeros n.
Proof. rewrite <- back_zeros at 1. apply step_back. apply zeros_length. Qed.
Lemma steps_nonzero j st : length st = n -> st <> zeros n -> steps j st <> zeros n.
Proof.
  revert st. induction j; intros st L N; [exact N|]. cbn [steps]. apply IHj; [now apply step_length|]. intros E. apply N. rewrite <- (back_step st L), E. apply back_zeros.
Qed.

(* maximal period *)
Context (Hprim : is_primitive f = true).
Notation L := (2 ^ n - 1).
Lemma pow_pos : 1 <= 2 ^ n.
Proof. pose proof (Nat.pow_nonzero 2 n). lia. Qed.
Lemma prim_facts : nirreducible f /\ ndvd f (xe1 (N.of_nat L)) /\ forall e, 0 < e < L -> ~ ndvd f (xe1 (N.of_nat e)).
Proof.
  assert (C : nirreducible f /\ (let order := (2 ^ N.of_nat (bl f - 1) - 1)%N in ndvd f (xe1 order) /\ forall e, (0 < e < order)%N -> ~ ndvd f (xe1 e)))
    by (exact (proj1 (Irreducible_Proof.is_primitive_spec f) Hprim)).
  destruct C as (I & D & M). rewrite Hn in D, M. replace (S n - 1) with n in D, M by lia.
  assert (E : (2 ^ N.of_nat n - 1)%N = N.of_nat L). { rewrite Nat2N.inj_sub. f_equal. now rewrite <- (Nat2N.inj_pow 2). }
  rewrite E in D, M. repeat split; auto; try apply I. intros e He. apply M. lia.
Qed.
Lemma backs_iff st e : length st = n -> st <> zeros n -> backs e st = st <-> ndvd f (xe1 (N.of_nat e)).
Proof.
  intros Ls N. destruct prim_facts as (I & _). pose proof (@LFSR_Poly.period_iff f n (bseq st) (N.of_nat e) I Hn (fun k => bseq_rec st k Ls) (nonzero_bseq st Ls N)) as P.
  rewrite Nat2N.id in P. rewrite <- P. split; [now apply backs_period|now apply period_backs].
Qed.
Lemma steps_iff st e : length st = n -> st <> zeros n -> steps e st = st <-> ndvd f (xe1 (N.of_nat e)).
Proof.
  intros Ls N. rewrite <- (backs_iff st e) by auto. split; intros E.
  - rewrite <- E at 1. now apply backs_steps.
  - rewrite <- E at 1. now apply steps_backs.
Qed.
Lemma steps_L st : length st = n -> steps L st = st.
Proof.
  intros Ls. destruct (list_eq_dec Bool.bool_dec st (zeros n)) as [->|N]; [induction L as [|m IH]; cbn [steps]; [reflexivity|now rewrite step_zeros]|]. apply steps_iff; auto. apply prim_facts.
Qed.
Lemma steps_neq st e : length st = n -> st <> zeros n -> 0 < e < L -> steps e st <> st.
Proof. intros Ls N H E. apply steps_iff in E; auto. now apply (proj2 (proj2 prim_facts)) in E. Qed.
Lemma steps_mod st j : length st = n -> steps (j mod L) st = steps j st.
Proof.
  intros Ls. destruct (Nat.eq_dec L 0) as [E|E]. { pose proof pow_pos. assert (2 ^ 1 <= 2 ^ n) by (apply Nat.pow_le_mono_r; lia). cbn in *. lia. }
  rewrite (Nat.div_mod j L) at 2 by auto. rewrite Nat.add_comm. induction (j / L) as [|q IH]; [now rewrite Nat.mul_0_r, Nat.add_0_r|].
  replace (j mod L + L * S q) with ((j mod L + L * q) + L) by lia. rewrite steps_add, steps_L by auto. exact IH.
Qed.
Lemma steps_inj st i j : length st = n -> st <> zeros n -> i < L -> j < L -> steps i st = steps j st -> i = j.
Proof.
  assert (W : forall i j, length st = n -> st <> zeros n -> i < j -> j < L -> steps i st = steps j st -> False).
  { intros a b Ls N H1 H2 E. apply (steps_neq (steps a st) (b - a)); [now apply steps_length|now apply steps_nonzero|lia|]. rewrite <- steps_add. replace (b - a + a) with b by lia. auto. }
  intros. destruct (Nat.lt_trichotomy i j) as [H4|[H4|H4]]; auto; exfalso; eauto.
Qed.
End Reg.

(* all words *)
Fixpoint words (n : nat) : list (list bool) := match n with O => [[]] | S n => map (cons false) (words n) ++ map (cons true) (words n) end.
Lemma words_length n : length (words n) = 2 ^ n.
Proof. induction n; [reflexivity|]. cbn [words]. rewrite app_length, !map_length, IHn. cbn. lia. Qed.
Lemma words_In n w : In w (words n) <-> length w = n.
Proof.
  revert w. induction n; intros w; cbn [words].
  - split; [intros [<-|[]]; reflexivity|]. destruct w; [now left|discriminate].
  - rewrite in_app_iff, !in_map_iff. split.
    + intros [(x & <- & H)|(x & <- & H)]; apply IHn in H; cbn; lia.
    + destruct w as [|[] w]; [discriminate| |]; intros H; cbn in H; [right|left]; exists w; (split; [reflexivity|]; apply IHn; lia).
Qed.
Lemma words_NoDup n : NoDup (words n).
Proof.
  induction n; cbn [words]; [constructor; [intros []|constructor]|].
  assert (M : forall b, NoDup (map (cons b) (words n))).
  { intros b. apply FinFun.Injective_map_NoDup; auto. intros x y E. now injection E. }
  assert (G : forall (l m : list (list bool)), NoDup l -> NoDup m -> (forall x, In x l -> In x m -> False) -> NoDup (l ++ m)).
  { induction l as [|x l IH]; intros m Nl Nm D; [exact Nm|]. inversion Nl; subst. cbn. constructor.
    - rewrite in_app_iff. intros [I|I]; [auto|]. apply (D x); [now left|auto].
    - apply IH; auto. intros y Iy. apply D. now right. }
  apply G; auto. intros x H1 H2. apply in_map_iff in H1 as (u & <- & _), H2 as (v & E & _). discriminate.
Qed.
Lemma words_head n : words n = zeros n :: tl (words n).
Proof. induction n; [reflexivity|]. cbn [words]. rewrite IHn. cbn [map app tl]. reflexivity. Qed.
Lemma tl_words n w : In w (tl (words n)) <-> length w = n /\ w <> zeros n.
Proof.
  rewrite <- words_In. pose proof (words_NoDup n) as ND. rewrite words_head in ND |- *. cbn [tl]. inversion ND as [|x l H1 H2]; subst. split.
  - intros I. split; [now right|]. intros ->. auto.
  - intros [[<-|I] N]; [easy|auto].
Qed.
Lemma words_ones n : 1 <= n -> count_ones (map (fun w => last w false) (words n)) = 2 ^ (n - 1).
Proof.
  assert (A : forall l m, count_ones (l ++ m) = count_ones l + count_ones m) by (intros; unfold count_ones; now rewrite filter_app, app_length).
  induction n as [|n IH]; [lia|]. intros _. destruct n; [reflexivity|]. change (words (S (S n))) with (map (cons false) (words (S n)) ++ map (cons true) (words (S n))). rewrite map_app, A, !map_map.
  assert (E : forall b, count_ones (map (fun x => last (b :: x) false) (words (S n))) = 2 ^ n).
  { intros b. rewrite (map_ext_in _ (fun w => last w false)). { rewrite IH by lia. f_equal. lia. }
    intros w Hw. apply words_In in Hw. destruct w; [discriminate|reflexivity]. }
  rewrite !E. cbn [Nat.sub]. cbn. lia.
Qed.
Lemma count_perm l m : Permutation l m -> count_ones l = count_ones m.
Proof. unfold count_ones. induction 1; cbn [filter]; try destruct x; try destruct y; cbn [length]; congruence. Qed.

Section Max.
Context (f : N) (n : nat) (Hn : bl f = S n) (Hprim : is_primitive f = true).
Lemma Hpos : 1 <= n. Proof. pose proof (proj2 (@LFSR_Poly.primitive_odd f Hprim)). lia. Qed.
Lemma Hodd : N.odd f = true. Proof. apply (@LFSR_Poly.primitive_odd f Hprim). Qed.
Notation L := (2 ^ n - 1).
Lemma L_pos : 1 <= L.
Proof. pose proof Hpos. assert (2 ^ 1 <= 2 ^ n) by (apply Nat.pow_le_mono_r; lia). cbn in H0. lia. Qed.
Lemma orbit_perm st : length st = n -> st <> zeros n -> Permutation (map (fun j => steps f j st) (seq 0 L)) (tl (words n)).
Proof.
  intros Ls N. pose proof Hpos as P. pose proof Hodd as O. apply NoDup_Permutation_bis.
  - apply (NoDup_nth _ []). rewrite map_length, seq_length. intros i j Hi Hj E. rewrite !(nth_map_seq (fun j => steps f j st)) in E by auto. eapply (steps_inj f n Hn P O Hprim); eauto.
  - rewrite map_length, seq_length. pose proof (words_length n) as W. rewrite words_head in W. cbn [length tl] in *. lia.
  - intros w Hw. apply in_map_iff in Hw as (j & <- & _). apply tl_words. split; [now apply steps_length|now apply steps_nonzero].
Qed.
Lemma out_ones st : length st = n -> st <> zeros n -> count_ones (map (out f st) (seq 0 L)) = 2 ^ (n - 1).
Proof.
  intros Ls N. unfold out. rewrite <- (map_map (fun j => steps f j st) (fun w => last w false)). rewrite (count_perm _ _ (Permutation_map _ (orbit_perm st Ls N))).
  pose proof (words_ones n Hpos) as W. rewrite words_head in W. cbn [map tl] in W |- *. unfold count_ones in *. cbn [filter] in W. 
  assert (E : last (zeros n) false = false). { generalize n. clear. induction n as [|[|m] IH]; [reflexivity|reflexivity|exact IH]. }
  rewrite E in W. exact W.
Qed.
Lemma out_mod st j : length st = n -> out f st (j mod L) = out f st j.
Proof. intros Ls. unfold out. now rewrite (steps_mod f n Hn Hpos Hodd Hprim). Qed.
Lemma window_steps st j : length st = n -> window (lfsr_loop (exponents (padd f 1)) L st) n j = rev (steps f j st).
Proof.
  intros Ls. pose proof Hpos. pose proof L_pos. unfold window. rewrite loop_length. apply list_ext with (d := false). { rewrite map_length, seq_length, rev_length. symmetry. now apply steps_length. }
  intros i Hi. rewrite map_length, seq_length in Hi. rewrite nth_map_seq by auto. rewrite (loop_nth f n) by (auto; apply Nat.mod_upper_bound; lia). rewrite out_mod by auto.
  rewrite rev_nth by (rewrite (steps_length f n); auto). rewrite (steps_length f n) by auto. rewrite (steps_nth f n) by (auto; lia). f_equal. lia.
Qed.
Lemma Zsum_count g m : Corr_Spec.Zsum m (fun i => if g i : bool then -1 else 1)%Z = (Z.of_nat m - 2 * Z.of_nat (count_ones (map g (seq 0 m))))%Z.
Proof.
  induction m; [reflexivity|]. cbn [Corr_Spec.Zsum]. rewrite IHm, seq_S, map_app. unfold count_ones. rewrite filter_app, app_length. cbn [Nat.add map filter]. destruct (g m); cbn [length]; lia.
Qed.
Lemma Zsum_ext m g h : (forall i, i < m -> g i = h i) -> Corr_Spec.Zsum m g = Corr_Spec.Zsum m h.
Proof. induction m; intros E; [reflexivity|]. cbn [Corr_Spec.Zsum]. rewrite E, IHm by (intros; try apply E; lia). reflexivity. Qed.
Lemma autocorr st l : length st = n -> st <> zeros n ->
  Corr_Model.cyclic_at Corr_Model.int_dtype (Walsh_Model.polar_of_bits (bit_values (lfsr_loop (exponents (padd f 1)) L st))) l =
  if (l mod Z.of_nat L =? 0)%Z then Z.of_nat L else (-1)%Z.
Proof.
  intros Ls N. pose proof L_pos as HL. pose proof Hpos as HP. set (s := Walsh_Model.polar_of_bits _).
  assert (Es : s = map (fun i => if out f st i then -1 else 1)%Z (seq 0 L)).
  { unfold s, Walsh_Model.polar_of_bits, bit_values. rewrite (loop_map f n Hn Hpos), !map_map. apply map_ext. intros i. destruct (out f st i); reflexivity. }
  assert (Len : length s = L) by (now rewrite Es, map_length, seq_length).
  assert (Nth : forall i, i < L -> nth i s 0%Z = if out f st i then (-1)%Z else 1%Z) by (intros i Hi; rewrite Es; now rewrite (nth_map_seq (fun i => if out f st i then -1 else 1)%Z)).
  unfold Corr_Model.cyclic_at. rewrite (Corr_Proof.npdot_Z _ _ L); [|exact Len|rewrite map_length, Corr_Proof.roll_length; exact Len].
  set (m := Z.to_nat ((- l) mod Z.of_nat L)). pose proof (Z.mod_pos_bound (- l) (Z.of_nat L) ltac:(lia)) as Bm. assert (Hm : m < L) by lia.
  pose (g := fun i => xorb (out f st i) (out f (steps f m st) i)).
  rewrite (Zsum_ext _ _ (fun i => if g i then -1 else 1)%Z).
  - rewrite Zsum_count. destruct (Z.eqb_spec (l mod Z.of_nat L) 0) as [E|E].
    + assert (m0 : m = 0). { unfold m. rewrite Z.mod_opp_l_z by (auto; lia). reflexivity. }
      unfold g. rewrite m0. cbn [steps]. rewrite (map_ext _ (fun _ => false)) by (intros; apply xorb_nilpotent).
      assert (C0 : forall k a : nat, count_ones (map (fun _ : nat => false) (seq a k)) = 0) by (induction k; intros a; [reflexivity|]; cbn [seq map]; unfold count_ones; cbn [filter]; apply IHk).
      rewrite C0. lia.
    + assert (mn : 0 < m). { unfold m. rewrite Z.mod_opp_l_nz by (auto; lia). pose proof (Z.mod_pos_bound l (Z.of_nat L) ltac:(lia)). lia. }
      unfold g. pose proof (steps_length f n Hn Hpos m st Ls) as Lm. rewrite (map_ext _ (out f (vxor st (steps f m st)))) by (intros i; symmetry; now apply (out_vxor f n)).
      rewrite out_ones.
      * assert (E2 : 2 ^ n = 2 * 2 ^ (n - 1)) by (replace n with (S (n - 1)) at 1 by lia; reflexivity). lia.
      * rewrite vxor_length; lia.
      * intros Z. apply (steps_neq f n Hn Hpos Hodd Hprim st m Ls N); [lia|]. apply list_ext with (d := false); [lia|]. intros i Hi.
        assert (X : nth i (vxor st (steps f m st)) false = false) by (rewrite Z; apply nth_zeros). rewrite (nth_vxor f n) in X by (auto; lia). destruct (nth i st false), (nth i (steps f m st) false); auto; discriminate.
  - intros i Hi. rewrite Nth by auto. cbn [Corr_Model.d_conj Corr_Model.int_dtype Corr_Model.carrier]. rewrite map_id. unfold Corr_Model.roll. cbn [Corr_Model.carrier Corr_Model.int_dtype Corr_Model.d_zero]. rewrite Len.
    rewrite (nth_map_seq (fun i => nth (Z.to_nat ((Z.of_nat i - l) mod Z.of_nat L)) s 0%Z)) by auto.
    assert (Ei : Z.to_nat ((Z.of_nat i - l) mod Z.of_nat L) = (i + m) mod L).
    { apply Nat2Z.inj. rewrite Nat2Z.inj_mod, Nat2Z.inj_add. unfold m. rewrite !Z2Nat.id by (apply Z.mod_pos_bound; lia). rewrite Zplus_mod_idemp_r. f_equal. }
    rewrite Ei, Nth by (apply Nat.mod_upper_bound; lia). rewrite out_mod by auto. unfold g. unfold out at 4. rewrite <- (steps_add f). fold (out f st (i + m)). destruct (out f st i), (out f st (i + m)); reflexivity.
Qed.
End Max.
