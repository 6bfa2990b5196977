(* The soft outputs of the successive-cancellation decoder are exact L-values. *)
From Coq Require Import Reals Lra Psatz.
From Verif Require Import Common Vec_Model Vec_Proof LinAlg_Model LinAlg_Proof BlockCode_Model Polar_Model Polar_Proof SC_Model SC_Proof SC_Spec.
Local Open Scope nat_scope.

Fixpoint msum (n : nat) (f : vec -> R) : R := match n with 0 => f [] | S n => (msum n (fun s => f (false :: s)) + msum n (fun s => f (true :: s)))%R end.
Lemma msum_ext n : forall f g, (forall s, length s = n -> f s = g s) -> msum n f = msum n g.
Proof. induction n as [|n IH]; intros f g H; cbn [msum]; [apply H; reflexivity|]. f_equal; apply IH; intros s L; apply H; cbn; lia. Qed.
Lemma msum_total f n : fold_right Rplus 0%R (map f (tails n)) = msum n f.
Proof.
  revert f. induction n as [|n IH]; intros f; cbn [tails msum]; [cbn; lra|]. rewrite map_app, !map_map. rewrite <- !IH. generalize (map (fun x => f (true :: x)) (tails n)). intros l2.
  induction (map (fun x => f (false :: x)) (tails n)) as [|x l IHl]; cbn [app fold_right]; [lra|]. rewrite IHl. lra.
Qed.
Lemma msum_add n : forall f g, msum n (fun s => (f s + g s)%R) = (msum n f + msum n g)%R.
Proof. induction n as [|n IH]; intros f g; cbn [msum]; [reflexivity|]. rewrite !IH. lra. Qed.
Lemma msum_scal n k : forall f, msum n (fun s => (k * f s)%R) = (k * msum n f)%R.
Proof. induction n as [|n IH]; intros f; cbn [msum]; [reflexivity|]. rewrite !IH. lra. Qed.
Lemma msum_pos n : forall f, (forall s, length s = n -> (0 < f s)%R) -> (0 < msum n f)%R.
Proof. induction n as [|n IH]; intros f H; cbn [msum]; [apply H; reflexivity|]. apply Rplus_lt_0_compat; apply IH; intros s L; apply H; cbn; lia. Qed.
Lemma msum_app a b : forall f, msum (a + b) f = msum a (fun s => msum b (fun t => f (s ++ t))).
Proof. induction a as [|a IH]; intros f; cbn [msum Nat.add app]; [reflexivity|]. now rewrite !IH. Qed.
Lemma msum_swap a b : forall f, msum a (fun s => msum b (fun t => f s t)) = msum b (fun t => msum a (fun s => f s t)).
Proof. induction a as [|a IH]; intros f; cbn [msum]; [reflexivity|]. rewrite !IH, <- msum_add. reflexivity. Qed.
Lemma msum_xor c : forall f, msum (length c) (fun s => f (vxor s c)) = msum (length c) f.
Proof.
  induction c as [|b c IH]; intros f; [reflexivity|]. cbn [length msum vxor]. rewrite (IH (fun s => f (xorb false b :: s))), (IH (fun s => f (xorb true b :: s))). destruct b; cbn [xorb]; lra.
Qed.
Lemma msum_ptrans h : forall f, msum (2 ^ h) (fun s => f (ptrans h s)) = msum (2 ^ h) f.
Proof.
  induction h as [|h IH]; intros f; [reflexivity|]. replace (2 ^ S h) with (2 ^ h + 2 ^ h) by (cbn; lia). rewrite !msum_app.
  etransitivity; [apply msum_ext; intros s Ls; apply msum_ext; intros t Lt; rewrite ptrans_S by assumption; reflexivity|].
  rewrite (IH (fun x => msum (2 ^ h) (fun t => f (vxor x (ptrans h t) ++ ptrans h t)))).
  rewrite msum_swap. rewrite (IH (fun t => msum (2 ^ h) (fun x => f (vxor x t ++ t)))). rewrite (msum_swap (2 ^ h) (2 ^ h) (fun s t => f (s ++ t))).
  apply msum_ext. intros t Lt. rewrite <- Lt. apply (msum_xor t (fun s => f (s ++ t))).
Qed.

(* unnormalised probabilities *)
Definition w (x : R) (b : bool) : R := if b then 1%R else exp x.
Fixpoint W (msg : list R) (v : vec) : R := match msg, v with x :: m, b :: v => (w x b * W m v)%R | _, _ => 1%R end.
Lemma w_pos x b : (0 < w x b)%R. Proof. destruct b; cbn; [lra|apply exp_pos]. Qed.
Lemma W_pos msg : forall v, (0 < W msg v)%R.
Proof. induction msg as [|x m IH]; intros [|b v]; cbn [W]; try lra. apply Rmult_lt_0_compat; [apply w_pos|apply IH]. Qed.
Lemma W_app l r : forall x y, length l = length x -> W (l ++ r) (x ++ y) = (W l x * W r y)%R.
Proof. induction l as [|a l IH]; intros [|b x] y L; try discriminate; cbn [app W]; [lra|]. rewrite IH by (cbn in L; lia). lra. Qed.
Fixpoint K1 (l r : list R) : R := match l, r with x :: l, y :: r => ((exp x + exp y) * K1 l r)%R | _, _ => 1%R end.
Lemma K1_pos l : forall r, (0 < K1 l r)%R.
Proof. induction l as [|x l IH]; intros [|y r]; cbn [K1]; try lra. apply Rmult_lt_0_compat; [|apply IH]. pose proof (exp_pos x). pose proof (exp_pos y). lra. Qed.
Fixpoint K2 (l : list R) (c : vec) : R := match l, c with x :: l, b :: c => ((if b then exp x else 1) * K2 l c)%R | _, _ => 1%R end.
Lemma K2_pos l : forall c, (0 < K2 l c)%R.
Proof. induction l as [|x l IH]; intros [|b c]; cbn [K2]; try lra. apply Rmult_lt_0_compat; [|apply IH]. destruct b; [apply exp_pos|lra]. Qed.
Lemma pair_sum l : forall r c, length r = length l -> length c = length l -> msum (length l) (fun y => (W l (vxor c y) * W r y)%R) = (K1 l r * W (map2 boxplus l r) c)%R.
Proof.
  induction l as [|x l IH]; intros [|y r] [|b c] L1 L2; try discriminate; cbn [length msum W vxor K1 map2]; [lra|].
  assert (E : forall z, msum (length l) (fun s => (w x (xorb b z) * W l (vxor c s) * (w y z * W r s))%R) = (w x (xorb b z) * w y z * (K1 l r * W (map2 boxplus l r) c))%R).
  { intros z. rewrite <- IH by (cbn in L1, L2; lia). rewrite <- msum_scal. apply msum_ext. intros s _. ring. }
  rewrite (E false), (E true). pose proof (exp_pos x). pose proof (exp_pos y).
  assert (B : (w x (xorb b false) * w y false + w x (xorb b true) * w y true)%R = ((exp x + exp y) * w (boxplus x y) b)%R).
  { destruct b; cbn [xorb w]; [ring|]. rewrite boxplus_exp, exp_plus. field. lra. }
  rewrite <- Rmult_plus_distr_r, B. ring.
Qed.
Lemma g_weight l : forall r c y, length r = length l -> length c = length l -> length y = length l -> (W l (vxor c y) * W r y)%R = (K2 l c * W (g_node l r c) y)%R.
Proof.
  unfold g_node. induction l as [|x l IH]; intros [|z r] [|b c] [|d y] L1 L2 L3; try discriminate; cbn [W vxor K2 combine map2]; [lra|].
  specialize (IH r c y ltac:(cbn in L1; lia) ltac:(cbn in L2; lia) ltac:(cbn in L3; lia)).
  replace (w x (xorb b d) * W l (vxor c y) * (w z d * W r y))%R with (w x (xorb b d) * w z d * (W l (vxor c y) * W r y))%R by ring. rewrite IH.
  assert (B : (w x (xorb b d) * w z d)%R = ((if b then exp x else 1) * w (z + (if b then -1 else 1) * x) d)%R).
  { destruct b, d; cbn [xorb w]; rewrite ?exp_plus; try ring; [|replace (1 * x)%R with x by ring; ring]. replace (-1 * x)%R with (- x)%R by ring. rewrite exp_Ropp. pose proof (exp_pos x). field. lra. }
  rewrite B. ring.
Qed.

Definition Fh (h : nat) (msg : list R) (p : vec) : R := msum (2 ^ h - length p) (fun s => W msg (ptrans h (p ++ s))).
Lemma Fh_pos h msg p : (0 < Fh h msg p)%R. Proof. apply msum_pos. intros s _. apply W_pos. Qed.
Lemma Fh_left h msg p : length msg = 2 ^ S h -> length p <= 2 ^ h ->
  let l := firstn (2 ^ h) msg in let r := skipn (2 ^ h) msg in Fh (S h) msg p = (K1 l r * Fh h (map2 boxplus l r) p)%R.
Proof.
  intros Lm Lp l r. destruct (halves_R h msg Lm) as [Ll Lr]. fold l in Ll. fold r in Lr. unfold Fh. replace (2 ^ S h - length p) with (2 ^ h - length p + 2 ^ h) by (cbn; lia). rewrite msum_app, <- msum_scal. apply msum_ext. intros s Ls.
  assert (Lps : length (p ++ s) = 2 ^ h) by (rewrite app_length; lia). rewrite <- pair_sum; [|lia|rewrite ptrans_length; lia]. rewrite Ll.
  rewrite <- (msum_ptrans h (fun y => (W l (vxor (ptrans h (p ++ s)) y) * W r y)%R)). apply msum_ext. intros t Lt.
  rewrite app_assoc, ptrans_S by assumption. rewrite <- (firstn_skipn (2 ^ h) msg). fold l r. apply W_app. rewrite vxor_length, ptrans_length; [lia|exact Lps|]. rewrite !ptrans_length by assumption. reflexivity.
Qed.
Lemma Fh_right h msg a q : length msg = 2 ^ S h -> length a = 2 ^ h -> length q <= 2 ^ h ->
  let l := firstn (2 ^ h) msg in let r := skipn (2 ^ h) msg in Fh (S h) msg (a ++ q) = (K2 l (ptrans h a) * Fh h (g_node l r (ptrans h a)) q)%R.
Proof.
  intros Lm La Lq l r. destruct (halves_R h msg Lm) as [Ll Lr]. fold l in Ll. fold r in Lr. unfold Fh. rewrite app_length. replace (2 ^ S h - (length a + length q)) with (2 ^ h - length q) by (cbn; lia). rewrite <- msum_scal. apply msum_ext. intros s Ls.
  assert (Lqs : length (q ++ s) = 2 ^ h) by (rewrite app_length; lia). pose proof (ptrans_length h a La) as Ta. pose proof (ptrans_length h _ Lqs) as Tq. rewrite <- app_assoc, ptrans_S by assumption.
  rewrite <- g_weight by lia. rewrite <- (firstn_skipn (2 ^ h) msg). fold l r. apply W_app. rewrite vxor_length; lia.
Qed.

Lemma sc_exact frozen h : forall index msg, length msg = 2 ^ h -> exists u, length u = 2 ^ h /\ fst (sc_rec frozen h index msg) = ptrans h u /\
  forall j, j < 2 ^ h -> let x := nth j (snd (sc_rec frozen h index msg)) 0%R in
    nth j u false = (if existsb (Nat.eqb (index * 2 ^ h + j)) frozen then false else neg x) /\
    (exp x * Fh h msg (firstn j u ++ [true]))%R = Fh h msg (firstn j u ++ [false]).
Proof.
  induction h as [|h IH]; intros index msg Lm.
  - destruct msg as [|x [|]]; try discriminate. cbn [sc_rec fst snd]. exists (if existsb (Nat.eqb index) frozen then [false] else map neg [x]).
    split; [destruct (existsb _ _); reflexivity|]. split; [destruct (existsb _ _); reflexivity|]. intros j Hj. cbn in Hj. destruct j; [|lia]. cbn [nth]. split.
    + replace (index * 2 ^ 0 + 0) with index by (cbn; lia). destruct (existsb _ _); reflexivity.
    + unfold Fh. cbn. ring.
  - destruct (halves_R h msg Lm) as [Ll Lr]. cbn [sc_rec]. set (l := firstn (2 ^ h) msg) in *. set (r := skipn (2 ^ h) msg) in *.
    destruct (IH (index * 2) (map2 boxplus l r)) as (ua & La & Ea & Pa); [rewrite map2_length; congruence|].
    destruct (sc_rec_length frozen h (index * 2) (map2 boxplus l r)) as [_ Lla]; [rewrite map2_length; congruence|].
    destruct (sc_rec frozen h (index * 2) (map2 boxplus l r)) as [a la]. cbn [fst snd] in *. subst a. pose proof (ptrans_length h ua La) as Ta.
    destruct (IH (index * 2 + 1) (g_node l r (ptrans h ua))) as (ub & Lb & Eb & Pb); [rewrite g_node_length; congruence|].
    destruct (sc_rec frozen h (index * 2 + 1) (g_node l r (ptrans h ua))) as [b lb]. cbn [fst snd] in *. subst b.
    exists (ua ++ ub). split; [rewrite app_length; cbn; lia|]. split; [symmetry; now apply ptrans_S|]. intros j Hj.
    destruct (Nat.lt_ge_cases j (2 ^ h)) as [J|J].
    + destruct (Pa j J) as [P1 P2]. cbv zeta in *. rewrite !app_nth1 by lia. rewrite firstn_app. replace (j - length ua) with 0 by lia. cbn [firstn]. rewrite app_nil_r. split.
      * rewrite P1. replace (index * 2 ^ S h + j) with (index * 2 * 2 ^ h + j) by (cbn; lia). reflexivity.
      * assert (Q : forall b, length (firstn j ua ++ [b]) <= 2 ^ h) by (intros b; rewrite app_length, firstn_length; cbn; lia). rewrite !(Fh_left h msg) by auto. fold l r. rewrite <- P2. ring.
    + destruct (Pb (j - 2 ^ h)) as [P1 P2]; [cbn in Hj; lia|]. cbv zeta in *. rewrite !app_nth2 by lia. rewrite La, Lla. rewrite firstn_app, La, firstn_all2 by lia. split.
      * rewrite P1. replace ((index * 2 + 1) * 2 ^ h + (j - 2 ^ h)) with (index * 2 ^ S h + j) by (cbn; nia). reflexivity.
      * assert (Q : forall b, length (firstn (j - 2 ^ h) ub ++ [b]) <= 2 ^ h) by (intros b; rewrite app_length, firstn_length; cbn in Hj |- *; lia). rewrite <- !app_assoc. rewrite !(Fh_right h msg) by auto. fold l r. rewrite <- P2. ring.
Qed.

(* normalisation *)
Lemma polar_matrix_hadamard mu : polar_matrix mu = hadamard mu.
Proof.
  destruct (hadamard_shape mu) as [Wf Lh]. unfold polar_matrix. apply nth_ext with (d := []) (d' := []); [rewrite map_length, seq_length; congruence|]. rewrite map_length, seq_length. intros i Hi.
  rewrite (nth_indep _ [] (map (fun j => Nat.land (2 ^ mu) j =? j) (seq 0 (2 ^ mu)))) by (rewrite map_length, seq_length; exact Hi). rewrite (map_nth (fun i => map (fun j => Nat.land i j =? j) (seq 0 (2 ^ mu))) (seq 0 (2 ^ mu)) (2 ^ mu)), seq_nth by exact Hi. cbn [Nat.add].
  assert (Li : length (nth i (hadamard mu) []) = 2 ^ mu) by (unfold wf in Wf; rewrite Forall_forall in Wf; apply Wf, nth_In; lia). apply nth_ext with (d := false) (d' := false); [rewrite map_length, seq_length; congruence|]. rewrite map_length, seq_length. intros j Hj.
  rewrite hadamard_entry by assumption. rewrite (nth_indep _ false (Nat.land i 0 =? 0)) by (rewrite map_length, seq_length; exact Hj). now rewrite (map_nth (fun j => Nat.land i j =? j) (seq 0 (2 ^ mu)) 0), seq_nth by exact Hj.
Qed.
Fixpoint norm (li : list R) : R := match li with [] => 1%R | x :: li => (/ (1 + exp x) * norm li)%R end.
Lemma norm_pos li : (0 < norm li)%R.
Proof. induction li as [|x li IH]; cbn [norm]; [lra|]. apply Rmult_lt_0_compat; [apply Rinv_0_lt_compat; pose proof (exp_pos x); lra|exact IH]. Qed.
Lemma word_prob_W li : forall v, length v = length li -> word_prob li v = (norm li * W li v)%R.
Proof.
  unfold word_prob. induction li as [|x li IH]; intros [|b v] L; try discriminate; cbn [combine map fold_right norm W fst snd]; [lra|]. rewrite IH by (cbn in L; lia). unfold bit_prob, w. pose proof (exp_pos x). destruct b; field; lra.
Qed.
Lemma evidence_Fh mu li p : length li = 2 ^ mu -> length p <= 2 ^ mu -> evidence mu li p = (norm li * Fh mu li p)%R.
Proof.
  intros Ll Lp. unfold evidence, Fh. rewrite msum_total, <- msum_scal. apply msum_ext. intros s Ls. assert (L : length (p ++ s) = 2 ^ mu) by (rewrite app_length; lia).
  rewrite polar_matrix_hadamard, <- ptrans_hadamard by exact L. apply word_prob_W. rewrite ptrans_length; congruence.
Qed.
