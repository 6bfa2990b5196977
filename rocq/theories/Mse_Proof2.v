Set Warnings "-ambiguous-paths".
(** The cells of a quantizer tile the range; error of the trapezoid rule for Lipschitz functions. *)
From Coq Require Import List ZArith Reals Lra Lia Psatz.
From Coquelicot Require Import Coquelicot.
From Verif Require Import Quant_Model Quant_Spec Mse_Model Mse_Proof Pulse_Spec Pulse_Int.
Import ListNotations.
Local Open Scope R_scope.

(** A function of (level, left end, right end), summed over the cells. *)
Fixpoint cell_sum (J : R -> R -> R -> R) (levels lam : list R) : R :=
  match levels, lam with
  | y :: levels', a :: ((b :: _) as lam') => J y a b + cell_sum J levels' lam'
  | _, _ => 0
  end.
Lemma mse_cells (q : quantizer) (pdf : R -> R) (xmin xmax : R) (n : nat) :
  mean_squared_error q pdf xmin xmax (S n) =
  cell_sum (fun y a b => trap (fun u => (y - u) ^ 2 * pdf u) a b n) (levels q) (xmin :: thresholds q ++ [xmax]).
Proof.
  unfold mean_squared_error. generalize (levels q), (xmin :: thresholds q ++ [xmax]).
  induction l as [|y l IH]; intros lam; [reflexivity|].
  destruct lam as [|a [|b lam]]; try reflexivity.
  cbn [cell_errors cell_sum]. rewrite IH. unfold cell_error. rewrite trapezoid_trap. reflexivity.
Qed.
Lemma cell_sum_lim (J : nat -> R -> R -> R -> R) (K : R -> R -> R -> R) (ys lam : list R) :
  (forall y a b, is_lim_seq (fun n => J n y a b) (K y a b)) ->
  is_lim_seq (fun n => cell_sum (J n) ys lam) (cell_sum K ys lam).
Proof.
  intros H. revert lam. induction ys as [|y ys IH]; intros lam; [apply is_lim_seq_const|].
  destruct lam as [|a [|b lam]]; [apply is_lim_seq_const|apply is_lim_seq_const|].
  cbn [cell_sum]. apply is_lim_seq_plus'; [apply H|apply IH].
Qed.
Lemma cell_sum_right (J : R -> R -> R -> R) (b b' : R) : (forall y a, J y a b = J y a b') ->
  forall ys a ts, cell_sum J ys (a :: ts ++ [b]) = cell_sum J ys (a :: ts ++ [b']).
Proof.
  intros H ys. induction ys as [|y ys IH]; intros a ts; [reflexivity|].
  destruct ts as [|t ts].
  - cbn. destruct ys; cbn; rewrite H; reflexivity.
  - change (J y a t + cell_sum J ys (t :: ts ++ [b]) = J y a t + cell_sum J ys (t :: ts ++ [b'])).
    rewrite IH. reflexivity.
Qed.
Lemma cell_sum_left (J : R -> R -> R -> R) (a a' : R) ys lam : (forall y b, J y a b = J y a' b) ->
  cell_sum J ys (a :: lam) = cell_sum J ys (a' :: lam).
Proof. intros H. destruct ys; [reflexivity|]. destruct lam; [reflexivity|]. cbn. rewrite H. reflexivity. Qed.

(** If [F] is the y-th integrand between consecutive boundaries, its integral is the sum over the cells. *)
Lemma cells_chain (E : R -> R -> R) (F : R -> R) (K : R -> R -> R -> R) :
  (forall y a b, is_RInt (E y) a b (K y a b)) ->
  forall ts ys a b, length ys = S (length ts) ->
  (forall i, (i <= length ts)%nat -> nth i (a :: ts ++ [b]) 0 <= nth (S i) (a :: ts ++ [b]) 0) ->
  (forall i x, (i <= length ts)%nat -> nth i (a :: ts ++ [b]) 0 < x < nth (S i) (a :: ts ++ [b]) 0 -> F x = E (nth i ys 0) x) ->
  is_RInt F a b (cell_sum K ys (a :: ts ++ [b])).
Proof.
  intros HK. induction ts as [|t ts IH]; intros ys a b Hl Ho HF.
  - destruct ys as [|y [|]]; [discriminate| |discriminate]. cbn [app cell_sum].
    specialize (Ho 0%nat (le_n _)). cbn in Ho.
    rewrite Rplus_0_r. eapply RI_ext; [|apply HK]. intros x Hx.
    rewrite Rmin_left, Rmax_right in Hx by lra. symmetry. apply (HF 0%nat x (le_n _)). exact Hx.
  - destruct ys as [|y ys]; [discriminate|]. cbn [app cell_sum].
    change (is_RInt F a b (K y a t + cell_sum K ys (t :: ts ++ [b]))).
    apply RI_chasles with t.
    + eapply RI_ext; [|apply HK]. intros x Hx. pose proof (Ho 0%nat ltac:(cbn; lia)) as O0. cbn in O0.
      rewrite Rmin_left, Rmax_right in Hx by lra. symmetry. apply (HF 0%nat x ltac:(cbn; lia)). exact Hx.
    + apply IH; [cbn in Hl; lia| |].
      * intros i Hi. apply (Ho (S i)). cbn. lia.
      * intros i x Hi Hx. apply (HF (S i) x ltac:(cbn; lia)). exact Hx.
Qed.

(** Quantization on a cell. *)
Lemma filter_cell (t : list R) (x : R) (i : nat) : (i <= length t)%nat ->
  (forall j, (j < i)%nat -> nth j t 0 <= x) -> (forall j, (i <= j < length t)%nat -> x < nth j t 0) ->
  length (filter (fun u => Rleb u x) t) = i.
Proof.
  revert i. induction t as [|u t IH]; intros i Hi H1 H2; [cbn in *; lia|].
  cbn [filter]. unfold Rleb at 1. destruct (Rle_dec u x) as [L|L].
  - destruct i as [|i]; [specialize (H2 0%nat ltac:(cbn; lia)); cbn in H2; lra|].
    cbn [length]. rewrite (IH i); [reflexivity|cbn in Hi; lia| |].
    + intros j Hj. apply (H1 (S j)). lia.
    + intros j Hj. apply (H2 (S j)). cbn. lia.
  - destruct i as [|i]; [|specialize (H1 0%nat ltac:(lia)); cbn in H1; lra].
    apply IH; [lia|intros; lia|]. intros j Hj. apply (H2 (S j)). cbn. lia.
Qed.
(** The thresholds are in increasing order. *)
Definition increasing (t : list R) : Prop := forall i j, (i < j < length t)%nat -> nth i t 0 <= nth j t 0.
Lemma nth_ends (a b : R) (t : list R) (i : nat) : (i <= length t)%nat ->
  nth (S i) (a :: t ++ [b]) 0 = if (i <? length t)%nat then nth i t 0 else b.
Proof.
  intros Hi. cbn [nth]. destruct (Nat.ltb_spec i (length t)).
  - apply app_nth1. assumption.
  - rewrite app_nth2 by lia. replace (i - length t)%nat with 0%nat by lia. reflexivity.
Qed.
Lemma quantize_cell (q : quantizer) (a b x : R) (i : nat) : increasing (thresholds q) ->
  (i <= length (thresholds q))%nat ->
  nth i (a :: thresholds q ++ [b]) 0 < x < nth (S i) (a :: thresholds q ++ [b]) 0 ->
  quantize q x = nth i (levels q) 0.
Proof.
  intros S Hi [H1 H2]. unfold quantize, digitize. f_equal. apply filter_cell; [exact Hi| |].
  - intros j Hj. destruct i as [|i]; [lia|]. rewrite nth_ends in H1 by lia.
    destruct (Nat.ltb_spec i (length (thresholds q))); [|lia].
    destruct (Nat.eq_dec j i) as [->|N]; [lra|]. pose proof (S j i ltac:(lia)). lra.
  - intros j Hj. rewrite nth_ends in H2 by lia.
    destruct (Nat.ltb_spec i (length (thresholds q))); [|lia].
    destruct (Nat.eq_dec j i) as [->|N]; [lra|]. pose proof (S i j ltac:(lia)). lra.
Qed.

Section PDF.
Variables (pdf g : R -> R) (xmin xmax : R).
Hypothesis Hx : xmin <= xmax.
Hypothesis Hg : forall x : R, continuous g x.
Hypothesis Hin : forall x, xmin <= x <= xmax -> pdf x = g x.
Hypothesis Hout : forall x, x < xmin \/ xmax < x -> pdf x = 0.

Let E (y u : R) : R := (y - u) ^ 2 * pdf u.
Lemma E_zero (y a b : R) : (a <= xmin /\ b <= xmin) \/ (xmax <= a /\ xmax <= b) -> is_RInt (E y) a b 0.
Proof.
  intros H. replace 0 with ((b - a) * 0) by ring.
  eapply RI_ext; [|apply (is_RInt_const (V := R_NormedModule) a b 0)].
  intros x Hxx. unfold E. rewrite Hout; [ring|].
  destruct H as [[H1 H2]|[H1 H2]]; [left; pose proof (Rmax_lub a b xmin H1 H2); lra|right; pose proof (Rmin_glb a b xmax H1 H2); lra].
Qed.
Lemma E_mid (y a b : R) : xmin <= a <= xmax -> xmin <= b <= xmax -> ex_RInt (E y) a b.
Proof.
  intros H1 H2. apply (ex_RInt_ext (V := R_NormedModule) (fun u => (y - u) ^ 2 * g u)).
  - intros x Hxx. unfold E. rewrite Hin; [reflexivity|].
    pose proof (Rmin_glb a b xmin ltac:(lra) ltac:(lra)). pose proof (Rmax_lub a b xmax ltac:(lra) ltac:(lra)). lra.
  - apply (ex_RInt_continuous (V := R_CompleteNormedModule)). intros z _.
    apply (continuous_mult (fun u : R => (y - u) ^ 2) g); [|apply Hg].
    apply (ex_derive_continuous (fun u : R => (y - u) ^ 2)). auto_derive. exact I.
Qed.
Lemma E_from (y b : R) : ex_RInt (E y) xmin b.
Proof.
  destruct (Rle_dec b xmin) as [H|H]; [exists 0; apply E_zero; lra|].
  destruct (Rle_dec b xmax) as [H'|H']; [apply E_mid; lra|].
  apply (ex_RInt_Chasles (V := R_NormedModule)) with xmax; [apply E_mid; lra|exists 0; apply E_zero; lra].
Qed.
Lemma E_ex (y a b : R) : ex_RInt (E y) a b.
Proof.
  apply (ex_RInt_Chasles (V := R_NormedModule)) with xmin; [|apply E_from].
  apply (ex_RInt_swap (V := R_NormedModule)), E_from.
Qed.
Let K (y a b : R) : R := RInt (V := R_CompleteNormedModule) (E y) a b.
Lemma K_is (y a b : R) : is_RInt (E y) a b (K y a b).
Proof. apply (RInt_correct (V := R_CompleteNormedModule)), E_ex. Qed.
Lemma K_left (y a b : R) : a <= xmin -> K y xmin b = K y a b.
Proof.
  intros H. apply (RI_unique (E y) a b); [|apply K_is].
  rewrite <- (Rplus_0_l (K y xmin b)). apply RI_chasles with xmin; [apply E_zero; lra|apply K_is].
Qed.
Lemma K_right (y a b : R) : xmax <= b -> K y a xmax = K y a b.
Proof.
  intros H. apply (RI_unique (E y) a b); [|apply K_is].
  rewrite <- (Rplus_0_r (K y a xmax)). apply RI_chasles with xmax; [apply K_is|apply E_zero; lra].
Qed.

Lemma list_bound (t : list R) : exists B, 0 <= B /\ forall u, In u t -> - B <= u <= B.
Proof.
  induction t as [|u t (B & B0 & HB)]; [exists 0; split; [lra|intros u []]|].
  exists (Rmax B (Rabs u)). pose proof (Rmax_l B (Rabs u)). pose proof (Rmax_r B (Rabs u)). split; [lra|].
  intros v [->|Hv]; [|specialize (HB v Hv); lra].
  pose proof (Rle_abs v). pose proof (Rle_abs (- v)) as G. rewrite Rabs_Ropp in G. lra.
Qed.

Lemma mse_true (q : quantizer) : length (levels q) = S (length (thresholds q)) -> increasing (thresholds q) ->
  integral (fun x => (quantize q x - x) ^ 2 * pdf x) (cell_sum K (levels q) (xmin :: thresholds q ++ [xmax])).
Proof.
  intros Hl Hs. destruct (list_bound (xmin :: xmax :: thresholds q)) as (B & B0 & HB).
  rewrite (cell_sum_left K xmin (- B) (levels q) (thresholds q ++ [xmax])).
  2: { intros y b. apply K_left. apply HB. left. reflexivity. }
  rewrite (cell_sum_right K xmax B).
  2: { intros y b. apply K_right. apply HB. right. left. reflexivity. }
  pose proof (HB xmin ltac:(left; reflexivity)) as Bmin. pose proof (HB xmax ltac:(right; left; reflexivity)) as Bmax.
  apply integral_compact with (- B) B; [lra| |].
  - intros x Hxx. rewrite Hout by lra. ring.
  - apply (cells_chain E _ K K_is (thresholds q) (levels q)); [exact Hl| |].
    + intros i Hi. rewrite nth_ends by exact Hi. destruct (Nat.ltb_spec i (length (thresholds q))) as [L|L].
      * destruct i as [|i].
        { cbn. apply HB. right; right. apply nth_In. exact L. }
        { rewrite nth_ends by lia. destruct (Nat.ltb_spec i (length (thresholds q))); [|lia].
          apply Hs. lia. }
      * destruct i as [|i]; [cbn; lra|]. rewrite nth_ends by lia.
        destruct (Nat.ltb_spec i (length (thresholds q))); [|lia]. apply HB. right; right. apply nth_In. assumption.
    + intros i x Hi Hxx. rewrite (quantize_cell q (- B) B x i Hs Hi Hxx). reflexivity.
Qed.
Lemma mse_lim (q : quantizer) :
  is_lim_seq (fun n => mean_squared_error q pdf xmin xmax n) (cell_sum K (levels q) (xmin :: thresholds q ++ [xmax])).
Proof.
  apply is_lim_seq_incr_1.
  eapply is_lim_seq_ext; [intros n; symmetry; apply mse_cells|].
  apply (cell_sum_lim (fun n y a b => trap (fun u => (y - u) ^ 2 * pdf u) a b n) K).
  intros y a b. apply trap_lim. apply K_is.
Qed.
End PDF.

(** ** The trapezoid rule for Lipschitz functions *)
Lemma cell_lip (f : R -> R) (c d K J : R) : c <= d ->
  (forall u v, c <= u <= d -> c <= v <= d -> Rabs (f u - f v) <= K * Rabs (u - v)) ->
  is_RInt f c d J -> Rabs ((d - c) * (f c + f d) / 2 - J) <= K * (d - c) ^ 2 / 2.
Proof.
  intros Hcd HL HJ. set (A := (f c + f d) / 2).
  assert (B : forall x, c < x < d -> A - K * (d - c) / 2 <= f x <= A + K * (d - c) / 2).
  { intros x Hxx.
    pose proof (HL x c ltac:(lra) ltac:(lra)) as H1. pose proof (HL x d ltac:(lra) ltac:(lra)) as H2.
    rewrite (Rabs_right (x - c)) in H1 by lra. rewrite (Rabs_left1 (x - d)) in H2 by lra.
    apply Rabs_le_between in H1, H2. unfold A. lra. }
  assert (Cst : forall v : R, is_RInt (fun _ => v) c d ((d - c) * v)) by (intros v; apply (is_RInt_const (V := R_NormedModule))).
  pose proof (is_RInt_le _ f c d _ _ Hcd (Cst (A - K * (d - c) / 2)) HJ ltac:(intros x Hxx; apply B; exact Hxx)) as L1.
  pose proof (is_RInt_le f _ c d _ _ Hcd HJ (Cst (A + K * (d - c) / 2)) ltac:(intros x Hxx; apply B; exact Hxx)) as L2.
  apply Rabs_le_between. unfold A in *. nra.
Qed.
Lemma gsum_lip (f : R -> R) (a b K h : R) : 0 <= h ->
  (forall u v, a <= u <= b -> a <= v <= b -> Rabs (f u - f v) <= K * Rabs (u - v)) ->
  forall m s (J : R), a <= pt a h s -> pt a h (s + m) <= b -> is_RInt f (pt a h s) (pt a h (s + m)) J ->
  Rabs (gsum (fun k => h * (f (pt a h k) + f (pt a h (S k))) / 2) s m - J) <= INR m * (K * h ^ 2 / 2).
Proof.
  intros Hh HL. induction m as [|m IH]; intros s J Ha Hb HJ.
  - rewrite Nat.add_0_r in HJ. rewrite (RI_unique _ _ _ _ _ HJ (is_RInt_point (V := R_NormedModule) f _)).
    cbn. change (Rabs (0 - 0) <= 0 * (K * (h * (h * 1)) / 2)). rewrite Rminus_0_r, Rabs_R0. lra.
  - replace (s + S m)%nat with (S s + m)%nat in * by lia.
    assert (PM : forall k j, pt a h k <= pt a h (k + j)).
    { intros k j. unfold pt. rewrite plus_INR. pose proof (pos_INR j). nra. }
    pose proof (PM s 1%nat) as P1. rewrite Nat.add_1_r in P1. pose proof (PM (S s) m) as P2.
    assert (X : ex_RInt f (pt a h s) (pt a h (S s + m))) by (exists J; exact HJ).
    pose proof (ex_RInt_Chasles_1 (V := R_CompleteNormedModule) f _ (pt a h (S s)) _ (conj P1 P2) X) as X1.
    pose proof (ex_RInt_Chasles_2 (V := R_CompleteNormedModule) f _ (pt a h (S s)) _ (conj P1 P2) X) as X2.
    destruct X1 as [J1 HJ1]. destruct X2 as [J2 HJ2].
    pose proof (RI_unique _ _ _ _ _ HJ (RI_chasles f _ (pt a h (S s)) _ J1 J2 HJ1 HJ2)) as EJ. subst J.
    specialize (IH (S s) J2 ltac:(lra) Hb HJ2).
    pose proof (cell_lip f _ _ K J1 P1 ltac:(intros u v Hu Hv; apply HL; lra) HJ1) as C.
    replace (pt a h (S s) - pt a h s) with h in C by (rewrite pt_S; ring).
    rewrite S_INR. cbn [gsum].
    match goal with |- Rabs (?p + ?r - (J1 + J2)) <= _ => replace (p + r - (J1 + J2)) with ((p - J1) + (r - J2)) by ring end.
    eapply Rle_trans; [apply Rabs_triang|]. lra.
Qed.
Lemma trap_lip (f : R -> R) (a b K J : R) (m : nat) : a <= b -> (0 < m)%nat ->
  (forall u v, a <= u <= b -> a <= v <= b -> Rabs (f u - f v) <= K * Rabs (u - v)) ->
  is_RInt f a b J -> Rabs (trap f a b m - J) <= K * (b - a) ^ 2 / (2 * INR m).
Proof.
  intros Hab Hm HL HJ.
  assert (N : 0 < INR m) by (apply lt_0_INR; exact Hm).
  assert (Hh : 0 <= (b - a) / INR m) by (apply Rdiv_le_0_compat; lra).
  assert (E0 : pt a ((b - a) / INR m) 0 = a) by (unfold pt; cbn; ring).
  assert (Em : pt a ((b - a) / INR m) m = b) by (unfold pt; field; lra).
  pose proof (gsum_lip f a b K _ Hh HL m 0%nat J) as G. cbn [Nat.add] in G. rewrite E0, Em in G.
  specialize (G ltac:(lra) ltac:(lra) HJ).
  eapply Rle_trans; [exact G|]. right. field. lra.
Qed.

(** ** Sums over cells: bounds and constant cells *)
Lemma cell_sum_dist (J K : R -> R -> R -> R) (c : R) : 0 <= c ->
  forall ts ys a b, length ys = S (length ts) ->
  (forall i, (i <= length ts)%nat -> nth i (a :: ts ++ [b]) 0 <= nth (S i) (a :: ts ++ [b]) 0) ->
  (forall i, (i <= length ts)%nat ->
     Rabs (J (nth i ys 0) (nth i (a :: ts ++ [b]) 0) (nth (S i) (a :: ts ++ [b]) 0)
         - K (nth i ys 0) (nth i (a :: ts ++ [b]) 0) (nth (S i) (a :: ts ++ [b]) 0))
     <= c * (nth (S i) (a :: ts ++ [b]) 0 - nth i (a :: ts ++ [b]) 0) ^ 2) ->
  a <= b /\ Rabs (cell_sum J ys (a :: ts ++ [b]) - cell_sum K ys (a :: ts ++ [b])) <= c * (b - a) ^ 2.
Proof.
  intros Hc. induction ts as [|t ts IH]; intros ys a b Hl Ho HB.
  - destruct ys as [|y [|]]; [discriminate| |discriminate]. cbn [app cell_sum].
    specialize (Ho 0%nat (le_n _)). specialize (HB 0%nat (le_n _)). cbn [nth app] in *. split; [exact Ho|].
    rewrite !Rplus_0_r. exact HB.
  - destruct ys as [|y ys]; [discriminate|]. cbn [length] in *.
    change (cell_sum J (y :: ys) (a :: (t :: ts) ++ [b])) with (J y a t + cell_sum J ys (t :: ts ++ [b])).
    change (cell_sum K (y :: ys) (a :: (t :: ts) ++ [b])) with (K y a t + cell_sum K ys (t :: ts ++ [b])).
    pose proof (Ho 0%nat ltac:(lia)) as O0. pose proof (HB 0%nat ltac:(lia)) as B0. cbn [nth app] in O0, B0.
    destruct (IH ys t b ltac:(lia)) as [L1 L2].
    + intros i Hi. apply (Ho (S i)). lia.
    + intros i Hi. apply (HB (S i)). lia.
    + split; [lra|].
      match goal with |- Rabs (?p + ?r - (?p' + ?r')) <= _ => replace (p + r - (p' + r')) with ((p - p') + (r - r')) by ring end.
      eapply Rle_trans; [apply Rabs_triang|]. 
      apply Rle_trans with (c * ((t - a) ^ 2 + (b - t) ^ 2)); [lra|]. apply Rmult_le_compat_l; [exact Hc|]. nra.
Qed.
Lemma cell_sum_const (J : R -> R -> R -> R) (v : R) : forall ys lam, length lam = S (length ys) ->
  (forall i, (i < length ys)%nat -> J (nth i ys 0) (nth i lam 0) (nth (S i) lam 0) = v) ->
  cell_sum J ys lam = INR (length ys) * v.
Proof.
  induction ys as [|y ys IH]; intros lam Hl H; [cbn; ring|].
  destruct lam as [|a [|b lam]]; [discriminate|discriminate|].
  change (cell_sum J (y :: ys) (a :: b :: lam)) with (J y a b + cell_sum J ys (b :: lam)).
  rewrite IH; [|cbn in *; lia|intros i Hi; apply (H (S i)); cbn; lia].
  pose proof (H 0%nat ltac:(cbn; lia)) as H0. cbn [nth] in H0. rewrite H0. cbn [length]. rewrite S_INR. ring.
Qed.
Lemma square_sum (d h : R) (m : nat) :
  gsum (fun k => ((- d / 2 + INR k * h) ^ 2 + (- d / 2 + INR (S k) * h) ^ 2) / 2) 0 m =
  INR m * (d ^ 2 / 4) - d * h * INR m ^ 2 / 2 + h ^ 2 * (INR m * (2 * INR m ^ 2 + 1) / 6).
Proof.
  induction m as [|m IH]; [cbn; field|]. rewrite gsum_snoc, IH. cbn [Nat.add]. rewrite !S_INR. field.
Qed.
Lemma trap_square (y d c : R) (pdf : R -> R) (m : nat) : (0 < m)%nat -> 0 <= d ->
  (forall u, y - d / 2 <= u <= y + d / 2 -> pdf u = c) ->
  trap (fun u => (y - u) ^ 2 * pdf u) (y - d / 2) (y + d / 2) m = c * (d ^ 3 / 12 * (1 + 2 / INR m ^ 2)).
Proof.
  intros Hm Hd Hp. unfold trap. assert (N : 0 < INR m) by (apply lt_0_INR; exact Hm).
  replace (y + d / 2 - (y - d / 2)) with d by field.
  set (h := d / INR m).
  assert (Hh : 0 <= h) by (apply Rdiv_le_0_compat; lra).
  assert (E : INR m * h = d) by (unfold h; field; lra).
  assert (P : forall k, (k <= m)%nat -> pdf (pt (y - d / 2) h k) = c).
  { intros k Hk. apply Hp. unfold pt. apply le_INR in Hk. pose proof (pos_INR k). nra. }
  rewrite (gsum_ext _ (fun k => (h * c) * (((- d / 2 + INR k * h) ^ 2 + (- d / 2 + INR (S k) * h) ^ 2) / 2))).
  2: { intros k Hk. rewrite !P by lia. unfold pt. field. }
  rewrite gsum_scal, square_sum. unfold h. field. lra.
Qed.
