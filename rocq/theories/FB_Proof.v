From Coq Require Import Reals Lra.
From Verif Require Import Common LinAlg_Model FSM_Model FSM_Spec FB_Model FB_Spec.
From Verif Require FSM_Proof.
Local Open Scope R_scope.
Local Notation "a <n b" := (lt a b) (at level 70).

(* ---- sums ---- *)
Lemma Rsum_cons a l : Rsum (a :: l) = a + Rsum l.
Proof. reflexivity. Qed.
Lemma Rsum_nil : Rsum [] = 0.
Proof. reflexivity. Qed.
Ltac rs := cbn [map app flat_map]; rewrite ?Rsum_cons, ?Rsum_nil.
Lemma Rsum_app l l' : Rsum (l ++ l') = Rsum l + Rsum l'.
Proof. induction l; rs; [lra|]. rewrite IHl. lra. Qed.
Lemma Rsum_ext {A} (f g : A -> R) l : (forall x, In x l -> f x = g x) -> Rsum (map f l) = Rsum (map g l).
Proof. intros H. f_equal. apply map_ext_in. auto. Qed.
Lemma Rsum_scal {A} c (f : A -> R) l : Rsum (map (fun x => c * f x) l) = c * Rsum (map f l).
Proof. induction l; rs; [lra|]. rewrite IHl. lra. Qed.
Lemma Rsum_scal_r {A} c (f : A -> R) l : Rsum (map (fun x => f x * c) l) = Rsum (map f l) * c.
Proof. rewrite Rmult_comm, <- Rsum_scal. apply Rsum_ext. intros; lra. Qed.
Lemma Rsum_plus {A} (f g : A -> R) l : Rsum (map (fun x => f x + g x) l) = Rsum (map f l) + Rsum (map g l).
Proof. induction l; rs; [lra|]. rewrite IHl. lra. Qed.
Lemma Rsum_zero {A} (l : list A) : Rsum (map (fun _ => 0) l) = 0.
Proof. induction l; rs; [lra|]. rewrite IHl. lra. Qed.
Lemma Rsum_swap {A B} (f : A -> B -> R) l l' :
  Rsum (map (fun a => Rsum (map (f a) l')) l) = Rsum (map (fun b => Rsum (map (fun a => f a b) l)) l').
Proof.
  induction l as [|a l IH]; rs.
  - symmetry. apply Rsum_zero.
  - rewrite IH, <- Rsum_plus. apply Rsum_ext. intros; reflexivity.
Qed.
Lemma Rsum_flat_map {A} (h : A -> list R) l : Rsum (flat_map h l) = Rsum (map (fun a => Rsum (h a)) l).
Proof. induction l as [|a l IH]; cbn [flat_map map]; auto. rewrite Rsum_app, IH. reflexivity. Qed.
Lemma Rsum_nonneg l : (forall x, In x l -> 0 <= x) -> 0 <= Rsum l.
Proof. induction l as [|a l IH]; rs; intros H; [lra|]. assert (0 <= a) by (apply H; left; auto). assert (0 <= Rsum l) by (apply IH; intros; apply H; right; auto). lra. Qed.

Lemma Rsum_indicator (f : nat -> R) x0 l : NoDup l -> In x0 l -> Rsum (map (fun x => if Nat.eqb x x0 then f x else 0) l) = f x0.
Proof.
  induction l as [|a l IH]; intros ND I; [destruct I|]. inversion ND; subst. rs.
  destruct (Nat.eqb_spec a x0).
  - subst. replace (Rsum _) with 0; [lra|]. symmetry. rewrite (Rsum_ext _ (fun _ => 0)); [apply Rsum_zero|].
    intros x Hx. destruct (Nat.eqb_spec x x0); auto. subst. contradiction.
  - destruct I as [I|I]; [congruence|]. rewrite IH by auto. lra.
Qed.

(* ---- log domain ---- *)
Lemma xexp_plus a b : xexp (xplus a b) = xexp a * xexp b.
Proof. destruct a, b; cbn; try lra. apply exp_plus. Qed.
Lemma xexp_logaddexp a b : xexp (logaddexp a b) = xexp a + xexp b.
Proof. destruct a as [x|], b as [y|]; cbn; try lra. apply exp_ln. pose proof (exp_pos x). pose proof (exp_pos y). lra. Qed.
Lemma xexp_logsumexp l : xexp (logsumexp l) = Rsum (map xexp l).
Proof.
  unfold logsumexp. replace (Rsum (map xexp l)) with (xexp None + Rsum (map xexp l)) by (cbn; lra).
  generalize (@None R). induction l as [|a l IH]; intros o; cbn [fold_left]; rs; [lra|].
  rewrite IH, xexp_logaddexp. lra.
Qed.
Lemma xexp_xlog p : 0 <= p -> xexp (xlog p) = p.
Proof. intros H. unfold xlog. destruct (Rlt_dec 0 p); cbn; [apply exp_ln; auto|lra]. Qed.
Lemma xexp_nonneg a : 0 <= xexp a.
Proof. destruct a; cbn; [left; apply exp_pos|lra]. Qed.

Lemma xmax_none l a : fold_left xmax l a = None -> a = None /\ forall b, In b l -> b = None.
Proof.
  revert a; induction l as [|b l IH]; intros a; cbn [fold_left]; [intros ->; split; auto; intros ? []|].
  intros H. apply IH in H as [H1 H2]. destruct a, b; cbn in H1; try discriminate. split; auto. intros c [<-|]; auto.
Qed.

Section FB.
Context {Z : Type} (M : mealy) (metric : nat -> Z -> option R) (OK : mealy_ok M) (NP : no_parallel_edges M).
Local Notation n := (num_states M).
Local Notation k := (num_input_symbols M).
Definition gam (st : Z * list R) s x : R := nth x (snd st) 0 * xexp (metric (fsm_out M s x) (fst st)).
Definition priors_ok (st : Z * list R) : Prop := forall x, x <n k -> 0 <= nth x (snd st) 0.
Definition Sn (f : nat -> R) : R := Rsum (map f (seq 0 n)).
Definition Sk (f : nat -> R) : R := Rsum (map f (seq 0 k)).

Lemma gamma_edge st s x : priors_ok st -> s <n n -> x <n k ->
  xexp (nth (fsm_next M s x) (nth s (log_gamma M metric st) []) None) = gam st s x.
Proof.
  intros P Hs Hx. unfold log_gamma.
  destruct (FSM_Proof.edge_table_spec M None (fun s0 x => xplus (xlog (nth x (snd st) 0)) (metric (fsm_out M s0 x) (fst st))) s (fsm_next M s x) OK Hs) as [(x' & Hx' & E & ->)|[N _]].
  - destruct OK as (_ & _ & _ & N). auto.
  - assert (x' = x) by (apply (NP s); auto). subst x'. rewrite xexp_plus, xexp_xlog by auto. reflexivity.
  - exfalso. apply (N x Hx eq_refl).
Qed.
Lemma gamma_no_edge st s s1 : s <n n -> s1 <n n -> (forall x, x <n k -> fsm_next M s x <> s1) ->
  nth s1 (nth s (log_gamma M metric st) []) None = None.
Proof.
  intros Hs H1 H. unfold log_gamma.
  destruct (FSM_Proof.edge_table_spec M None (fun s0 x => xplus (xlog (nth x (snd st) 0)) (metric (fsm_out M s0 x) (fst st))) s s1 OK Hs H1) as [(x' & Hx' & E & _)|[_ E]]; auto.
  exfalso. apply (H x' Hx' E).
Qed.

Lemma gamma_sum st s (G : nat -> R) : priors_ok st -> s <n n ->
  Sn (fun s1 => xexp (nth s1 (nth s (log_gamma M metric st) []) None) * G s1) = Sk (fun x => gam st s x * G (fsm_next M s x)).
Proof.
  intros P Hs. unfold Sn, Sk.
  transitivity (Rsum (map (fun s1 => Rsum (map (fun x => if Nat.eqb s1 (fsm_next M s x) then gam st s x * G s1 else 0) (seq 0 k))) (seq 0 n))).
  - apply Rsum_ext. intros s1 I. apply in_seq in I.
    destruct (in_dec Nat.eq_dec s1 (map (fsm_next M s) (seq 0 k))) as [Y|N].
    + apply in_map_iff in Y as (x0 & E & I0). apply in_seq in I0. rewrite <- E, gamma_edge by (auto; lia).
      rewrite (Rsum_ext _ (fun x => if Nat.eqb x x0 then gam st s x * G (fsm_next M s x) else 0)).
      * rewrite (Rsum_indicator (fun x => gam st s x * G (fsm_next M s x))); auto; [apply seq_NoDup|apply in_seq; lia].
      * intros x Ix. apply in_seq in Ix. destruct (Nat.eqb_spec (fsm_next M s x0) (fsm_next M s x)) as [E'|E'].
        -- rewrite E'. assert (x = x0) by (apply (NP s); auto; lia). subst. rewrite Nat.eqb_refl. reflexivity.
        -- destruct (Nat.eqb_spec x x0); [subst; congruence|reflexivity].
    + rewrite gamma_no_edge; [|auto|lia|].
      * cbn. rewrite (Rsum_ext _ (fun _ => 0)); [rewrite Rsum_zero; lra|].
        intros x Ix. destruct (Nat.eqb_spec s1 (fsm_next M s x)); auto. exfalso. apply N. subst. apply in_map, Ix.
      * intros x Hx E. apply N. rewrite <- E. apply in_map, in_seq. lia.
  - rewrite (Rsum_swap (fun s1 x => if Nat.eqb s1 (fsm_next M s x) then gam st s x * G s1 else 0)).
    apply Rsum_ext. intros x Ix. apply in_seq in Ix. apply (Rsum_indicator (fun s1 => gam st s x * G s1)); [apply seq_NoDup|].
    apply in_seq. destruct OK as (_ & _ & _ & N). specialize (N s x Hs ltac:(lia)). lia.
Qed.

(* ---- suffixes ---- *)
Section Suffix.
Context (final : list R).
Definition tail_weight (steps : list (Z * list R)) s : R :=
  Rsum (map (run_weight M metric final steps s) (input_words k (length steps))).

Lemma tail_weight_cons st steps s : tail_weight (st :: steps) s = Sk (fun x => gam st s x * tail_weight steps (fsm_next M s x)).
Proof.
  unfold tail_weight, Sk. cbn [length input_words].
  transitivity (Rsum (flat_map (fun x => map (fun xs => gam st s x * run_weight M metric final steps (fsm_next M s x) xs) (input_words k (length steps))) (seq 0 k))).
  - f_equal. rewrite !flat_map_concat_map, concat_map, map_map. f_equal. apply map_ext. intros x. rewrite map_map. apply map_ext. intros xs. reflexivity.
  - rewrite Rsum_flat_map. apply Rsum_ext. intros x _. apply Rsum_scal.
Qed.

Definition beta_of (steps : list (Z * list R)) : list (option R) :=
  fold_right (fun st b => beta_step M (log_gamma M metric st) b) (map xlog final) steps.

Lemma beta_spec steps : (forall s, s <n n -> 0 <= nth s final 0) -> length final = n -> Forall priors_ok steps -> forall s, s <n n -> xexp (nth s (beta_of steps) None) = tail_weight steps s.
Proof.
  intros NF LF. induction steps as [|st steps IH]; intros P s Hs.
  - cbn [beta_of fold_right]. unfold tail_weight. cbn [length input_words map run_weight]. rs.
    rewrite (nth_indep _ None (xlog 0)) by (rewrite map_length; lia). rewrite map_nth, xexp_xlog by auto. lra.
  - inversion P; subst. cbn [beta_of fold_right]. fold (beta_of steps). unfold beta_step. rewrite nth_map_seq by auto.
    rewrite xexp_logsumexp, map_map, tail_weight_cons, <- gamma_sum by auto. unfold Sn. apply Rsum_ext. intros s1 I. apply in_seq in I.
    rewrite xexp_plus, IH by (auto; lia). reflexivity.
Qed.

Lemma log_betas_cons st steps : log_betas M (map (log_gamma M metric) (st :: steps)) (map xlog final) =
  beta_of steps :: log_betas M (map (log_gamma M metric) steps) (map xlog final).
Proof.
  revert st; induction steps as [|st' steps IH]; intros st; [reflexivity|].
  change (log_betas M (map (log_gamma M metric) (st :: st' :: steps)) (map xlog final)) with
    (let bs := log_betas M (map (log_gamma M metric) (st' :: steps)) (map xlog final) in beta_step M (log_gamma M metric st') (hd [] bs) :: bs).
  cbv zeta. rewrite (IH st') at 1. cbn [hd]. reflexivity.
Qed.

(* weight of all runs from the weights [a] whose symbol at time t satisfies P *)
Definition weighted (a : nat -> R) (steps : list (Z * list R)) (cond : list nat -> bool) : R :=
  Sn (fun s => a s * Rsum (map (run_weight M metric final steps s) (filter cond (input_words k (length steps))))).

Lemma filter_flat_map {A B} (p : B -> bool) (h : A -> list B) l : filter p (flat_map h l) = flat_map (fun a => filter p (h a)) l.
Proof. induction l; cbn [flat_map]; auto. rewrite filter_app, IHl. reflexivity. Qed.
Lemma filter_map {A B} (p : B -> bool) (h : A -> B) l : filter p (map h l) = map h (filter (fun a => p (h a)) l).
Proof. induction l; cbn [map filter]; auto. destruct (p (h a)); cbn [map]; congruence. Qed.

Lemma word_sum_cons st steps s cond :
  Rsum (map (run_weight M metric final (st :: steps) s) (filter cond (input_words k (S (length steps))))) =
  Sk (fun x => gam st s x * Rsum (map (run_weight M metric final steps (fsm_next M s x)) (filter (fun xs => cond (x :: xs)) (input_words k (length steps))))).
Proof.
  cbn [input_words]. rewrite filter_flat_map. unfold Sk.
  transitivity (Rsum (flat_map (fun x => map (fun xs => gam st s x * run_weight M metric final steps (fsm_next M s x) xs) (filter (fun xs => cond (x :: xs)) (input_words k (length steps)))) (seq 0 k))).
  - f_equal. rewrite !flat_map_concat_map, concat_map, map_map. f_equal. apply map_ext. intros x. rewrite filter_map, map_map. apply map_ext. intros xs. reflexivity.
  - rewrite Rsum_flat_map. apply Rsum_ext. intros x _. apply Rsum_scal.
Qed.

Lemma weighted_split (P : nat -> bool) pre st post : Forall priors_ok (pre ++ st :: post) -> forall alpha,
  weighted (fun s => xexp (nth s alpha None)) (pre ++ st :: post) (fun xs => P (nth (length pre) xs 0%nat)) =
  Sn (fun s => xexp (nth s (fold_left (fun a st' => alpha_step M (log_gamma M metric st') a) pre alpha) None) *
     Sk (fun x => if P x then gam st s x * tail_weight post (fsm_next M s x) else 0)).
Proof.
  induction pre as [|st' pre IH]; intros PO alpha; cbn [app fold_left length] in *.
  - unfold weighted. unfold Sn. apply Rsum_ext. intros s I. f_equal. cbn [length]. rewrite word_sum_cons. unfold Sk. apply Rsum_ext. intros x _. cbn [nth].
    destruct (P x).
    + f_equal. unfold tail_weight. f_equal. f_equal. clear. induction (input_words k (length post)); cbn; congruence.
    + replace (filter _ _) with (@nil (list nat)); [cbn; lra|]. clear. induction (input_words k (length post)); cbn; auto.
  - inversion PO; subst. rewrite <- IH by auto. unfold weighted at 1. unfold Sn at 1.
    rewrite (Rsum_ext _ (fun s => xexp (nth s alpha None) * Sn (fun s1 => xexp (nth s1 (nth s (log_gamma M metric st') []) None) *
       Rsum (map (run_weight M metric final (pre ++ st :: post) s1) (filter (fun xs => P (nth (length pre) xs 0%nat)) (input_words k (length (pre ++ st :: post)))))))).
    2:{ intros s I. apply in_seq in I. f_equal. cbn [length]. rewrite word_sum_cons. rewrite gamma_sum by (auto; lia). reflexivity. }
    unfold Sn at 1. 
    rewrite (Rsum_ext _ (fun s => Rsum (map (fun s1 => xexp (nth s alpha None) * (xexp (nth s1 (nth s (log_gamma M metric st') []) None) *
       Rsum (map (run_weight M metric final (pre ++ st :: post) s1) (filter (fun xs => P (nth (length pre) xs 0%nat)) (input_words k (length (pre ++ st :: post))))))) (seq 0 n)))).
    2:{ intros s I. rewrite <- Rsum_scal. reflexivity. }
    rewrite Rsum_swap. unfold weighted, Sn. apply Rsum_ext. intros s1 I. apply in_seq in I.
    unfold alpha_step. rewrite nth_map_seq by lia. rewrite xexp_logsumexp, map_map, <- Rsum_scal_r. apply Rsum_ext. intros s0 _. rewrite xexp_plus. lra.
Qed.
End Suffix.

Lemma log_alphas_nth gs alpha t : t <n length gs -> nth t (log_alphas M gs alpha) [] = fold_left (fun a g => alpha_step M g a) (firstn t gs) alpha.
Proof. revert alpha t; induction gs as [|g gs IH]; intros alpha t H; cbn in H; [lia|]. destruct t; cbn [log_alphas nth firstn fold_left]; auto. apply IH. lia. Qed.
Lemma log_alphas_length gs alpha : length (log_alphas M gs alpha) = length gs.
Proof. revert alpha; induction gs; intros; cbn; auto. Qed.
Lemma log_betas_nth final steps t : t <n length steps -> nth t (log_betas M (map (log_gamma M metric) steps) (map xlog final)) [] = beta_of final (skipn (S t) steps).
Proof.
  revert t; induction steps as [|st steps IH]; intros t H; cbn in H; [lia|]. rewrite log_betas_cons. destruct t; cbn [nth]; auto. rewrite IH by lia. reflexivity.
Qed.
Lemma log_betas_length final steps : length (log_betas M (map (log_gamma M metric) steps) (map xlog final)) = length steps.
Proof. induction steps as [|st steps IH]; auto. rewrite log_betas_cons. cbn. lia. Qed.

Lemma row_spec alpha st post final x : (forall s, s <n n -> 0 <= nth s final 0) -> length final = n -> priors_ok st -> Forall priors_ok post -> x <n k ->
  xexp (nth x (log_posterior_row M alpha (log_gamma M metric st) (beta_of final post)) None) =
  Sn (fun s => xexp (nth s alpha None) * (gam st s x * tail_weight final post (fsm_next M s x))).
Proof.
  intros NF LF P PP Hx. unfold log_posterior_row. rewrite nth_map_seq by auto. cbv zeta. rewrite xexp_logsumexp, map_map. unfold Sn. apply Rsum_ext. intros s I. apply in_seq in I.
  rewrite !xexp_plus, gamma_edge, beta_spec by (auto; try lia; destruct OK as (_ & _ & _ & N); apply N; lia). lra.
Qed.

Lemma normalize_spec row : 0 < Rsum (map xexp row) -> exists e, normalize_row row = Some e /\ length e = length row /\
  forall x, x <n length row -> nth x e 0 = xexp (nth x row None) / Rsum (map xexp row).
Proof.
  intros H. unfold normalize_row. destruct (fold_left xmax row None) as [m|] eqn:E.
  - eexists; split; [reflexivity|]. rewrite !map_length. split; auto. intros x Hx.
    set (v := map (fun a => xexp (xplus a (Some (- m)))) row).
    assert (S : Rsum v = Rsum (map xexp row) * exp (- m)).
    { unfold v. rewrite <- Rsum_scal_r. apply Rsum_ext. intros a _. rewrite xexp_plus. reflexivity. }
    rewrite (nth_indep _ 0 (0 / Rsum v)) by (unfold v; rewrite !map_length; auto). rewrite (map_nth (fun w => w / Rsum v)).
    unfold v at 1. rewrite (nth_indep _ 0 (xexp (xplus None (Some (- m))))) by (rewrite map_length; auto). rewrite (map_nth (fun a => xexp (xplus a (Some (- m))))).
    rewrite xexp_plus, S. cbn [xexp]. pose proof (exp_pos (- m)). field. split; lra.
  - exfalso. apply xmax_none in E as [_ E]. enough (Rsum (map xexp row) = 0) by lra. rewrite (Rsum_ext _ (fun _ => 0)); [apply Rsum_zero|]. intros a I. rewrite (E a I). reflexivity.
Qed.

Theorem forward_backward_spec observed priors initial final :
  length initial = n -> length final = n -> length priors = length observed ->
  (forall s, s <n n -> 0 <= nth s initial 0) -> (forall s, s <n n -> 0 <= nth s final 0) ->
  Forall (fun p => forall x, x <n k -> 0 <= nth x p 0) priors ->
  let steps := combine observed priors in
  let total := total_weight M metric initial final steps in
  0 < total (fun _ => true) ->
  length (forward_backward M metric observed priors initial final) = length observed /\
  forall t, t <n length observed -> exists e,
   nth t (forward_backward M metric observed priors initial final) None = Some e /\ length e = k /\
   forall x, x <n k -> nth x e 0 = total (fun xs => Nat.eqb (nth t xs 0%nat) x) / total (fun _ => true).
Proof.
  intros LI LF LP NI NF PO steps total Pos.
  assert (Ls : length steps = length observed) by (unfold steps; rewrite combine_length; lia).
  assert (POs : Forall priors_ok steps).
  { apply Forall_forall. intros [z p] I. apply in_combine_r in I. rewrite Forall_forall in PO. exact (PO p I). }
  assert (E : forall cond, total cond = weighted final (fun s => xexp (nth s (map xlog initial) None)) steps cond).
  { intros cond. unfold total, total_weight, weighted, Sn. apply Rsum_ext. intros s I. apply in_seq in I. f_equal.
    rewrite (nth_indep _ None (xlog 0)) by (rewrite map_length; lia). rewrite map_nth, xexp_xlog; auto. apply NI. lia. }
  unfold forward_backward. fold steps. set (gs := map (log_gamma M metric) steps).
  set (cmb := combine (log_alphas M gs (map xlog initial)) (combine gs (log_betas M gs (map xlog final)))).
  assert (Lg : length gs = length observed) by (unfold gs; rewrite map_length; lia).
  assert (Lb : length (log_betas M gs (map xlog final)) = length observed) by (unfold gs; rewrite log_betas_length; lia).
  assert (Lc : length cmb = length observed) by (unfold cmb; rewrite !combine_length, log_alphas_length, Lg, Lb; lia).
  split; [rewrite map_length; auto|]. intros t Ht.
  set (F := fun '(a, (g, b)) => normalize_row (log_posterior_row M a g b)).
  rewrite (nth_indep _ None (F ([], ([], [])))) by (rewrite map_length; lia). rewrite (map_nth F).
  unfold cmb. rewrite combine_nth by (rewrite log_alphas_length, combine_length; lia). rewrite combine_nth by lia.
  destruct (nth_error steps t) as [st|] eqn:En; [|apply nth_error_None in En; lia].
  destruct (nth_error_split _ _ En) as (pre & post & Es & Lpre).
  assert (Eg : nth t gs [] = log_gamma M metric st).
  { unfold gs. rewrite Es, map_app. rewrite app_nth2; rewrite map_length; [|lia]. rewrite Lpre, Nat.sub_diag. reflexivity. }
  assert (Ea : nth t (log_alphas M gs (map xlog initial)) [] = fold_left (fun a st' => alpha_step M (log_gamma M metric st') a) pre (map xlog initial)).
  { rewrite log_alphas_nth by lia. unfold gs. rewrite Es, map_app, <- Lpre, <- (map_length (log_gamma M metric) pre), firstn_app_exact.
    generalize (map xlog initial). clear. induction pre; intros; cbn [map fold_left]; auto. }
  assert (Eb : nth t (log_betas M gs (map xlog final)) [] = beta_of final post).
  { unfold gs. rewrite log_betas_nth by lia. f_equal. rewrite Es, <- Lpre. clear. induction pre; auto. }
  rewrite Eg, Ea, Eb. cbn [F].
  rewrite Es in POs. pose proof POs as POs'. apply Forall_app in POs' as [_ POs']. inversion POs'; subst.
  set (alpha := fold_left _ pre _) in *.
  set (row := log_posterior_row M alpha (log_gamma M metric st) (beta_of final post)).
  assert (Lr : length row = k) by (unfold row, log_posterior_row; rewrite map_length, seq_length; auto).
  assert (Rx : forall x, x <n k -> xexp (nth x row None) = total (fun xs => Nat.eqb (nth (length pre) xs 0%nat) x)).
  { intros x Hx. unfold row. rewrite row_spec by auto. rewrite E. rewrite Es. rewrite (weighted_split final (fun y => Nat.eqb y x)) by auto.
    fold alpha. unfold Sn. apply Rsum_ext. intros s _. f_equal. symmetry. unfold Sk.
    apply (Rsum_indicator (fun x => gam st s x * tail_weight final post (fsm_next M s x))); [apply seq_NoDup|apply in_seq; lia]. }
  assert (Sr : Rsum (map xexp row) = total (fun _ => true)).
  { rewrite E, Es. change (fun _ : list nat => true) with (fun xs : list nat => (fun _ : nat => true) (nth (length pre) xs 0%nat)).
    rewrite (weighted_split final (fun _ => true)) by auto. fold alpha.
    transitivity (Sk (fun x => xexp (nth x row None))).
    - unfold Sk. f_equal. rewrite <- Lr. clear. induction row as [|a row IH] using rev_ind; auto.
      rewrite app_length, map_app. cbn [length]. rewrite Nat.add_1_r, seq_S, map_app, IH. cbn [map]. rewrite app_nth2, Nat.sub_diag by lia. f_equal.
      apply map_ext_in. intros x I. apply in_seq in I. rewrite app_nth1 by lia. reflexivity.
    - unfold Sk. rewrite (Rsum_ext _ (fun x => Rsum (map (fun s => xexp (nth s alpha None) * (gam st s x * tail_weight final post (fsm_next M s x))) (seq 0 n)))).
      + rewrite Rsum_swap. unfold Sn. apply Rsum_ext. intros s _. rewrite Rsum_scal. reflexivity.
      + intros x I. apply in_seq in I. unfold row. rewrite row_spec by (auto; lia). reflexivity. }
  rewrite <- Sr in Pos. destruct (normalize_spec row Pos) as (e & -> & Le & Ne). exists e. split; auto. split; [congruence|].
  intros x Hx. rewrite Ne, Rx, Sr by lia. reflexivity.
Qed.
End FB.
