From Coq Require Import Reals Lra.
From Verif Require Import Common Quant_Model Quant_Proof Array_Model NdMaps_Model Info_Model Rng_Model Reconf_Model Reconf_Spec.
Local Open Scope nat_scope.

Lemma crun_state {G} (r : generator G) tol k os : forall p m g,
  exists g', crun r tol os (Chan k p m, g) =
    (Chan k (parameter p os) (match m with Some x => Some x | None => if existsb (fun o => match o with TransitionMatrix => true | _ => false end) os then Some (matrix_body k (parameter_at_first_read p os)) else None end), g').
Proof.
  induction os as [|o os IH]; intros p m g; [exists g; destruct m; reflexivity|]. cbn [crun].
  destruct o as [q| |b pmf|b|a]; cbn [cstep snd ch_kind ch_p ch_matrix parameter parameter_at_first_read existsb orb].
  - apply IH.
  - destruct m as [x|]; cbn [snd]; [destruct (IH p (Some x) g) as [g' ->]; eauto|]. destruct (IH p (Some (matrix_body k p)) g) as [g' ->]; eauto.
  - apply IH.
  - apply IH.
  - destruct (transmit_body k r p a g) as [y g1]. cbn [snd]. apply IH.
Qed.
Lemma never_read p os : existsb (fun o => match o with TransitionMatrix => true | _ => false end) os = false -> parameter_at_first_read p os = parameter p os.
Proof. revert p; induction os as [|o os IH]; intros p H; [reflexivity|]. destruct o; cbn in *; try discriminate; auto. Qed.

Lemma matrix_body_inj k p q : matrix_body k p = matrix_body k q -> p = q.
Proof. destruct k; cbn; intros H; injection H; intros; subst; auto; lra. Qed.

(** take while *)
Fixpoint takewhile {A} (f : A -> bool) (l : list A) : list A := match l with [] => [] | x :: l => if f x then x :: takewhile f l else [] end.
Lemma takewhile_all {A} (f : A -> bool) l : forallb f l = true -> takewhile f l = l.
Proof. induction l as [|x l IH]; cbn; [reflexivity|]. destruct (f x); [|discriminate]. cbn. intros H. f_equal. auto. Qed.
Lemma takewhile_snoc {A} (f : A -> bool) l x : takewhile f (l ++ [x]) = if forallb f l then (if f x then l ++ [x] else l) else takewhile f l.
Proof. induction l as [|y l IH]; cbn; [destruct (f x); reflexivity|]. destruct (f y); [|reflexivity]. cbn [andb]. rewrite IH. destruct (forallb f l); [|reflexivity]. destruct (f x); reflexivity. Qed.
Lemma before_first_read_eq os : before_first_read os = takewhile assigns os.
Proof. induction os as [|o os IH]; cbn; [reflexivity|]. rewrite IH. reflexivity. Qed.
Lemma before_thresholds_eq os : before_thresholds os = takewhile (fun o => negb (needs_thresholds o)) os.
Proof. induction os as [|o os IH]; cbn; [reflexivity|]. rewrite IH. destruct (needs_thresholds o); reflexivity. Qed.
Lemma attrs_app a os os' : attrs a (os ++ os') = attrs (attrs a os) os'.
Proof. revert a; induction os as [|o os IH]; intros a; cbn [app attrs]; [reflexivity|]. destruct a as [[L s] d]. apply IH. Qed.
Lemma urun_app os os' o : urun (os ++ os') o = urun os' (urun os o).
Proof. revert o; induction os as [|x os IH]; intros o; cbn; [reflexivity|apply IH]. Qed.

Definition levels_of (a : attributes) : list R := let '(L, s, d) := a in uniform_levels L s d.
Definition step_of (a : attributes) : R := snd (fst a).
Definition frozen_levels (a : attributes) (os : list uop) : list R := levels_of (attrs a (before_first_read os)).
Definition frozen_thresholds (a : attributes) (os : list uop) : list R :=
  removelast (map (fun v => (v + step_of (attrs a (before_thresholds os)) / 2)%R) (frozen_levels a os)).

Lemma needs_forall os : forallb assigns os = true -> forallb (fun o => negb (needs_thresholds o)) os = true.
Proof. intros H. rewrite forallb_forall in *. intros x Hx. specialize (H x Hx). destruct x; auto; discriminate. Qed.

Lemma urun_state L s d os : let a := (L, s, d) in
  urun os (UObj L s d None None) =
    (let '(L', s', d') := attrs a os in
     UObj L' s' d' (if forallb assigns os then None else Some (frozen_levels a os))
       (if forallb (fun o => negb (needs_thresholds o)) os then None else Some (frozen_thresholds a os))).
Proof.
  intros a. induction os as [|op os IH] using rev_ind; [reflexivity|].
  rewrite urun_app, IH, attrs_app. cbn [urun]. rewrite !forallb_app. cbn [forallb]. rewrite !andb_true_r.
  unfold frozen_thresholds. unfold frozen_levels. rewrite (before_first_read_eq (os ++ [op])), (before_thresholds_eq (os ++ [op])), !takewhile_snoc.
  rewrite <- before_first_read_eq, <- before_thresholds_eq.
  destruct (attrs a os) as [[L1 s1] d1] eqn:E1.
  assert (EB : forallb assigns os = true -> before_first_read os = os) by (intros H; rewrite before_first_read_eq; apply takewhile_all; auto).
  assert (ET : forallb (fun o => negb (needs_thresholds o)) os = true -> before_thresholds os = os) by (intros H; rewrite before_thresholds_eq; apply takewhile_all; auto).
  pose proof (needs_forall os) as NF.
  destruct (forallb assigns os) eqn:F1; destruct (forallb (fun o => negb (needs_thresholds o)) os) eqn:F2; try (specialize (NF eq_refl); discriminate);
    destruct op; cbn [ustep snd attrs assigns needs_thresholds negb andb u_L u_step u_offset u_levels u_thresholds read_levels read_thresholds];
    rewrite ?EB, ?ET by reflexivity; rewrite ?E1; reflexivity.
Qed.
