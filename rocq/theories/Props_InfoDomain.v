(** C76-C77: exactly which arguments the information measures accept. *)
From Coq Require Import Reals List Lia Lra Arith Bool.
From Verif Require Import FB_Model FB_Proof Quant_Model Quant_Proof Info_Model Info_Spec Info_Sums Info_Proof Props_Info.
Import ListNotations.
Local Open Scope R_scope.

(** non-negative entries that sum to 1 within the tolerance *)
Definition accepted_pmf (tol : R) (p : list R) : Prop := (forall x, In x p -> 0 <= x) /\ Rabs (Rsum p - 1) <= tol.
(** 'e', or a positive number other than 1 *)
Definition accepted_base (b : log_base) : Prop := match b with BaseE => True | Base v => 0 < v /\ v <> 1 end.
(** a rectangular matrix with rows that are accepted *)
Definition accepted_matrix (tol : R) (W : list (list R)) : Prop :=
  forall row, In row W -> length row = length (hd [] W) /\ accepted_pmf tol row.

Lemma pmf_accepts tol p : validate_pmf tol p = true <-> accepted_pmf tol p.
Proof.
  unfold validate_pmf, accepted_pmf. rewrite andb_true_iff, forallb_forall. split; intros [A B]; split.
  - intros x Hx. specialize (A x Hx). destruct (Rleb_spec 0 x); [assumption|discriminate].
  - destruct (Rleb_spec (Rabs (Rsum p - 1)) tol); [assumption|discriminate].
  - intros x Hx. specialize (A x Hx). destruct (Rleb_spec 0 x); [reflexivity|lra].
  - destruct (Rleb_spec (Rabs (Rsum p - 1)) tol); [reflexivity|lra].
Qed.
Lemma base_accepts b : validate_log_base b = true <-> accepted_base b.
Proof.
  destruct b as [|v]; cbn [validate_log_base accepted_base]; [tauto|]. destruct (Rleb_spec v 0), (Reqb_spec v 1); cbn; split; intros; try discriminate; try tauto; try lra; split; lra.
Qed.
Lemma matrix_accepts tol W : validate_matrix tol W = true <-> accepted_matrix tol W.
Proof.
  unfold validate_matrix, accepted_matrix. rewrite !andb_true_iff, !forallb_forall. split.
  - intros [[A B] C] row Hr. specialize (A row Hr). specialize (B row Hr). specialize (C row Hr). cbv beta in *. apply Nat.eqb_eq in A. split; [exact A|].
    apply pmf_accepts. unfold validate_pmf. now rewrite B, C.
  - intros H. repeat split; intros row Hr; destruct (H row Hr) as [A B]; [now apply Nat.eqb_eq| |]; apply pmf_accepts in B; unfold validate_pmf in B; apply andb_prop in B; tauto.
Qed.

(** relative_entropy answers exactly for two accepted pmfs of the same length and an accepted base *)
Theorem C76_relative_entropy_accepts tol b p q :
  (exists r, relative_entropy tol b p q = Some r) <-> accepted_pmf tol p /\ accepted_pmf tol q /\ accepted_base b /\ length p = length q.
Proof.
  unfold relative_entropy. rewrite <- !pmf_accepts, <- base_accepts.
  destruct (validate_pmf tol p), (validate_pmf tol q), (validate_log_base b); cbn [andb]; try (split; [intros [? X]; discriminate|intros (A & B & C & _); congruence]).
  destruct (Nat.eqb_spec (length p) (length q)) as [E|E].
  - split; intros _; [auto|]. destruct (existsb _ _); eauto.
  - split; [intros [? X]; discriminate|tauto].
Qed.
Theorem C76_entropy_accepts tol b p : (exists r, entropy tol b p = Some r) <-> accepted_pmf tol p /\ accepted_base b.
Proof.
  unfold entropy. rewrite <- pmf_accepts, <- base_accepts. destruct (validate_pmf tol p), (validate_log_base b); cbn [andb]; split; try (intros [? X]; discriminate); try (intros []; discriminate); eauto.
Qed.
Lemma sequence_some {A} (l : list (option A)) : (exists r, sequence l = Some r) <-> forall x, In x l -> x <> None.
Proof.
  induction l as [|[a|] l IH]; cbn [sequence].
  - split; [intros _ x []|eauto].
  - destruct (sequence l) as [r|]; split.
    + intros _ x [<-|Hx]; [discriminate|]. apply (proj1 IH); eauto.
    + eauto.
    + intros [? X]; discriminate.
    + intros H. destruct (proj2 IH) as [r X]; [intros x Hx; apply H; now right|discriminate].
  - split; [intros [? X]; discriminate|]. intros H. exfalso. exact (H None (or_introl eq_refl) eq_refl).
Qed.
(** mutual_information answers exactly for an accepted pmf, matrix and base that fit, provided the output pmf still sums to 1
    within the tolerance *)
Theorem C77_accepts tol b p W :
  (exists r, mutual_information tol b p W = Some r) <->
  accepted_pmf tol p /\ accepted_matrix tol W /\ accepted_base b /\ length p = length W /\ accepted_pmf tol (output_pmf p W).
Proof.
  unfold mutual_information. rewrite <- !pmf_accepts, <- base_accepts, <- matrix_accepts.
  destruct (validate_pmf tol p), (validate_log_base b) eqn:Eb, (validate_matrix tol W) eqn:EW; cbn [andb]; try (split; [intros [? X]; discriminate|intros (A & B & C & _); congruence]).
  destruct (Nat.eqb_spec (length p) (length W)) as [E|E]; [|split; [intros [? X]; discriminate|tauto]].
  assert (HS : exists r, sequence (map (entropy tol b) W) = Some r).
  { apply sequence_some. intros x Hx. apply in_map_iff in Hx as (row & <- & Hr). apply matrix_accepts in EW. destruct (EW row Hr) as [_ P].
    destruct (proj2 (C76_entropy_accepts tol b row) (conj P (proj1 (base_accepts b) Eb))) as [r ->]. discriminate. }
  destruct HS as [hs ->]. unfold entropy at 1. rewrite Eb, andb_true_r. destruct (validate_pmf tol (output_pmf p W)); split; try (intros [? X]; discriminate); try (intros (A & B & C & D & F); discriminate); eauto 10.
Qed.
(** the tolerances add up: a pmf and a matrix that are accepted one by one can be rejected together (np.isclose compares the
    output sum with the same tolerance) *)
Theorem C77_tolerance_refuted tol : 0 < tol ->
  let p := [1 + tol] in let W := [[1 + tol]] in
  accepted_pmf tol p /\ accepted_matrix tol W /\ mutual_information tol (Base 2) p W = None.
Proof.
  intros T p W. assert (A : accepted_pmf tol [1 + tol]). { split; [intros x [<-|[]]; lra|]. unfold Rsum. cbn [fold_right]. rewrite Rabs_right; lra. }
  split; [exact A|]. split; [intros row [<-|[]]; split; [reflexivity|exact A]|].
  destruct (mutual_information tol (Base 2) p W) eqn:E; [exfalso|reflexivity].
  destruct (proj1 (C77_accepts tol (Base 2) p W) (ex_intro _ _ E)) as (_ & _ & _ & _ & _ & B).
  unfold output_pmf, p, W, ncols, entry, Rsum in B. cbn in B. revert B. unfold Rabs. destruct (Rcase_abs _); nra.
Qed.
