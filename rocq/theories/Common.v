(* Shared list lemmas and tactics (no model content). *)
From Coq Require Export List Arith NArith ZArith Lia Bool.
From Coq Require Export ZifyBool ZifyNat ZifyN.
Export ListNotations.

Lemma firstn_all_ge {A} n (l : list A) : length l <= n -> firstn n l = l.
Proof. apply firstn_all2. Qed.

Lemma skipn_all_ge {A} n (l : list A) : length l <= n -> skipn n l = [].
Proof. apply skipn_all2. Qed.

Lemma firstn_app_exact {A} (l r : list A) : firstn (length l) (l ++ r) = l.
Proof. rewrite firstn_app, Nat.sub_diag, firstn_all, firstn_O, app_nil_r; reflexivity. Qed.

Lemma skipn_app_exact {A} (l r : list A) : skipn (length l) (l ++ r) = r.
Proof. rewrite skipn_app, Nat.sub_diag, skipn_all; reflexivity. Qed.

Lemma nth_error_seq s n i : i < n -> nth_error (seq s n) i = Some (s + i).
Proof.
  revert s i; induction n as [|n IH]; intros s i H; [lia|].
  destruct i as [|i]; cbn; [f_equal; lia|].
  rewrite IH by lia; f_equal; lia.
Qed.

Lemma nth_seq s n i d : i < n -> nth i (seq s n) d = s + i.
Proof. intros; apply seq_nth; assumption. Qed.

Lemma nth_map_seq {A} (f : nat -> A) n i d : i < n -> nth i (map f (seq 0 n)) d = f i.
Proof.
  intros H. rewrite nth_indep with (d' := f 0) by (rewrite map_length, seq_length; lia).
  rewrite map_nth, nth_seq by lia; reflexivity.
Qed.

Lemma list_ext {A} (d : A) (l l' : list A) :
  length l = length l' -> (forall i, i < length l -> nth i l d = nth i l' d) -> l = l'.
Proof. intros; eapply nth_ext; eauto. Qed.

Lemma rev_inj {A} (l l' : list A) : rev l = rev l' -> l = l'.
Proof. intros H; rewrite <- (rev_involutive l), H, rev_involutive; reflexivity. Qed.

Lemma Forall_rev_iff {A} (P : A -> Prop) l : Forall P (rev l) <-> Forall P l.
Proof. rewrite !Forall_forall; split; intros H x Hx; apply H; rewrite <- in_rev in *; auto. Qed.

Lemma app_inj_len {A} (a b c d : list A) : length a = length c -> a ++ b = c ++ d -> a = c /\ b = d.
Proof.
  revert c; induction a as [|x a IH]; intros [|y c] Hl H; cbn in *; try lia; auto.
  inversion H as [[Hx Hr]]. destruct (IH c) as [-> ->]; auto; lia.
Qed.

Lemma firstn_seq n s m : firstn n (seq s m) = seq s (Nat.min n m).
Proof. revert n s; induction m as [|m IH]; intros [|n] s; cbn; auto. rewrite IH; reflexivity. Qed.
