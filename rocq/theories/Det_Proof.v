(* The determinant of ring.py is the determinant. *)
Set Warnings "-notation-overridden,-ambiguous-paths".
From Coq Require List.
From Coq Require Import ZArith PeanoNat Lia.
From Verif Require Import Det_Model.
From mathcomp Require Import all_ssreflect all_algebra.
Set Implicit Arguments.
Unset Strict Implicit.
Unset Printing Implicit Defensive.
Import GRing.Theory.
Local Open Scope ring_scope.

Local Arguments Nat.modulo : simpl never.
Lemma mod2_odd j : Nat.eqb (Nat.modulo j 2) 1 = odd j.
Proof.
elim: j => [//|j IHj]. rewrite [odd _]/= -IHj. have [E|E] : Nat.modulo j 2 = 0%N \/ Nat.modulo j 2 = 1%N.
- have := Nat.mod_upper_bound j 2. lia.
- have -> : Nat.modulo (S j) 2 = 1%N by rewrite -Nat.add_1_r Nat.add_mod // E. by rewrite E.
- have -> : Nat.modulo (S j) 2 = 0%N by rewrite -Nat.add_1_r Nat.add_mod // E. by rewrite E.
Qed.
Section Det.
Variables (A : Type) (R : ring_ops A) (K : comRingType) (phi : A -> K) (d : A).
Hypothesis phi0 : phi (r_zero R) = 0.
Hypothesis phiD : forall x y, phi (r_add R x y) = phi x + phi y.
Hypothesis phiM : forall x y, phi (r_mul R x y) = phi x * phi y.
Hypothesis phi1 : forall x, phi (r_rmul R (Zpos xH) x) = phi x.
Hypothesis phiN : forall x, phi (r_rmul R (Zneg xH) x) = - phi x.

Definition mat_of n (m : list (list A)) : 'M[K]_n := \matrix_(i, j) phi (List.nth j (List.nth i m nil) d).
Definition square n (m : list (list A)) := List.length m = n /\ List.Forall (fun r => List.length r = n) m.

Lemma nth_drop j (row : list A) i : List.nth i (without j row) d = List.nth (if (i < j)%N then i else i.+1) row d.
Proof.
rewrite /without. elim: j i row => [|j IH] i row.
  case: row => [|x row] //=. by case: i.
case: row => [|x row].
  have N k : List.nth k nil d = d by case: k. have -> : List.app (List.firstn j.+1 nil) (List.skipn j.+2 nil) = nil :> list A by []. by rewrite !N.
rewrite [List.firstn _ _]/= [List.skipn _ _]/=. case: i => [|i] //.
rewrite [LHS]/= ltnS IH. by case: ifP.
Qed.
Lemma drop_len j (row : list A) n : List.length row = n.+1 -> (j < n.+1)%N -> List.length (without j row) = n.
Proof. move=> L jn. rewrite /without List.app_length List.firstn_length List.skipn_length L. move/ltP: jn. lia. Qed.

Lemma fold_sum (f : nat -> option A) (g : nat -> K) js acc :
  (forall j, List.In j js -> exists x, f j = Some x /\ phi x = g j) ->
  exists x, List.fold_left (fun a j => match a, f j with Some s, Some t => Some (r_add R s t) | _, _ => None end) js (Some acc) = Some x /\
  phi x = phi acc + \sum_(j <- js) g j.
Proof.
elim: js acc => [|j js IH] acc H /=; first by exists acc; rewrite big_nil addr0.
have [x [-> E]] := H j (or_introl erefl). have [y [-> Ey]] := IH (r_add R acc x) (fun k hk => H k (or_intror hk)).
exists y; split=> //. by rewrite Ey phiD E big_cons addrA.
Qed.

Lemma det_spec : forall n m fuel, (n <= fuel)%N -> (0 < n)%N -> square n m -> exists x, det_loop R fuel m = Some x /\ phi x = \det (mat_of n m).
Proof.
elim=> [//|n IH] m [//|fuel] nf _ [L F]. rewrite ltnS in nf.
have E1 : List.forallb (fun row => Nat.eqb (List.length row) (List.length m)) m = true.
  apply/List.forallb_forall => r hr. apply/Nat.eqb_eq. rewrite L. by move/List.Forall_forall: F => F; apply: F.
rewrite /= E1 /=. case: m L F E1 => [//|row0 rest] L F _. case: rest L F => [|row1 rest] L F.
  case: n L F IH nf => [|n] // _ F _ _. have L0 : List.length row0 = 1%N by inversion F.
  case: row0 L0 F => [//|x [|]] // _ _. exists x; split=> //. by rewrite det_mx11 mxE.
have L' : List.length (cons row1 rest) = n by case: L.
have n0 : (0 < n)%N by rewrite -L'.
move: L' F. move: (cons row1 rest) L => rst L Lr F.
have F0 : List.length row0 = n.+1 by inversion F. have Fr : List.Forall (fun r => List.length r = n.+1) rst by inversion F.
set N := List.length _. have -> : N = n.+1 by rewrite /N.
set h := fun j => match List.nth_error row0 j, det_loop R fuel (List.map (without j) rst) with
  | Some c, Some mi => Some (r_mul R (r_rmul R (if Nat.eqb (Nat.modulo j 2) 1 then (Zneg xH) else (Zpos xH)) c) mi) | _, _ => None end.
pose M := mat_of n.+1 (cons row0 rst).
have H : forall j, List.In j (List.seq 0 n.+1) -> exists x, h j = Some x /\ phi x = (if insub j is Some k then M ord0 k * cofactor M ord0 k else 0).
  move=> j /List.in_seq jn. have jn' : (j < n.+1)%N by apply/ltP; lia.
  have [x [Ex Px]] : exists x, det_loop R fuel (List.map (without j) rst) = Some x /\ phi x = \det (mat_of n (List.map (without j) rst)).
    apply: IH => //. split; first by rewrite List.map_length.
    apply/List.Forall_forall => r /List.in_map_iff [s [<- hs]]. apply: drop_len => //. by move/List.Forall_forall: Fr => Fr; apply: Fr.
  rewrite /h Ex (List.nth_error_nth' row0 d); last by rewrite F0; apply/ltP.
  eexists; split; first reflexivity. rewrite insubT phiM Px /cofactor /M mxE /=. set k := Sub _ _.
  have -> : (mat_of n (List.map (without j) rst)) = row' ord0 (col' k (mat_of n.+1 (cons row0 rst))).
    apply/matrixP => a b; rewrite !mxE /=.
    have -> : List.nth a (List.map (without j) rst) nil = without j (List.nth a rst nil).
      have W : without j nil = nil :> list A by rewrite /without; case: (j).
      by rewrite -[in LHS]W List.map_nth.
    rewrite nth_drop. congr (phi (List.nth _ _ _)). rewrite /bump ltnNge. by case: (j <= b)%N.
  rewrite add0n mulrA. congr (_ * _). rewrite -signr_odd.
  have -> : Nat.eqb (Nat.modulo j 2) 1 = odd j.
    exact: mod2_odd.
  case: (odd j); first by rewrite phiN expr1 mulrN1. by rewrite phi1 expr0 mulr1.
have [x [Ex Px]] := fold_sum (r_zero R) H.
exists x; split.
  rewrite -Ex. clear. elim: (List.seq 0 n.+1) (r_zero R) => [//|j js IH] a /=. rewrite /h.
  case: (List.nth_error row0 j) => [c|].
    case: (det_loop _ _ _) => [mi|]; [exact: IH|]. by clear; elim: js.
  by clear; elim: js.
rewrite Px phi0 add0r (expand_det_row _ ord0). 
have -> : List.seq 0 n.+1 = iota 0 n.+1 by clear; move: 0%N; elim: (n.+1) => [//|k IHk] s /=; rewrite IHk.
rewrite -[iota 0 n.+1]/(index_iota 0 n.+1) big_mkord. apply: eq_bigr => j _. by rewrite valK.
Qed.
Lemma determinant_square n m : (0 < n)%N -> square n m -> exists x, Det_Model.determinant R m = Some x /\ phi x = \det (mat_of n m).
Proof. move=> n0 S. apply: det_spec => //. by case: S => ->. Qed.
Lemma determinant_reject m : ~ square (List.length m) m \/ m = nil -> Det_Model.determinant R m = None.
Proof.
rewrite /Det_Model.determinant. case=> [NS|->] //. case E: (List.length m) => [|n] //. rewrite /= E.
case F: (List.forallb _ m) => //=. exfalso. apply: NS. split=> //. apply/List.Forall_forall => r hr.
move/List.forallb_forall: F => /(_ r hr) /Nat.eqb_eq. by rewrite E.
Qed.
End Det.
