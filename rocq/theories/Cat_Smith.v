(* The reduction performed by invariant_factors, on matrices over F_2[X]. *)
Set Warnings "-notation-overridden,-ambiguous-paths".
From Coq Require Import ZArith NArith PeanoNat Lia List.
From Verif Require Import BinPoly_Model Cat_Model.
From Verif Require Import BinPoly_Proof Cat_Minors.
From mathcomp Require Import all_ssreflect all_fingroup all_algebra zify.
Set Implicit Arguments.
Unset Strict Implicit.
Unset Printing Implicit Defensive.
Import GRing.Theory.
Local Open Scope ring_scope.

Notation ent M i j := (P (pentry M i j)).
Definition mx k n (M : list (list N)) : 'M[P2]_(k, n) := \matrix_(i, j) ent M i j.

Lemma nth_seq0 (A : Type) (f : nat -> A) d n i : (i < n)%N -> List.nth i (List.map f (List.seq 0 n)) d = f i.
Proof.
move=> h. rewrite (List.nth_indep _ d (f 0%N)); last by rewrite List.map_length List.seq_length; lia.
rewrite List.map_nth List.seq_nth //. lia.
Qed.
Lemma pentry_build k n f i j : (i < k)%N -> (j < n)%N -> pentry (pbuild k n f) i j = f i j.
Proof. by move=> hi hj; rewrite /pentry /pbuild nth_seq0 // nth_seq0. Qed.
Lemma mx_build k n f : mx k n (pbuild k n f) = \matrix_(i, j) P (f i j).
Proof. by apply/matrixP => i j; rewrite !mxE pentry_build. Qed.

Lemma ti_spec a i : transpose_index a i = if i == 0%N then a else if i == a then 0%N else i.
Proof. by rewrite /transpose_index; case: Nat.eqb_spec => [->|/eqP/negPf ->] //; case: Nat.eqb_spec => [->|/eqP/negPf ->] //; rewrite eqxx. Qed.

Section Step.
Variables k n : nat.
Notation K := k.+1.
Notation L := n.+1.
Implicit Type M : list (list N).

Lemma ti_tperm m (a : 'I_m.+1) (i : 'I_m.+1) : transpose_index a i = tperm ord0 a i.
Proof.
rewrite ti_spec. case: tpermP => [->|->|/eqP h1 /eqP h2] //=.
- case: eqP => [->|] //. by rewrite eqxx.
- have -> : (i == 0%N :> nat) = false by apply/negbTE. by have -> : (i == a :> nat) = false by apply/negbTE.
Qed.
Lemma swap_rowsE a M : (a < K)%N -> exists A : 'M[P2]_K, A *m A = 1%:M /\ mx K L (pswap_rows K L a M) = A *m mx K L M.
Proof.
move=> h. exists (tperm_mx ord0 (Ordinal h)). rewrite -perm_mxM tperm2 perm_mx1; split=> //.
rewrite -xrowE /pswap_rows mx_build. apply/matrixP => i j. by rewrite !mxE (ti_tperm (Ordinal h)).
Qed.
Lemma swap_colsE a M : (a < L)%N -> exists B : 'M[P2]_L, B *m B = 1%:M /\ mx K L (pswap_cols K L a M) = mx K L M *m B.
Proof.
move=> h. exists (tperm_mx ord0 (Ordinal h)). rewrite -perm_mxM tperm2 perm_mx1; split=> //.
rewrite -xcolE /pswap_cols mx_build. apply/matrixP => i j. by rewrite !mxE (ti_tperm (Ordinal h)).
Qed.
Lemma eqb_ord m (i : 'I_m) c (h : (c < m)%N) : Nat.eqb i c = (i == Ordinal h).
Proof. by apply/idP/idP => [/Nat.eqb_spec e|/eqP -> /=]; [apply/eqP/val_inj|apply/Nat.eqb_spec]. Qed.
Lemma col_subE c q M : (0 < c)%N -> (c < L)%N -> exists B B' : 'M[P2]_L, B *m B' = 1%:M /\ mx K L (pcol_sub K L c q M) = mx K L M *m B.
Proof.
move=> c0 h. pose U : 'M[P2]_L := P q *: delta_mx ord0 (Ordinal h). exists (1%:M - U), (1%:M + U). split.
  have UU : U *m U = 0.
    rewrite /U -scalemxAl -scalemxAr mul_delta_mx_cond. have -> : (Ordinal h == ord0) = false by apply/negbTE; rewrite -lt0n.
    by rewrite mulr0n !scaler0.
  by rewrite mulmxDl mulNmx !mulmxDr UU !mul1mx mulmx1 addr0 addrK.
rewrite /pcol_sub mx_build mulmxDr mulmx1 mulmxN -scalemxAr. apply/matrixP => i j. rewrite !mxE (eqb_ord _ h) (bigD1 ord0) //= big1 ?addr0; last first.
  by move=> l /negPf nl; rewrite !mxE nl /= mulr0.
by rewrite !mxE eqxx /=; case: eqP => _; rewrite ?Psub ?Pmul ?mulr1 ?mulr0 ?oppr0 ?addr0.
Qed.
Lemma row_subE r q M : (0 < r)%N -> (r < K)%N -> exists A A' : 'M[P2]_K, A' *m A = 1%:M /\ mx K L (prow_sub K L r q M) = A *m mx K L M.
Proof.
move=> c0 h. pose U : 'M[P2]_K := P q *: delta_mx (Ordinal h) ord0. exists (1%:M - U), (1%:M + U). split.
  have UU : U *m U = 0.
    rewrite /U -scalemxAl -scalemxAr mul_delta_mx_cond. have -> : (ord0 == Ordinal h) = false by apply/negbTE; rewrite eq_sym -lt0n.
    by rewrite mulr0n !scaler0.
  by rewrite mulmxDl !mulmxDr !mulmxN UU !mul1mx mulmx1 oppr0 addr0 addrNK.
rewrite /prow_sub mx_build mulmxDl mul1mx mulNmx -scalemxAl. apply/matrixP => i j. rewrite !mxE (eqb_ord _ h) (bigD1 ord0) //= big1 ?addr0; last first.
  by move=> l /negPf nl; rewrite !mxE nl andbF mul0r.
by rewrite !mxE eqxx andbT; case: eqP => _; rewrite ?Psub ?Pmul ?mul1r ?mul0r ?mulr0 ?oppr0 ?addr0.
Qed.

(* E1 *)
Lemma e1_fold M (Q : nat -> nat -> Prop) l : (forall i j, List.In (i, j) l -> Q i j) -> forall acc,
  (forall i j a, acc = Some (i, j, a) -> Q i j /\ a = pentry M i j /\ a <> 0%num) ->
  match List.fold_left (e1_step M) l acc with
  | Some (i, j, a) => Q i j /\ a = pentry M i j /\ a <> 0%num
  | None => acc = None /\ forall i j, List.In (i, j) l -> pentry M i j = 0%num
  end.
Proof.
elim: l => [|[i j] l IH] Ql acc Hacc /=.
  by case: acc Hacc => [[[i j] a]|] H; [apply: H|].
have Ql' i' j' : List.In (i', j') l -> Q i' j' by move=> h; apply: Ql; right.
have Qij : Q i j by apply: Ql; left.
have {IH} := IH Ql' (e1_step M acc (i, j)). rewrite {1 3}/e1_step /=. case: N.eqb_spec => [z|nz] IH.
  have := IH Hacc. rewrite /e1_step /= z /=. case: (List.fold_left _ _ _) => [[[i' j'] a]|] //. case=> -> h; split=> // i' j' [[<- <-]|] //. exact: h.
have {IH} := IH _. rewrite /e1_step /=. case: N.eqb_spec => [//|_] IH.
have : forall (i0 j0 : nat) (a : N), match acc with | Some (_, _, a0) => if Z.ltb (pdegree (pentry M i j)) (pdegree a0) then Some (i, j, pentry M i j) else acc | None => Some (i, j, pentry M i j) end = Some (i0, j0, a) -> Q i0 j0 /\ a = pentry M i0 j0 /\ a <> 0%num.
  move=> i0 j0 a. case E: acc Hacc => [[[i1 j1] a1]|] Hacc; last by case=> <- <- <-.
  by case: ifP => _; [case=> <- <- <-|apply: Hacc].
move/IH. case: (List.fold_left _ _ _) => [[[i' j'] a]|] // [h _]; exfalso.
by case E: acc h => [[[i1 j1] a1]|] //; case: ifP.
Qed.
Lemma e1_spec M : match e1 K L M with
  | Some (i, j, a) => (i < K)%N /\ (j < L)%N /\ a = pentry M i j /\ a <> 0%num
  | None => mx K L M = 0
  end.
Proof.
have H := @e1_fold M (fun i j => (i < K)%N /\ (j < L)%N) (List.list_prod (List.seq 0 K) (List.seq 0 L)) _ None.
rewrite /e1. case: (List.fold_left _ _ _) H => [[[i j] a]|] H.
  case: H => // [i' j' /List.in_prod_iff [/List.in_seq h1 /List.in_seq h2]|[h1 h2] [h3 h4]]; last by split.
  by split; lia.
have [] := H _ _ => // [i' j' /List.in_prod_iff [/List.in_seq h1 /List.in_seq h2]|_ Z]; first by split; lia.
apply/matrixP => i j; rewrite !mxE Z //. apply/List.in_prod_iff; split; apply/List.in_seq; have := ltn_ord i; have := ltn_ord j; lia.
Qed.

(* E2 *)
Lemma e2_find_spec f a0 js : a0 <> 0%num ->
  match e2_find f a0 js with
  | None => forall j, List.In j js -> P a0 %| P (f j)
  | Some (j, q, r) => List.In j js /\ q = pquo (f j) a0 /\ r = pmod (f j) a0 /\ r <> 0%num
  end.
Proof.
move=> nz; elim: js => [|j js IH] //=. case: N.eqb_spec => [z|fz].
  case: (e2_find f a0 js) IH => [[[j' q] r] [h1 h2]|h j' [<-|]]; [by split; [right|]|by rewrite z dvdp0|exact: h].
case: N.eqb_spec => [z|rz].
  case: (e2_find f a0 js) IH => [[[j' q] r] [h1 h2]|h j' [<-|]]; [by split; [right|]| |exact: h].
  by rewrite /dvdp -Pmod // z.
by split; [left|].
Qed.
Lemma rem_corner a a0 : a0 <> 0%num -> psub a (pmul (pquo a a0) a0) = pmod a a0.
Proof. by move=> nz; apply: P_inj; rewrite Psub Pmul Pdiv // Pmod // {1}(divp_eq (P a) (P a0)) addrC addKr. Qed.
Lemma mod_small a a0 : a0 <> 0%num -> (bit_length (pmod a a0) < bit_length a0)%N.
Proof. exact: size_ind_lt. Qed.

Lemma e2a_spec fuel : forall M a0, a0 <> 0%num -> pentry M 0 0 = a0 -> (bit_length a0 <= fuel)%N ->
  exists M' a', [/\ e2a fuel K L M a0 = Some (M', a'), a' <> 0%num, pentry M' 0 0 = a', forall j : 'I_L, P a' %| mx K L M' ord0 j
    & exists B B' : 'M[P2]_L, B *m B' = 1%:M /\ mx K L M' = mx K L M *m B].
Proof.
elim: fuel => [|fuel IH] M a0 nz c0 hf.
  by case: a0 nz hf {c0} => [|[]].
rewrite /=. have := @e2_find_spec (pentry M 0) a0 (List.seq 1 (L - 1)%coq_nat) nz. case E: (e2_find _ _ _) => [[[j q] r]|] H.
  case: H => /List.in_seq hj [Eq [Er rz]].
  have jL : (j < L)%N by lia. have j0 : (0 < j)%N by lia.
  have [] := IH (pswap_cols K L j (pcol_sub K L j q M)) r rz.
  - rewrite pentry_build // ti_spec eqxx pentry_build // Nat.eqb_refl c0 Eq Er. exact: rem_corner.
  - have := mod_small (pentry M 0 j) nz. rewrite -Er. lia.
  move=> M' [a' [-> h1 h2 h3 [B [B' [HB EM]]]]]. exists M', a'. split=> //.
  have [C [HC EC]] := swap_colsE (pcol_sub K L j q M) jL. have [D [D' [HD ED]]] := col_subE q M j0 jL.
  exists (D *m C *m B), (B' *m C *m D'). split; last by rewrite EM EC ED !mulmxA.
  by rewrite -!mulmxA (mulmxA B) HB mul1mx (mulmxA C) HC mul1mx.
exists M, a0. split=> //; last by exists 1%:M, 1%:M; rewrite !mulmx1.
move=> j. rewrite mxE. case: (unliftP ord0 j) => [j' ->|->]; last by rewrite c0 dvdpp.
apply: H. apply/List.in_seq. rewrite lift0. move: (ltn_ord j') => /=; lia.
Qed.
Lemma e2b_spec fuel : forall M a0, a0 <> 0%num -> pentry M 0 0 = a0 -> (bit_length a0 <= fuel)%N ->
  exists M' a', [/\ e2b fuel K L M a0 = Some (M', a'), a' <> 0%num, pentry M' 0 0 = a', forall i : 'I_K, P a' %| mx K L M' i ord0
    & exists A A' : 'M[P2]_K, A' *m A = 1%:M /\ mx K L M' = A *m mx K L M].
Proof.
elim: fuel => [|fuel IH] M a0 nz c0 hf.
  by case: a0 nz hf {c0} => [|[]].
rewrite /=. have := @e2_find_spec (fun i => pentry M i 0) a0 (List.seq 1 (K - 1)%coq_nat) nz. case E: (e2_find _ _ _) => [[[j q] r]|] H.
  case: H => /List.in_seq hj [Eq [Er rz]].
  have jL : (j < K)%N by lia. have j0 : (0 < j)%N by lia.
  have [] := IH (pswap_rows K L j (prow_sub K L j q M)) r rz.
  - rewrite pentry_build // ti_spec eqxx pentry_build // Nat.eqb_refl c0 Eq Er. exact: rem_corner.
  - have := mod_small (pentry M j 0) nz. rewrite -Er. lia.
  move=> M' [a' [-> h1 h2 h3 [B [B' [HB EM]]]]]. exists M', a'. split=> //.
  have [C [HC EC]] := swap_rowsE (prow_sub K L j q M) jL. have [D [D' [HD ED]]] := row_subE q M j0 jL.
  exists (B *m C *m D), (D' *m C *m B'). split; last by rewrite EM EC ED !mulmxA.
  by rewrite -!mulmxA (mulmxA B') HB mul1mx (mulmxA C) HC mul1mx.
exists M, a0. split=> //; last by exists 1%:M, 1%:M; rewrite !mulmx1 mul1mx.
move=> j. rewrite mxE. case: (unliftP ord0 j) => [j' ->|->]; last by rewrite c0 dvdpp.
apply: H. apply/List.in_seq. rewrite lift0. move: (ltn_ord j') => /=; lia.
Qed.

(* E3 *)
Lemma existsb_notin c js : ~ List.In c js -> List.existsb (Nat.eqb c) js = false.
Proof. by move=> h; apply/negbTE/negP => /List.existsb_exists [x [hx /Nat.eqb_spec e]]; apply: h; rewrite e. Qed.
Lemma e3a_entries a0 js : List.NoDup js -> (forall j, List.In j js -> (0 < j)%N) -> forall M i c, (i < K)%N -> (c < L)%N ->
  pentry (List.fold_left (fun M j => pcol_sub K L j (pquo (pentry M 0 j) a0) M) js M) i c =
  if List.existsb (Nat.eqb c) js then psub (pentry M i c) (pmul (pquo (pentry M 0 c) a0) (pentry M i 0)) else pentry M i c.
Proof.
elim: js => [|j js IH] ND P0 M i c hi hc //=. have [nj nd] := proj1 (List.NoDup_cons_iff _ _) ND.
have j0 : (0 < j)%N by apply: P0; left.
rewrite IH // => [|j' h]; last by apply: P0; right.
have EE i' c' : (i' < K)%N -> (c' < L)%N -> c' <> j -> pentry (pcol_sub K L j (pquo (pentry M 0 j) a0) M) i' c' = pentry M i' c'.
  by move=> h h' ne; rewrite pentry_build //; case: Nat.eqb_spec.
case: (Nat.eqb_spec c j) => [e|ne] /=; last by rewrite !EE //; lia.
by rewrite {1}e existsb_notin // pentry_build // e Nat.eqb_refl.
Qed.
Lemma e3b_entries a0 js : List.NoDup js -> (forall j, List.In j js -> (0 < j)%N) -> forall M r c, (r < K)%N -> (c < L)%N ->
  pentry (List.fold_left (fun M i => prow_sub K L i (pquo (pentry M i 0) a0) M) js M) r c =
  if List.existsb (Nat.eqb r) js then psub (pentry M r c) (pmul (pquo (pentry M r 0) a0) (pentry M 0 c)) else pentry M r c.
Proof.
elim: js => [|j js IH] ND P0 M r c hr hc //=. have [nj nd] := proj1 (List.NoDup_cons_iff _ _) ND.
have j0 : (0 < j)%N by apply: P0; left.
rewrite IH // => [|j' h]; last by apply: P0; right.
have EE i' c' : (i' < K)%N -> (c' < L)%N -> i' <> j -> pentry (prow_sub K L j (pquo (pentry M j 0) a0) M) i' c' = pentry M i' c'.
  by move=> h h' ne; rewrite pentry_build //; case: Nat.eqb_spec.
case: (Nat.eqb_spec r j) => [e|ne] /=; last by rewrite !EE //; lia.
by rewrite {1}e existsb_notin // pentry_build // e Nat.eqb_refl.
Qed.
Lemma in_seq1 c m : List.existsb (Nat.eqb c) (List.seq 1 (m.+1 - 1)%coq_nat) = (0 < c <= m)%N.
Proof.
apply/idP/idP => [/List.existsb_exists [x [/List.in_seq h /Nat.eqb_spec e]]|h]; first by lia.
apply/List.existsb_exists; exists c; split; [apply/List.in_seq; lia|exact: Nat.eqb_refl].
Qed.
Lemma seq1_ok m : List.NoDup (List.seq 1 m) /\ forall j, List.In j (List.seq 1 m) -> (0 < j)%N.
Proof. by split; [exact: List.seq_NoDup|move=> j /List.in_seq; lia]. Qed.

(* adding multiples of column 0 to the other columns *)
Definition colrel (X Y : 'M[P2]_(K, L)) : Prop :=
  exists u : 'I_L -> P2, u ord0 = 0 /\ forall i j, Y i j = X i j + X i ord0 * u j.
Lemma colrel_mull (A : 'M[P2]_K) X Y : colrel X Y -> colrel (A *m X) (A *m Y).
Proof.
case=> u [u0 H]. exists u; split=> // i j. rewrite !mxE big_distrl /= -big_split /=. apply: eq_bigr => l _. by rewrite H mulrDr mulrA.
Qed.
Lemma colrel_equivalent X Y : colrel X Y -> exists B B' : 'M[P2]_L, B *m B' = 1%:M /\ Y = X *m B.
Proof.
case=> u [u0 H]. pose U : 'M[P2]_L := \matrix_(i, j) ((i == ord0)%:R * u j). exists (1%:M + U), (1%:M - U).
have UU : U *m U = 0.
  apply/matrixP => i j; rewrite !mxE (bigD1 ord0) //= big1 ?addr0; last by move=> l /negPf nl; rewrite !mxE nl mul0r mulr0.
  by rewrite !mxE u0 mulr0 mul0r.
split; first by rewrite mulmxDl !mulmxDr !mulmxN UU !mul1mx mulmx1 oppr0 addr0 addrNK.
apply/matrixP => i j; rewrite mulmxDr mulmx1 H !mxE; congr (_ + _). rewrite (bigD1 ord0) //= big1 ?addr0; last by move=> l /negPf nl; rewrite !mxE nl mul0r mulr0.
by rewrite !mxE eqxx mul1r.
Qed.
Lemma colrel_det X Y (J : 'I_k -> 'I_n) : colrel X Y -> \det (cols (ext0 J) Y) = \det (cols (ext0 J) X).
Proof.
case=> u [u0 H]. pose T : 'M[P2]_K := \matrix_(i, j) ((i == j)%:R + (i == ord0)%:R * u (ext0 J j)).
have -> : cols (ext0 J) Y = cols (ext0 J) X *m T.
  apply/matrixP => i j. rewrite !mxE H. under eq_bigr do rewrite !mxE mulrDr. rewrite big_split /=; congr (_ + _).
    rewrite (bigD1 j) //= big1 ?addr0; last by move=> l /negPf nl; rewrite nl mulr0.
    by rewrite eqxx mulr1.
  rewrite (bigD1 ord0) //= big1 ?addr0; last by move=> l /negPf nl; rewrite nl mul0r mulr0.
  by rewrite mul1r /ext0 unlift_none.
rewrite det_mulmx -[X in _ * X]det_tr [X in _ * X]det_trig; last first.
  apply/is_trig_mxP => i j hij. rewrite !mxE. have -> : (j == i) = false by apply/negbTE; rewrite -val_eqE /= gtn_eqF.
  have -> : (j == ord0) = false by apply/negbTE; rewrite -val_eqE /=; lia. by rewrite mul0r addr0.
rewrite big1 ?mulr1 // => i _. rewrite !mxE eqxx. case: (i =P ord0) => [->|_]; last by rewrite mul0r addr0.
by rewrite /ext0 unlift_none u0 mulr0 addr0.
Qed.
Lemma e3a_spec M a0 : a0 <> 0%num -> pentry M 0 0 = a0 ->
  colrel (mx K L M) (mx K L (e3a K L a0 M)) /\ (forall i, mx K L (e3a K L a0 M) i ord0 = mx K L M i ord0) /\
  ((forall j, P a0 %| mx K L M ord0 j) -> forall j, mx K L (e3a K L a0 M) ord0 (lift ord0 j) = 0).
Proof.
move=> nz c0. have [ND P0] := seq1_ok (L - 1)%coq_nat.
have E i j : mx K L (e3a K L a0 M) i j = if (0 < j)%N then mx K L M i j - (mx K L M ord0 j %/ P a0) * mx K L M i ord0 else mx K L M i j.
  rewrite !mxE /e3a e3a_entries // in_seq1. have -> : (0 < j <= n)%N = (0 < j)%N by move: (ltn_ord j); lia.
  by case: ifP => // _; rewrite Psub Pmul Pdiv.
split; [|split].
- exists (fun j : 'I_L => if (0 < j)%N then - (mx K L M ord0 j %/ P a0) else 0). split=> // i j. rewrite E. by case: ifP => _; rewrite ?mulrN ?mulr0 ?addr0 // [_ * mx K L M i ord0]mulrC.
- by move=> i; rewrite E.
- move=> D j. rewrite E /=. have -> : mx K L M ord0 ord0 = P a0 by rewrite mxE c0. by rewrite divpK // subrr.
Qed.
Lemma e3b_spec M a0 : a0 <> 0%num -> pentry M 0 0 = a0 -> (forall i, P a0 %| mx K L M i ord0) ->
  [/\ forall i, mx K L (e3b K L a0 M) (lift ord0 i) ord0 = 0, forall j, mx K L (e3b K L a0 M) ord0 j = mx K L M ord0 j
   & exists A A' : 'M[P2]_K, A' *m A = 1%:M /\ mx K L (e3b K L a0 M) = A *m mx K L M].
Proof.
move=> nz c0 D. have [ND P0] := seq1_ok (K - 1)%coq_nat.
have E i j : mx K L (e3b K L a0 M) i j = if (0 < i)%N then mx K L M i j - (mx K L M i ord0 %/ P a0) * mx K L M ord0 j else mx K L M i j.
  rewrite !mxE /e3b e3b_entries // in_seq1. have -> : (0 < i <= k)%N = (0 < i)%N by move: (ltn_ord i); lia.
  by case: ifP => // _; rewrite Psub Pmul Pdiv.
split.
- move=> i. rewrite E /=. have -> : mx K L M ord0 ord0 = P a0 by rewrite mxE c0. by rewrite divpK // subrr.
- by move=> j; rewrite E.
- pose U : 'M[P2]_K := \matrix_(i, j) ((j == ord0)%:R * (if (0 < i)%N then - (mx K L M i ord0 %/ P a0) else 0)).
  have UU : U *m U = 0.
    apply/matrixP => i j; rewrite !mxE (bigD1 ord0) //= big1 ?addr0; last by move=> l /negPf nl; rewrite !mxE nl !mul0r.
    by rewrite !mxE ltnn !mulr0.
  exists (1%:M + U), (1%:M - U). split; first by rewrite mulmxDl mulNmx !mulmxDr UU !mul1mx mulmx1 addr0 addrK.
  apply/matrixP => i j. rewrite E mulmxDl mul1mx [RHS]mxE [X in _ = _ + X]mxE (bigD1 ord0) //= big1 ?addr0; last by move=> l /negPf nl; rewrite mxE nl !mul0r.
  rewrite [U _ _]mxE eqxx mul1r. by case: ifP => _; rewrite ?mulNr ?mul0r ?addr0.
Qed.
End Step.

Lemma mx_lower k n M : mx k n (List.map (@List.tl N) (List.tl M)) = lower (mx k.+1 n.+1 M).
Proof.
apply/matrixP => i j; rewrite !mxE !lift0 /pentry; congr (P _).
case: M => [|r M] /=; first by case: (nat_of_ord i); case: (nat_of_ord j).
rewrite (_ : List.nth i (List.map (@List.tl N) M) nil = List.tl (List.nth i M nil)); last by rewrite -(List.map_nth (@List.tl N)).
by case: (List.nth i M nil) => [|x l] //=; case: (nat_of_ord j).
Qed.
Lemma unit_dvd (d x a b : P2) : a * b = 1 -> (d %| b * x) = (d %| x).
Proof. move=> E; apply/idP/idP => h; last exact: dvdp_mull. by rewrite -[x]mul1r -E -mulrA dvdp_mull. Qed.

(* the number of factors and their product: the greatest common divisor of the maximal minors *)
Definition gcd_of (k : nat) (fs : list N) : P2 := if size fs == k then \prod_(f <- fs) P f else 0.
Definition last_row k n (M : 'M[P2]_(k, n)) (f : P2) : Prop :=
  exists (r : 'rV[P2]_k) (v : 'cV[P2]_k) (R : 'rV[P2]_n), r *m v = 1%:M /\ r *m M = f *: R.
Lemma inv_factors_spec k : forall n M, (k <= n)%N -> exists fs, [/\ inv_factors k n M = Some fs, (size fs <= k)%N,
  forall f, f \in fs -> f <> 0%num, (forall d, minors_dvd d (mx k n M) <-> d %| gcd_of k fs)
  & size fs = k -> (0 < k)%N -> last_row (mx k n M) (P (List.last fs 0%num))].
Proof.
elim: k => [|k IH] n M hn.
  exists nil. split=> // d. rewrite /gcd_of /= big_nil. split=> [H|H J]; last by rewrite det_mx00.
  have J : 'I_0 -> 'I_n by case. by have := H J; rewrite det_mx00.
case: n hn => // n hn. rewrite /inv_factors -/inv_factors. have := e1_spec k n M. case: (e1 _ _ _) => [[[i0 j0] a0]|Z]; last first.
  exists nil. split=> //. move=> d; rewrite /gcd_of /= dvdp0; split=> // _ J. by rewrite Z (_ : cols J 0 = 0) ?det0 ?dvdp0 //; apply/matrixP => i j; rewrite !mxE.
case=> hi [hj [Ea a0z]]. set M0 := pswap_rows _ _ _ _. set M1 := pswap_cols _ _ _ _.
have [C [HC EC]] := swap_rowsE n M hi. have [D [HD ED]] := swap_colsE k M0 hj. rewrite EC -/M1 in ED.
have c1 : pentry M1 0 0 = a0 by rewrite pentry_build // ti_spec eqxx pentry_build // ti_spec eqxx Ea.
have [M2 [a2 [-> z2 c2 D2 [B [B' [HB E2]]]]]] := e2a_spec k n a0z c1 (leqnn _).
have [M3 [a3 [-> z3 c3 D3 [A [A' [HA E3]]]]]] := e2b_spec k n z2 c2 (leqnn _).
set M4 := e3a _ _ _ _. have [R4 [K4 X4]] := e3a_spec k n z3 c3. rewrite -/M4 in R4 K4 X4.
have c4 : pentry M4 0 0 = a3. { apply: P_inj. have := K4 ord0. by rewrite !mxE c3. }
have D4 i : P a3 %| mx k.+1 n.+1 M4 i ord0 by rewrite K4.
set M5 := e3b _ _ _ _. have [Z5 K5 [A5 [A5' [HA5 E5]]]] := e3b_spec z3 c4 D4. rewrite -/M5 in Z5 K5 E5.
have m5 : mx k.+1 n.+1 M5 ord0 ord0 = P a3 by rewrite K5 mxE c4.
have [fs [Efs Sfs Nfs Gfs Lfs]] := IH n (List.map (@List.tl N) (List.tl M5)) hn.
have -> : (n.+1 - 1)%coq_nat = n by lia. rewrite Efs /=. exists (a3 :: fs). rewrite mx_lower in Gfs Lfs.
have Gz : gcd_of k.+1 (a3 :: fs) = P a3 * gcd_of k fs by rewrite /gcd_of /= eqSS; case: ifP => _; rewrite ?big_cons ?mulr0.
have E12 : equivalent (mx k.+1 n.+1 M) (mx k.+1 n.+1 M2).
  exists C, C, (D *m B), (B' *m D). split=> //; first by rewrite -!mulmxA (mulmxA B) HB mul1mx.
  by rewrite E2 ED !mulmxA.
have nz3 : P a3 != 0 by rewrite P_eq0; apply/eqP.
split=> //.
- by move=> f; rewrite inE => /orP [/eqP ->|] //; exact: Nfs.
- move=> d. rewrite Gz (minors_equivalent d E12).
  have [R2 [K2 X2]] := e3a_spec k n z2 c2. set M2' := e3a _ _ _ _ in R2 K2 X2.
  have E2' : equivalent (mx k.+1 n.+1 M2) (mx k.+1 n.+1 M2').
    have [U [U' [HU ->]]] := colrel_equivalent R2. by exists 1%:M, 1%:M, U, U'; rewrite mul1mx mul1mx.
  rewrite (minors_equivalent d E2') (minors_row0 d (X2 D2)) -(dvd_scaled nz3 Gfs d).
  have m2 : mx k.+1 n.+1 M2' ord0 ord0 = P a2 by rewrite K2 mxE c2.
  suff T J : (d %| mx k.+1 n.+1 M2' ord0 ord0 * \det (cols J (lower (mx k.+1 n.+1 M2')))) = (d %| P a3 * \det (cols J (lower (mx k.+1 n.+1 M5)))).
    by split=> H J; [rewrite -T|rewrite T].
  rewrite -(det_row0 J (X2 D2)) (colrel_det J R2) -m5 -(det_col0 J Z5) E5 cols_mull det_mulmx (colrel_det J R4) E3 cols_mull det_mulmx mulrA.
  by rewrite (@unit_dvd _ _ (\det A5' * \det A')) // mulrACA -[X in X * _]det_mulmx -[X in _ * X]det_mulmx HA5 HA !det1 mulr1.
- case=> Sk _.
  pose U : 'M[P2]_k.+1 := A5 *m A *m C. pose U' : 'M[P2]_k.+1 := C *m A' *m A5'.
  have HU : U *m U' = 1%:M. { apply: mulmx1C. by rewrite /U /U' -!mulmxA (mulmxA A5') HA5 mul1mx (mulmxA A') HA mul1mx. }
  have [T [T' [HT ET]]] := colrel_equivalent R4.
  pose W := D *m B *m T. pose W' := T' *m B' *m D.
  have HW : W *m W' = 1%:M by rewrite /W /W' -!mulmxA (mulmxA T) HT mul1mx (mulmxA B) HB mul1mx.
  have EM : mx k.+1 n.+1 M5 = U *m mx k.+1 n.+1 M *m W by rewrite E5 ET E3 E2 ED /U /W !mulmxA.
  have EM' : U *m mx k.+1 n.+1 M = mx k.+1 n.+1 M5 *m W' by rewrite EM -mulmxA HW mulmx1.
  suff [r [v [Q [H1 H2]]]] : last_row (mx k.+1 n.+1 M5) (P (List.last (a3 :: fs) 0%num)).
    exists (r *m U), (U' *m v), (Q *m W'). split; first by rewrite mulmxA -(mulmxA r) HU mulmx1.
    by rewrite -mulmxA EM' mulmxA H2 scalemxAl.
  case: (posnP k) => [k0|kpos].
    have fs0 : fs = nil by apply: size0nil; lia.
    have all0 (l : 'I_k.+1) : l = ord0 by apply/val_inj => /=; have := ltn_ord l; lia.
    have S0 (f : 'I_k.+1 -> P2) : \sum_l f l = f ord0 by rewrite (bigD1 ord0) //= big1 ?addr0 // => l; rewrite (all0 l).
    have X3 : forall j, P a3 %| mx k.+1 n.+1 M3 ord0 j.
      move=> j. rewrite E3 mxE S0. have -> : P a3 = A ord0 ord0 * P a2.
        have := congr1 (fun X : 'M_(_, _) => X ord0 ord0) E3. rewrite [mx _ _ M3 _ _]mxE c3 mxE S0 [mx _ _ M2 _ _]mxE c2. by [].
      by rewrite dvdp_mul2l ?D2 //; apply/negP => /eqP z; have := congr1 (fun X : 'M_(_, _) => X ord0 ord0) HA; rewrite !mxE S0 z mulr0 eqxx => /eqP; rewrite eq_sym oner_eq0.
    exists (delta_mx ord0 ord0), (delta_mx ord0 ord0), (delta_mx ord0 ord0). rewrite mul_delta_mx fs0 /=; split.
      by apply/matrixP => i j; rewrite !mxE !ord1.
    apply/matrixP => i j. rewrite !mxE S0 !mxE !ord1 eqxx mul1r. case: (unliftP ord0 j) => [j' ->|->].
      by have := X4 X3 j'; rewrite -K5 mxE => ->; rewrite mulr0.
    by have := m5; rewrite mxE => ->; rewrite mulr1.
  have [r [v [Q [H1 H2]]]] := Lfs Sk kpos.
  have -> : List.last (a3 :: fs) 0%num = List.last fs 0%num by case: (fs) Sk kpos => //= <-.
  exists (\row_j (if unlift ord0 j is Some j' then r ord0 j' else 0)), (\col_j (if unlift ord0 j is Some j' then v j' ord0 else 0)),
    (\row_j (if unlift ord0 j is Some j' then Q ord0 j' else 0)). split.
    rewrite -H1. apply/matrixP => i j. rewrite !mxE big_ord_recl !mxE unlift_none mul0r add0r. apply: eq_bigr => l _. by rewrite !mxE !liftK !ord1.
  apply/matrixP => i j. rewrite !mxE big_ord_recl mxE unlift_none mul0r add0r. case: (unliftP ord0 j) => [j' ->|->].
    have := congr1 (fun X : 'M_(_, _) => X ord0 j') H2. rewrite !mxE => <-. by apply: eq_bigr => l _; rewrite !mxE liftK.
  by rewrite big1 ?mulr0 // => l _; rewrite Z5 mulr0.
Qed.
