(* Linear recurrences and polynomials over F_2: the shift operator acts on sequences. *)
Set Warnings "-notation-overridden,-ambiguous-paths".
From Coq Require Import NArith PeanoNat Lia.
From Verif Require Import BinPoly_Model Algebra_Spec BinPoly_Proof Irreducible_Proof.
From mathcomp Require Import all_ssreflect all_algebra zify.
Set Implicit Arguments.
Unset Strict Implicit.
Unset Printing Implicit Defensive.
Import GRing.Theory.
Local Open Scope ring_scope.

Definition act (f : P2) (b : nat -> F2) (k : nat) : F2 := \sum_(i < size f) f`_i * b (k + i)%N.
Lemma act_wide (f : P2) b k N : (size f <= N)%N -> act f b k = \sum_(i < N) f`_i * b (k + i)%N.
Proof.
move=> H. rewrite /act (big_ord_widen N (fun i => f`_i * b (k + i)%N) H) big_mkcond /=. apply: eq_bigr => i _.
by case: ltnP => // Hi; rewrite nth_default // mul0r.
Qed.
Lemma act_add f g b k : act (f + g) b k = act f b k + act g b k.
Proof.
set N := maxn (size f) (size g). rewrite (@act_wide (f + g) b k N) ?size_add // (@act_wide f b k N) ?leq_maxl // (@act_wide g b k N) ?leq_maxr //.
rewrite -big_split. apply: eq_bigr => i _ /=. by rewrite coefD mulrDl.
Qed.
Lemma act_mulX f b k : act (f * 'X) b k = act f b k.+1.
Proof.
rewrite (@act_wide (f * 'X) b k (size f).+1); last by rewrite (leq_trans (size_mul_leq _ _)) // size_polyX addnC.
rewrite big_ord_recl coefMX /= mul0r add0r /act. apply: eq_bigr => i _. by rewrite coefMX /= /bump /= add1n addnS addSn.
Qed.
Lemma act_const (c : F2) b k : act c%:P b k = c * b k.
Proof. by rewrite (@act_wide c%:P b k 1) ?size_polyC_leq1 // big_ord1 coefC eqxx addn0. Qed.
Lemma act_ext f b b' : b =1 b' -> act f b =1 act f b'.
Proof. move=> E k. apply: eq_bigr => i _. by rewrite E. Qed.
Lemma act_scale (c : F2) f b k : act (c%:P * f) b k = c * act f b k.
Proof.
rewrite (@act_wide (c%:P * f) b k (size f)); last by rewrite mul_polyC size_scale_leq.
rewrite /act big_distrr /=. apply: eq_bigr => i _. by rewrite coefCM mulrA.
Qed.
Lemma act_mul f g b k : act (f * g) b k = act f (act g b) k.
Proof.
elim/poly_ind: f k => [|f c IH] k; first by rewrite mul0r -polyC0 !act_const !mul0r.
rewrite mulrDl !act_add -mulrA [('X * g)]mulrC mulrA !act_mulX -IH. congr (_ + _). by rewrite act_scale act_const.
Qed.
Lemma act_Xn e b k : act ('X^e) b k = b (k + e)%N.
Proof.
elim: e k => [|e IH] k; first by rewrite expr0 -polyC1 act_const mul1r addn0.
by rewrite exprSr act_mulX IH addSnnS.
Qed.
Lemma act_0 f k : act f (fun _ => 0) k = 0.
Proof. by rewrite /act big1 // => i _; rewrite mulr0. Qed.
Lemma act_dvd p f b : p %| f -> (forall k, act p b k = 0) -> forall k, act f b k = 0.
Proof. move=> /dvdpP [q ->] H k. by rewrite act_mul (act_ext q H) act_0. Qed.
Lemma act_irr p f b : irreducible_poly p -> (forall k, act p b k = 0) -> (forall k, act f b k = 0) -> (exists k, b k != 0) -> p %| f.
Proof.
move=> irr Hp Hf [k nz]. case: (boolP (coprimep p f)) => [|N]; last first.
  move: N. rewrite /coprimep => N. have [_ I] := irr.
  have E : gcdp p f %= p by apply: I; rewrite ?dvdp_gcdl.
  by rewrite -(eqp_dvdl f E) dvdp_gcdr.
move=> /Bezout_eq1_coprimepP [[u v] /= E]. move: nz. rewrite -[b k]mul1r -(act_const 1) polyC1 -E act_add.
by rewrite (act_dvd (dvdp_mull u (dvdpp p)) Hp) (act_dvd (dvdp_mull v (dvdpp f)) Hf) addr0 eqxx.
Qed.

(* in terms of bits *)
Definition xsumb (l : list bool) : bool := List.fold_right xorb false l.
Lemma xsumb_sum (g : nat -> bool) n : (xsumb (List.map g (List.seq 0 n)))%:R = \sum_(i < n) (g i)%:R :> F2.
Proof.
have A (l m : list bool) : xsumb (l ++ m) = xorb (xsumb l) (xsumb m) by elim: l => [|x l IH] /=; [case: (xsumb m)|rewrite IH; case: x (xsumb l) (xsumb m) => [] [] []].
elim: n => [|n IH]; first by rewrite big_ord0.
rewrite List.seq_S List.map_app A big_ord_recr /= -IH.
case: (xsumb _); case: (g n) => /=; apply: val_inj => //.
Qed.
Lemma recurrence_act p n (b : nat -> bool) : bit_length p = n.+1 ->
  (forall k, b (k + n)%coq_nat = xsumb (List.map (fun t => N.testbit p (N.of_nat t) && b (k + t)%coq_nat) (List.seq 0 n))) ->
  forall k, act (P p) (fun i => (b i)%:R) k = 0.
Proof.
move=> Hn H k. rewrite (@act_wide (P p) _ k n.+1) ?Psize ?Hn // big_ord_recr /=.
have -> : (P p)`_n = 1.
{ have := P_monic (a:=p). have nz : p <> 0%num by move=> E; move: Hn; rewrite E. move/(_ nz). rewrite monicE /lead_coef Psize Hn /=. by move/eqP. }
rewrite mul1r -[(k + n)%N]/(k + n)%coq_nat. rewrite H xsumb_sum.
have -> : \sum_(i < n) (P p)`_i * (b (k + i)%N)%:R = \sum_(i < n) (N.testbit p (N.of_nat i) && b (k + i)%coq_nat)%:R :> F2.
{ apply: eq_bigr => i _. rewrite coefP2. by case: (N.testbit _ _); rewrite ?mul1r ?mul0r. }
by rewrite addrr_char2 // char2.
Qed.
Lemma period_iff p n (b : nat -> bool) e : nirreducible p -> bit_length p = n.+1 ->
  (forall k, b (k + n)%coq_nat = xsumb (List.map (fun t => N.testbit p (N.of_nat t) && b (k + t)%coq_nat) (List.seq 0 n))) ->
  (exists k, b k = true) -> (forall k, b (k + N.to_nat e)%coq_nat = b k) <-> ndvd p (xe1 e).
Proof.
move=> /nirr irr Hn Hr [k0 nz]. have Ha := recurrence_act Hn Hr. rewrite ndvdE Pxe1.
have E k : act ('X^(N.to_nat e) - 1) (fun i => (b i)%:R) k = (b (k + N.to_nat e)%coq_nat)%:R + (b k)%:R.
{ by rewrite oppp act_add act_Xn -polyC1 act_const mul1r. }
split.
- move=> H. apply: (act_irr irr Ha); last by exists k0; rewrite nz.
  move=> k. by rewrite E H addrr_char2 // char2.
- move=> D k. have := act_dvd D Ha k. rewrite E -F2_add.
  by case: (b _); case: (b k).
Qed.
Lemma primitive_odd p : is_primitive p = true -> N.odd p = true /\ (2 <= bit_length p)%coq_nat.
Proof.
move=> /is_primitive_spec [I [D _]]. have [n0 [n1 _]] := I. have H2 : (2 <= bit_length p)%coq_nat.
{ clear D I. case: p n0 n1 => [|[q|q|]] //= _ _; rewrite /bit_length /=; case: q => *; simpl; lia. }
split=> //. case: (boolP (N.odd p)) => // E. exfalso.
have [e [He Dv]] : exists e, (0 < e)%N /\ P p %| 'X^e - 1.
{ move: D. set M := N.sub _ 1. rewrite ndvdE Pxe1 => D. exists (N.to_nat M). split=> //.
  have : (2 ^ 1 <= 2 ^ N.of_nat (bit_length p - 1))%num by apply: N.pow_le_mono_r; lia.
  rewrite /M. lia. }
move: Dv => /dvdpP [q E']. have : ('X^e - 1 : P2)`_0 = (q * P p)`_0 by rewrite E'.
rewrite coefM big_ord1 /= subnn coefP2 N.bit0_odd (negbTE E) mulr0 coefB coef1 coefXn /=. by case: e He {E'} => // e _; rewrite /= sub0r oppr_eq0 // => /eqP.
Qed.
