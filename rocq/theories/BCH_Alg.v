(* Field-level facts behind BCH codes and Berlekamp's algorithm: the Vandermonde argument, Massey's length lemma,
   and the fact that short recurrences for power sums have exactly the inverse locators as roots. *)
Set Warnings "-notation-overridden,-ambiguous-paths".
From mathcomp Require Import all_ssreflect all_algebra zify.
Set Implicit Arguments.
Unset Strict Implicit.
Unset Printing Implicit Defensive.
Import GRing.Theory.
Local Open Scope ring_scope.

Section Alg.
Variable L : fieldType.
Implicit Types (xs : seq L) (c d s : {poly L}).

Lemma prod_root xs (z : L) : (\prod_(x <- xs) ('X - x%:P)).[z] = \prod_(x <- xs) (z - x).
Proof. by rewrite horner_prod; apply: eq_bigr => x _; rewrite hornerXsubC. Qed.

(* power sums with weights: if the weighted sums of a run of consecutive powers vanish, the weights vanish *)
Lemma vandermonde xs (y : L -> L) (a : nat) : uniq xs -> 0 \notin xs ->
  (forall t, (a <= t < a + size xs)%N -> \sum_(x <- xs) y x * x ^+ t = 0) -> forall x, x \in xs -> y x = 0.
Proof.
move=> U Z H x0 Hx. pose r := rem x0 xs. pose f : {poly L} := \prod_(x <- r) ('X - x%:P).
have Sf : size f = size xs.
  rewrite /f size_prod_XsubC /r size_rem // prednK //. by case: (xs) Hx.
have E : \sum_(x <- xs) y x * (x ^+ a * f.[x]) = 0.
  transitivity (\sum_(i < size f) f`_i * \sum_(x <- xs) y x * x ^+ (a + i)).
    rewrite (eq_bigr (fun x => \sum_(i < size f) f`_i * (y x * x ^+ (a + i)))); last first.
      move=> x _. rewrite horner_coef !mulr_sumr. apply: eq_bigr => i _. by rewrite exprD [x ^+ a * (f`_i * _)]mulrCA [y x * (f`_i * _)]mulrCA.
    rewrite exchange_big /=. by apply: eq_bigr => i _; rewrite mulr_sumr.
  by apply: big1 => i _; rewrite H ?mulr0 // leq_addr ltn_add2l -Sf ltn_ord.
move: E. rewrite (big_rem x0) //= -/r big1_seq ?addr0; last first.
  move=> x /andP [_ xr]. have -> : f.[x] = 0; last by rewrite !mulr0.
  rewrite /f prod_root (big_rem x) //= subrr mul0r //.
move/eqP. rewrite !mulf_eq0 expf_eq0 => /orP [/eqP //|/orP [/andP [_ /eqP E]|/eqP E]].
  by move: Z; rewrite -E Hx.
exfalso. move: E. rewrite /f prod_root. move/eqP. rewrite prodf_seq_eq0 => /hasP [x xr]. rewrite subr_eq0 => /= /eqP E.
by move: xr; rewrite /r -E mem_rem_uniq // inE eqxx.
Qed.

(* Massey: if c generates s up to j but fails at j, every other generator d is long *)
Lemma massey c d s (l nu j : nat) :
  (size c <= l.+1)%N -> (size d <= nu.+1)%N -> d`_0 = 1 ->
  (forall t, (l <= t < j)%N -> (c * s)`_t = 0) -> (c * s)`_j != 0 ->
  (forall t, (nu <= t <= j)%N -> (d * s)`_t = 0) -> (l <= j)%N -> (j.+1 - l <= nu)%N.
Proof.
move=> Sc Sd D0 Hc Nc Hd lj. rewrite leqNgt. apply/negP => lt. move/eqP: Nc; apply.
have E1 : (d * (c * s))`_j = (c * s)`_j.
  rewrite coefM big_ord_recl /= D0 mul1r subn0 big1 ?addr0 // => i _. rewrite /= /bump leq0n add1n.
  case: (ltnP nu i.+1) => Hi; first by rewrite (nth_default _ (leq_trans Sd Hi)) mul0r.
  by rewrite Hc ?mulr0 //; apply/andP; split; lia.
have E2 : (c * (d * s))`_j = 0.
  rewrite coefM big1 // => i _. case: (ltnP l i) => Hi; first by rewrite (nth_default _ (leq_trans Sc Hi)) mul0r.
  by rewrite Hd ?mulr0 //; have := ltn_ord i; lia.
by rewrite -E1 mulrCA E2.
Qed.

(* the power-sum polynomial s_t = sum x^(t+1), t < n *)
Definition psums xs (n : nat) : {poly L} := \poly_(t < n) \sum_(x <- xs) x ^+ t.+1.

Lemma coef_conv xs n c nu t : 0 \notin xs -> (size c <= nu.+1)%N -> (nu <= t < n)%N ->
  (c * psums xs n)`_t = \sum_(x <- xs) c.[x^-1] * x ^+ t.+1.
Proof.
move=> Z Sc /andP [nt tn]. rewrite coefM.
rewrite (eq_bigr (fun i : 'I_t.+1 => \sum_(x <- xs) c`_i * x ^+ (t - i).+1)); last first.
  move=> i _. rewrite coef_poly. have -> : (t - i < n)%N by lia. by rewrite mulr_sumr.
rewrite exchange_big /=. apply: eq_big_seq => x Hx.
have xn : x != 0 by apply: contraNneq Z => <-.
rewrite (@horner_coef_wide _ t.+1 c); last by apply: leq_trans Sc _; rewrite ltnS.
rewrite mulr_suml. apply: eq_bigr => i _. rewrite -mulrA. congr (_ * _).
case: i => i /= Hi. have -> : t.+1 = ((t - i).+1 + i)%N by lia.
by rewrite exprD mulrCA exprVn mulVf ?mulr1 // expf_neq0.
Qed.

(* the locator polynomial *)
Definition locator xs : {poly L} := \prod_(x <- xs) (1 - x *: 'X).
Lemma locator_size xs : (size (locator xs) <= (size xs).+1)%N.
Proof.
elim: xs => [|x xs IH]; first by rewrite /locator big_nil size_poly1.
have -> : locator (x :: xs) = (1 - x *: 'X) * locator xs by rewrite /locator big_cons. set f := 1 - _. apply: leq_trans (size_mul_leq _ _) _.
have : (size f <= 2)%N.
  apply: leq_trans (size_add _ _) _. rewrite size_poly1 size_opp geq_max /=. by apply: leq_trans (size_scale_leq _ _) _; rewrite size_polyX.
move: (size f) (size (locator xs)) IH => /= A B; lia.
Qed.
Lemma locator_0 xs : (locator xs)`_0 = 1.
Proof.
rewrite -horner_coef0 /locator horner_prod big1 // => x _.
by rewrite !hornerE ?mulr0 ?subr0 ?oppr0 ?addr0.
Qed.
Lemma locator_root xs x : 0 \notin xs -> x \in xs -> (locator xs).[x^-1] = 0.
Proof.
move=> Z Hx. have xn : x != 0 by apply: contraNneq Z => <-.
by rewrite /locator horner_prod (big_rem x) //= !hornerE divff // subrr mul0r.
Qed.
Lemma locator_gen xs n t : 0 \notin xs -> (size xs <= t < n)%N -> (locator xs * psums xs n)`_t = 0.
Proof.
move=> Z H. rewrite (@coef_conv xs n _ (size xs)) //; last exact: locator_size.
by rewrite big_seq big1 // => x Hx; rewrite locator_root // mul0r.
Qed.

(* a generator of length at most nu, of at least 2 nu power sums of nu distinct non-zero points, has exactly the inverses as roots *)
Lemma gen_roots xs n c l : uniq xs -> 0 \notin xs -> (2 * size xs <= n)%N -> (l <= size xs)%N -> (size c <= l.+1)%N -> c`_0 = 1 ->
  (forall t, (l <= t < n)%N -> (c * psums xs n)`_t = 0) ->
  forall z, root c z = (z != 0) && (z^-1 \in xs).
Proof.
move=> U Z Hn Hl Sc C0 H.
have R x : x \in xs -> root c x^-1.
  move=> Hx. have := @vandermonde xs (fun x => c.[x^-1] * x) (size xs) U Z _ x Hx. move=> W.
  have E : c.[x^-1] * x = 0.
    apply: W => t Ht. have := H t. rewrite (@coef_conv xs n c l) //; last by lia. move=> Ht'. rewrite -[RHS]Ht'; last by lia. by apply: eq_bigr => y _; rewrite exprS mulrA.
  move/eqP: E. rewrite mulf_eq0 => /orP [//|/eqP E]. by move: Z; rewrite -E Hx.
have cn : c != 0 by apply: contra_eq_neq C0 => ->; rewrite coef0 eq_sym oner_neq0.
move=> z. apply/idP/andP => [Rz|[zn Hz]]; last by rewrite -(invrK z); exact: R.
have zn : z != 0.
  apply: contraTneq Rz => ->. by rewrite rootE horner_coef0 C0 oner_neq0.
split=> //. apply/negPn/negP => Nz.
have := @max_poly_roots _ c (z :: map (fun x => x^-1) xs) cn.
rewrite /= Rz /=. have -> : all (root c) (map (fun x => x^-1) xs) by apply/allP => _ /mapP [x Hx ->]; exact: R.
have -> : z \notin map (fun x => x^-1) xs.
  apply/mapP => -[x Hx E]. by move: Nz; rewrite E invrK Hx.
have -> : uniq (map (fun x => x^-1) xs) by rewrite map_inj_uniq //; exact: invr_inj.
move=> /(_ isT isT). rewrite size_map => W. have := leq_trans W Sc. rewrite ltnS => W2. by move: (leq_trans W2 Hl); rewrite ltnn.
Qed.
End Alg.
