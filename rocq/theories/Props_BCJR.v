(* BCJR decoding of terminated convolutional codes: C83. *)
From Coq Require Import Reals Lra.
From Verif Require Import Common Bits_Model Vec_Model BinPoly_Model FB_Model Labeling_Model Conv_Model Conv_Spec BCJR_Model BCJR_Spec.
From Verif Require Props_Conv ConvCons_Proof ConvTerm_Proof BCJR_Proof.
From Verif Require Import Props_ConvViterbi.
Local Open Scope nat_scope.

(* every sequence of real numbers is the L-values of some channel *)
Theorem C83_any_lvalues : forall li, llrs (fun j b => exp (if b then - (nth j li 0 / 2) else nth j li 0 / 2)%R) li.
Proof.
  intros li j Hj. split; [apply exp_pos|]. split; [apply exp_pos|]. 
  set (y := (nth j li 0 / 2)%R). replace (exp y / exp (- y))%R with (exp (y + y)); [rewrite ln_exp; unfold y; lra|].
  rewrite exp_Ropp, exp_plus. pose proof (exp_pos y). field. lra.
Qed.
(* the output at position t k + j, for blocks of k bits, is the a-posteriori L-value of the message bit t k + (k - 1 - j):
   ln of the total likelihood of the messages having a 0 there over that of the messages having a 1 *)
Theorem C83_truncation : forall c h li w, conv_ok c -> distinct_successors c -> 0 < h -> length li = h * cv_n c -> llrs w li ->
  let app i b := bit_likelihood w (terminated_encode c h DirectTruncation) (h * cv_k c) i b in
  exists out, bcjr_soft c DirectTruncation li = Some out /\ length out = h * cv_k c /\
  forall t j, t < h -> j < cv_k c -> nth (t * cv_k c + j) out NaN =
    Fin (ln (app (t * cv_k c + (cv_k c - 1 - j)) false / app (t * cv_k c + (cv_k c - 1 - j)) true)).
Proof. intros c h li w OK INJ Hh Ll HL app. apply (BCJR_Proof.direct_soft c OK INJ h li w); auto. Qed.
Theorem C83_zero_termination : forall c h li w, conv_ok c -> distinct_successors c -> distinct_tails c ->
  (forall h s, reachable c (h + cv_mem c) s -> reachable c (cv_mem c) s) -> 0 < h -> 0 < cv_mem c -> length li = (h + cv_mem c) * cv_n c -> llrs w li ->
  let app i b := bit_likelihood w (terminated_encode c h ZeroTermination) (h * cv_k c) i b in
  exists out, bcjr_soft c ZeroTermination li = Some out /\ length out = h * cv_k c /\
  forall t j, t < h -> j < cv_k c -> nth (t * cv_k c + j) out NaN =
    Fin (ln (app (t * cv_k c + (cv_k c - 1 - j)) false / app (t * cv_k c + (cv_k c - 1 - j)) true)).
Proof. intros c h li w OK INJ UN RE Hh Hm Ll HL app. apply (BCJR_Proof.zero_soft c OK INJ RE UN h li w); auto. Qed.

(* so for codes with one input bit the outputs are the L-values of the message bits, in order, and hard decisions are the
   most likely value of every bit *)
Definition bitwise_app (w : nat -> bool -> R) (enc : vec -> vec) (K : nat) (soft : option (list lval)) (hard : option (list bool)) : Prop :=
  exists out bits, soft = Some out /\ hard = Some bits /\ length out = K /\ length bits = K /\
  forall i, i < K ->
    (0 < bit_likelihood w enc K i false)%R /\ (0 < bit_likelihood w enc K i true)%R /\
    nth i out NaN = Fin (ln (bit_likelihood w enc K i false / bit_likelihood w enc K i true)) /\
    (nth i bits false = true <-> (bit_likelihood w enc K i false < bit_likelihood w enc K i true)%R).
Lemma bitwise_app_intro w li enc K m c : llrs w li -> (forall u, length u = K -> length (enc u) = length li) ->
  (exists out, bcjr_soft c m li = Some out /\ length out = K /\ forall i, i < K -> nth i out NaN = Fin (ln (bit_likelihood w enc K i false / bit_likelihood w enc K i true))) ->
  bitwise_app w enc K (bcjr_soft c m li) (bcjr_hard c m li).
Proof.
  intros HL LE (out & E & L & N). exists out, (map lneg out). split; auto. unfold bcjr_hard. rewrite E. split; auto. split; auto. rewrite map_length. split; auto.
  intros i Hi. pose proof (BCJR_Proof.bit_likelihood_pos w li enc K i false HL Hi LE) as P0. pose proof (BCJR_Proof.bit_likelihood_pos w li enc K i true HL Hi LE) as P1.
  split; auto. split; auto. split; [auto|]. change false with (lneg NaN) at 1. rewrite map_nth, N by auto. cbn [lneg].
  set (a := bit_likelihood w enc K i false) in *. set (b := bit_likelihood w enc K i true) in *.
  assert (Q : (0 < a / b)%R) by (apply Rdiv_lt_0_compat; auto).
  assert (I1 : (a < b <-> a / b < 1)%R). { split; intros H; [apply (Rmult_lt_reg_r b); auto; replace (a / b * b)%R with a by (field; lra); lra|]. apply (Rmult_lt_compat_r b) in H; auto. replace (a / b * b)%R with a in H by (field; lra). lra. }
  rewrite I1. destruct (Rlt_dec (ln (a / b)) 0) as [H|H]; split; intros X; auto; try discriminate.
  - rewrite <- ln_1 in H. apply ln_lt_inv in H; auto; lra.
  - exfalso. apply H. rewrite <- ln_1. apply ln_increasing; auto.
Qed.
Theorem C83_one_input_truncation : forall c h li w, conv_ok c -> distinct_successors c -> cv_k c = 1 -> 0 < h -> length li = h * cv_n c -> llrs w li ->
  bitwise_app w (terminated_encode c h DirectTruncation) h (bcjr_soft c DirectTruncation li) (bcjr_hard c DirectTruncation li).
Proof.
  intros c h li w OK INJ Ek Hh Ll HL. destruct (C83_truncation c h li w OK INJ Hh Ll HL) as (out & E & L & N). cbv zeta in N. rewrite Ek, Nat.mul_1_r in *.
  apply (bitwise_app_intro w li); auto.
  - intros u Lu. rewrite ConvTerm_Proof.encode_length; [cbn; auto|auto|cbn; auto|rewrite Ek; lia].
  - exists out. split; auto. split; auto. intros i Hi. specialize (N i 0 Hi ltac:(lia)). cbn [Nat.sub] in N. rewrite Nat.mul_1_r, Nat.add_0_r in N. exact N.
Qed.
Theorem C83_one_input_zero_termination : forall c h li w, conv_ok c -> distinct_successors c -> distinct_tails c ->
  (forall h s, reachable c (h + cv_mem c) s -> reachable c (cv_mem c) s) -> cv_k c = 1 -> 0 < h -> 0 < cv_mem c -> length li = (h + cv_mem c) * cv_n c -> llrs w li ->
  bitwise_app w (terminated_encode c h ZeroTermination) h (bcjr_soft c ZeroTermination li) (bcjr_hard c ZeroTermination li).
Proof.
  intros c h li w OK INJ UN RE Ek Hh Hm Ll HL. destruct (C83_zero_termination c h li w OK INJ UN RE Hh Hm Ll HL) as (out & E & L & N). cbv zeta in N. rewrite Ek, Nat.mul_1_r in *.
  apply (bitwise_app_intro w li); auto.
  - intros u Lu. assert (Lu' : length u = h * cv_k c) by (rewrite Ek; lia). destruct (ConvTerm_Proof.zero_terminated c OK h u Hh Hm Lu' (RE h)) as (v & Ev & Lv).
    unfold terminated_encode. rewrite Ev. congruence.
  - exists out. split; auto. split; auto. intros i Hi. specialize (N i 0 Hi ltac:(lia)). cbn [Nat.sub] in N. rewrite Nat.mul_1_r, Nat.add_0_r in N. exact N.
Qed.
(* in particular for every feedforward code with one input bit and memory *)
Theorem C83_low_rate : forall g h li w, 0 < cv_deg (LowRate g) -> 0 < h -> length li = (h + cv_mem (LowRate g)) * length g -> llrs w li ->
  bitwise_app w (terminated_encode (LowRate g) h ZeroTermination) h (bcjr_soft (LowRate g) ZeroTermination li) (bcjr_hard (LowRate g) ZeroTermination li).
Proof.
  intros g h li w P Hh Ll HL. assert (NE : g <> []) by (intros ->; cbn in P; lia). pose proof (ConvCons_Proof.low_rate_as_cc g NE) as E.
  assert (Enu : row_nu (g, 1%N) = max_deg g) by (unfold row_nu; cbn [fst snd]; change (deg 1) with 0; lia).
  destruct (C66_classes _ _ E) as [C1 C2].
  apply C83_one_input_zero_termination; auto.
  - apply Props_Conv.C49_shapes; auto.
  - apply C1. repeat constructor. rewrite Enu. exact P.
  - apply C2; repeat constructor. rewrite Enu. reflexivity.
  - apply Props_Conv.C50_zero_termination_classes; auto.
Qed.
(* tail-biting is not supported *)
Theorem C83_tail_biting : forall c li, bcjr_soft c TailBiting li = None /\ bcjr_hard c TailBiting li = None.
Proof. intros. split; reflexivity. Qed.

(* with two input bits the bits of every block come out in reverse order: here each bit of the message 10, and the message
   itself, is the most likely one, and the decoder returns 01 *)
Definition rev_rows : list (list N * N) := [([3; 0], 1); ([0; 3], 1)]%N.
Definition rev_w (j : nat) (b : bool) : R := match j with 0 => if b then 3%R else 1%R | _ => if b then 1%R else 3%R end.
Theorem C83_block_order_refuted : exists c li, ConvolutionalCode rev_rows = Some c /\ conv_ok c /\ distinct_successors c /\ llrs rev_w li /\ length li = cv_n c /\ cv_k c = 2 /\
  (forall u, length u = 2 -> u <> [true; false] ->
     (likelihood rev_w (terminated_encode c 1 DirectTruncation u) < likelihood rev_w (terminated_encode c 1 DirectTruncation [true; false]))%R) /\
  (bit_likelihood rev_w (terminated_encode c 1 DirectTruncation) 2 0 false < bit_likelihood rev_w (terminated_encode c 1 DirectTruncation) 2 0 true)%R /\
  (bit_likelihood rev_w (terminated_encode c 1 DirectTruncation) 2 1 true < bit_likelihood rev_w (terminated_encode c 1 DirectTruncation) 2 1 false)%R /\
  bcjr_soft c DirectTruncation li = Some [Fin (ln 3); Fin (ln (1 / 3))] /\
  bcjr_hard c DirectTruncation li = Some [false; true].
Proof.
  eexists. exists [ln (1 / 3); ln 3]. split; [reflexivity|]. set (c := {| cv_n := _ |}).
  assert (EC : ConvolutionalCode rev_rows = Some c) by reflexivity.
  assert (OK : conv_ok c) by (apply (proj1 Props_Conv.C49_shapes rev_rows); exact EC).
  assert (DS : distinct_successors c) by (apply (C66_classes rev_rows c EC); repeat constructor; vm_compute; lia).
  assert (HL : llrs rev_w [ln (1 / 3); ln 3]). { intros [|[|j]] Hj; cbn in Hj; try lia; cbn [rev_w nth]; repeat split; try lra; f_equal; lra. }
  assert (EN : forall u, length u = 2 -> terminated_encode c 1 DirectTruncation u = u).
  { intros u Lu. destruct u as [|a [|b [|]]]; cbn in Lu; try lia. destruct a, b; vm_compute; reflexivity. }
  assert (BL : forall i b, bit_likelihood rev_w (terminated_encode c 1 DirectTruncation) 2 i b = bit_likelihood rev_w (fun u => u) 2 i b).
  { intros i b. unfold bit_likelihood. apply FB_Proof.Rsum_ext. intros u I. apply filter_In in I as [I _]. f_equal. apply EN. cbn in I. intuition (subst; auto). }
  assert (V00 : bit_likelihood rev_w (fun u => u) 2 0 false = 4%R) by (unfold bit_likelihood, likelihood, rev_w, Rsum; cbn; lra).
  assert (V01 : bit_likelihood rev_w (fun u => u) 2 0 true = 12%R) by (unfold bit_likelihood, likelihood, rev_w, Rsum; cbn; lra).
  assert (V10 : bit_likelihood rev_w (fun u => u) 2 1 false = 12%R) by (unfold bit_likelihood, likelihood, rev_w, Rsum; cbn; lra).
  assert (V11 : bit_likelihood rev_w (fun u => u) 2 1 true = 4%R) by (unfold bit_likelihood, likelihood, rev_w, Rsum; cbn; lra).
  destruct (C83_truncation c 1 [ln (1 / 3); ln 3] rev_w OK DS ltac:(lia) eq_refl HL) as (out & E & L & N). cbv zeta in N.
  assert (N0 : nth 0 out NaN = Fin (ln (bit_likelihood rev_w (terminated_encode c 1 DirectTruncation) 2 1 false / bit_likelihood rev_w (terminated_encode c 1 DirectTruncation) 2 1 true))).
  { apply (N 0 0); [lia|apply Nat.lt_0_2]. }
  assert (N1 : nth 1 out NaN = Fin (ln (bit_likelihood rev_w (terminated_encode c 1 DirectTruncation) 2 0 false / bit_likelihood rev_w (terminated_encode c 1 DirectTruncation) 2 0 true))).
  { apply (N 0 1); [lia|apply Nat.lt_1_2]. }
  change (length out = 2) in L. rewrite !BL in N0, N1. rewrite V10, V11 in N0. rewrite V00, V01 in N1. 
  assert (EO : out = [Fin (ln 3); Fin (ln (1 / 3))]).
  { destruct out as [|a [|b [|]]]; try (cbn in L; discriminate L). cbn [nth] in N0, N1. rewrite N0, N1. replace (12 / 4)%R with 3%R by lra. replace (4 / 12)%R with (1 / 3)%R by lra. reflexivity. }
  split; [exact OK|]. split; [exact DS|]. split; [exact HL|]. split; [reflexivity|]. split; [reflexivity|]. split; [|split; [|split; [|split]]].
  - intros u Lu NE. rewrite !EN by auto. destruct u as [|a [|b [|]]]; cbn in Lu; try lia. destruct a, b; try congruence; unfold likelihood, rev_w; cbn; lra.
  - rewrite !BL, V00, V01. lra.
  - rewrite !BL, V10, V11. lra.
  - rewrite E, EO. reflexivity.
  - unfold bcjr_hard. rewrite E, EO. cbn [option_map map lneg]. f_equal.
    destruct (Rlt_dec (ln 3) 0) as [H|H]; [exfalso; rewrite <- ln_1 in H; apply ln_lt_inv in H; lra|].
    destruct (Rlt_dec (ln (1 / 3)) 0) as [H1|H1]; [reflexivity|]. exfalso. apply H1. rewrite <- ln_1. apply ln_increasing; lra.
Qed.
Example C83_satisfiable : exists c, ConvolutionalCode [([7; 5], 1)]%N = Some c /\ conv_ok c /\ distinct_successors c /\ distinct_tails c /\ 0 < cv_mem c /\ cv_k c = 1 /\
  forall li, llrs (fun j b => exp (if b then - (nth j li 0 / 2) else nth j li 0 / 2)%R) li.
Proof.
  eexists. split; [reflexivity|]. split; [apply (proj1 Props_Conv.C49_shapes [([7; 5], 1)]%N); reflexivity|].
  destruct (C66_classes [([7; 5], 1)]%N _ eq_refl) as [A B]. split; [apply A; repeat constructor|]. split; [apply B; repeat constructor|].
  split; [vm_compute; lia|]. split; [reflexivity|]. exact C83_any_lvalues.
Qed.
