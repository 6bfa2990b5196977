(* C121: the soft outputs of SCDecoder are the exact L-values of successive cancellation.
   Statements use SC_Model, Polar_Model and the specification SC_Spec. *)
From Coq Require Import Reals Lra.
From Verif Require Import Common Vec_Model LinAlg_Model BlockCode_Model Polar_Model Polar_Proof SC_Model SC_Proof SC_Spec SC_Exact SC_Erasure.
From Verif Require Import Vec_Proof.
Local Open Scope nat_scope.

Lemma evidence_pos mu li p : length li = 2 ^ mu -> length p <= 2 ^ mu -> (0 < evidence mu li p)%R.
Proof. intros L Lp. rewrite evidence_Fh by assumption. apply Rmult_lt_0_compat; [apply norm_pos|apply Fh_pos]. Qed.
Lemma leaf mu li j u : length li = 2 ^ mu -> length u = 2 ^ mu -> j < 2 ^ mu -> forall x,
  (exp x * Fh mu li (firstn j u ++ [true]))%R = Fh mu li (firstn j u ++ [false]) ->
  (exp x * evidence mu li (firstn j u ++ [true]))%R = evidence mu li (firstn j u ++ [false]) /\
  (neg x = false <-> (evidence mu li (firstn j u ++ [true]) <= evidence mu li (firstn j u ++ [false]))%R).
Proof.
  intros Ll Lu Hj x E. assert (Q : forall b, length (firstn j u ++ [b]) <= 2 ^ mu) by (intros b; rewrite app_length, firstn_length; cbn; lia).
  assert (A : (exp x * evidence mu li (firstn j u ++ [true]))%R = evidence mu li (firstn j u ++ [false])) by (rewrite !evidence_Fh by auto; rewrite <- E; ring).
  split; [exact A|]. rewrite <- A. pose proof (evidence_pos mu li _ Ll (Q true)) as P. set (e := evidence mu li (firstn j u ++ [true])) in *. unfold neg. destruct (Rlt_dec x 0) as [N|N].
  - split; [discriminate|]. intros H. exfalso. assert (exp x < 1)%R by (rewrite <- exp_0; apply exp_increasing; exact N). nra.
  - split; [|reflexivity]. intros _. assert (1 <= exp x)%R by (rewrite <- exp_0; destruct (Req_dec x 0) as [->|Ne]; [lra|left; apply exp_increasing; lra]). nra.
Qed.
(** The decoder's answer belongs to one input word u, zero at the frozen positions.  The soft output of the active position i is
    the logarithm of the probability that bit i is 0 over the probability that it is 1, given the received L-values and the bits
    decided before it, all later bits (frozen or not) being equally likely 0 and 1; bit i of u is the likelier of the two, 0 in a
    tie. *)
Theorem C121_sc_exact : forall mu frozen li fuel, length li = 2 ^ mu -> 4 * 2 ^ mu <= fuel ->
  let active := polar_active mu frozen in
  exists u out, length u = 2 ^ mu /\ (forall i, In i frozen -> nth i u false = false) /\
    sc_decode_hard mu frozen fuel li = Some (map (fun i => nth i u false) active) /\
    sc_decode_soft mu frozen fuel li = Some out /\ length out = length active /\
    forall t, t < length active -> let i := nth t active 0 in
      let p0 := evidence mu li (firstn i u ++ [false]) in let p1 := evidence mu li (firstn i u ++ [true]) in
      (0 < p0)%R /\ (0 < p1)%R /\ nth t out 0%R = ln (p0 / p1) /\ (nth i u false = false <-> (p1 <= p0)%R).
Proof.
  intros mu frozen li fuel Ll Hf active. destruct (sc_exact frozen mu 0 li Ll) as (u & Lu & _ & P). pose proof (sc_decode_rec mu frozen li fuel Ll Hf) as D. set (lv := snd (sc_rec frozen mu 0 li)) in *.
  assert (Act : forall i, In i active -> i < 2 ^ mu /\ existsb (Nat.eqb i) frozen = false).
  { intros i Hi. apply (not_pivots_props (2 ^ mu) frozen) in Hi as [A B]. split; [exact A|]. destruct (existsb (Nat.eqb i) frozen) eqn:E; [|reflexivity]. apply existsb_exists in E as (k & K & Ek). apply Nat.eqb_eq in Ek. subst k. contradiction. }
  exists u, (map (fun i => nth i lv 0%R) active). split; [exact Lu|]. split; [|split; [|split; [exact D|split; [apply map_length|]]]].
  - intros i Hi. destruct (Nat.lt_ge_cases i (2 ^ mu)) as [H|H]; [|apply nth_overflow; lia]. destruct (P i H) as [A _]. rewrite A. cbn [Nat.mul Nat.add]. replace (existsb (Nat.eqb i) frozen) with true; [reflexivity|]. symmetry. apply existsb_exists. exists i. split; [exact Hi|apply Nat.eqb_refl].
  - unfold sc_decode_hard. rewrite D. cbn [option_map]. f_equal. rewrite map_map. apply map_ext_in. intros i Hi. destruct (Act i Hi) as [A B]. destruct (P i A) as [C _]. rewrite C. cbn [Nat.mul Nat.add]. now rewrite B.
  - intros t Ht i. assert (Hi : In i active) by (apply nth_In; exact Ht). destruct (Act i Hi) as [A B]. destruct (P i A) as [C E]. cbv zeta in C, E. fold lv in C, E. cbn [Nat.mul Nat.add] in C. rewrite B in C.
    destruct (leaf mu li i u Ll Lu A _ E) as (G & S). assert (Q : forall b, length (firstn i u ++ [b]) <= 2 ^ mu) by (intros b; rewrite app_length, firstn_length; cbn; lia).
    pose proof (evidence_pos mu li _ Ll (Q false)) as P0. pose proof (evidence_pos mu li _ Ll (Q true)) as P1. split; [exact P0|]. split; [exact P1|]. split; [|rewrite C; exact S].
    rewrite (nth_indep _ 0%R (nth 0 lv 0%R)) by (rewrite map_length; exact Ht). rewrite (map_nth (fun i => nth i lv 0%R) active 0 t). fold i. rewrite <- G. rewrite <- (ln_exp (nth i lv 0%R)) at 1. f_equal. field. lra.
Qed.
(** [evidence] is a probability: it is 1 before any bit is known, and every further bit splits it in two. *)
Theorem C121_evidence : forall mu li, length li = 2 ^ mu -> evidence mu li [] = 1%R /\
  forall p, length p < 2 ^ mu -> evidence mu li p = (evidence mu li (p ++ [false]) + evidence mu li (p ++ [true]))%R.
Proof.
  intros mu li Ll. split.
  - rewrite evidence_Fh by (auto; cbn; lia). unfold Fh. cbn [length app]. rewrite Nat.sub_0_r, (msum_ptrans mu (W li)), <- Ll. clear Ll. induction li as [|x li IH]; [cbn; lra|]. cbn [length msum norm W w]. rewrite !msum_scal. pose proof (exp_pos x).
    etransitivity; [|exact IH]. field. lra.
  - intros p Lp. assert (Q : forall b, length (p ++ [b]) <= 2 ^ mu) by (intros b; rewrite app_length; cbn; lia). rewrite !evidence_Fh by (auto; lia). rewrite <- Rmult_plus_distr_l. f_equal. unfold Fh. rewrite !app_length. cbn [length]. replace (2 ^ mu - length p) with (S (2 ^ mu - (length p + 1))) by lia. cbn [msum].
    f_equal; apply msum_ext; intros s _; now rewrite <- app_assoc.
Qed.
(** The first active bit is a maximum-a-posteriori decision among all input words whose earlier (frozen) bits are 0. *)
Theorem C121_first_bit : forall mu frozen li fuel u0 us, length li = 2 ^ mu -> 4 * 2 ^ mu <= fuel -> sc_decode_hard mu frozen fuel li = Some (u0 :: us) ->
  let i := hd 0 (polar_active mu frozen) in (forall k, k < i -> In k frozen) ->
  (evidence mu li (repeat false i ++ [negb u0]) <= evidence mu li (repeat false i ++ [u0]))%R.
Proof.
  intros mu frozen li fuel u0 us Ll Hf E i Hk. destruct (C121_sc_exact mu frozen li fuel Ll Hf) as (u & out & Lu & Fz & Eh & _ & _ & P). rewrite Eh in E. injection E as E. destruct (polar_active mu frozen) as [|a act] eqn:Ea; [discriminate|]. cbn [map] in E. injection E as E _. specialize (P 0 ltac:(cbn; lia)). cbv zeta in P. cbn [nth] in P. cbn [hd] in i. unfold i in *.
  assert (Ha : a < 2 ^ mu) by (assert (H : In a (polar_active mu frozen)) by (rewrite Ea; left; reflexivity); apply (not_pivots_props (2 ^ mu) frozen) in H; tauto).
  assert (R : firstn a u = repeat false a).
  { apply nth_ext with (d := false) (d' := false); [rewrite firstn_length, repeat_length; lia|]. rewrite firstn_length. intros k K. rewrite nth_repeat. transitivity (nth k u false); [|apply Fz, Hk; lia]. rewrite <- (firstn_skipn a u) at 2. rewrite app_nth1; [reflexivity|rewrite firstn_length; lia]. }
  rewrite R in P. destruct P as (_ & _ & _ & P). rewrite E in P. destruct u0; cbn [negb].
  - destruct (Rle_dec (evidence mu li (repeat false a ++ [true])) (evidence mu li (repeat false a ++ [false]))) as [H|H]; [apply P in H; discriminate|lra].
  - apply P. reflexivity.
Qed.
(** mu = 1, no frozen bit, L-values (1, -2): the evidences can be written down. *)
Theorem C121_satisfiable : exists mu frozen li, length li = 2 ^ mu /\ polar_active mu frozen = [1] /\ In 0 frozen /\
  evidence mu li [false; false] = (bit_prob 1 false * bit_prob (-2) false)%R /\ evidence mu li [false; true] = (bit_prob 1 true * bit_prob (-2) true)%R /\
  exists out, sc_decode_soft mu frozen 8 li = Some [out] /\ out = (-1)%R.
Proof.
  exists 1, [0], [1%R; (-2)%R]. split; [reflexivity|]. split; [reflexivity|]. split; [left; reflexivity|].
  assert (E0 : evidence 1 [1%R; (-2)%R] [false; false] = (bit_prob 1 false * bit_prob (-2) false)%R) by (unfold evidence, word_prob; cbn [Nat.pow Nat.mul Nat.add length Nat.sub tails map app combine vecmat fold_right fst snd]; cbn; ring).
  assert (E1 : evidence 1 [1%R; (-2)%R] [false; true] = (bit_prob 1 true * bit_prob (-2) true)%R) by (unfold evidence, word_prob; cbn; ring).
  split; [exact E0|]. split; [exact E1|].
  destruct (C121_sc_exact 1 [0] [1%R; (-2)%R] 8 eq_refl ltac:(cbn; lia)) as (u & out & Lu & Fz & _ & E & Lo & P). change (polar_active 1 [0]) with [1] in *. destruct out as [|x [|]]; try discriminate. exists x. split; [exact E|].
  specialize (P 0 ltac:(cbn; lia)). cbv zeta in P. cbn [nth] in P. destruct P as (_ & _ & P & _). rewrite P. destruct u as [|a [|b []]]; try discriminate. specialize (Fz 0 ltac:(left; reflexivity)). cbn [nth] in Fz. subst a. cbn [firstn app]. rewrite E0, E1.
  rewrite <- (ln_exp (-1)). f_equal. unfold bit_prob. replace (-1)%R with (1 + -2)%R by lra. rewrite exp_plus. pose proof (exp_pos 1). pose proof (exp_pos (-2)). field. lra.
Qed.
(** Erasures: the decoder recovers every message from the signs of the symbols that arrive, provided the erasure pattern leaves no
    active position of [polar_erased] unknown; every soft output then has the sign of its bit. *)
Theorem C121_erasures : forall mu frozen C u li e fuel, PolarCode mu frozen = Some C -> length u = bc_k C -> 4 * 2 ^ mu <= fuel ->
  seen li e (bc_encode C u) -> (forall i, In i (polar_active mu frozen) -> nth i (polar_erased mu e) false = false) ->
  sc_decode_hard mu frozen fuel li = Some u /\
  exists out, sc_decode_soft mu frozen fuel li = Some out /\ length out = length u /\ forall t, t < length u -> if nth t u false then (nth t out 0 < 0)%R else (0 < nth t out 0)%R.
Proof.
  intros mu frozen C u li e fuel E Lu Hf N G. unfold PolarCode in E. destruct (_ && _ && _); [|discriminate].
  unfold code_of_generator in E. destruct (null_matrix _ _); [|discriminate]. injection E as <-. cbn [bc_k bc_encode matrix_code] in *. rewrite map_length in Lu.
  unfold polar_encode in N. fold (place mu frozen u) in N. pose proof (place_length mu frozen u) as Lp. rewrite polar_transform_spec in N by auto.
  assert (Ll : length li = 2 ^ mu) by (destruct N as (N & _); rewrite N; now apply ptrans_length). apply seen_S3 in N.
  destruct (sc_erasure frozen mu 0 (place mu frozen u) li e Lp) as [_ V]; [|exact N| |].
  - intros j Hj Hin. cbn [Nat.mul Nat.add] in Hin. apply place_frozen. intros Q. apply (not_pivots_props (2 ^ mu) frozen) in Q. tauto.
  - intros j Hj Hin. cbn [Nat.mul Nat.add] in Hin. apply G. apply (not_pivots_props (2 ^ mu) frozen). tauto.
  - apply S3_seen in V as (V1 & V2 & V3). set (lv := snd (sc_rec frozen mu 0 li)) in *. set (x := place mu frozen u) in *. set (active := polar_active mu frozen) in *.
    assert (Q : forall t, t < length u -> if nth t u false then (nth (nth t active 0%nat) lv 0 < 0)%R else (0 < nth (nth t active 0%nat) lv 0)%R).
    { intros t Ht. assert (I : In (nth t active 0) active) by (apply nth_In; lia). assert (B : nth t active 0 < 2 ^ mu) by (apply (act_lt mu frozen); exact I). specialize (V3 (nth t active 0) ltac:(lia)). rewrite (G _ I) in V3.
      replace (nth t u false) with (nth (nth t active 0) x false); [exact V3|]. transitivity (nth t (gather active x) false); [|unfold x, active; now rewrite (place_gather mu frozen u Lu)]. unfold gather. rewrite (nth_indep (map (fun i => nth i x false) active) false (nth 0 x false)) by (rewrite map_length; lia). now rewrite (map_nth (fun i => nth i x false) active 0 t). }
    pose proof (sc_decode_rec mu frozen li fuel Ll Hf) as D. fold lv active in D. assert (Nt : forall t, t < length u -> nth t (map (fun i => nth i lv 0%R) active) 0%R = nth (nth t active 0) lv 0%R).
    { intros t Ht. rewrite (nth_indep (map (fun i => nth i lv 0%R) active) 0%R (nth 0 lv 0%R)) by (rewrite map_length; lia). now rewrite (map_nth (fun i => nth i lv 0%R) active 0 t). }
    split.
    + unfold sc_decode_hard. rewrite D. cbn [option_map]. f_equal. assert (neg0 : false = neg 0%R) by (unfold neg; destruct (Rlt_dec 0 0); [lra|reflexivity]). apply nth_ext with (d := false) (d' := false); [rewrite !map_length; lia|]. rewrite !map_length. intros t Ht. assert (Ht' : t < length u) by (lia).
      rewrite neg0 at 1. rewrite map_nth, Nt by exact Ht'. specialize (Q t Ht'). unfold neg. destruct (nth t u false), (Rlt_dec _ _); auto; lra.
    + eexists. split; [exact D|]. split; [rewrite map_length; lia|]. intros t Ht. rewrite Nt by exact Ht. exact (Q t Ht).
Qed.
(** A polar code of length 8 and dimension 4 corrects these three erasures, with L-values of any size. *)
Theorem C121_erasures_example : exists C, PolarCode 3 [0; 1; 2; 4] = Some C /\ bc_k C = 4 /\ bc_encode C [true; false; true; false] = [false; true; false; true; true; false; true; false] /\
  (forall i, In i (polar_active 3 [0; 1; 2; 4]) -> nth i (polar_erased 3 [true; false; true; false; false; false; true; false]) false = false) /\
  seen [0; -7; 0; -3; - / 10; 5; 0; 1]%R [true; false; true; false; false; false; true; false] [false; true; false; true; true; false; true; false].
Proof.
  eexists. split; [vm_compute; reflexivity|]. split; [reflexivity|]. split; [vm_compute; reflexivity|]. split.
  - intros i Hi. change (polar_active 3 [0; 1; 2; 4]) with [3; 5; 6; 7] in Hi. cbn [In] in Hi. repeat (destruct Hi as [<-|Hi]; [vm_compute; reflexivity|]). contradiction.
  - split; [reflexivity|]. split; [reflexivity|]. intros j Hj. cbn [length] in Hj. do 8 (destruct j as [|j]; [cbn; lra|]). lia.
Qed.
(** The condition is sharp: when it fails for an active position, the message of ones is decoded wrongly whatever the sizes of the
    L-values are (the soft output of the first unknown position is 0). *)
Theorem C121_erasures_sharp : forall mu frozen C e fuel i, PolarCode mu frozen = Some C -> 4 * 2 ^ mu <= fuel ->
  In i (polar_active mu frozen) -> nth i (polar_erased mu e) false = true ->
  forall li, seen li e (bc_encode C (repeat true (bc_k C))) -> sc_decode_hard mu frozen fuel li <> Some (repeat true (bc_k C)).
Proof.
  intros mu frozen C e fuel i E Hf Hi Er li N D. unfold PolarCode in E. destruct (_ && _ && _); [|discriminate].
  unfold code_of_generator in E. destruct (null_matrix _ _); [|discriminate]. injection E as <-. cbn [bc_k bc_encode matrix_code] in *. rewrite map_length in *. set (active := polar_active mu frozen) in *.
  set (u := repeat true (length active)) in *. assert (Lu : length u = length active) by apply repeat_length.
  unfold polar_encode, active in N. fold (place mu frozen u) in N. pose proof (place_length mu frozen u) as Lp. rewrite polar_transform_spec in N by auto.
  assert (Ll : length li = 2 ^ mu) by (destruct N as (N & _); rewrite N; now apply ptrans_length). apply seen_S3 in N.
  assert (First : exists k, In k active /\ nth k (polar_erased mu e) false = true /\ forall j, j < k -> In j active -> nth j (polar_erased mu e) false = false).
  { clear - Hi Er. induction i as [i IH] using lt_wf_ind. destruct (existsb (fun j => (j <? i) && nth j (polar_erased mu e) false) active) eqn:X.
    - apply existsb_exists in X as (j & Hj & Ej). apply andb_true_iff in Ej as [J1 J2]. apply Nat.ltb_lt in J1. exact (IH j J1 Hj J2).
    - exists i. split; [exact Hi|]. split; [exact Er|]. intros j J Hj. destruct (nth j (polar_erased mu e) false) eqn:Y; [|reflexivity]. enough (existsb (fun j => (j <? i) && nth j (polar_erased mu e) false) active = true) by congruence. apply existsb_exists. exists j. split; [exact Hj|]. rewrite Y, andb_true_r. now apply Nat.ltb_lt. }
  destruct First as (k & Hk & Ek & Pk). pose proof (act_lt mu frozen k Hk) as Bk.
  assert (Z : nth k (snd (sc_rec frozen mu 0 li)) 0%R = 0%R).
  { pose proof (sc_erasure_first frozen mu 0 (place mu frozen u) li e k Lp) as Q. rewrite Ek in Q. apply Q; [|exact N|exact Bk|].
    - intros j Hj Hin. cbn [Nat.mul Nat.add] in Hin. apply place_frozen. intros I. apply (not_pivots_props (2 ^ mu) frozen) in I. tauto.
    - intros j Hj Hin. cbn [Nat.mul Nat.add] in Hin. apply Pk; [exact Hj|]. apply (not_pivots_props (2 ^ mu) frozen). split; [lia|exact Hin]. }
  unfold sc_decode_hard in D. rewrite (sc_decode_rec mu frozen li fuel Ll Hf) in D. cbn [option_map] in D. injection D as D. fold active in D. rewrite map_map in D.
  apply (In_nth active k 0) in Hk as (t & Ht & Et). apply (f_equal (fun l => nth t l true)) in D. unfold u in D. rewrite nth_repeat in D.
  rewrite (nth_indep _ true (neg (nth 0 (snd (sc_rec frozen mu 0 li)) 0%R))) in D by (rewrite map_length; exact Ht). rewrite (map_nth (fun i => neg (nth i (snd (sc_rec frozen mu 0 li)) 0%R)) active 0 t) in D. rewrite Et, Z in D. unfold neg in D. destruct (Rlt_dec 0 0) in D; [lra|discriminate].
Qed.
Theorem C121_erasures_sharp_example : In 3 (polar_active 3 [0; 1; 2; 4]) /\ nth 3 (polar_erased 3 [true; true; true; true; false; false; false; false]) false = true.
Proof. split; [left; reflexivity|vm_compute; reflexivity]. Qed.
