(* C115: whole transmission chains: bits -> labeling -> constellation -> perturbed symbols -> decision -> bits (-> decoder).
   The methods are those of Labeling_Model, Const_Model and BlockCode_Model; modulate/demodulate compose them (Chain_Spec). *)
From Coq Require Import Reals Lra.
From Coquelicot Require Import Complex.
From Verif Require Import Common Bits_Model Vec_Model Linear_Spec BlockCode_Model Code_Spec Prefix_Model Labeling_Model Labeling_Spec Labeling_Proof
  Corr_Model Const_Model Const_Spec Const_Proof Const_Post Chain_Spec Chain_Proof.
From Verif Require Props_Constellation Props_Labeling Props_Codes Props_Lossless Props_ClassicCodes ClassicCodes_Model.
Local Open Scope nat_scope.

Lemma sum_bound {A} (f g : A -> nat) (l : list A) : (forall x, f x <= g x) -> list_sum (map f l) <= list_sum (map g l).
Proof. intros H. induction l as [|x l IH]; [cbn; lia|]. specialize (H x). cbn [map]. change (list_sum (?x :: ?y)) with (x + list_sum y). lia. Qed.
Lemma sum_filter {A} (p : A -> bool) m (l : list A) : list_sum (map (fun x => if p x then m else 0) l) = m * length (filter p l).
Proof. induction l as [|x l IH]; [cbn; lia|]. cbn [map filter]. change (list_sum (?x :: ?y)) with (x + list_sum y). rewrite IH. destruct (p x); cbn [length]; lia. Qed.

(** Any labeling on any constellation of the same order: the demodulated bits have the right length, and differ from the sent
    ones in at most num_bits positions per symbol that was moved by half the minimum distance or more *)
Theorem C115_bit_errors : forall l K bits T, constructed l -> 0 < num_bits l -> Props_Constellation.usable K -> order K = 2 ^ num_bits l ->
  0 < T -> length bits = T * num_bits l ->
  exists sent, modulate l K bits = Some (concat sent) /\ length sent = T /\ Forall (fun s => length s = dimension K) sent /\
  forall received d, length received = T -> Forall (fun r => length r = dimension K) received -> spaced (Const_Model.matrix K) d ->
  exists out, demodulate l K (concat received) = Some out /\ length out = length bits /\
    differences bits out <= num_bits l * hits d sent received.
Proof.
  intros l K bits T Cl Hm U EO HT L. destruct (Props_Constellation.usable_shape K U) as (D & Rw & EL & _). rewrite EO in EL.
  assert (Nr : forall r, length r = dimension K -> closest K r < 2 ^ num_bits l).
  { intros r Hr. destruct (Props_Constellation.C60_nearest K r U Hr) as [H _]. lia. }
  destruct (generic_chain l K Cl Hm D Rw EL Nr (fun _ _ => num_bits l)) with (bits := bits) (T := T) as (sent & E & Ls & Fs & _); auto.
  { intros i r Hi Hr. pose proof (differences_le (label_of l i) (label_of l (closest K r))) as B. destruct (object_pair l Cl) as [OP _]. rewrite (proj1 (OP i Hi)) in B. exact B. }
  exists sent. split; [exact E|]. split; [exact Ls|]. split; [exact Fs|]. intros received d Lr Fr S.
  set (err := fun s r : list C => if (if Rle_dec (d ^ 2) (4 * dist2 s r) then true else false) then num_bits l else 0).
  destruct (generic_chain l K Cl Hm D Rw EL Nr err) with (bits := bits) (T := T) as (sent' & E' & Ls' & Fs' & H); auto.
  { intros i r Hi Hr. unfold err. destruct (Nat.eq_dec i (closest K r)) as [->|Ne]; [rewrite differences_refl; lia|].
    pose proof (Props_Constellation.C60_nearest K r U Hr) as N. pose proof (within_half _ _ d i (closest K r) r Rw ltac:(lia) N Hr S Ne) as W.
    destruct (Rle_dec _ _); [|contradiction]. destruct (object_pair l Cl) as [OP _]. rewrite <- (proj1 (OP i Hi)). apply differences_le. }
  assert (sent' = sent). { rewrite E in E'. injection E' as E'. clear -E' D Fs Fs' Ls Ls'. revert sent' Ls' Fs' E'. subst T. induction Fs as [|s sent Hs Fs IH]; intros [|s' sent'] Ls' Fs' E'; cbn in Ls'; try lia; auto.
    inversion Fs'; subst. cbn [concat] in E'. assert (s = s'). { apply (f_equal (firstn (dimension K))) in E'. rewrite !firstn_app in E'. rewrite Hs, H1 in E'. rewrite Nat.sub_diag in E'. cbn [firstn] in E'. rewrite !app_nil_r in E'. rewrite !firstn_all2 in E' by lia. exact E'. }
    subst s'. apply app_inv_head in E'. f_equal. apply IH; auto. }
  subst sent'. destruct (H received Lr Fr) as (out & E1 & E2 & E3). exists out. split; [exact E1|]. split; [exact E2|].
  unfold hits. rewrite <- sum_filter. exact E3.
Qed.
(** so nothing is lost when every symbol moves by less than half the minimum distance *)
Theorem C115_recovers : forall l K bits T d, constructed l -> 0 < num_bits l -> Props_Constellation.usable K -> order K = 2 ^ num_bits l ->
  0 < T -> length bits = T * num_bits l -> spaced (Const_Model.matrix K) d ->
  exists sent, modulate l K bits = Some (concat sent) /\ length sent = T /\
  forall received, length received = T -> Forall (fun r => length r = dimension K) received ->
    (forall t, t < T -> (4 * dist2 (nth t sent []) (nth t received []) < d ^ 2)%R) -> demodulate l K (concat received) = Some bits.
Proof.
  intros l K bits T d Cl Hm U EO HT L S. destruct (C115_bit_errors l K bits T Cl Hm U EO HT L) as (sent & E & Ls & Fs & H). exists sent. split; [exact E|]. split; [exact Ls|].
  intros received Lr Fr N. destruct (H received d Lr Fr S) as (out & E1 & E2 & E3). rewrite E1. f_equal.
  assert (Z0 : hits d sent received = 0).
  { unfold hits. apply length_zero_iff_nil. clear -N Ls Lr. revert T received Ls Lr N. induction sent as [|s sent IH]; intros T [|r received] Ls Lr N; auto. cbn [length] in *.
    cbn [combine filter fst snd]. pose proof (N 0 ltac:(lia)) as N0. cbn [nth] in N0. destruct (Rle_dec _ _); [lra|]. apply (IH (T - 1)); try lia. intros t Ht. apply (N (S t)). lia. }
  rewrite Z0, Nat.mul_0_r in E3. clear -E2 E3. revert out E2 E3. induction bits as [|b bits IH]; intros [|o out] E2 E3; cbn in *; try lia; auto. destruct b, o; cbn in E3; try lia; f_equal; apply IH; lia.
Qed.
(** the minimum distance the constellation reports is such a d *)
Theorem C115_minimum_distance : forall points d, is_min_distance points d -> spaced points d.
Proof. intros points d (_ & _ & H). exact H. Qed.

(** Reflected (Gray) labels on PAM: one bit error per decision interval the symbol is pushed into; without a bound on the noise *)
Theorem C115_gray_pam : forall m l delta bits T, mk_Reflected m = Some l -> (0 < delta)%R -> 0 < T -> length bits = T * m ->
  exists sent, modulate l (PAMConstellation (2 ^ m) delta) bits = Some sent /\ length sent = T /\
  forall received, length received = T ->
  exists out, demodulate l (PAMConstellation (2 ^ m) delta) received = Some out /\ length out = length bits /\
    differences bits out <= total_steps (fun s r => steps delta (fst r - fst s)) sent received.
Proof.
  intros m l delta bits T Hl Hd HT L. pose proof (con_reflected m l Hl) as Cl. apply mk_Reflected_inv in Hl as [Hm ->].
  assert (P2 : 1 <= 2 ^ m) by (pose proof (Nat.pow_nonzero 2 m); lia). set (K := PAMConstellation (2 ^ m) delta).
  assert (U : Props_Constellation.usable K) by (apply Props_Constellation.u_pam; [auto|lra]).
  destruct (Props_Constellation.usable_shape K U) as (D & Rw & EL & _). change (length (Const_Model.matrix K) = 2 ^ num_bits (ReflectedLabeling m)) in EL.
  destruct (generic_chain (ReflectedLabeling m) K Cl Hm D Rw EL) with (err := fun s r => steps delta (fst (coord r) - fst (coord s))) (bits := bits) (T := T) as (ss & E & Ls & Fs & H); auto.
  { intros r Hr. destruct (Props_Constellation.C60_nearest K r U Hr) as [B _]. lia. }
  { intros i r Hi Hr. cbn [num_bits] in Hi. unfold label_of. cbn [matrix]. eapply Nat.le_trans; [apply reflected_dist; auto|].
    - destruct (Props_Constellation.C60_nearest K r U Hr) as [B _]. rewrite EL in B. exact B.
    - unfold K. cbn [closest PAMConstellation Const_Model.matrix]. rewrite pam_matrix_nth by auto. cbn [coord nth fst RtoC]. unfold pam_closest. apply axis_steps; auto. }
  assert (X : forall xs : list (list C), Forall (fun x => length x = dimension K) xs -> concat xs = map coord xs /\ xs = map (fun z => [z]) (map coord xs)).
  { induction 1 as [|x xs Hx _ IH]; [split; reflexivity|]. destruct x as [|z [|]]; try discriminate. destruct IH as [I1 I2]. cbn [concat map coord nth app]. rewrite I1, <- I2. auto. }
  destruct (X ss Fs) as [X1 X2]. exists (concat ss). split; [exact E|]. split; [rewrite X1, map_length; exact Ls|]. intros received Lr.
  destruct (H (map (fun z => [z]) received)) as (out & E1 & E2 & E3); [now rewrite map_length|apply Forall_forall; intros p Hp; apply in_map_iff in Hp as (z & <- & _); reflexivity|].
  assert (Ec : concat (map (fun z => [z]) received) = received) by (clear; induction received; cbn; f_equal; auto).
  rewrite Ec in E1. exists out. split; [exact E1|]. split; [exact E2|]. eapply Nat.le_trans; [exact E3|]. unfold total_steps. rewrite X1. clear.
  revert received. induction ss as [|s ss IH]; intros [|r received]; cbn [map combine]; try (cbn; lia). specialize (IH received). cbn [fst snd]. change (list_sum (?x :: ?y)) with (x + list_sum y). cbn [coord nth]. lia.
Qed.
(** Reflected rectangular labels on QAM: the same in each of the two axes of the (rotated) grid *)
Theorem C115_gray_qam : forall mi mq l di dq phi bits T, mk_Rect mi mq = Some l -> (0 < di)%R -> (0 < dq)%R -> 0 < T -> length bits = T * (mi + mq) ->
  let K := QAMConstellation (2 ^ mi) (2 ^ mq) di dq phi in
  exists sent, modulate l K bits = Some sent /\ length sent = T /\
  forall received, length received = T ->
  exists out, demodulate l K received = Some out /\ length out = length bits /\
    differences bits out <= total_steps (fun s r => steps di (fst (displacement phi s r)) + steps dq (snd (displacement phi s r))) sent received.
Proof.
  intros mi mq l di dq phi bits T Hl Hdi Hdq HT L K. pose proof (con_rect mi mq l Hl) as Cl. apply mk_Rect_inv in Hl as (Hi & Hq & ->).
  assert (Pi : 1 <= 2 ^ mi) by (pose proof (Nat.pow_nonzero 2 mi); lia). assert (Pq : 1 <= 2 ^ mq) by (pose proof (Nat.pow_nonzero 2 mq); lia).
  assert (U : Props_Constellation.usable K) by (apply Props_Constellation.u_qam; auto; lra).
  destruct (Props_Constellation.usable_shape K U) as (D & Rw & EL & _). change (order K) with (2 ^ mi * 2 ^ mq) in EL. rewrite <- Nat.pow_add_r in EL. change (length (Const_Model.matrix K) = 2 ^ num_bits (ReflectedRectangularLabeling mi mq)) in EL.
  pose proof (inverse_pair_table _ _ _ (reflected_pair mi)) as Ti. pose proof (inverse_pair_table _ _ _ (reflected_pair mq)) as Tq.
  change (label_table mi (reflected_matrix mi)) in Ti. change (label_table mq (reflected_matrix mq)) in Tq.
  assert (Lab : forall a b, a < 2 ^ mi -> b < 2 ^ mq -> label_of (ReflectedRectangularLabeling mi mq) (a * 2 ^ mq + b) = nth a (reflected_matrix mi) [] ++ nth b (reflected_matrix mq) []).
  { intros a b Ha Hb. unfold label_of. cbn [matrix]. assert (E1 : fold_right Nat.add 0 [mq] = mq) by (cbn; lia).
    rewrite (product_rows_nth [mq] [reflected_matrix mq] _ (Forall2_cons _ _ Tq (Forall2_nil _)) mi _ a b Ti) by (rewrite ?E1; auto). f_equal.
    rewrite (product_rows_nth [] [] b ltac:(constructor) mq _ b 0 Tq) by (cbn; lia). cbn. apply app_nil_r. }
  destruct (generic_chain (ReflectedRectangularLabeling mi mq) K Cl ltac:(cbn; lia) D Rw EL)
    with (err := fun s r => steps di (fst (displacement phi (coord s) (coord r))) + steps dq (snd (displacement phi (coord s) (coord r)))) (bits := bits) (T := T) as (ss & E & Ls & Fs & H); auto.
  { intros r Hr. destruct (Props_Constellation.C60_nearest K r U Hr) as [B _]. lia. }
  { intros i r HI Hr. cbn [num_bits] in HI. rewrite Nat.pow_add_r in HI.
    assert (Ei : i = i / 2 ^ mq * 2 ^ mq + i mod 2 ^ mq) by (rewrite Nat.mul_comm; apply Nat.div_mod; lia).
    assert (Ia : i / 2 ^ mq < 2 ^ mi) by (apply Nat.div_lt_upper_bound; lia). assert (Ib : i mod 2 ^ mq < 2 ^ mq) by (apply Nat.mod_upper_bound; lia).
    set (a := i / 2 ^ mq) in *. set (b := i mod 2 ^ mq) in *. unfold K at 1. cbn [closest QAMConstellation]. unfold qam_closest. rewrite !qam_axis_eq by lra.
    set (w := Cmult (coord r) _). set (a' := clip (2 ^ mi) _). set (b' := clip (2 ^ mq) _). assert (Ha' : a' < 2 ^ mi) by now apply clip_bound. assert (Hb' : b' < 2 ^ mq) by now apply clip_bound.
    rewrite Ei at 1. rewrite (Nat.mul_comm (2 ^ mq) a'). rewrite !Lab by auto. destruct Ti as (Li & Fi & _). destruct Tq as (Lq & Fq & _). rewrite Forall_forall in Fi, Fq.
    rewrite differences_app by (rewrite !Fi; auto; apply nth_In; lia).
    assert (Es : nth i (Const_Model.matrix K) [] = [Cmult (qam_pt (2 ^ mi) (2 ^ mq) di dq a b) (rotation phi)]).
    { rewrite Ei, (Nat.mul_comm a). unfold K. cbn [Const_Model.matrix QAMConstellation]. now apply qam_nth. }
    rewrite Es. cbn [coord nth]. set (s := Cmult (qam_pt _ _ _ _ _ _) _).
    assert (Ed : displacement phi s (coord r) = Cminus w (qam_pt (2 ^ mi) (2 ^ mq) di dq a b)).
    { unfold displacement, s, w, rotation. change (cos (- (2 * PI * phi)), sin (- (2 * PI * phi)))%R with (cexp (- (2 * PI * phi))). set (p := qam_pt _ _ _ _ _ _).
      assert (X : forall x y, cexp (x + y) = Cmult (cexp x) (cexp y)). { intros x y. unfold cexp, Cmult. cbn [fst snd]. rewrite cos_plus, sin_plus. f_equal; ring. }
      assert (I1 : Cmult (cexp (2 * PI * phi)) (cexp (- (2 * PI * phi))) = RtoC 1) by (rewrite <- X, Rplus_opp_r; unfold cexp; rewrite cos_0, sin_0; reflexivity).
      transitivity (Cminus (Cmult (nth 0 r (RtoC 0)) (cexp (- (2 * PI * phi)))) (Cmult p (Cmult (cexp (2 * PI * phi)) (cexp (- (2 * PI * phi)))))); [unfold coord; ring|rewrite I1; unfold coord; ring]. }
    change (nth 0 r (RtoC 0)) with (coord r). rewrite Ed. unfold Cminus, Cplus, Copp, qam_pt. cbn [fst snd].
    pose proof (axis_steps (2 ^ mi) di (fst w) a Hdi Ia) as A1. pose proof (axis_steps (2 ^ mq) dq (snd w) b Hdq Ib) as A2. cbv zeta in A1, A2. fold a' in A1. fold b' in A2.
    pose proof (reflected_dist mi a a' Hi Ia Ha'). pose proof (reflected_dist mq b b' Hq Ib Hb'). unfold Rminus in *. lia. }
  assert (X : forall xs : list (list C), Forall (fun x => length x = dimension K) xs -> concat xs = map coord xs).
  { induction 1 as [|x xs Hx _ IH]; [reflexivity|]. destruct x as [|z [|]]; try discriminate. cbn [concat map coord nth app]. now rewrite IH. }
  pose proof (X ss Fs) as X1. exists (concat ss). split; [exact E|]. split; [rewrite X1, map_length; exact Ls|]. intros received Lr.
  destruct (H (map (fun z => [z]) received)) as (out & E1 & E2 & E3); [now rewrite map_length|apply Forall_forall; intros p Hp; apply in_map_iff in Hp as (z & <- & _); reflexivity|].
  assert (Ec : concat (map (fun z => [z]) received) = received) by (clear; induction received; cbn; f_equal; auto).
  rewrite Ec in E1. exists out. split; [exact E1|]. split; [exact E2|]. eapply Nat.le_trans; [exact E3|]. unfold total_steps. rewrite X1. clear.
  revert received. induction ss as [|s ss IH]; intros [|r received]; cbn [map combine]; try (cbn; lia). specialize (IH received). cbn [fst snd]. change (list_sum (?x :: ?y)) with (x + list_sum y). cbn [coord nth]. lia.
Qed.
(** Reflected labels on PSK: the label ring is cyclic, so only the phase error counts; amplitudes may change arbitrarily *)
Theorem C115_gray_psk : forall m l A phi bits T, mk_Reflected m = Some l -> (0 < A)%R -> 0 < T -> length bits = T * m ->
  let K := PSKConstellation (2 ^ m) A phi in
  exists sent, modulate l K bits = Some sent /\ length sent = T /\
  forall gains phases, length gains = T -> length phases = T -> Forall (fun g => (0 < g)%R) gains ->
  exists out, demodulate l K (map (fun x => let '(s, (g, t)) := x in Cmult (RtoC g) (Cmult s (cos t, sin t))) (combine sent (combine gains phases))) = Some out /\ length out = length bits /\
    differences bits out <= list_sum (map (steps (2 * PI / INR (2 ^ m))) phases).
Proof.
  intros m l A phi bits T Hl HA HT L K. pose proof (con_reflected m l Hl) as Cl. apply mk_Reflected_inv in Hl as [Hm ->].
  assert (P2 : 1 <= 2 ^ m) by (pose proof (Nat.pow_nonzero 2 m); lia).
  assert (U : Props_Constellation.usable K) by (apply Props_Constellation.u_psk; auto).
  destruct (Props_Constellation.usable_shape K U) as (D & Rw & EL & _). change (length (Const_Model.matrix K) = 2 ^ num_bits (ReflectedLabeling m)) in EL.
  destruct (seq_round_trip' _ _ _ (object_pair _ Cl) Hm bits T HT L) as (M0 & rows & Al & Lr & Fr & Fi & E). cbn [num_bits] in *.
  set (idx := map (index_of (ReflectedLabeling m)) rows) in *. assert (Li : length idx = T) by (unfold idx; now rewrite map_length).
  set (pt := fun i => Cmult (Cmult (RtoC A) (cexp (2 * PI * INR i / INR (2 ^ m)))) (rotation phi)).
  exists (map pt idx). split.
  { unfold modulate. rewrite (object_b2i _ bits rows) by auto. fold idx. unfold indices_to_symbols. rewrite (proj2 (forallb_forall _ _)).
    - f_equal. clear -Fi. induction Fi as [|i idx Hi Fi IH]; [reflexivity|]. cbn [map concat]. rewrite IH. unfold K. cbn [Const_Model.matrix PSKConstellation]. rewrite psk_nth by auto. reflexivity.
    - intros i Hi. apply Nat.ltb_lt. rewrite EL. rewrite Forall_forall in Fi. apply Fi, Hi. }
  split; [now rewrite map_length|]. intros gains phases Lg Lp Fg.
  set (received := map _ _). exists (concat (map (label_of (ReflectedLabeling m)) (map (fun z => closest K [z]) received))).
  assert (Lrc : length received = T) by (unfold received; rewrite map_length, !combine_length, map_length; lia).
  assert (CB : forall z, closest K [z] < 2 ^ m). { intros z. destruct (Props_Constellation.C60_nearest K [z] U eq_refl) as [B _]. rewrite EL in B. exact B. }
  split.
  { unfold demodulate. replace received with (concat (map (fun z => [z]) received)) at 1 by (clear; induction received; cbn; f_equal; auto).
    rewrite closest_concat; auto; [|apply Forall_forall; intros p Hp; apply in_map_iff in Hp as (z & <- & _); reflexivity]. rewrite (map_map (fun z => [z]) (closest K)). apply object_i2b; auto.
    apply Forall_forall. intros i Hi. apply in_map_iff in Hi as (z & <- & _). apply CB. }
  split.
  { rewrite (concat_length_m m), !map_length; [lia|]. apply Forall_forall. intros b Hb. apply in_map_iff in Hb as (i & <- & Hi). apply in_map_iff in Hi as (z & <- & _).
    destruct (object_pair _ Cl) as [OP _]. apply OP. apply CB. }
  rewrite <- E at 1. unfold received. clear received Lrc Al Lr Fr M0 E L. clearbody idx. clear rows. subst T. revert gains phases Lg Lp Fg.
  induction Fi as [|i idx Hi Fi IH]; intros [|g gains] [|t phases] Lg Lp Fg; cbn [length] in *; try lia. inversion Fg; subst.
  cbn [map combine concat]. change (list_sum (?x :: ?y)) with (x + list_sum y). rewrite differences_app.
  - assert (IHs := fun H => IH H gains phases ltac:(lia) ltac:(lia) ltac:(assumption)). 
    assert (ST : differences (label_of (ReflectedLabeling m) i) (label_of (ReflectedLabeling m) (closest K [Cmult (RtoC g) (Cmult (pt i) (cos t, sin t))])) <= steps (2 * PI / INR (2 ^ m)) t).
    { destruct (psk_steps (2 ^ m) A phi i g t Hi HA ltac:(assumption)) as (z & Ez & Bz). unfold K. cbn [closest PSKConstellation coord nth]. change (cos t, sin t)%R with (cexp t). unfold pt. rewrite Ez.
      unfold label_of. cbn [matrix]. eapply Nat.le_trans; [apply (reflected_ring m i z Hm Hi)|exact Bz]. }
    destruct idx as [|i' idx'].
    + destruct gains; [|discriminate]. destruct phases; [|discriminate]. cbn [map combine concat differences]. change (list_sum []) with 0. lia.
    + specialize (IHs ltac:(cbn; lia)). lia.
  - destruct (object_pair _ Cl) as [OP _]. change (num_bits (ReflectedLabeling m)) with m in OP. rewrite (proj1 (OP i Hi)). symmetry. apply OP. apply CB.
Qed.
(** what a number of steps means *)
Theorem C115_steps : forall d x, (0 < d)%R ->
  (steps d x = 0 <-> (Rabs x < d / 2)%R) /\ (steps d x <= 1 <-> (Rabs x < 3 * d / 2)%R) /\ (INR (steps d x) <= Rabs x / d + 1 / 2 < INR (steps d x) + 1)%R.
Proof.
  intros d x Hd. assert (B : (INR (steps d x) <= Rabs x / d + 1 / 2 < INR (steps d x) + 1)%R).
  { unfold steps. destruct (base_Int_part (Rabs x / d + 1 / 2)) as [B1 B2]. assert (0 <= Rabs x / d)%R by (apply Rmult_le_pos; [apply Rabs_pos|left; now apply Rinv_0_lt_compat]).
    assert (0 <= Int_part (Rabs x / d + 1 / 2))%Z. { assert (-1 < Int_part (Rabs x / d + 1 / 2))%Z; [|lia]. apply lt_IZR. lra. }
    rewrite IZR_INR by lia. lra. }
  assert (Ex : (Rabs x = Rabs x / d * d)%R) by (field; lra). set (y := (Rabs x / d)%R) in *. split; [|split; [|exact B]]; split; intros H.
  - rewrite H in B. cbn in B. rewrite Ex. nra.
  - assert (y < 1 / 2)%R by (apply (Rmult_lt_reg_r d); lra). destruct (steps d x) as [|n]; [reflexivity|]. rewrite S_INR in B. pose proof (pos_INR n). lra.
  - destruct (steps d x) as [|[|n]]; [| |lia]; cbn in B; rewrite Ex; nra.
  - assert (y < 3 / 2)%R by (apply (Rmult_lt_reg_r d); lra). destruct (steps d x) as [|[|n]]; [lia|lia|]. rewrite !S_INR in B. pose proof (pos_INR n). lra.
Qed.

(** With a block code on top: a decoder that corrects t errors delivers the message whenever the symbols moved by half the
    minimum distance or more carry at most t bits; here for the exhaustive-search and syndrome-table decoders *)
Lemma hdist_differences a : forall b, length b = length a -> hdist b a = differences a b.
Proof.
  induction a as [|x a IH]; intros [|y b] L; cbn in L; try lia; [reflexivity|]. specialize (IH b ltac:(lia)). unfold hdist in *. cbn [vxor differences]. rewrite <- IH.
  unfold weight. destruct x, y; cbn; auto.
Qed.
Theorem C115_coded : forall C d l K u T, valid_code C -> bc_m C <> 0 -> is_minimum_distance C d -> length u = bc_k C ->
  constructed l -> 0 < num_bits l -> Props_Constellation.usable K -> order K = 2 ^ num_bits l -> 0 < T -> bc_n C = T * num_bits l ->
  exists leaders sent, coset_leaders C = Some leaders /\ modulate l K (bc_encode C u) = Some (concat sent) /\ length sent = T /\
  forall received delta, length received = T -> Forall (fun r => length r = dimension K) received -> spaced (Const_Model.matrix K) delta ->
    num_bits l * hits delta sent received <= (d - 1) / 2 ->
    exists out, demodulate l K (concat received) = Some out /\ exhaustive_hard C out = u /\ syndrome_decode C leaders out = u.
Proof.
  intros C d l K u T V Hm0 Dm Lu Cl Hm U EO HT En. destruct (Props_Codes.C32_corrects C d V Hm0 Dm) as (lds & El & SD).
  assert (Le : length (bc_encode C u) = bc_n C) by (apply V; auto).
  destruct (C115_bit_errors l K (bc_encode C u) T Cl Hm U EO HT) as (sent & E & Ls & Fs & H); [lia|].
  exists lds, sent. split; [exact El|]. split; [exact E|]. split; [exact Ls|]. intros received delta Lr Fr S Hh.
  destruct (H received delta Lr Fr S) as (out & E1 & E2 & E3). exists out. split; [exact E1|].
  assert (Hd : hdist out (bc_encode C u) <= (d - 1) / 2) by (rewrite hdist_differences by auto; lia).
  split; [apply (Props_Codes.C33_hard_corrects C d); auto; lia|apply SD; auto; lia].
Qed.
(** with reflected labels on PAM a symbol pushed over one threshold costs one bit, not num_bits *)
Theorem C115_coded_gray_pam : forall C d m l delta u T, valid_code C -> bc_m C <> 0 -> is_minimum_distance C d -> length u = bc_k C ->
  mk_Reflected m = Some l -> (0 < delta)%R -> 0 < T -> bc_n C = T * m ->
  exists leaders sent, coset_leaders C = Some leaders /\ modulate l (PAMConstellation (2 ^ m) delta) (bc_encode C u) = Some sent /\ length sent = T /\
  forall received, length received = T -> total_steps (fun s r => steps delta (fst r - fst s)) sent received <= (d - 1) / 2 ->
    exists out, demodulate l (PAMConstellation (2 ^ m) delta) received = Some out /\ exhaustive_hard C out = u /\ syndrome_decode C leaders out = u.
Proof.
  intros C d m l delta u T V Hm0 Dm Lu Hl Hdl HT En. destruct (Props_Codes.C32_corrects C d V Hm0 Dm) as (lds & El & SD).
  assert (Le : length (bc_encode C u) = bc_n C) by (apply V; auto).
  destruct (C115_gray_pam m l delta (bc_encode C u) T Hl Hdl HT) as (sent & E & Ls & H); [lia|].
  exists lds, sent. split; [exact El|]. split; [exact E|]. split; [exact Ls|]. intros received Lr Hh.
  destruct (H received Lr) as (out & E1 & E2 & E3). exists out. split; [exact E1|].
  assert (Hd : hdist out (bc_encode C u) <= (d - 1) / 2) by (rewrite hdist_differences by auto; lia).
  split; [apply (Props_Codes.C33_hard_corrects C d); auto; lia|apply SD; auto; lia].
Qed.
(** and with a prefix-free source code in front: the source symbols arrive *)
Theorem C115_source : forall src k mp c input l K T delta, f2v_make src 2 k mp = Some c -> NoDup (map fst mp) -> Forall (fun w => w <> []) (map snd mp) -> f2v_is_prefix_free c = true ->
  length input mod k = 0 -> Forall (fun x => (x < src)%N) input ->
  constructed l -> 0 < num_bits l -> Props_Constellation.usable K -> order K = 2 ^ num_bits l -> spaced (Const_Model.matrix K) delta ->
  exists encoded, f2v_encode c input = Some encoded /\
  (0 < T -> length encoded = T * num_bits l ->
   exists sent, modulate l K (map (fun x => negb (x =? 0)%N) encoded) = Some (concat sent) /\ length sent = T /\
   forall received, length received = T -> Forall (fun r => length r = dimension K) received ->
     (forall t, t < T -> (4 * dist2 (nth t sent []) (nth t received []) < delta ^ 2)%R) ->
     exists out, demodulate l K (concat received) = Some out /\ f2v_decode c (map (fun b : bool => if b then 1%N else 0%N) out) = Some input).
Proof.
  intros src k mp c input l K T delta Hc ND NE PF Hk Hi Cl Hm U EO S. destruct (Props_Lossless.C07_f2v_round_trip src 2 k mp c input Hc ND NE PF Hk Hi) as (enc & E & De).
  exists enc. split; [exact E|]. intros HT Len.
  assert (B2 : Forall (fun x => (x < 2)%N) enc).
  { unfold f2v_make in Hc. destruct (src <? 2)%N; [discriminate|]. destruct (2 <? 2)%N; [discriminate|]. destruct (k <? 1); [discriminate|]. destruct (negb (_ && _)); [discriminate|].
    destruct (forallb (forallb (fun x => (x <? 2)%N)) (map snd mp)) eqn:FB; [|discriminate]. injection Hc as <-.
    assert (G : forall key v, Prefix_Model.dict_get key mp = Some v -> Forall (fun x => (x < 2)%N) v).
    { intros key v Hv. assert (In v (map snd mp)).
      { clear -Hv. induction mp as [|[k' v'] mp IH]; [discriminate|]. cbn in Hv |- *. destruct (word_eqb key k'); [injection Hv as <-; auto|auto]. }
      rewrite forallb_forall in FB. specialize (FB v H). rewrite forallb_forall in FB. apply Forall_forall. intros x Hx. apply N.ltb_lt. auto. }
    unfold f2v_encode, parse_fixed_length in E. destruct (f2v_is_uniquely_decodable _) as [[|]|]; try discriminate. cbn [f2v_map f2v_k] in E. destruct (negb _); [discriminate|].
    clear -E G. revert E. generalize (length input) as fuel. intros fuel. revert input enc. induction fuel as [|f IH]; intros input enc E; destruct input as [|x input]; try discriminate; try (injection E as <-; constructor).
    cbn [fixed_loop] in E. destruct (Prefix_Model.dict_get (firstn k (x :: input)) mp) as [v|] eqn:Ev; [|discriminate]. destruct (fixed_loop f mp k (skipn k (x :: input))) as [o|] eqn:Eo; [|discriminate]. injection E as <-. apply Forall_app. split; [eapply G; eauto|eapply IH; eauto]. }
  assert (Back : map (fun b : bool => if b then 1%N else 0%N) (map (fun x => negb (x =? 0)%N) enc) = enc).
  { rewrite map_map. rewrite <- (map_id enc) at 2. apply map_ext_in. intros x Hx. rewrite Forall_forall in B2. specialize (B2 x Hx). destruct (N.eqb_spec x 0); cbn [negb]; lia. }
  destruct (C115_recovers l K (map (fun x => negb (x =? 0)%N) enc) T delta Cl Hm U EO HT) as (sent & Es & Ls & H); [now rewrite map_length|exact S|].
  exists sent. split; [exact Es|]. split; [exact Ls|]. intros received Lr Fr N. rewrite (H received Lr Fr N). eexists. split; [reflexivity|]. rewrite Back. exact De.
Qed.

(** a case: the (8, 4) extended Hamming code over 4-PAM with reflected labels, when the first symbol is pushed right over one
    threshold and the others by less than half a step: every message is recovered *)
Theorem C115_case : exists C l, ClassicCodes_Model.HammingCode 3 true = Some C /\ mk_Reflected 2 = Some l /\ forall u, length u = 4 ->
  exists s0 s1 s2 s3, modulate l (PAMConstellation 4 2) (bc_encode C u) = Some [s0; s1; s2; s3] /\
  exists out, demodulate l (PAMConstellation 4 2) [Cplus s0 (RtoC 2); Cplus s1 (RtoC (9 / 10)); s2; Cplus s3 (RtoC (- (9 / 10)))] = Some out /\ exhaustive_hard C out = u.
Proof.
  destruct (Props_ClassicCodes.C36_extended_hamming 3 ltac:(lia)) as (C & E & V & En & Ek & Em & _ & Dm). destruct (mk_Reflected 2) as [l|] eqn:El; [|discriminate]. exists C, l. split; [exact E|]. split; [reflexivity|].
  intros u Lu. change (2 ^ 3) with 8 in *. destruct (C115_coded_gray_pam C 4 2 l 2 u 4 V ltac:(lia) Dm ltac:(lia) El ltac:(lra) ltac:(lia) ltac:(lia)) as (lds & sent & _ & Es & Ls & H).
  change (2 ^ 2) with 4 in *. destruct sent as [|s0 [|s1 [|s2 [|s3 [|]]]]]; try discriminate. exists s0, s1, s2, s3. split; [exact Es|].
  destruct (H [Cplus s0 (RtoC 2); Cplus s1 (RtoC (9 / 10)); s2; Cplus s3 (RtoC (- (9 / 10)))] eq_refl) as (out & E1 & E2 & _); [|exists out; auto].
  unfold total_steps. cbn [combine map fst snd]. unfold Cplus, RtoC. cbn [fst snd].
  assert (S0 : steps 2 (fst s0 + 2 - fst s0) <= 1). { apply (C115_steps 2 _ ltac:(lra)). replace (fst s0 + 2 - fst s0)%R with 2%R by ring. rewrite Rabs_pos_eq; lra. }
  assert (S1 : steps 2 (fst s1 + 9 / 10 - fst s1) = 0). { apply (C115_steps 2 _ ltac:(lra)). replace (fst s1 + 9 / 10 - fst s1)%R with (9 / 10)%R by ring. rewrite Rabs_pos_eq; lra. }
  assert (S2 : steps 2 (fst s2 - fst s2) = 0). { apply (C115_steps 2 _ ltac:(lra)). replace (fst s2 - fst s2)%R with 0%R by ring. rewrite Rabs_R0. lra. }
  assert (S3 : steps 2 (fst s3 + - (9 / 10) - fst s3) = 0). { apply (C115_steps 2 _ ltac:(lra)). replace (fst s3 + - (9 / 10) - fst s3)%R with (- (9 / 10))%R by ring. rewrite Rabs_Ropp, Rabs_pos_eq; lra. }
  rewrite S1, S2, S3. change (list_sum [?a; 0; 0; 0]) with (a + 0). lia.
Qed.
