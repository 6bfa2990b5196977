(* Hamming and simplex codes. *)
From Coq Require Import Permutation.
From Verif Require Import Common Bits_Model Vec_Model Vec_Proof LinAlg_Model Linear_Spec
  LinAlg_Proof XRref_Proof Null_Proof BlockCode_Model Code_Spec BlockCode_Proof CosetLeaders_Proof Systematic_Proof ClassicCodes_Model.
Local Open Scope nat_scope.

(* ---- combinations as weight-w vectors ---- *)
Lemma combinations_map {A B} (f : A -> B) l : forall w, combinations (map f l) w = map (map f) (combinations l w).
Proof.
  induction l as [|x l IH]; intros [|w]; cbn; auto. rewrite !IH, map_app, !map_map. auto.
Qed.

Fixpoint combs (m w : nat) : list vec :=
  match w, m with
  | 0, _ => [zeros m]
  | S _, 0 => []
  | S w', S m' => map (cons true) (combs m' w') ++ map (cons false) (combs m' w)
  end.

Lemma existsb_map_S j idx : existsb (Nat.eqb (S j)) (map S idx) = existsb (Nat.eqb j) idx.
Proof. induction idx as [|x idx IH]; cbn [existsb map]; auto. rewrite IH; auto. Qed.

Lemma existsb_0_S idx : existsb (Nat.eqb 0) (map S idx) = false.
Proof. induction idx as [|x idx IH]; cbn; auto. Qed.

Lemma indicator_cons0 m idx : indicator (S m) (0 :: map S idx) = true :: indicator m idx.
Proof.
  unfold indicator. cbn [seq map existsb]. rewrite Nat.eqb_refl. cbn [orb]. f_equal. rewrite <- seq_shift, map_map. apply map_ext. intros j.
  cbn [existsb]. rewrite existsb_map_S. reflexivity.
Qed.
Lemma indicator_map_S m idx : indicator (S m) (map S idx) = false :: indicator m idx.
Proof.
  unfold indicator. cbn [seq map]. rewrite existsb_0_S. f_equal. rewrite <- seq_shift, map_map. apply map_ext. intros j.
  apply existsb_map_S.
Qed.

Lemma indicator_nil m : indicator m [] = zeros m.
Proof. unfold indicator, zeros. generalize 0 as a. induction m as [|m IH]; intros a; cbn; auto. rewrite IH; auto. Qed.

Lemma combs_indicator m : forall w, map (indicator m) (combinations (seq 0 m) w) = combs m w.
Proof.
  induction m as [|m IH]; intros [|w]; cbn [combs combinations seq map]; auto.
  - rewrite indicator_nil; auto.
  - rewrite map_app, !map_map, <- !IH, !map_map, <- seq_shift, !combinations_map, !map_map. f_equal.
    + apply map_ext. intros. apply indicator_cons0.
    + apply map_ext. intros. apply indicator_map_S.
Qed.

Lemma weight_cons b v : weight (b :: v) = (if b then 1 else 0) + weight v.
Proof. destruct b; auto. Qed.

Lemma weight_app u v : weight (u ++ v) = weight u + weight v.
Proof. unfold weight. rewrite filter_app, app_length; auto. Qed.

Lemma in_combs m : forall w v, In v (combs m w) <-> length v = m /\ weight v = w.
Proof.
  induction m as [|m IH]; intros [|w] v; cbn [combs].
  - cbn. split; [intros [<-|[]]; auto|]. intros [L _]. destruct v; [auto|discriminate].
  - cbn. split; [tauto|]. intros [L W]. destruct v; discriminate.
  - split.
    + cbn [In]. intros [<-|[]]. split; [apply zeros_length|apply weight_zeros].
    + intros [L W]. left. apply weight_zero in W. rewrite W, L. auto.
  - rewrite in_app_iff, !in_map_iff. split.
    + intros [(u & <- & Hu)|(u & <- & Hu)]; apply IH in Hu as [Lu Wu]; rewrite weight_cons; cbn [length]; lia.
    + intros [L W]. destruct v as [|b v]; [discriminate|]. cbn [length] in L. rewrite weight_cons in W.
      destruct b; [left|right]; exists v; (split; [auto|]); apply IH; lia.
Qed.

Lemma combs_NoDup m : forall w, NoDup (combs m w).
Proof.
  induction m as [|m IH]; intros [|w]; cbn [combs]; try (repeat constructor; cbn; tauto).
  apply NoDup_app_intro.
  - apply NoDup_map_inj_in; auto. intros; congruence.
  - apply NoDup_map_inj_in; auto. intros; congruence.
  - intros v. rewrite !in_map_iff. intros (u & <- & _) (u' & E & _). discriminate.
Qed.

Lemma combs_length m : forall w, length (combs m w) = comb m w.
Proof. induction m as [|m IH]; intros [|w]; cbn [combs comb]; auto. rewrite app_length, !map_length, !IH; auto. Qed.

(* number of words of given weight *)
Lemma count_weight n w : has_card (fun v => length v = n /\ weight v = w) (comb n w).
Proof. exists (combs n w). split; [apply combs_NoDup|]. split; [apply combs_length|]. intros; apply in_combs. Qed.

(* ---- rows of the Hamming parity submatrix ---- *)
Definition heavy (m : nat) : mat := hamming_parity_submatrix m false.

Lemma heavy_eq m : heavy m = flat_map (combs m) (seq 2 (m - 1)).
Proof. unfold heavy, hamming_parity_submatrix. apply flat_map_ext. intros; apply combs_indicator. Qed.

Lemma in_heavy m v : In v (heavy m) <-> length v = m /\ 2 <= weight v.
Proof.
  rewrite heavy_eq, in_flat_map. split.
  - intros (w & Hw & Hv). apply in_seq in Hw. apply in_combs in Hv. lia.
  - intros [L W]. exists (weight v). split; [|apply in_combs; auto]. apply in_seq. pose proof (weight_le v). lia.
Qed.

Lemma NoDup_flat_map_disj {A B} (f : A -> list B) l : NoDup l -> (forall x, In x l -> NoDup (f x)) ->
  (forall x y b, In x l -> In y l -> In b (f x) -> In b (f y) -> x = y) -> NoDup (flat_map f l).
Proof.
  induction l as [|x l IH]; cbn; intros ND N1 D; [constructor|]. inversion ND; subst.
  apply NoDup_app_intro; [apply N1; auto|apply IH; auto; intros; eapply D; eauto|].
  intros b Hb Hb'. apply in_flat_map in Hb' as (y & Hy & Hby). assert (x = y) by (eapply D; eauto). subst. auto.
Qed.

Lemma heavy_NoDup m : NoDup (heavy m).
Proof.
  rewrite heavy_eq. apply NoDup_flat_map_disj; [apply seq_NoDup|intros; apply combs_NoDup|].
  intros x y b _ _ Hx Hy. apply in_combs in Hx. apply in_combs in Hy. lia.
Qed.

Lemma heavy_wf m : wf m (heavy m).
Proof. unfold wf. rewrite Forall_forall. intros v Hv. apply in_heavy in Hv. tauto. Qed.

(* unit vectors and heavy vectors are all the non-zero vectors *)
Lemma weight_1 v : weight v = 1 -> exists j, j < length v /\ v = unit_vec (length v) j.
Proof.
  intros W. destruct (weight_remove v 0 W) as (j & Hj & Z). exists j. split; auto.
  apply weight_zero in Z. rewrite vxor_length in Z by (rewrite unit_vec_length; auto).
  apply vxor_eq_zeros; [rewrite unit_vec_length; auto|auto].
Qed.

Lemma in_eye m v : In v (eye m) <-> length v = m /\ weight v = 1.
Proof.
  unfold eye. rewrite in_map_iff. split.
  - intros (j & <- & Hj). apply in_seq in Hj. split; [apply unit_vec_length|apply weight_unit; lia].
  - intros [L W]. apply weight_1 in W as (j & Hj & E). rewrite L in *. exists j. split; auto. apply in_seq. lia.
Qed.

Lemma eye_NoDup m : NoDup (eye m).
Proof.
  unfold eye. apply NoDup_map_inj_in; [|apply seq_NoDup]. intros i j Hi Hj E. apply in_seq in Hi. apply in_seq in Hj.
  assert (Q : nth i (unit_vec m i) false = nth i (unit_vec m j) false) by congruence.
  rewrite !nth_unit_vec, Nat.eqb_refl in Q by lia. symmetry in Q. apply Nat.eqb_eq in Q. auto.
Qed.

Lemma nonzero_perm m : Permutation (words m) (zeros m :: eye m ++ heavy m).
Proof.
  apply NoDup_Permutation; [apply words_NoDup| |].
  - constructor.
    + rewrite in_app_iff, in_eye, in_heavy, weight_zeros. lia.
    + apply NoDup_app_intro; [apply eye_NoDup|apply heavy_NoDup|]. intros v. rewrite in_eye, in_heavy. lia.
  - intros v. rewrite in_words. cbn [In]. rewrite in_app_iff, in_eye, in_heavy. split.
    + intros L. destruct (weight v) as [|[|w]] eqn:W; [left|right; left; auto|right; right; split; auto; lia].
      apply weight_zero in W. rewrite W, L. auto.
    + intros [<-|[H|H]]; [apply zeros_length|tauto|tauto].
Qed.

Lemma heavy_length m : length (heavy m) = 2 ^ m - m - 1.
Proof.
  pose proof (Permutation_length (nonzero_perm m)) as H. cbn [length] in H.
  rewrite app_length, eye_length, words_length in H. lia.
Qed.

(* ---- systematic codes with the information set on the left ---- *)
Section LeftSys.
Variables (m : nat) (P : mat).
Hypothesis WP : wf m P.
Let k := length P.
Let I := seq 0 k.
Let C := systematic_code m P I.

Lemma left_I : length I = k /\ NoDup I /\ (forall i, In i I -> i < k + m).
Proof.
  unfold I. rewrite seq_length. split; auto. split; [apply seq_NoDup|]. intros i Hi. apply in_seq in Hi. lia.
Qed.

Lemma left_valid : valid_code C.
Proof. destruct left_I as (A & B & D). apply systematic_valid; auto. Qed.

Lemma left_par : not_pivots (k + m) I = seq k m.
Proof.
  unfold not_pivots, I. rewrite seq_app, filter_app. cbn [Nat.add].
  assert (E1 : filter (fun j => negb (existsb (Nat.eqb j) (seq 0 k))) (seq 0 k) = []).
  { assert (forall l, (forall j, In j l -> existsb (Nat.eqb j) (seq 0 k) = true) -> filter (fun j => negb (existsb (Nat.eqb j) (seq 0 k))) l = []) as H.
    { induction l as [|x l IH]; cbn [filter]; intros H; auto. rewrite (H x) by (left; auto). apply IH. intros; apply H; right; auto. }
    apply H. intros j Hj. apply existsb_exists. exists j. split; auto. apply Nat.eqb_refl. }
  rewrite E1. cbn [app].
  assert (forall l, (forall j, In j l -> existsb (Nat.eqb j) (seq 0 k) = false) -> filter (fun j => negb (existsb (Nat.eqb j) (seq 0 k))) l = l) as H.
  { induction l as [|x l IH]; cbn [filter]; intros H; auto. rewrite (H x) by (left; auto). cbn [negb]. f_equal. apply IH. intros; apply H; right; auto. }
  apply H. intros j Hj. apply in_seq in Hj. destruct (existsb _ _) eqn:E; auto. apply existsb_exists in E as (i & Hi & Ei).
  apply in_seq in Hi. apply Nat.eqb_eq in Ei. lia.
Qed.

Lemma gather_seq_left u p : length u = k -> gather (seq 0 k) (u ++ p) = u.
Proof.
  intros L. apply vec_ext; rewrite gather_length, seq_length; auto. intros i Hi.
  rewrite nth_gather, seq_nth by (rewrite ?seq_length; auto). cbn [Nat.add]. apply app_nth1. lia.
Qed.
Lemma gather_seq_right u p : length u = k -> length p = m -> gather (seq k m) (u ++ p) = p.
Proof.
  intros L Lp. apply vec_ext; rewrite gather_length, seq_length; auto. intros i Hi.
  rewrite nth_gather, seq_nth by (rewrite ?seq_length; auto). rewrite app_nth2 by lia. f_equal. lia.
Qed.

Lemma left_encode u : length u = k -> bc_encode C u = u ++ vecmat m u P.
Proof.
  intros Lu. destruct left_I as (A & B & D). pose proof (vecmat_length m u P WP) as Lv.
  apply (sys_ext m P I A B D).
  - apply (join_length m P I).
  - rewrite app_length, Lv. lia.
  - rewrite (sys_info m P I WP A B D) by auto. symmetry. apply gather_seq_left; auto.
  - fold k. rewrite left_par at 2. rewrite gather_seq_right by auto. apply (join_par m P I A B D); auto.
Qed.

Lemma left_check r p : length r = k -> length p = m -> bc_check C (r ++ p) = vxor (vecmat m r P) p.
Proof.
  intros Lr Lp. cbn [bc_check C systematic_code]. fold k. rewrite left_par. unfold I.
  rewrite gather_seq_left, gather_seq_right by auto. auto.
Qed.

Lemma left_codeword v : is_codeword C v <-> exists u, length u = k /\ v = u ++ vecmat m u P.
Proof.
  split.
  - intros (u & Lu & <-). exists u. split; auto. apply left_encode; auto.
  - intros (u & Lu & ->). exists u. split; auto. apply left_encode; auto.
Qed.
End LeftSys.

(* a selection of w rows *)
Lemma vecmat_weight_1 m P u : wf m P -> length u = length P -> weight u = 1 ->
  exists r, In r P /\ vecmat m u P = r.
Proof.
  intros W L H. apply weight_1 in H as (j & Hj & E). rewrite L in *. rewrite E. exists (nth j P []). split; [apply nth_In; auto|].
  apply vecmat_unit; auto.
Qed.

Lemma select_row m P u w : wf m P -> length u = length P -> weight u = S w ->
  exists i u', i < length P /\ length u' = length P /\ nth i u' false = false /\ weight u' = w /\
    vecmat m u P = vxor (nth i P []) (vecmat m u' P).
Proof.
  revert u w; induction P as [|r P IH]; intros [|b u] w W L H; cbn [length] in *; try lia; try discriminate.
  apply wf_cons in W as [Lr W]. rewrite weight_cons in H. destruct b.
  - exists 0, (false :: u). cbn [length nth vecmat]. rewrite weight_cons. repeat split; lia || auto.
  - destruct (IH u w W ltac:(lia) ltac:(lia)) as (i & u' & Hi & Lu' & N & Wu' & E).
    exists (S i), (false :: u'). cbn [length nth vecmat]. rewrite weight_cons. repeat split; lia || auto.
Qed.

Lemma vecmat_weight_2 m P u : wf m P -> length u = length P -> weight u = 2 ->
  exists i j, i < length P /\ j < length P /\ i <> j /\ vecmat m u P = vxor (nth i P []) (nth j P []).
Proof.
  intros W L H. destruct (select_row m P u 1 W L H) as (i & u' & Hi & Lu' & N & Wu' & E).
  apply weight_1 in Wu' as (j & Hj & E'). rewrite Lu' in *. exists i, j. repeat split; auto.
  - intros ->. rewrite E', nth_unit_vec, Nat.eqb_refl in N by auto. discriminate.
  - rewrite E, E'. f_equal. apply vecmat_unit; auto.
Qed.

Lemma vxor_app a b c d : length a = length b -> vxor (a ++ c) (b ++ d) = vxor a b ++ vxor c d.
Proof. revert b; induction a as [|x a IH]; intros [|y b] L; cbn in *; try lia; auto. rewrite IH by lia. auto. Qed.

(* parity *)
Definition parity (v : vec) : bool := Nat.odd (weight v).

Lemma parity_vxor u v : length u = length v -> parity (vxor u v) = xorb (parity u) (parity v).
Proof.
  unfold parity. revert v; induction u as [|x u IH]; intros [|y v] L; cbn [length] in *; try lia; auto.
  cbn [vxor]. rewrite !weight_cons, !Nat.odd_add, IH by lia.
  destruct x, y, (Nat.odd (weight u)), (Nat.odd (weight v)); reflexivity.
Qed.

Lemma vxor_eq_zero_weight u v : length u = length v -> weight (vxor u v) = 0 -> u = v.
Proof. intros L W. apply hdist_zero; auto. Qed.

(* ---- Hamming ---- *)
Section Hamming.
Variable m : nat.
Hypothesis Hm : 2 <= m.
Let P := heavy m.
Let C := systematic_code m P (seq 0 (length P)).

Lemma hamming_weight u : length u = length P -> weight u <> 0 -> 3 <= weight (u ++ vecmat m u P).
Proof.
  intros L N. rewrite weight_app. pose proof (heavy_wf m) as W. destruct (weight u) as [|[|[|w]]] eqn:E; try lia.
  - destruct (vecmat_weight_1 m P u W L E) as (r & Hr & ->). apply in_heavy in Hr. lia.
  - destruct (vecmat_weight_2 m P u W L E) as (i & j & Hi & Hj & D & ->).
    assert (Li : length (nth i P []) = m) by (apply wf_nth; auto). assert (Lj : length (nth j P []) = m) by (apply wf_nth; auto).
    destruct (weight (vxor (nth i P []) (nth j P []))) eqn:Z; [|lia]. exfalso. apply D.
    apply vxor_eq_zero_weight in Z; [|congruence]. apply (proj1 (NoDup_nth P []) (heavy_NoDup m)); auto.
Qed.

Lemma two_ones : exists v, length v = m /\ weight v = 2.
Proof.
  exists (ones 2 ++ zeros (m - 2)). rewrite app_length, weight_app, zeros_length, weight_zeros. cbn. split; [lia|auto].
Qed.

Lemma hamming_distance : is_minimum_distance C 3.
Proof.
  pose proof (heavy_wf m) as W. pose proof (left_valid m P W) as V. apply minimum_weight_distance; [apply V|].
  split; [lia|]. split.
  - destruct two_ones as (v & Lv & Wv). assert (Hv : In v P) by (apply in_heavy; split; auto; lia).
    apply In_nth_row in Hv as (i & Hi & Ei). exists (bc_encode C (unit_vec (length P) i)). split.
    + exists (unit_vec (length P) i). split; auto. apply unit_vec_length.
    + unfold C. rewrite left_encode by (auto; apply unit_vec_length). rewrite vecmat_unit, weight_app by auto.
      rewrite weight_unit by auto. rewrite Ei. lia.
  - intros v Cv N. apply (left_codeword m P W) in Cv as (u & Lu & ->). apply hamming_weight; auto.
    intros Z. apply N. apply weight_zero in Z. rewrite Z, vecmat_zeros, weight_app, !weight_zeros by auto. auto.
Qed.

Lemma hamming_covering : is_covering_radius C 1.
Proof.
  pose proof (heavy_wf m) as W. pose proof (left_valid m P W) as V. split.
  - intros r Lr. change (bc_n C) with (length P + m) in Lr.
    rewrite <- (firstn_skipn (length P) r). set (a := firstn (length P) r). set (p := skipn (length P) r).
    assert (La : length a = length P) by (unfold a; rewrite firstn_length; lia).
    assert (Lp : length p = m) by (unfold p; rewrite skipn_length; lia). clearbody a p.
    pose proof (vecmat_length m a P W) as Lv. set (s := vxor (vecmat m a P) p).
    assert (Ls : length s = m) by (unfold s; rewrite vxor_length; congruence).
    assert (Hp : p = vxor (vecmat m a P) s) by (unfold s; rewrite vxor_cancel; congruence).
    destruct (le_lt_dec 2 (weight s)) as [Hs|Hs].
    + assert (Hin : In s P) by (apply in_heavy; auto). apply In_nth_row in Hin as (i & Hi & Ei).
      set (a' := vxor a (unit_vec (length P) i)).
      assert (La' : length a' = length P) by (unfold a'; rewrite vxor_length; rewrite ?unit_vec_length; auto).
      exists (a' ++ vecmat m a' P). split; [apply left_codeword; eauto|].
      assert (E : vecmat m a' P = p).
      { unfold a'. rewrite vecmat_vxor, vecmat_unit, Ei by (rewrite ?unit_vec_length; auto). auto. }
      rewrite E. unfold hdist. rewrite vxor_app, weight_app, vxor_self, weight_zeros by congruence.
      unfold a'. rewrite vxor_cancel by (rewrite unit_vec_length; auto). rewrite weight_unit; auto.
    + exists (a ++ vecmat m a P). split; [apply left_codeword; eauto|].
      unfold hdist. rewrite vxor_app, weight_app, vxor_self, weight_zeros by auto. rewrite (vxor_comm p). fold s. lia.
  - pose proof hamming_distance as D. apply minimum_weight_distance in D; [|apply V]. destruct D as (_ & _ & D).
    exists (unit_vec (length P + m) 0). split; [apply unit_vec_length|]. intros c Hc.
    destruct (hdist (unit_vec (length P + m) 0) c) eqn:Z; [exfalso|lia].
    assert (Lc : length c = length P + m) by (apply (codeword_length C); auto; apply V).
    apply hdist_zero in Z; [|rewrite unit_vec_length; auto].
    assert (W1 : weight c = 1) by (rewrite <- Z; apply weight_unit; lia).
    specialize (D c Hc ltac:(lia)). lia.
Qed.
End Hamming.

(* ---- extended Hamming ---- *)
Lemma odd_parity_bit_eq r : odd_parity_bit r = negb (parity r).
Proof. unfold odd_parity_bit, parity. rewrite vsum_weight, Nat.odd_add. destruct (Nat.odd (weight r)); auto. Qed.

Definition ext (r : vec) : vec := r ++ [odd_parity_bit r].

Lemma ext_length r : length (ext r) = length r + 1.
Proof. unfold ext. rewrite app_length. auto. Qed.

Lemma ext_parity r : parity (ext r) = true.
Proof.
  unfold ext, parity. rewrite weight_app, Nat.odd_add, odd_parity_bit_eq. unfold parity.
  destruct (Nat.odd (weight r)); reflexivity.
Qed.

Lemma ext_weight r : weight r <= weight (ext r).
Proof. unfold ext. rewrite weight_app. lia. Qed.

Lemma ext_inj r r' : ext r = ext r' -> r = r'.
Proof. unfold ext. intros E. apply app_inj_tail in E. tauto. Qed.

Section ExtHamming.
Variable m : nat.
Hypothesis Hm : 2 <= m.
Let P := map ext (heavy m).
Let C := systematic_code (m + 1) P (seq 0 (length P)).

Lemma ext_hamming_eq : hamming_parity_submatrix m true = P.
Proof. reflexivity. Qed.

Lemma ext_hamming_wf : wf (m + 1) P.
Proof.
  unfold wf, P. rewrite Forall_forall. intros v Hv. apply in_map_iff in Hv as (r & <- & Hr). apply in_heavy in Hr.
  rewrite ext_length. lia.
Qed.

Lemma ext_in r : In r P -> 3 <= weight r /\ parity r = true /\ length r = m + 1.
Proof.
  intros H. apply in_map_iff in H as (x & <- & Hx). apply in_heavy in Hx as [L W].
  pose proof (ext_parity x) as E. pose proof (ext_weight x) as G. rewrite ext_length. repeat split; auto; try lia.
  unfold parity in E. destruct (weight (ext x)) as [|[|[|w]]]; try lia. discriminate.
Qed.

Lemma ext_parity_vecmat u : length u = length P -> parity (vecmat (m + 1) u P) = parity u.
Proof.
  assert (G : forall Q v, Forall (fun r => parity r = true /\ length r = m + 1) Q -> length v = length Q ->
     parity (vecmat (m + 1) v Q) = parity v).
  { induction Q as [|r Q IH]; intros [|b v] F L; cbn [length vecmat] in *; try lia.
    - unfold parity. rewrite weight_zeros; auto.
    - inversion F as [|? ? [Pr Lr] F']; subst.
      assert (WQ : wf (m + 1) Q) by (unfold wf; eapply Forall_impl; [|exact F']; intros ? [_ ?]; auto).
      unfold parity at 2. rewrite weight_cons, Nat.odd_add. fold (parity v). rewrite <- (IH v) by (auto; lia).
      destruct b; [rewrite parity_vxor, Pr by (rewrite vecmat_length; auto); auto|].
      destruct (parity (vecmat (m + 1) v Q)); auto. }
  intros L. apply G; auto. rewrite Forall_forall. intros r Hr. apply ext_in in Hr. tauto.
Qed.

Lemma ext_hamming_weight u : length u = length P -> weight u <> 0 -> 4 <= weight (u ++ vecmat (m + 1) u P).
Proof.
  intros L N. rewrite weight_app. pose proof ext_hamming_wf as W. pose proof (ext_parity_vecmat u L) as Q. unfold parity in Q.
  destruct (weight u) as [|[|[|[|w]]]] eqn:E; try lia.
  - destruct (vecmat_weight_1 _ P u W L E) as (r & Hr & ->). apply ext_in in Hr. lia.
  - destruct (vecmat_weight_2 _ P u W L E) as (i & j & Hi & Hj & D & ER). rewrite ER in *.
    assert (Li : length (nth i P []) = m + 1) by (apply wf_nth; auto). assert (Lj : length (nth j P []) = m + 1) by (apply wf_nth; auto).
    destruct (weight (vxor (nth i P []) (nth j P []))) as [|[|x]] eqn:Z; [|discriminate|lia]. exfalso. apply D.
    apply vxor_eq_zero_weight in Z; [|congruence]. apply (proj1 (NoDup_nth P [])); auto.
    apply NoDup_map_inj_in; [|apply heavy_NoDup]. intros; apply ext_inj; auto.
  - destruct (weight (vecmat (m + 1) u P)); [discriminate|lia].
Qed.

Lemma ext_hamming_distance : is_minimum_distance C 4.
Proof.
  pose proof ext_hamming_wf as W. pose proof (left_valid _ P W) as V. apply minimum_weight_distance; [apply V|].
  split; [lia|]. split.
  - destruct (two_ones m Hm) as (v & Lv & Wv). assert (Hv : In (ext v) P) by (apply in_map; apply in_heavy; split; auto; lia).
    apply In_nth_row in Hv as (i & Hi & Ei). exists (bc_encode C (unit_vec (length P) i)). split.
    + exists (unit_vec (length P) i). split; auto. apply unit_vec_length.
    + unfold C. rewrite left_encode by (auto; apply unit_vec_length). rewrite vecmat_unit, weight_app by auto.
      rewrite weight_unit by auto. rewrite Ei. unfold ext. rewrite weight_app, odd_parity_bit_eq. unfold parity. rewrite Wv. reflexivity.
  - intros v Cv N. apply (left_codeword _ P W) in Cv as (u & Lu & ->). apply ext_hamming_weight; auto.
    intros Z. apply N. apply weight_zero in Z. rewrite Z, vecmat_zeros, weight_app, !weight_zeros by auto. auto.
Qed.
End ExtHamming.

(* ---- simplex ---- *)
(* a non-zero functional is true on exactly half of the words *)
Lemma filter_map_length {A B} (f : A -> B) (p : B -> bool) l : length (filter p (map f l)) = length (filter (fun x => p (f x)) l).
Proof. induction l as [|x l IH]; cbn; auto. destruct (p (f x)); cbn; auto. Qed.

Lemma filter_negb_length {A} (p : A -> bool) l : length (filter (fun x => negb (p x)) l) + length (filter p l) = length l.
Proof. induction l as [|x l IH]; cbn; auto. destruct (p x); cbn; lia. Qed.

Lemma half_words m u : length u = m -> weight u <> 0 -> 2 * length (filter (dot u) (words m)) = 2 ^ m.
Proof.
  revert u; induction m as [|m IH]; intros [|b u] L W; cbn [length] in *; try lia; try (cbn in W; congruence).
  cbn [words]. rewrite filter_app, app_length, !filter_map_length.
  rewrite (filter_ext (fun x => dot (b :: u) (false :: x)) (dot u)) by (intros; cbn; rewrite andb_false_r; destruct (dot u a); auto).
  rewrite weight_cons in W. destruct b.
  - rewrite (filter_ext (fun x => dot (true :: u) (true :: x)) (fun x => negb (dot u x))) by (intros; cbn; destruct (dot u a); auto).
    pose proof (filter_negb_length (dot u) (words m)) as H. rewrite words_length in H. cbn [Nat.pow]. lia.
  - rewrite (filter_ext (fun x => dot (false :: u) (true :: x)) (dot u)) by (intros; cbn; destruct (dot u a); auto).
    specialize (IH u ltac:(lia) ltac:(lia)). cbn [Nat.pow]. lia.
Qed.

Lemma weight_map {A} (f : A -> bool) l : weight (map f l) = length (filter f l).
Proof. unfold weight. rewrite filter_map_length. auto. Qed.

Lemma filter_perm_length {A} (p : A -> bool) l l' : Permutation l l' -> length (filter p l) = length (filter p l').
Proof. induction 1; cbn; auto; try congruence; repeat destruct (p _); cbn; auto; try congruence. Qed.

(* a codeword of the systematic code of P^T lists the products of u with unit vectors and rows of P *)
Lemma transposed_encode w Q u : wf w Q -> length u = w ->
  let C := systematic_code (length Q) (transpose w Q) (seq 0 w) in
  bc_encode C u = map (dot u) (eye w ++ Q).
Proof.
  intros W L C. pose proof (wf_transpose w Q) as WT. pose proof (left_encode _ (transpose w Q) WT) as E.
  rewrite transpose_length in E. unfold C. rewrite E by auto. rewrite vecmat_transpose by auto. rewrite map_app. f_equal.
  - transitivity (matvec (eye w) u); [rewrite matvec_eye; auto|]. unfold matvec. apply map_ext. intros; apply dot_comm.
  - unfold matvec. apply map_ext. intros; apply dot_comm.
Qed.

Section Simplex.
Variable m : nat.
Hypothesis Hm : 2 <= m.
Let Q := heavy m.
Let C := systematic_code (length Q) (transpose m Q) (seq 0 m).

Lemma simplex_weight u : length u = m -> weight u <> 0 -> weight (bc_encode C u) = 2 ^ (m - 1).
Proof.
  intros L N. unfold C. rewrite transposed_encode by (auto; apply heavy_wf). rewrite weight_map.
  pose proof (filter_perm_length (dot u) _ _ (nonzero_perm m)) as H. cbn [filter] in H. rewrite dot_zeros_r in H.
  fold Q in H. rewrite <- H. pose proof (half_words m u L N) as E.
  destruct m as [|m']; [lia|]. cbn [Nat.sub]. rewrite Nat.sub_0_r. cbn [Nat.pow] in E. lia.
Qed.
End Simplex.

Lemma dot_ones m' c : length c = m' -> dot (ones m') c = parity c.
Proof.
  unfold parity. revert c; induction m' as [|m' IH]; intros [|b c] L; cbn [length] in *; try lia; auto.
  cbn [ones repeat dot andb]. fold (ones m'). rewrite IH by lia. rewrite weight_cons, Nat.odd_add. destruct b; auto.
Qed.

Section ExtSimplex.
Variable m : nat.
Hypothesis Hm : 2 <= m.
Let Q := map ext (heavy m).
Let C := systematic_code (length Q) (transpose (m + 1) Q) (seq 0 (m + 1)).

Lemma dot_ext u b c : length u = m -> length c = m ->
  dot (u ++ [b]) (ext c) = xorb b (dot (if b then vxor u (ones m) else u) c).
Proof.
  intros Lu Lc. unfold ext. rewrite dot_app by congruence. cbn [dot]. rewrite odd_parity_bit_eq.
  destruct b; [|destruct (dot u c); auto]. rewrite dot_vxor_l by (unfold ones; rewrite repeat_length; auto).
  rewrite dot_ones by auto. destruct (dot u c), (parity c); reflexivity.
Qed.

(* unit vectors and extended heavy rows are the extensions of all words *)
Lemma ext_perm : Permutation (eye (m + 1) ++ Q) (map ext (words m)).
Proof.
  assert (N1 : NoDup Q) by (apply NoDup_map_inj_in; [intros; apply ext_inj; auto|apply heavy_NoDup]).
  apply NoDup_Permutation.
  - apply NoDup_app_intro; [apply eye_NoDup|auto|]. intros v Hv Hq. apply in_eye in Hv. apply (ext_in m Hm) in Hq. lia.
  - apply NoDup_map_inj_in; [intros; apply ext_inj; auto|apply words_NoDup].
  - intros v. rewrite in_app_iff, in_eye, in_map_iff. split.
    + intros [[L W]|H].
      * destruct (exists_last (l := v)) as (c & b & ->); [destruct v; [cbn in W; lia|discriminate]|].
        rewrite app_length in L. cbn [length] in L. rewrite weight_app in W. exists c. split; [|apply in_words; lia].
        unfold ext. f_equal. f_equal. rewrite odd_parity_bit_eq. unfold parity. destruct b; cbn in W.
        -- replace (weight c) with 0 by lia. reflexivity.
        -- replace (weight c) with 1 by lia. reflexivity.
      * apply in_map_iff in H as (c & <- & Hc). apply in_heavy in Hc. exists c. split; auto. apply in_words. tauto.
    + intros (c & <- & Hc). apply in_words in Hc. destruct (le_lt_dec 2 (weight c)) as [H|H].
      * right. apply in_map. apply in_heavy. auto.
      * left. rewrite ext_length. split; [lia|]. unfold ext. rewrite weight_app, odd_parity_bit_eq. unfold parity.
        destruct (weight c) as [|[|w]]; cbn; lia.
Qed.

Lemma ext_simplex_weight u b : length u = m -> weight (u ++ [b]) <> 0 ->
  weight (bc_encode C (u ++ [b])) = 2 ^ (m - 1) \/ weight (bc_encode C (u ++ [b])) = 2 ^ m.
Proof.
  intros L N. unfold C. rewrite transposed_encode by (try apply (ext_hamming_wf m Hm); rewrite app_length; cbn; lia).
  rewrite weight_map. rewrite (filter_perm_length _ _ _ ext_perm), filter_map_length.
  set (u' := if b then vxor u (ones m) else u).
  assert (Lu' : length u' = m) by (unfold u'; destruct b; auto; rewrite vxor_length; unfold ones; rewrite ?repeat_length; auto).
  assert (E : length (filter (fun x => dot (u ++ [b]) (ext x)) (words m)) = length (filter (fun x => xorb b (dot u' x)) (words m))).
  { apply f_equal, filter_ext_in. intros c Hc. apply in_words in Hc. apply dot_ext; auto. }
  rewrite E. pose proof (filter_negb_length (dot u') (words m)) as H2. rewrite words_length in H2.
  destruct (Nat.eq_dec (weight u') 0) as [Z|Z].
  - right. apply weight_zero in Z. rewrite Lu' in Z. destruct b.
    + rewrite (filter_ext _ (fun x => negb (dot u' x))) by (intros x; destruct (dot u' x); auto).
      assert (length (filter (dot u') (words m)) = 0).
      { rewrite Z. rewrite (filter_ext _ (fun _ => false)) by (intros; apply dot_zeros_l). generalize (words m) as l. induction l; auto. }
      lia.
    + exfalso. apply N. unfold u' in Z. rewrite Z, weight_app, weight_zeros. auto.
  - left. pose proof (half_words m u' Lu' Z) as H. assert (P2 : 2 ^ m = 2 * 2 ^ (m - 1)).
    { destruct m as [|m']; [lia|]. cbn [Nat.sub]. rewrite Nat.sub_0_r. reflexivity. }
    destruct b.
    + rewrite (filter_ext _ (fun x => negb (dot u' x))) by (intros x; destruct (dot u' x); auto). lia.
    + rewrite (filter_ext _ (dot u')) by (intros x; destruct (dot u' x); auto). lia.
Qed.

Lemma ext_simplex_weight_false u : length u = m -> weight u <> 0 -> weight (bc_encode C (u ++ [false])) = 2 ^ (m - 1).
Proof.
  intros L N. unfold C. rewrite transposed_encode by (try apply (ext_hamming_wf m Hm); rewrite app_length; cbn; lia).
  rewrite weight_map. rewrite (filter_perm_length _ _ _ ext_perm), filter_map_length.
  assert (E : length (filter (fun x => dot (u ++ [false]) (ext x)) (words m)) = length (filter (dot u) (words m))).
  { apply f_equal, filter_ext_in. intros c Hc. apply in_words in Hc. rewrite dot_ext by auto. destruct (dot u c); auto. }
  rewrite E. pose proof (half_words m u L N) as H. assert (P2 : 2 ^ m = 2 * 2 ^ (m - 1)).
  { destruct m as [|m']; [lia|]. cbn [Nat.sub]. rewrite Nat.sub_0_r. reflexivity. }
  lia.
Qed.
End ExtSimplex.
