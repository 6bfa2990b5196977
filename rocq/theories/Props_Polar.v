(* C42, C45: polar codes with successive-cancellation decoding, and Wagner decoding.
   Statements use Polar_Model, SC_Model, Wagner_Model and the specification Code_Spec. *)
From Coq Require Import QArith Reals Lra.
From Verif Require Import Common Bits_Model Vec_Model LinAlg_Model Linear_Spec BlockCode_Model Code_Spec ClassicCodes_Model
  Polar_Model SC_Model Wagner_Model.
From Verif Require Vec_Proof BlockCode_Proof ClassicCodes_Proof Polar_Proof SC_Proof Wagner_Proof.
Local Open Scope nat_scope.

Ltac conjs := lazymatch goal with |- _ /\ _ => split; [|conjs] | _ => idtac end.

(* ================= C42 *)
(* the parameters the constructor accepts, at least one index being active *)
Definition polar_ok (mu : nat) (frozen : list nat) : Prop :=
  1 <= mu /\ NoDup frozen /\ (forall i, In i frozen -> i < 2 ^ mu) /\ length frozen < 2 ^ mu.

Lemma distinctb_iff l : distinctb l = true <-> NoDup l.
Proof.
  induction l as [|x l IH]; cbn; [split; auto; constructor|]. rewrite andb_true_iff, negb_true_iff, IH. split.
  - intros [H N]. constructor; auto. intros Hx. enough (existsb (Nat.eqb x) l = true) by congruence. apply existsb_exists. exists x. split; auto. apply Nat.eqb_refl.
  - intros H. inversion H; subst. split; auto. destruct (existsb _ _) eqn:E; auto. apply existsb_exists in E as (y & Hy & Ey). apply Nat.eqb_eq in Ey. subst. contradiction.
Qed.

Lemma active_length mu frozen : NoDup frozen -> (forall i, In i frozen -> i < 2 ^ mu) -> length (polar_active mu frozen) + length frozen = 2 ^ mu.
Proof.
  intros ND B. destruct (Polar_Proof.not_pivots_props (2 ^ mu) frozen) as [NA HA].
  rewrite <- app_length, <- (seq_length (2 ^ mu) 0). apply Permutation.Permutation_length, Permutation.NoDup_Permutation.
  - apply Vec_Proof.NoDup_app_intro; auto. intros x Hx. apply HA in Hx. tauto.
  - apply seq_NoDup.
  - intros x. rewrite in_app_iff, in_seq. unfold polar_active. rewrite HA. split; [intros [[H _]|H]; [lia|apply B in H; lia]|].
    intros. destruct (in_dec Nat.eq_dec x frozen); auto. left. split; auto; lia.
Qed.

Theorem C42_polar_code : forall mu frozen, polar_ok mu frozen ->
  exists C, PolarCode mu frozen = Some C /\ valid_code C /\
  bc_n C = 2 ^ mu /\ bc_k C = 2 ^ mu - length frozen /\
  (* rows of the mu-fold Kronecker power of [[1,0],[1,1]] at the active positions: entry (i,j) is 1
     exactly when the binary digits of j are among those of i *)
  length (bc_G C) = length (polar_active mu frozen) /\
  (forall t j, t < length (polar_active mu frozen) -> j < 2 ^ mu ->
     nth j (nth t (bc_G C) []) false = (Nat.land (nth t (polar_active mu frozen) 0) j =? j)) /\
  (* the butterfly computes the product with the generator matrix; both inverse directions hold by valid_code *)
  (forall u, length u = bc_k C -> polar_encode mu (polar_active mu frozen) u = vecmat (bc_n C) u (bc_G C)) /\
  (forall u, length u = bc_k C -> bc_inverse_encode C (bc_encode C u) = Some u).
Proof.
  intros mu frozen (Hmu & ND & B & NF).
  pose proof (active_length mu frozen ND B) as AL.
  set (act := polar_active mu frozen) in *. set (G := map (fun i => nth i (hadamard mu) []) act).
  pose proof (Polar_Proof.G_wf mu frozen) as W. fold act in W. fold G in W.
  pose proof (Polar_Proof.G_independent mu frozen) as Ind. fold act in Ind. fold G in Ind.
  assert (LG : length G = length act) by apply map_length.
  destruct (BlockCode_Proof.code_of_generator_valid (2 ^ mu) G W Ind) as (C & E & A & K & EG & V & Cw); [lia|].
  set (C' := {| bc_n := bc_n C; bc_k := bc_k C; bc_m := bc_m C; bc_G := bc_G C; bc_Ginv := bc_Ginv C; bc_H := bc_H C;
                bc_encode := polar_encode mu act; bc_project := bc_project C; bc_check := bc_check C |}).
  assert (Enc : forall u, length u = bc_k C -> polar_encode mu act u = bc_encode C u).
  { intros u Lu. rewrite (ok_encode C V u Lu), A, EG. unfold act. apply Polar_Proof.encode_matrix. fold act. congruence. }
  assert (CwE : forall v, is_codeword C' v <-> is_codeword C v).
  { intros v. split; intros (u & Lu & <-); exists u; (split; [exact Lu|]); cbn [bc_encode C']; [symmetry|]; apply Enc; auto. }
  assert (V' : valid_code C').
  { destruct V as [P [O1 O2 O3 O4 O5 O6] [Q1 Q2 Q3 Q4 Q5]]. constructor; [exact P| |].
    - constructor; cbn [C' bc_n bc_k bc_G bc_encode bc_project]; auto.
      + intros u Lu. rewrite Enc by auto. auto.
      + intros u Lu. rewrite Enc by auto. auto.
      + intros u v Lu Lv. rewrite !Enc; auto. rewrite Vec_Proof.vxor_length; congruence.
      + intros u v Lu Lv. rewrite !Enc; auto.
      + intros u Lu. rewrite Enc by auto. auto.
    - constructor; cbn [C' bc_n bc_m bc_G bc_H bc_check]; auto. intros r Lr. rewrite CwE. auto. }
  exists C'. split.
  { unfold PolarCode. rewrite (proj2 (Nat.leb_le 1 mu) Hmu), (proj2 (distinctb_iff frozen) ND).
    replace (forallb (fun i => i <? 2 ^ mu) frozen) with true by (symmetry; apply forallb_forall; intros i Hi; apply Nat.ltb_lt; auto).
    cbn [andb]. fold act G. cbv zeta. rewrite E. reflexivity. }
  split; [exact V'|]. cbn [C' bc_n bc_k bc_G bc_encode]. conjs; auto.
  - lia.
  - rewrite EG. auto.
  - intros t j Ht Hj. rewrite EG. unfold G.
    rewrite (nth_indep _ [] (nth 0 (hadamard mu) [])) by (rewrite map_length; auto). rewrite (map_nth (fun i => nth i (hadamard mu) [])).
    apply Polar_Proof.hadamard_entry; auto. apply (Polar_Proof.act_lt mu frozen). apply nth_In; auto.
  - intros u Lu. rewrite Enc, (ok_encode C V u Lu) by auto. auto.
  - intros u Lu. rewrite Enc by auto.
    assert (IE : bc_inverse_encode C' (polar_encode mu act u) = Some u).
    { apply (BlockCode_Proof.inverse_encode_spec C' (polar_encode mu act u)); [apply V'| | |split; auto].
      - intros r Lr. pose proof (ok_check_zero C' V' r Lr) as Q. rewrite (ok_check C' V' r Lr) in *. rewrite Vec_Proof.matvec_length.
        destruct (ok_H C' V') as [_ LH]. rewrite LH. exact Q.
      - cbn [C' bc_n]. rewrite Enc by auto. apply (ok_encode_length C V); auto. }
    rewrite Enc in IE by auto. exact IE.
Qed.

Theorem C42_rejected : forall mu frozen,
  mu = 0 \/ ~ NoDup frozen \/ (exists i, In i frozen /\ 2 ^ mu <= i) -> PolarCode mu frozen = None.
Proof.
  intros mu frozen H. unfold PolarCode. destruct (_ && _ && _) eqn:E; auto. exfalso.
  apply andb_true_iff in E as [E E3]. apply andb_true_iff in E as [E1 E2]. apply Nat.leb_le in E1. apply distinctb_iff in E3.
  rewrite forallb_forall in E2. destruct H as [->|[H|(i & Hi & Hge)]]; [lia|contradiction|]. specialize (E2 i Hi). apply Nat.ltb_lt in E2. lia.
Qed.

(* boxplus, as computed, is the L-value of the modulo-2 sum of two independent bits with L-values a and b:
   exp(L) = P(0)/P(1) *)
Theorem C42_boxplus : forall a b, exp (boxplus a b) = ((1 + exp (a + b)) / (exp a + exp b))%R.
Proof. exact SC_Proof.boxplus_exp. Qed.

(* The decoder's loop finishes on every input within 4 * 2^mu iterations. *)
Theorem C42_sc_terminates : forall mu frozen li fuel, length li = 2 ^ mu -> 4 * 2 ^ mu <= fuel ->
  exists out, sc_decode_soft mu frozen fuel li = Some out /\ length out = length (polar_active mu frozen).
Proof.
  intros mu frozen li fuel L Hf. eexists. split; [apply SC_Proof.sc_decode_rec; auto|]. apply map_length.
Qed.

(* noiseless L-values: negative exactly where the codeword has a 1 *)
Definition noiseless (li : list R) (v : vec) : Prop :=
  Forall2 (fun x (b : bool) => if b then (x < 0)%R else (0 < x)%R) li v.

Theorem C42_sc_noiseless : forall mu frozen C u li fuel, PolarCode mu frozen = Some C ->
  length u = bc_k C -> 4 * 2 ^ mu <= fuel -> noiseless li (bc_encode C u) ->
  sc_decode_hard mu frozen fuel li = Some u /\
  exists out, sc_decode_soft mu frozen fuel li = Some out /\ noiseless out u.
Proof.
  intros mu frozen C u li fuel E Lu Hf N. unfold PolarCode in E. destruct (_ && _ && _); [|discriminate].
  unfold code_of_generator in E. destruct (null_matrix _ _); [|discriminate]. injection E as <-. cbn [bc_k bc_encode matrix_code] in *. rewrite map_length in Lu.
  destruct (SC_Proof.sc_noiseless_decode mu frozen u li fuel Lu Hf N) as (out & E & A). split; [|exists out; split; auto].
  unfold sc_decode_hard. rewrite E. cbn [option_map]. f_equal. clear - A. induction A as [|x b l v H A IH]; cbn [map]; auto. f_equal; auto.
  apply SC_Proof.agrees_neg; auto.
Qed.

Example C42_example : polar_ok 3 [0; 1; 2; 4] /\ polar_active 3 [0; 1; 2; 4] = [3; 5; 6; 7] /\
  polar_encode 3 [3; 5; 6; 7] [true; false; true; false] = [false; true; false; true; true; false; true; false] /\
  exists C, PolarCode 3 [0; 1; 2; 4] = Some C /\ bc_k C = 4.
Proof.
  split; [|split; [reflexivity|split; [reflexivity|]]].
  - split; [lia|]. split; [apply distinctb_iff; reflexivity|]. split; [|cbn; lia]. intros i Hi. cbn in Hi. cbn. lia.
  - eexists. split; [vm_compute; reflexivity|reflexivity].
Qed.

(* ================= C45 *)
Theorem C45_wagner : forall n C r, SingleParityCheckCode n = Some C -> length r = n ->
  length (wagner_decode C r) = bc_k C /\
  forall c, is_codeword C c -> (correlation r c <= correlation r (bc_encode C (wagner_decode C r)))%Q.
Proof.
  intros n C r E Lr.
  assert (Hn : 1 <= n) by (unfold SingleParityCheckCode in E; destruct (Nat.leb_spec 1 n); [auto|discriminate]).
  destruct (ClassicCodes_Proof.spc_code n Hn) as (C' & E' & A & B & V & Cw). assert (C' = C) by congruence. subst C'.
  assert (NE : r <> []) by (intros ->; cbn in Lr; lia).
  destruct (Wagner_Proof.wagner_word_spec r NE) as (L & O & Opt).
  assert (CW : is_codeword C (Wagner_Proof.wagner_word r)).
  { apply Cw. split; [congruence|]. apply Wagner_Proof.even_not_odd; auto. }
  destruct CW as (u & Lu & Eu). change (wagner_decode C r) with (bc_project C (Wagner_Proof.wagner_word r)).
  rewrite <- Eu, (ok_project C V u Lu). split; auto. intros c Hc. rewrite Eu. apply Cw in Hc as [Lc Ec]. apply Opt; [congruence|].
  apply Wagner_Proof.even_not_odd; auto.
Qed.

Example C45_example : exists C, SingleParityCheckCode 4 = Some C /\
  bc_encode C (wagner_decode C [3 # 2; -1 # 2; 2 # 1; 1 # 1]%Q) = [false; false; false; false] /\
  bc_encode C (wagner_decode C [3 # 2; -1 # 1; -2 # 1; 1 # 4]%Q) = [false; true; true; false].
Proof. eexists. split; [reflexivity|]. split; vm_compute; reflexivity. Qed.
