From Verif Require Import Common Bits_Model Vec_Model Vec_Proof LinAlg_Model Linear_Spec LinAlg_Proof Conv_Model Conv_Spec Conv_Proof.
Local Open Scope nat_scope.

Local Notation tb p l := (N.testbit p (N.of_nat l)).

(* ---- polynomial coefficients ---- *)
Lemma deg_testbit p l : deg p < l -> tb p l = false.
Proof.
  unfold deg. intros H. destruct p as [|p]; [apply N.bits_0|]. apply N.bits_above_log2. 
  assert (N.size_nat (N.pos p) = S (N.to_nat (N.log2 (N.pos p)))).
  { rewrite <- N2Nat.inj_succ, <- N.size_log2 by discriminate. cbn [N.size N.size_nat]. clear. induction p; cbn; try (rewrite IHp, Pos2Nat.inj_succ); auto. }
  rewrite H0 in H. lia.
Qed.
Lemma max_deg_in ps p : In p ps -> deg p <= max_deg ps.
Proof. unfold max_deg. induction ps as [|q ps IH]; [intros []|]. cbn [In map fold_right]. intros [->|I]; [lia|]. specialize (IH I). lia. Qed.

(* ---- sums ---- *)
Lemma xsum_cons x l : xsum (x :: l) = xorb x (xsum l). Proof. reflexivity. Qed.
Lemma xsum_app (a b : list bool) : xsum (a ++ b) = xorb (xsum a) (xsum b).
Proof. induction a as [|x a IH]; [cbn [app]; change (xsum []) with false; destruct (xsum b); auto|]. cbn [app]. rewrite !xsum_cons, IH. destruct x, (xsum a), (xsum b); auto. Qed.
Lemma xsum_map_false {A} (f : A -> bool) l : (forall x, In x l -> f x = false) -> xsum (map f l) = false.
Proof. induction l as [|x l IH]; intros H; auto. cbn [map]. rewrite xsum_cons, IH, H; auto; [left; auto|intros; apply H; right; auto]. Qed.
Lemma xsum_map_ext {A} (f g : A -> bool) l : (forall x, In x l -> f x = g x) -> xsum (map f l) = xsum (map g l).
Proof. intros H. f_equal. apply map_ext_in. auto. Qed.
Lemma xsum_map_xorb {A} (f g : A -> bool) l : xsum (map (fun x => xorb (f x) (g x)) l) = xorb (xsum (map f l)) (xsum (map g l)).
Proof. induction l as [|x l IH]; auto. cbn [map]. rewrite !xsum_cons, IH. destruct (f x), (g x), (xsum (map f l)), (xsum (map g l)); auto. Qed.
Lemma xsum_seq_shift (f : nat -> bool) a n : xsum (map f (seq (S a) n)) = xsum (map (fun i => f (S i)) (seq a n)).
Proof. rewrite <- seq_shift, map_map. reflexivity. Qed.
Lemma xsum_trim (f : nat -> bool) n m : (forall i, n <= i -> i < m -> f i = false) -> n <= m -> xsum (map f (seq 0 m)) = xsum (map f (seq 0 n)).
Proof.
  intros H L. replace m with (n + (m - n)) by lia. rewrite seq_app, map_app, xsum_app.
  rewrite (xsum_map_false f (seq (0 + n) (m - n))); [apply xorb_false_r|]. intros x I. apply in_seq in I. apply H; lia.
Qed.
Lemma dot_maps (f g : nat -> bool) l : dot (map f l) (map g l) = xsum (map (fun i => f i && g i) l).
Proof. induction l as [|x l IH]; auto. cbn [map dot]. rewrite xsum_cons, IH. reflexivity. Qed.

(* ---- the shift register contents ---- *)
Definition hist (nu : nat) (w : nat -> bool) (t : nat) : vec := map (fun l => (l <? t) && w (t - 1 - l)) (seq 0 nu).
Lemma hist_length nu w t : length (hist nu w t) = nu.
Proof. unfold hist. rewrite map_length, seq_length. reflexivity. Qed.
Lemma hist_0 nu w : hist nu w 0 = zeros nu.
Proof.
  apply vec_ext; rewrite hist_length, ?zeros_length; auto. intros i Hi. unfold hist. rewrite nth_map_seq by auto. rewrite nth_zeros. reflexivity.
Qed.
Lemma hist_S nu w t : hist nu w (S t) = firstn nu (w t :: hist (nu - 1) w t).
Proof.
  destruct nu as [|nu]; auto. cbn [firstn]. replace (S nu - 1) with nu by lia. unfold hist. cbn [seq map].
  replace ((0 <? S t) && w (S t - 1 - 0)) with (w t) by (cbn; rewrite ?Nat.sub_0_r; auto). f_equal.
  rewrite <- seq_shift, map_map. rewrite firstn_all2 by (rewrite map_length, seq_length; lia). apply map_ext. intros l.
  change (S l <? S t) with (l <? t). f_equal. f_equal. lia.
Qed.
Lemma series_mul_S p w t : series_mul p w t = xorb (tb p 0 && w t) (xsum (map (fun l => tb p (S l) && w (t - 1 - l)) (seq 0 t))).
Proof.
  unfold series_mul. cbn [seq map xsum fold_right]. rewrite Nat.sub_0_r. f_equal. change (fold_right xorb false) with xsum. rewrite xsum_seq_shift.
  apply xsum_map_ext. intros l _. f_equal. f_equal. lia.
Qed.
Lemma dot_hist p nu w t : deg p <= nu ->
  dot (hist nu w t) (map (fun l => tb p (S l)) (seq 0 nu)) = xsum (map (fun l => tb p (S l) && w (t - 1 - l)) (seq 0 t)).
Proof.
  intros H. unfold hist. rewrite dot_maps. set (f := fun l => tb p (S l) && w (t - 1 - l)).
  transitivity (xsum (map (fun l => (l <? t) && f l) (seq 0 nu))).
  { apply xsum_map_ext. intros l _. unfold f. destruct (l <? t), (tb p (S l)), (w (t - 1 - l)); auto. }
  transitivity (xsum (map (fun l => (l <? t) && f l) (seq 0 (Nat.max nu t)))).
  { symmetry. apply xsum_trim; [|lia]. intros i Hi _. unfold f. rewrite deg_testbit by lia. apply andb_false_r. }
  rewrite (xsum_trim _ t); [|intros i Hi _; destruct (Nat.ltb_spec i t); auto; lia|lia].
  apply xsum_map_ext. intros l I. apply in_seq in I. destruct (Nat.ltb_spec l t); auto; lia.
Qed.
(* solving q w = u for odd q *)
Lemma series_div_exists q (u : nat -> bool) : tb q 0 = true -> exists w, forall t, series_mul q w t = u t.
Proof.
  intros Q. set (step := fun (l : list bool) => let t := length l in
    xorb (u t) (xsum (map (fun i => tb q (S i) && nth (t - 1 - i) l false) (seq 0 t)))).
  set (pre := nat_rect (fun _ => list bool) [] (fun _ l => l ++ [step l])).
  assert (Lp : forall t, length (pre t) = t) by (induction t; cbn; auto; fold (pre t); rewrite app_length, IHt; cbn; lia).
  assert (St : forall t i, i < t -> nth i (pre t) false = step (pre i)).
  { induction t as [|t IH]; intros i Hi; [lia|]. change (pre (S t)) with (pre t ++ [step (pre t)]). destruct (Nat.eq_dec i t) as [->|].
    - rewrite app_nth2; rewrite Lp; [rewrite Nat.sub_diag; auto|lia].
    - rewrite app_nth1 by (rewrite Lp; lia). apply IH. lia. }
  exists (fun t => step (pre t)). intros t. rewrite series_mul_S, Q. cbn [andb]. unfold step at 1. rewrite Lp.
  rewrite (xsum_map_ext (fun i => tb q (S i) && nth (t - 1 - i) (pre t) false) (fun l => tb q (S l) && step (pre (t - 1 - l)))).
  - destruct (u t), (xsum _); auto.
  - intros i I. apply in_seq in I. rewrite St by lia. reflexivity.
Qed.
Lemma series_div_unique q (w w' : nat -> bool) n : tb q 0 = true -> (forall t, t < n -> series_mul q w t = series_mul q w' t) ->
  forall t, t < n -> w t = w' t.
Proof.
  intros Q H t. induction t as [t IH] using lt_wf_ind. intros L. specialize (H t L). rewrite !series_mul_S, Q in H. cbn [andb] in H.
  rewrite (xsum_map_ext (fun l => tb q (S l) && w (t - 1 - l)) (fun l => tb q (S l) && w' (t - 1 - l))) in H.
  - destruct (w t), (w' t), (xsum _); auto.
  - intros l I. apply in_seq in I. f_equal. apply IH; lia.
Qed.
Lemma series_mul_1 w t : series_mul 1 w t = w t.
Proof.
  rewrite series_mul_S. rewrite xsum_map_false; [cbn; apply xorb_false_r|]. intros l _. rewrite deg_testbit; auto. cbn. lia.
Qed.

(* ---- block diagonal matrices ---- *)
Lemma vecmat_pad_r c m v M : wf c M -> vecmat (c + m) v (map (fun r => r ++ zeros m) M) = vecmat c v M ++ zeros m.
Proof.
  revert M; induction v as [|x v IH]; intros M W; [cbn; unfold zeros; symmetry; rewrite <- repeat_app; auto|].
  destruct M as [|r M]; cbn [map vecmat]; [unfold zeros; rewrite <- repeat_app; auto|]. apply wf_cons in W as [L W].
  destruct x; rewrite IH by auto; auto.
  assert (forall a b a' b' : vec, length a = length a' -> vxor (a ++ b) (a' ++ b') = vxor a a' ++ vxor b b').
  { induction a as [|y a IHa]; intros b [|z a'] b' La; cbn in *; try lia; auto. f_equal. apply IHa. lia. }
  rewrite H by (rewrite vecmat_length; auto). rewrite vxor_zeros_r by apply zeros_length. reflexivity.
Qed.
Lemma vecmat_pad_l c m v M : wf m M -> vecmat (c + m) v (map (fun r => zeros c ++ r) M) = zeros c ++ vecmat m v M.
Proof.
  revert M; induction v as [|x v IH]; intros M W; [cbn; unfold zeros; rewrite <- repeat_app; auto|].
  destruct M as [|r M]; cbn [map vecmat]; [unfold zeros; rewrite <- repeat_app; auto|]. apply wf_cons in W as [L W].
  destruct x; rewrite IH by auto; auto.
  assert (forall a b a' b' : vec, length a = length a' -> vxor (a ++ b) (a' ++ b') = vxor a a' ++ vxor b b').
  { induction a as [|y a IHa]; intros b [|z a'] b' La; cbn in *; try lia; auto. f_equal. apply IHa. lia. }
  rewrite H by auto. rewrite vxor_zeros_r by apply zeros_length. reflexivity.
Qed.
Lemma vxor_app (a b a' b' : vec) : length a = length a' -> vxor (a ++ b) (a' ++ b') = vxor a a' ++ vxor b b'.
Proof. revert a'; induction a as [|y a IHa]; intros [|z a'] La; cbn in *; try lia; auto. f_equal. apply IHa. lia. Qed.
Lemma bd_wf bs : Forall (fun b => wf (fst b) (snd b)) bs -> wf (total_cols bs) (block_diagonal bs).
Proof.
  induction bs as [|[c M] bs IH]; intros F; cbn [block_diagonal total_cols map fold_right fst]; [constructor|]. inversion F; subst. cbn [fst snd] in *.
  apply Forall_app. split; apply Forall_forall; intros r I; apply in_map_iff in I as (r' & <- & I); rewrite app_length, zeros_length.
  - unfold wf in H1. rewrite Forall_forall in H1. rewrite H1; auto.
  - specialize (IH H2). unfold wf in IH. rewrite Forall_forall in IH. rewrite IH; auto.
Qed.
Lemma bd_vecmat c M bs v v' : wf c M -> Forall (fun b => wf (fst b) (snd b)) bs -> length v = length M ->
  vecmat (total_cols ((c, M) :: bs)) (v ++ v') (block_diagonal ((c, M) :: bs)) = vecmat c v M ++ vecmat (total_cols bs) v' (block_diagonal bs).
Proof.
  intros W F L. pose proof (bd_wf bs F) as WB. cbn [block_diagonal]. change (total_cols ((c, M) :: bs)) with (c + total_cols bs).
  rewrite vecmat_app; [|apply Forall_forall; intros r I; apply in_map_iff in I as (r' & <- & I); rewrite app_length, zeros_length;
     unfold wf in W; rewrite Forall_forall in W; rewrite W; auto|
     apply Forall_forall; intros r I; apply in_map_iff in I as (r' & <- & I); rewrite app_length, zeros_length;
     unfold wf in WB; rewrite Forall_forall in WB; rewrite WB; auto|rewrite map_length; auto].
  rewrite vecmat_pad_r, vecmat_pad_l by auto. rewrite vxor_app by (rewrite vecmat_length, zeros_length; auto).
  rewrite vxor_zeros_r, vxor_zeros_l by (try apply zeros_length; apply vecmat_length; auto). reflexivity.
Qed.
Lemma bd_length bs : length (block_diagonal bs) = fold_right Nat.add 0 (map (fun b => length (snd b)) bs).
Proof. induction bs as [|[c M] bs IH]; cbn; auto. rewrite app_length, !map_length. lia. Qed.

(* ---- one row of ConvolutionalCode ---- *)
Section Row.
Context (ps : list N) (q : N).
Local Notation pq := (ps, q).
Local Notation nu := (row_nu pq).

Lemma A_block_wf : wf nu (A_block pq) /\ length (A_block pq) = nu.
Proof.
  unfold A_block. split; [|rewrite map_length, seq_length; auto]. apply Forall_forall. intros r I. apply in_map_iff in I as (l & <- & I).
  apply in_seq in I. cbn [length]. rewrite unit_vec_length. lia.
Qed.
Lemma B_block_wf : wf nu (B_block pq) /\ length (B_block pq) = 1.
Proof. split; auto. constructor; auto. apply unit_vec_length. Qed.
Lemma beta_length l : length (beta_row ps l) = length ps.
Proof. apply map_length. Qed.
Lemma C_block_wf : wf (length ps) (C_block pq) /\ length (C_block pq) = nu.
Proof.
  unfold C_block. split; [|rewrite map_length, seq_length; auto]. apply Forall_forall. intros r I. apply in_map_iff in I as (l & <- & I).
  cbn [fst snd]. rewrite vxor_length; rewrite ?map_length, !beta_length; auto.
Qed.
Lemma D_block_wf : wf (length ps) (D_block pq) /\ length (D_block pq) = 1.
Proof. split; auto. constructor; auto. apply beta_length. Qed.

Lemma deg_q_nu : deg q <= nu. Proof. unfold row_nu. cbn [fst snd]. lia. Qed.
Lemma deg_p_nu j : deg (nth j ps 0%N) <= nu.
Proof.
  unfold row_nu. cbn [fst snd]. destruct (Nat.lt_ge_cases j (length ps)) as [H|H].
  - pose proof (max_deg_in ps (nth j ps 0%N) (nth_In _ _ H)). lia.
  - rewrite nth_overflow by auto. cbn. lia.
Qed.
Lemma row_feedback w t x : tb q 0 = true -> series_mul q w t = x ->
  xorb (dot (hist nu w t) (map (fun l => tb q (S l)) (seq 0 nu))) x = w t.
Proof.
  intros Q <-. rewrite (dot_hist q nu w t deg_q_nu), series_mul_S, Q. cbn [andb]. destruct (w t), (xsum _); auto.
Qed.
Lemma row_next w t x : tb q 0 = true -> series_mul q w t = x ->
  vxor (vecmat nu (hist nu w t) (A_block pq)) (vecmat nu [x] (B_block pq)) = hist nu w (S t).
Proof.
  intros Q E. destruct A_block_wf as [WA LA]. destruct B_block_wf as [WB LB].
  apply vec_ext; [rewrite vxor_length; rewrite !vecmat_length, ?hist_length; auto|]. intros i Hi.
  rewrite vxor_length in Hi by (rewrite !vecmat_length; auto). rewrite vecmat_length in Hi by auto.
  rewrite nth_vxor by (rewrite !vecmat_length; auto). rewrite !nth_vecmat by auto. unfold hist at 2. rewrite nth_map_seq by auto.
  assert (EB : dot [x] (column i (B_block pq)) = x && (i =? 0)).
  { unfold B_block, column. cbn [map dot]. rewrite nth_unit_vec by auto. apply xorb_false_r. }
  rewrite EB. unfold A_block, column. rewrite map_map. destruct i as [|i].
  - cbn [nth]. cbn [snd]. rewrite Nat.eqb_refl, andb_true_r. unfold alpha_at. rewrite (row_feedback w t x Q E). cbn. rewrite ?Nat.sub_0_r. reflexivity.
  - cbn [nth]. change (S i =? 0) with false. rewrite andb_false_r, xorb_false_r.
    rewrite (map_ext_in _ (fun l => l =? i)).
    + change (map (fun l => l =? i) (seq 0 nu)) with (unit_vec nu i). rewrite dot_unit_r by apply hist_length. unfold hist. rewrite nth_map_seq by lia.
      change (S i <? S t) with (i <? t). f_equal. f_equal. lia.
    + intros l I. rewrite nth_unit_vec by lia. apply Nat.eqb_sym.
Qed.
Lemma row_output w t x j : tb q 0 = true -> series_mul q w t = x -> j < length ps ->
  xorb (nth j (vecmat (length ps) (hist nu w t) (C_block pq)) false) (nth j (vecmat (length ps) [x] (D_block pq)) false) = series_mul (nth j ps 0%N) w t.
Proof.
  intros Q E Hj. destruct C_block_wf as [WC LC]. destruct D_block_wf as [WD LD]. rewrite !nth_vecmat by auto.
  set (p := nth j ps 0%N).
  assert (NB : forall l, nth j (beta_row ps l) false = tb p l).
  { intros l. unfold beta_row. rewrite nth_indep with (d' := (fun p => tb p l) 0%N) by (rewrite map_length; auto). apply (map_nth (fun p => tb p l)). }
  assert (ED : dot [x] (column j (D_block pq)) = x && tb p 0).
  { unfold D_block, column. cbn [map dot fst]. rewrite NB. apply xorb_false_r. }
  rewrite ED. unfold C_block, column. rewrite map_map. cbn [fst snd].
  rewrite (map_ext _ (fun l => xorb (tb p (S l)) (tb q (S l) && tb p 0))).
  2:{ intros l. rewrite nth_vxor by (rewrite map_length, !beta_length; auto). rewrite NB. f_equal.
      rewrite nth_indep with (d' := andb (alpha_at q (S l)) false) by (rewrite map_length, beta_length; auto). rewrite map_nth, NB. reflexivity. }
  unfold hist. rewrite dot_maps.
  rewrite (xsum_map_ext _ (fun l => xorb (((l <? t) && w (t - 1 - l)) && tb p (S l)) ((((l <? t) && w (t - 1 - l)) && tb q (S l)) && tb p 0)))
    by (intros l _; destruct ((l <? t) && w (t - 1 - l)), (tb p (S l)), (tb q (S l)), (tb p 0); reflexivity).
  rewrite xsum_map_xorb.
  pose proof (row_feedback w t x Q E) as F. unfold hist in F. rewrite dot_maps in F.
  pose proof (dot_hist p nu w t (deg_p_nu j)) as G. unfold hist in G. rewrite dot_maps in G. rewrite G, series_mul_S, <- F.
  assert (K : forall (f : nat -> bool) b l, xsum (map (fun i => f i && b) l) = xsum (map f l) && b).
  { intros f b l. induction l as [|y l IH]; auto. cbn [map]. rewrite !xsum_cons, IH. destruct (f y), b, (xsum (map f l)); auto. }
  rewrite (K (fun l => ((l <? t) && w (t - 1 - l)) && tb q (S l))). clear F G K. clearbody p.
  destruct (xsum (map _ (seq 0 t))), (xsum (map _ (seq 0 nu))), x, (tb p 0); auto.
Qed.
End Row.

(* ---- ConvolutionalCode ---- *)
Local Notation row := (list N * N)%type.
Definition hists (rows : list row) (ws : list (nat -> bool)) (t : nat) : vec :=
  concat (map (fun '(r, w) => hist (row_nu r) w t) (combine rows ws)).
Definition bdA (rows : list row) := map (fun r => (row_nu r, A_block r)) rows.
Definition bdB (rows : list row) := map (fun r => (row_nu r, B_block r)) rows.
Definition wD (rows : list row) := fold_right Nat.add 0 (map row_nu rows).
Lemma total_A rows : total_cols (bdA rows) = wD rows.
Proof. unfold total_cols, bdA, wD. rewrite map_map. reflexivity. Qed.
Lemma total_B rows : total_cols (bdB rows) = wD rows.
Proof. unfold total_cols, bdB, wD. rewrite map_map. reflexivity. Qed.
Lemma bdA_wf rows : Forall (fun b => wf (fst b) (snd b)) (bdA rows).
Proof. apply Forall_forall. intros b I. apply in_map_iff in I as ([ps q] & <- & _). apply (A_block_wf ps q). Qed.
Lemma bdB_wf rows : Forall (fun b => wf (fst b) (snd b)) (bdB rows).
Proof. apply Forall_forall. intros b I. apply in_map_iff in I as ([ps q] & <- & _). apply (B_block_wf ps q). Qed.

Definition solves t (r : row) (w : nat -> bool) (x : bool) := N.odd (snd r) = true /\ series_mul (snd r) w t = x.
Inductive solves3 (t : nat) : list row -> list (nat -> bool) -> vec -> Prop :=
| s3_nil : solves3 t [] [] []
| s3_cons r w x rows ws u : solves t r w x -> solves3 t rows ws u -> solves3 t (r :: rows) (w :: ws) (x :: u).

Lemma odd_tb q : N.odd q = true -> tb q 0 = true.
Proof. rewrite <- N.bit0_odd. auto. Qed.
Lemma hists_next t rows ws u : solves3 t rows ws u ->
  vxor (vecmat (wD rows) (hists rows ws t) (block_diagonal (bdA rows))) (vecmat (wD rows) u (block_diagonal (bdB rows))) = hists rows ws (S t).
Proof.
  induction 1 as [|[ps q] w x rows ws u [Q E] S IH]; [reflexivity|]. cbn [fst snd] in Q, E. apply odd_tb in Q.
  rewrite <- (total_A (_ :: _)) at 1. rewrite <- total_B. cbn [bdA bdB map]. fold (bdA rows) (bdB rows).
  destruct (A_block_wf ps q) as [WA LA]. destruct (B_block_wf ps q) as [WB LB].
  change (hists ((ps, q) :: rows) (w :: ws) t) with (hist (row_nu (ps, q)) w t ++ hists rows ws t).
  change (x :: u) with ([x] ++ u).
  rewrite !bd_vecmat; auto using bdA_wf, bdB_wf; [|rewrite LA; apply hist_length]. rewrite total_A, total_B.
  rewrite vxor_app by (rewrite !vecmat_length; auto). rewrite IH, row_next; auto.
Qed.
Lemma hists_output t n rows ws u j : solves3 t rows ws u -> Forall (fun r => length (fst r) = n) rows -> j < n ->
  nth j (vxor (vecmat n (hists rows ws t) (concat (map C_block rows))) (vecmat n u (concat (map D_block rows)))) false
   = xsum (map (fun '(r, w) => series_mul (nth j (fst r) 0%N) w t) (combine rows ws)).
Proof.
  intros S. induction S as [|[ps q] w x rows ws u [Q E] S IH]; intros F Hj; [cbn; rewrite vxor_zeros_r by apply zeros_length; apply nth_zeros|].
  inversion F as [|? ? Hps F' [E1 E2]]. clear E1 E2. cbn [fst snd] in *. subst n. apply odd_tb in Q.
  destruct (C_block_wf ps q) as [WC LC]. destruct (D_block_wf ps q) as [WD LD].
  assert (WCs : wf (length ps) (concat (map C_block rows))).
  { clear -F'. induction rows as [|[ps' q'] rows IH]; [constructor|]. inversion F'; subst. cbn [map concat]. apply Forall_app. split; [|apply IH; auto].
    destruct (C_block_wf ps' q') as [W _]. cbn [fst] in H1. rewrite <- H1. exact W. }
  assert (WDs : wf (length ps) (concat (map D_block rows))).
  { clear -F'. induction rows as [|[ps' q'] rows IH]; [constructor|]. inversion F'; subst. cbn [map concat]. apply Forall_app. split; [|apply IH; auto].
    destruct (D_block_wf ps' q') as [W _]. cbn [fst] in H1. rewrite <- H1. exact W. }
  change (hists ((ps, q) :: rows) (w :: ws) t) with (hist (row_nu (ps, q)) w t ++ hists rows ws t).
  change (x :: u) with ([x] ++ u). cbn [map concat combine].
  rewrite !vecmat_app; auto; [|rewrite LC; apply hist_length]. rewrite xsum_cons, <- IH by auto. cbn [fst].
  rewrite <- (row_output ps q w t x j Q E Hj).
  repeat (rewrite nth_vxor by (rewrite ?vxor_length; rewrite !vecmat_length; auto)).
  rewrite !xorb_assoc. f_equal. rewrite <- !xorb_assoc. f_equal. apply xorb_comm.
Qed.

Section Code.
Context (rows : list row) (c : conv) (E : ConvolutionalCode rows = Some c).
Lemma cc_inv : rows <> [] /\ 0 < cv_n c /\ Forall (fun r => length (fst r) = cv_n c) rows /\ cv_k c = length rows /\ cv_deg c = wD rows /\
  cv_mem c = fold_right Nat.max 0 (map row_nu rows) /\
  cv_A c = block_diagonal (bdA rows) /\ cv_B c = block_diagonal (bdB rows) /\ cv_C c = concat (map C_block rows) /\ cv_D c = concat (map D_block rows).
Proof.
  destruct rows as [|pq rows']; [discriminate|]. unfold ConvolutionalCode in E. destruct (forallb _ _ && _) eqn:B; [|discriminate].
  apply andb_true_iff in B as [B P]. injection E as <-. cbn [cv_n cv_k cv_deg cv_mem cv_A cv_B cv_C cv_D]. split; [discriminate|].
  split; [apply Nat.ltb_lt; auto|]. split.
  { apply Forall_forall. intros r I. rewrite forallb_forall in B. apply Nat.eqb_eq, B, I. }
  repeat (split; [reflexivity|]). reflexivity.
Qed.
Lemma cc_ok : conv_ok c.
Proof.
  destruct cc_inv as (NE & Pn & F & Ek & Ed & Em & EA & EB & EC & ED).
  assert (WC : wf (cv_n c) (concat (map C_block rows)) /\ length (concat (map C_block rows)) = wD rows).
  { clear -F. induction rows as [|[ps q] rows' IH]; [split; [constructor|auto]|]. inversion F; subst. destruct (IH H2) as [W L]. cbn [map concat]. cbn [fst] in H1.
    destruct (C_block_wf ps q) as [WC LC]. rewrite app_length, L, LC. split; auto. apply Forall_app. split; auto. rewrite <- H1. auto. }
  assert (WD : wf (cv_n c) (concat (map D_block rows)) /\ length (concat (map D_block rows)) = length rows).
  { clear -F. induction rows as [|[ps q] rows' IH]; [split; [constructor|auto]|]. inversion F; subst. destruct (IH H2) as [W L]. cbn [map concat]. cbn [fst] in H1.
    destruct (D_block_wf ps q) as [WD LD]. rewrite app_length, L, LD. split; auto. apply Forall_app. split; auto. rewrite <- H1. auto. }
  constructor; rewrite ?Ek, ?Ed, ?EA, ?EB, ?EC, ?ED; auto.
  - destruct rows; [congruence|cbn; lia].
  - rewrite <- (total_A rows) at 1. split; [apply bd_wf, bdA_wf|]. rewrite bd_length. unfold bdA, wD. rewrite !map_map. f_equal. apply map_ext. intros [ps q]. apply A_block_wf.
  - rewrite <- (total_B rows) at 1. split; [apply bd_wf, bdB_wf|]. rewrite bd_length. unfold bdB. rewrite !map_map. clear. induction rows; cbn; auto.
Qed.

Lemma solves3_intro t (w : nat -> nat -> bool) u : Forall (fun r => N.odd (snd r) = true) rows -> length u = length rows ->
  (forall i, i < length rows -> series_mul (snd (nth i rows ([], 0%N))) (w i) t = nth i u false) -> solves3 t rows (map w (seq 0 (length rows))) u.
Proof.
  clear E. intros F. revert w u. induction rows as [|r rows' IH]; intros w u L H; [destruct u; [constructor|discriminate]|].
  destruct u as [|x u]; [discriminate|]. inversion F; subst. cbn [length seq map]. constructor.
  - split; auto. apply (H 0). cbn; lia.
  - rewrite <- seq_shift, map_map. apply (IH H3 (fun i => w (S i)) u); [cbn in L; lia|]. intros i Hi. apply (H (S i)). cbn; lia.
Qed.

Section Transfer.
Context (w : nat -> nat -> bool) (F : Forall (fun r => N.odd (snd r) = true) rows).
Local Notation ws := (map w (seq 0 (length rows))).
Definition drives (us : list vec) := forall i t, i < length rows -> t < length us -> series_mul (snd (nth i rows ([], 0%N))) (w i) t = bit_of us i t.

Lemma state_hists us : blocks (cv_k c) us -> drives us -> snd (conv_run c us (zeros (cv_deg c))) = hists rows ws (length us).
Proof.
  destruct cc_inv as (NE & Pn & Fn & Ek & Ed & Em & EA & EB & EC & ED).
  induction us as [|u us IH] using rev_ind; intros B D.
  - cbn [conv_run snd length]. rewrite Ed. unfold hists, wD.
    assert (G : forall rs (l : list (nat -> bool)), length rs <= length l -> concat (map (fun '(r, w) => hist (row_nu r) w 0) (combine rs l)) = zeros (fold_right Nat.add 0 (map row_nu rs))).
    { induction rs as [|r rs IH]; intros l L; [reflexivity|]. destruct l as [|w0 l]; [cbn in L; lia|]. cbn [combine map concat fold_right]. rewrite hist_0, IH by (cbn in L; lia).
      unfold zeros. rewrite <- repeat_app. reflexivity. }
    symmetry. apply G. rewrite map_length, seq_length. lia.
  - apply Forall_app in B as [B Bu]. inversion Bu as [|? ? Lu _]; subst. rewrite run_snoc. cbn [snd]. rewrite IH; auto.
    2:{ intros i t Hi Ht. rewrite (D i t Hi) by (rewrite app_length; lia). unfold bit_of. rewrite app_nth1 by auto. reflexivity. }
    unfold conv_next. rewrite Ed, EA, EB. rewrite hists_next; [rewrite app_length, Nat.add_1_r; reflexivity|].
    apply solves3_intro; [auto|congruence|]. intros i Hi. rewrite (D i (length us) Hi) by (rewrite app_length; cbn; lia). unfold bit_of. rewrite nth_middle. reflexivity.
Qed.
Lemma output_series us : blocks (cv_k c) us -> drives us -> forall j t, j < cv_n c -> t < length us ->
  bit_of (fst (conv_run c us (zeros (cv_deg c)))) j t = xsum (map (fun i => series_mul (nth j (fst (nth i rows ([], 0%N))) 0%N) (w i) t) (seq 0 (length rows))).
Proof.
  intros B D j t Hj Ht. destruct cc_inv as (NE & Pn & Fn & Ek & Ed & Em & EA & EB & EC & ED).
  unfold bit_of. rewrite run_nth by auto. rewrite state_hists.
  2:{ apply Forall_forall. intros u I. unfold blocks in B. rewrite Forall_forall in B. apply B. rewrite <- (firstn_skipn t us). apply in_or_app; auto. }
  2:{ intros i t' Hi Ht'. rewrite firstn_length in Ht'. rewrite (D i t' Hi) by lia. unfold bit_of. rewrite <- (firstn_skipn t us) at 1. rewrite app_nth1; auto. rewrite firstn_length. lia. }
  rewrite firstn_length, Nat.min_l by lia. unfold conv_output. rewrite EC, ED, hists_output; auto.
  - clear. assert (G : forall rs a (g : nat -> nat -> bool), xsum (map (fun '(r, w) => series_mul (nth j (fst r) 0%N) w t) (combine rs (map g (seq a (length rs)))))
        = xsum (map (fun i => series_mul (nth j (fst (nth i rs ([], 0%N))) 0%N) (g (a + i)) t) (seq 0 (length rs)))).
    { induction rs as [|r rs IH]; intros a g; [reflexivity|]. cbn [length seq map combine]. rewrite !xsum_cons. f_equal; [cbn [nth]; rewrite Nat.add_0_r; reflexivity|].
      rewrite IH, xsum_seq_shift. apply xsum_map_ext. intros i _. rewrite Nat.add_succ_r. reflexivity. }
    apply G.
  - apply solves3_intro; [auto| |].
    + rewrite <- Ek. unfold blocks in B. rewrite Forall_forall in B. apply B, nth_In; auto.
    + intros i Hi. apply D; auto.
Qed.
End Transfer.

(* every state is reached from the zero state in memory_order steps *)
Lemma cc_reach s : Forall (fun r => N.odd (snd r) = true) rows -> length s = cv_deg c -> reachable c (cv_mem c) s.
Proof.
  intros F Ls. destruct cc_inv as (NE & Pn & Fn & Ek & Ed & Em & EA & EB & EC & ED).
  set (mu := cv_mem c) in *. rewrite Ed in Ls.
  assert (G : forall rs s0, length s0 = wD rs -> fold_right Nat.max 0 (map row_nu rs) <= mu ->
     exists w : nat -> nat -> bool, hists rs (map w (seq 0 (length rs))) mu = s0).
  { clear. induction rs as [|r rs IH]; intros s0 L Hm.
    - exists (fun _ _ => false). destruct s0; [reflexivity|discriminate].
    - cbn [map fold_right] in Hm. change (wD (r :: rs)) with (row_nu r + wD rs) in L.
      destruct (IH (skipn (row_nu r) s0)) as (w & Ew); [rewrite skipn_length; lia|lia|].
      exists (fun i => match i with 0 => fun t => nth (mu - 1 - t) (firstn (row_nu r) s0) false | S i' => w i' end).
      cbn [length seq map]. rewrite <- seq_shift, map_map. cbv beta iota. unfold hists in *. cbn [combine map concat].
      transitivity (firstn (row_nu r) s0 ++ skipn (row_nu r) s0); [|apply firstn_skipn]. f_equal; auto.
      apply vec_ext; [rewrite hist_length, firstn_length; lia|]. intros i Hi. rewrite hist_length in Hi. unfold hist. rewrite nth_map_seq by auto.
      destruct (Nat.ltb_spec i mu); [|lia]. cbn [andb]. f_equal. lia. }
  destruct (G rows s Ls) as (w & Ew); [lia|].
  exists (map (fun t => map (fun i => series_mul (snd (nth i rows ([], 0%N))) (w i) t) (seq 0 (cv_k c))) (seq 0 mu)).
  split; [|split].
  - apply Forall_forall. intros u I. apply in_map_iff in I as (t & <- & _). rewrite map_length, seq_length. reflexivity.
  - rewrite map_length, seq_length. reflexivity.
  - rewrite (state_hists w F); [rewrite map_length, seq_length; exact Ew| |].
    + apply Forall_forall. intros u I. apply in_map_iff in I as (t & <- & _). rewrite map_length, seq_length. reflexivity.
    + intros i t Hi Ht. rewrite map_length, seq_length in Ht. unfold bit_of. rewrite nth_map_seq by auto. rewrite nth_map_seq by (rewrite Ek; auto). reflexivity.
Qed.
(* without feedback, memory_order zero inputs erase the state *)
Lemma cc_forget s : Forall (fun r => snd r = 1%N) rows -> length s = cv_deg c ->
  snd (conv_run c (repeat (zeros (cv_k c)) (cv_mem c)) s) = zeros (cv_deg c).
Proof.
  intros F1 Ls. destruct cc_inv as (NE & Pn & Fn & Ek & Ed & Em & EA & EB & EC & ED).
  assert (F : Forall (fun r => N.odd (snd r) = true) rows) by (eapply Forall_impl; [|exact F1]; intros r ->; reflexivity).
  destruct (cc_reach s F Ls) as (us & B & Lu & Es). rewrite <- Es.
  assert (E2 : snd (conv_run c (repeat (zeros (cv_k c)) (cv_mem c)) (snd (conv_run c us (zeros (cv_deg c))))) =
               snd (conv_run c (us ++ repeat (zeros (cv_k c)) (cv_mem c)) (zeros (cv_deg c)))) by (rewrite run_app; reflexivity).
  rewrite E2. set (xs := us ++ _).
  rewrite (state_hists (bit_of xs) F xs).
  2:{ apply Forall_app. split; auto. apply Forall_forall. intros x I. apply repeat_spec in I. subst. apply zeros_length. }
  2:{ intros i t Hi Ht. rewrite Forall_forall in F1. rewrite (F1 _ (nth_In rows _ Hi)). apply series_mul_1. }
  assert (Lx : length xs = cv_mem c + cv_mem c) by (unfold xs; rewrite app_length, repeat_length; lia). rewrite Lx.
  assert (Z : forall i t, cv_mem c <= t -> bit_of xs i t = false).
  { intros i t Ht. unfold bit_of, xs. rewrite app_nth2 by lia. rewrite Lu. destruct (Nat.lt_ge_cases (t - cv_mem c) (cv_mem c)).
    - assert (In (nth (t - cv_mem c) (repeat (zeros (cv_k c)) (cv_mem c)) []) (repeat (zeros (cv_k c)) (cv_mem c))) by (apply nth_In; rewrite repeat_length; auto).
      apply repeat_spec in H0. rewrite H0. apply nth_zeros.
    - rewrite (nth_overflow (repeat _ _)) by (rewrite repeat_length; auto). destruct i; reflexivity. }
  rewrite Ed. unfold hists, wD. 
  assert (G : forall rs a, (forall r, In r rs -> row_nu r <= cv_mem c) ->
     concat (map (fun '(r, w) => hist (row_nu r) w (cv_mem c + cv_mem c)) (combine rs (map (bit_of xs) (seq a (length rs))))) = zeros (fold_right Nat.add 0 (map row_nu rs))).
  { induction rs as [|r rs IH]; intros a H; [reflexivity|]. cbn [length seq combine map concat fold_right]. rewrite IH by (intros; apply H; right; auto).
    unfold zeros at 2. rewrite repeat_app. f_equal. apply vec_ext; [rewrite hist_length, repeat_length; auto|]. intros i Hi. rewrite hist_length in Hi.
    fold (zeros (row_nu r)). rewrite nth_zeros. unfold hist. rewrite nth_map_seq by auto. specialize (H r (or_introl eq_refl)). rewrite Z by lia. apply andb_false_r. }
  apply G. intros r I. rewrite Em. clear -I. induction rows as [|r' rs IH]; [destruct I|]. cbn [map fold_right]. destruct I as [->|I]; [lia|]. specialize (IH I). lia.
Qed.
End Code.

(* LowRate is the single-row case without feedback *)
Lemma low_rate_as_cc g : g <> [] -> ConvolutionalCode [(g, 1%N)] = Some (LowRate g).
Proof.
  intros NE. unfold ConvolutionalCode. cbn [fst snd forallb]. rewrite Nat.eqb_refl. cbn [andb].
  destruct (Nat.ltb_spec 0 (length g)); [|destruct g; [congruence|cbn in *; lia]].
  unfold LowRate. cbn [map fold_right]. 
  assert (Enu : row_nu (g, 1%N) = max_deg g) by (unfold row_nu; cbn [fst snd]; change (deg 1) with 0; lia). rewrite !Enu, Nat.add_0_r, Nat.max_0_r.
  assert (Z1 : forall l, alpha_at 1 (S l) = false) by (intros l; unfold alpha_at; apply deg_testbit; cbn; lia).
  f_equal. f_equal.
  - cbn [block_diagonal map total_cols fold_right zeros repeat]. rewrite app_nil_r. rewrite (map_ext _ (fun r => r)) by (intros; apply app_nil_r). rewrite map_id.
    unfold A_block. rewrite Enu. cbn [snd]. apply map_ext_in. intros l I. apply in_seq in I. rewrite Z1. destruct (max_deg g) as [|m]; [lia|].
    rewrite unit_vec_S. do 2 f_equal. lia.
  - cbn [block_diagonal map total_cols fold_right zeros repeat]. rewrite app_nil_r. rewrite (map_ext _ (fun r => r)) by (intros; apply app_nil_r). rewrite map_id.
    unfold B_block. rewrite Enu. reflexivity.
  - cbn [map concat]. rewrite app_nil_r. unfold C_block. rewrite Enu. cbn [fst snd]. apply map_ext. intros l. rewrite Z1.
    rewrite (map_ext _ (fun _ => false)) by reflexivity. unfold beta_row. clear. induction g as [|p g IH]; [reflexivity|]. cbn [map vxor]. rewrite xorb_false_r, IH. reflexivity.
Qed.

(* ---- HighRate ---- *)
Lemma dot_nth u v : length u = length v -> dot u v = xsum (map (fun i => nth i u false && nth i v false) (seq 0 (length u))).
Proof.
  revert v; induction u as [|x u IH]; intros [|y v] L; cbn in L; try lia; [reflexivity|]. cbn [dot length seq map]. rewrite xsum_cons, xsum_seq_shift. cbn [nth].
  rewrite IH by lia. reflexivity.
Qed.
Section High.
Context (hs : list N) (q : N) (d' : nat).
Local Notation k := (length hs).
Local Notation c := (HighRate hs q).
Context (NE : hs <> []) (Ed : cv_deg c = S d').

Lemma hr_A : cv_A c = map (fun l => unit_vec (S d') (S l)) (seq 0 d') ++ [map (fun j => tb q (S d' - j)) (seq 0 (S d'))].
Proof. cbn [cv_deg HighRate] in Ed. cbn [cv_A HighRate]. rewrite Ed. replace (S d' - 1) with d' by lia. reflexivity. Qed.
Lemma hr_C : cv_C c = repeat (zeros (S k)) d' ++ [unit_vec (S k) k].
Proof. cbn [cv_deg HighRate] in Ed. cbn [cv_C HighRate]. rewrite Ed. replace (S d' - 1) with d' by lia. reflexivity. Qed.
Lemma hr_B : cv_B c = map (fun h => map (fun j => xorb (tb h (S d' - j)) (tb q (S d' - j) && tb h 0)) (seq 0 (S d'))) hs.
Proof. cbn [cv_deg HighRate] in Ed. cbn [cv_B HighRate]. rewrite Ed. reflexivity. Qed.
Lemma hr_D : cv_D c = map (fun '(i, h) => unit_vec k i ++ [tb h 0]) (combine (seq 0 k) hs).
Proof. reflexivity. Qed.
Lemma hr_ok : conv_ok c.
Proof.
  constructor; rewrite ?Ed, ?hr_A, ?hr_B, ?hr_C, ?hr_D.
  - cbn. destruct hs; [congruence|cbn; lia].
  - cbn. lia.
  - split; [|rewrite app_length, map_length, seq_length; cbn; lia]. apply Forall_app. split; [|repeat constructor; rewrite map_length, seq_length; auto].
    apply Forall_forall. intros r I. apply in_map_iff in I as (l & <- & _). apply unit_vec_length.
  - split; [|rewrite map_length; reflexivity]. apply Forall_forall. intros r I. apply in_map_iff in I as (l & <- & _). rewrite map_length, seq_length. auto.
  - split; [|rewrite app_length, repeat_length; cbn; lia]. apply Forall_app. split; [|repeat constructor; apply unit_vec_length].
    apply Forall_forall. intros r I. apply repeat_spec in I. subst. apply zeros_length.
  - split; [|rewrite map_length, combine_length, seq_length, Nat.min_id; reflexivity]. apply Forall_forall. intros r I. apply in_map_iff in I as ([i h] & <- & _).
    rewrite app_length, unit_vec_length. cbn. lia.
Qed.

Definition usum (l : nat) (u : vec) : bool := dot u (map (fun h => tb h l) hs).
(* the last output bit *)
Definition ylast (s u : vec) : bool := xorb (nth d' s false) (usum 0 u).

Lemma split_last (s : vec) : length s = S d' -> s = firstn d' s ++ [nth d' s false].
Proof.
  clear. revert d'. induction s as [|x s IH]; intros [|d'] L; cbn in L; try lia. { destruct s; [reflexivity|cbn in L; lia]. }
  cbn [firstn app nth]. f_equal. apply IH. lia.
Qed.
Lemma hr_next s u j : length s = S d' -> length u = k -> j < S d' ->
  nth j (conv_next c s u) false = xorb (match j with 0 => false | S j' => nth j' s false end)
                                       (xorb (tb q (S d' - j) && ylast s u) (usum (S d' - j) u)).
Proof.
  intros Ls Lu Hj. destruct hr_ok as [_ _ [WA LA] [WB LB] _ _]. unfold conv_next. rewrite nth_vxor by (rewrite !vecmat_length; auto).
  rewrite !nth_vecmat by auto. rewrite hr_A, hr_B. unfold column. rewrite map_app, !map_map. cbn [map].
  rewrite (split_last s Ls) at 1. rewrite dot_app by (rewrite firstn_length, map_length, seq_length; lia). cbn [dot].
  rewrite nth_map_seq by auto. rewrite xorb_false_r.
  assert (E1 : dot (firstn d' s) (map (fun l => nth j (unit_vec (S d') (S l)) false) (seq 0 d')) = match j with 0 => false | S j' => nth j' s false end).
  { rewrite (map_ext _ (fun l => j =? S l)) by (intros l; apply nth_unit_vec; auto).
    assert (Lf : length (firstn d' s) = d') by (rewrite firstn_length; lia).
    destruct j as [|j]; [rewrite (map_ext _ (fun _ => false)) by reflexivity; rewrite dot_nth by (rewrite map_length, seq_length; auto)|].
    - apply xsum_map_false. intros i I. apply in_seq in I. rewrite nth_map_seq by lia. apply andb_false_r.
    - rewrite (map_ext _ (fun l => l =? j)) by (intros l; cbn; apply Nat.eqb_sym). change (map (fun l => l =? j) (seq 0 d')) with (unit_vec d' j).
      rewrite dot_unit_r by auto. rewrite (split_last s Ls) at 2. rewrite app_nth1; auto. lia. }
  rewrite E1. rewrite (map_ext _ (fun h => xorb (tb h (S d' - j)) (tb q (S d' - j) && tb h 0))).
  2:{ intros h. rewrite nth_map_seq by auto. reflexivity. }
  assert (E2 : dot u (map (fun h => xorb (tb h (S d' - j)) (tb q (S d' - j) && tb h 0)) hs) = xorb (usum (S d' - j) u) (tb q (S d' - j) && usum 0 u)).
  { unfold usum. generalize (tb q (S d' - j)) as a. intros a. clear -Lu. generalize (S d' - j) as l. intros l. revert u Lu. induction hs as [|h hs' IH]; intros [|x u] L; cbn in L; try lia; cbn [map dot]; [destruct a; auto|].
    rewrite IH by lia. destruct x, (tb h l), a, (tb h 0), (dot u (map (fun h => tb h l) hs')), (dot u (map (fun h => tb h 0) hs')); reflexivity. }
  rewrite E2. unfold ylast. destruct (nth d' s false), (tb q (S d' - j)), (usum 0 u), (usum (S d' - j) u), (match j with 0 => false | S j' => nth j' s false end); reflexivity.
Qed.
Lemma hr_output s u : length s = S d' -> length u = k -> conv_output c s u = u ++ [ylast s u].
Proof.
  intros Ls Lu. destruct hr_ok as [_ _ _ _ [WC LC] [WD LD]]. unfold conv_output.
  assert (E1 : vecmat (cv_n c) s (cv_C c) = zeros k ++ [nth d' s false]).
  { cbn [cv_n HighRate] in *. rewrite hr_C in *. rewrite (split_last s Ls) at 1. apply Forall_app in WC as [W1 W2].
    rewrite vecmat_app by (auto; rewrite firstn_length, repeat_length; lia).
    assert (Z : forall m v, vecmat (S k) v (repeat (zeros (S k)) m) = zeros (S k)).
    { induction m as [|m IH]; intros [|x v]; cbn [repeat vecmat]; auto. rewrite IH. destruct x; auto. apply vxor_zeros_r. apply zeros_length. }
    rewrite Z. cbn [vecmat].
    assert (U : forall m, unit_vec (S m) m = zeros m ++ [true]) by (clear; induction m as [|m IH]; [reflexivity|]; rewrite unit_vec_S, IH; reflexivity).
    assert (Zs : zeros (S k) = zeros k ++ [false]) by (clear; unfold zeros; generalize k as m; induction m as [|m IH]; [reflexivity|]; cbn [repeat app] in *; f_equal; auto).
    destruct (nth d' s false).
    - rewrite vxor_zeros_r by apply unit_vec_length. rewrite vxor_zeros_l by apply unit_vec_length. apply U.
    - rewrite vxor_zeros_r by apply zeros_length. exact Zs. }
  assert (E2 : vecmat (cv_n c) u (cv_D c) = u ++ [usum 0 u]).
  { apply vec_ext; [rewrite vecmat_length, app_length by auto; cbn; lia|]. intros j Hj. rewrite vecmat_length in Hj by auto. cbn [cv_n HighRate] in Hj.
    rewrite nth_vecmat by auto. rewrite hr_D. unfold column. rewrite map_map.
    assert (Lm : length (combine (seq 0 k) hs) = k) by (rewrite combine_length, seq_length, Nat.min_id; auto).
    destruct (Nat.eq_dec j k) as [->|Nj].
    - rewrite app_nth2 by lia. replace (k - length u) with 0 by lia. cbn [nth]. unfold usum. f_equal.
      rewrite (map_ext _ (fun p => tb (snd p) 0)).
      2:{ intros [i h]. rewrite app_nth2 by (rewrite unit_vec_length; lia). rewrite unit_vec_length, Nat.sub_diag. reflexivity. }
      clear. assert (G : forall l a, map (fun p : nat * N => tb (snd p) 0) (combine (seq a (length l)) l) = map (fun h => tb h 0) l).
      { induction l as [|h l IH]; intros a; [reflexivity|]. cbn [length seq combine map snd]. f_equal. apply IH. }
      apply G.
    - rewrite app_nth1 by lia. rewrite (map_ext _ (fun p => fst p =? j)).
      2:{ intros [i h]. rewrite app_nth1 by (rewrite unit_vec_length; lia). rewrite nth_unit_vec by lia. cbn [fst]. apply Nat.eqb_sym. }
      replace (map (fun p => fst p =? j) (combine (seq 0 k) hs)) with (unit_vec k j); [apply dot_unit_r; auto|].
      unfold unit_vec. clear. generalize 0 as a. induction hs as [|h hs' IH]; intros a; [reflexivity|]. cbn [length seq combine map fst]. f_equal. apply IH. }
  rewrite E1, E2, vxor_app by (rewrite zeros_length; auto). rewrite vxor_zeros_l by auto. reflexivity.
Qed.

Section Run.
Context (us : list vec) (B : blocks k us) (Q : tb q 0 = true).
Let st t := snd (conv_run c (firstn t us) (zeros (S d'))).
Let y t := ylast (st t) (nth t us []).
Let g l t := xorb (tb q l && y t) (usum l (nth t us [])).

Lemma st_length t : length (st t) = S d'.
Proof. unfold st. pose proof hr_ok as OK. rewrite <- Ed. apply run_state_length; auto. rewrite zeros_length. auto. Qed.
Lemma nth_us_length t : t < length us -> length (nth t us []) = k.
Proof. intros H. unfold blocks in B. rewrite Forall_forall in B. apply B, nth_In, H. Qed.
Lemma st_S t : t < length us -> st (S t) = conv_next c (st t) (nth t us []).
Proof.
  intros H. unfold st. assert (E : firstn (S t) us = firstn t us ++ [nth t us []]).
  { clear -H. revert t H. induction us as [|u us' IH]; intros [|t] H; cbn in H; try lia; [reflexivity|]. cbn [firstn app nth]. f_equal. apply IH. lia. }
  rewrite E, run_snoc. reflexivity.
Qed.
Lemma st_spec t : t <= length us -> forall j, j < S d' ->
  nth j (st t) false = xsum (map (fun m => (m <? t) && g (S d' - j + m) (t - 1 - m)) (seq 0 (S j))).
Proof.
  induction t as [|t IH]; intros Ht j Hj.
  - unfold st. cbn [firstn conv_run snd]. rewrite nth_zeros. symmetry. apply xsum_map_false. reflexivity.
  - rewrite st_S by lia. rewrite hr_next by (auto using st_length; try apply nth_us_length; lia). fold (y t).
    cbn [seq map]. rewrite xsum_cons, xsum_seq_shift. change (0 <? S t) with true. cbn [andb]. rewrite Nat.add_0_r. replace (S t - 1 - 0) with t by lia.
    rewrite xorb_comm. fold (g (S d' - j) t). f_equal. destruct j as [|j]; [reflexivity|]. rewrite IH by lia. apply xsum_map_ext. intros m _.
    change (S m <? S t) with (m <? t). do 2 f_equal; lia.
Qed.
Lemma y_series t : t < length us -> series_mul q y t = xsum (map (fun i => series_mul (nth i hs 0%N) (bit_of us i) t) (seq 0 k)).
Proof.
  intros Ht. 
  assert (U : forall l t, t < length us -> usum l (nth t us []) = xsum (map (fun i => tb (nth i hs 0%N) l && bit_of us i t) (seq 0 k))).
  { intros l t' H'. unfold usum. rewrite dot_nth by (rewrite map_length, nth_us_length; auto). rewrite nth_us_length by auto. apply xsum_map_ext. intros i I. apply in_seq in I.
    rewrite andb_comm. f_equal. rewrite nth_indep with (d' := (fun h => tb h l) 0%N) by (rewrite map_length; lia). apply (map_nth (fun h => tb h l)). }
  assert (Ey : y t = xorb (xsum (map (fun l => g (S l) (t - 1 - l)) (seq 0 t))) (usum 0 (nth t us []))).
  { unfold y at 1. unfold ylast. f_equal. rewrite st_spec by lia.
    transitivity (xsum (map (fun m => (m <? t) && g (S m) (t - 1 - m)) (seq 0 (Nat.max (S d') t)))).
    - rewrite (xsum_trim _ (S d') (Nat.max (S d') t)); [|intros i Hi _|lia].
      + apply xsum_map_ext. intros m I. apply in_seq in I. do 2 f_equal. lia.
      + destruct (Nat.ltb_spec i t); auto. cbn [andb]. unfold g. assert (Hd : Nat.max (max_deg hs) (deg q) = S d') by exact Ed.
        rewrite deg_testbit by lia. cbn [andb]. rewrite xorb_false_l, U by lia. apply xsum_map_false. intros i' I. rewrite deg_testbit; auto.
        destruct (Nat.lt_ge_cases i' k); [pose proof (max_deg_in hs (nth i' hs 0%N) (nth_In _ _ H0)); lia|rewrite nth_overflow by auto; cbn; lia].
    - rewrite (xsum_trim _ t); [|intros i Hi _; destruct (Nat.ltb_spec i t); auto; lia|lia].
      apply xsum_map_ext. intros m I. apply in_seq in I. destruct (Nat.ltb_spec m t); auto; lia. }
  rewrite series_mul_S, Q. cbn [andb]. rewrite Ey. unfold g. rewrite xsum_map_xorb.
  assert (R : xsum (map (fun i => series_mul (nth i hs 0%N) (bit_of us i) t) (seq 0 k)) =
              xorb (usum 0 (nth t us [])) (xsum (map (fun l => usum (S l) (nth (t - 1 - l) us [])) (seq 0 t)))).
  { rewrite (xsum_map_ext _ _ (seq 0 k) (fun i _ => series_mul_S (nth i hs 0%N) (bit_of us i) t)). rewrite xsum_map_xorb, U by auto. f_equal.
    rewrite (xsum_map_ext (fun l => usum (S l) _) (fun l => xsum (map (fun i => tb (nth i hs 0%N) (S l) && bit_of us i (t - 1 - l)) (seq 0 k)))).
    2:{ intros l I. apply in_seq in I. apply U. lia. }
    generalize (seq 0 k) as a. generalize (seq 0 t) as b. intros b. clear. induction b as [|l b IH]; intros a; [apply xsum_map_false; reflexivity|].
    cbn [map]. rewrite xsum_cons, <- IH, <- xsum_map_xorb. apply xsum_map_ext. intros i _. apply xsum_cons. }
  rewrite R. destruct (xsum (map (fun l => usum (S l) _) (seq 0 t))), (xsum (map (fun l => tb q (S l) && y _) (seq 0 t))), (usum 0 (nth t us [])); reflexivity.
Qed.
Lemma hr_output_nth t : t < length us -> nth t (fst (conv_run c us (zeros (S d')))) [] = nth t us [] ++ [y t].
Proof. intros H. rewrite run_nth by auto. apply hr_output; [apply st_length|apply nth_us_length; auto]. Qed.
End Run.

Lemma hr_series us : blocks k us -> N.odd q = true -> forall t, t < length us ->
  (forall i, i < k -> bit_of (fst (conv_run c us (zeros (cv_deg c)))) i t = bit_of us i t) /\
  series_mul q (bit_of (fst (conv_run c us (zeros (cv_deg c)))) k) t = xsum (map (fun i => series_mul (nth i hs 0%N) (bit_of us i) t) (seq 0 k)).
Proof.
  intros B Q t Ht. apply odd_tb in Q. rewrite Ed. split.
  - intros i Hi. unfold bit_of at 1. rewrite hr_output_nth by auto. rewrite app_nth1; auto. rewrite (nth_us_length us B); auto.
  - rewrite <- (y_series us B Q t Ht). unfold series_mul. apply xsum_map_ext. intros l I. apply in_seq in I. f_equal. unfold bit_of. rewrite hr_output_nth by (auto; lia).
    rewrite app_nth2 by (rewrite (nth_us_length us B); lia). rewrite (nth_us_length us B), Nat.sub_diag by lia. reflexivity.
Qed.
Lemma hr_mem : cv_mem c = S d'.
Proof.
  assert (Hd : Nat.max (max_deg hs) (deg q) = S d') by exact Ed. cbn [cv_mem HighRate]. rewrite <- Hd. clear Ed Hd. unfold max_deg.
  destruct hs as [|h hs']; [congruence|]. clear NE. revert h. induction hs' as [|h' hs' IH]; intros h; [cbn; lia|].
  specialize (IH h'). cbn [map fold_right] in *. lia.
Qed.
End High.
