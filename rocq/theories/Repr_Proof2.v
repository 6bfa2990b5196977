From Coq Require Import String Ascii.
From Verif Require Import Common Repr_Spec Repr_Builtin Prefix_Model BinPoly_Model Cyclic_Model BCH_Model LFSR_Model Walsh_Model Parse_Proof Repr_Model Repr_Spec2.
From Verif Require Import Prefix_Proof Repr_Proof.
From Verif Require Algebra_Proof Algebra_Spec Props_Walsh.
Local Open Scope string_scope.
Local Open Scope nat_scope.

(* ---- lists of results *)
Lemma all_some_map {A B} (f : A -> option B) (g : A -> B) l : (forall x, In x l -> f x = Some (g x)) -> all_some (map f l) = Some (map g l).
Proof. induction l as [|x l IH]; intros H; [reflexivity|]. cbn [map all_some]. rewrite (H x (or_introl eq_refl)), IH; [reflexivity|]. intros y Hy. apply H. now right. Qed.
Lemma all_some_id {A B} (f : A -> option B) (g : B -> A) l : (forall x, f (g x) = Some x) -> all_some (map f (map g l)) = Some l.
Proof. intros H. rewrite map_map. rewrite (all_some_map _ (fun x => x)) by auto. now rewrite map_id. Qed.
Lemma all_some_length {A} (l : list (option A)) r : all_some l = Some r -> List.length r = List.length l.
Proof. revert r; induction l as [|[a|] l IH]; intros r H; try discriminate; [inversion H; reflexivity|]. cbn in H. destruct (all_some l) as [r'|] eqn:E; [|discriminate]. inversion H. cbn. f_equal. now apply IH. Qed.
Lemma obind_some {A B} (x : option A) (f : A -> option B) b : obind x f = Some b -> exists a, x = Some a /\ f a = Some b.
Proof. destruct x as [a|]; [|discriminate]. intros H. now exists a. Qed.
Lemma guard_some b o o' : guard b o = Some o' -> b = true /\ o' = o.
Proof. unfold guard. destruct b; [|discriminate]. intros H. inversion H. auto. Qed.

(* ---- the expressions that are printed *)
Definition zl (l : list Z) : expr := EList (map EInt l).
Definition zm (M : list (list Z)) : expr := EList (map zl M).
Definition pl (l : list N) : expr := EList (map EBin l).
Definition wd (w : word) : expr := ETuple (map (fun x => EInt (Z.of_N x)) w).
Definition dc (d : dict) : expr := EDict (map (fun '(k, v) => (wd k, wd v)) d).
Lemma zl_str l : zlist l = print (zl l).
Proof. unfold zlist, zl, brackets. cbn [print]. rewrite map_map. reflexivity. Qed.
Lemma zm_str M : zmatrix M = print (zm M).
Proof. unfold zmatrix, zm, brackets. cbn [print]. rewrite map_map. do 3 f_equal. apply map_ext. apply zl_str. Qed.
Lemma pl_str l : plist l = print (pl l).
Proof. unfold plist, pl, brackets. cbn [print]. rewrite map_map. reflexivity. Qed.
Lemma wd_str w : word_str w = print (wd w).
Proof. unfold word_str, wd. destruct w as [|x [|y w]]; [reflexivity|reflexivity|]. cbn [map print]. rewrite !map_map. reflexivity. Qed.
Lemma dc_str d : dict_str d = print (dc d).
Proof. unfold dict_str, dc. cbn [print]. rewrite map_map. do 3 f_equal. apply map_ext. intros [k v]. now rewrite !wd_str. Qed.
Lemma forallb_map_true {A B} (p : B -> bool) (f : A -> B) l : (forall x, p (f x) = true) -> forallb p (map f l) = true.
Proof. intros H. rewrite forallb_forall. intros y Hy. apply in_map_iff in Hy as (x & <- & _). apply H. Qed.
Lemma zl_wf l : wfb (zl l) = true. Proof. cbn [zl wfb]. now apply forallb_map_true. Qed.
Lemma zm_wf M : wfb (zm M) = true. Proof. cbn [zm wfb]. apply forallb_map_true, zl_wf. Qed.
Lemma pl_wf l : wfb (pl l) = true. Proof. cbn [pl wfb]. now apply forallb_map_true. Qed.
Lemma wd_wf w : wfb (wd w) = true. Proof. cbn [wd wfb]. now apply forallb_map_true. Qed.
Lemma dc_wf d : wfb (dc d) = true. Proof. cbn [dc wfb]. apply forallb_map_true. intros [k v]. now rewrite !wd_wf. Qed.
Lemma zl_eval l : eval (zl l) = Some (VList (map VInt l)).
Proof. unfold zl. cbn [eval]. rewrite map_map. cbn [eval]. rewrite (all_some_map _ VInt) by reflexivity. reflexivity. Qed.
Lemma zm_eval M : eval (zm M) = Some (VList (map (fun r => VList (map VInt r)) M)).
Proof. unfold zm. cbn [eval]. rewrite map_map. rewrite (all_some_map _ (fun r => VList (map VInt r))) by (intros; apply zl_eval). reflexivity. Qed.
Lemma pl_eval l : eval (pl l) = Some (VList (map (fun x => VInt (Z.of_N x)) l)).
Proof. unfold pl. cbn [eval]. rewrite map_map. cbn [eval]. rewrite (all_some_map _ (fun x => VInt (Z.of_N x))) by reflexivity. reflexivity. Qed.
Lemma wd_eval w : eval (wd w) = Some (VTuple (map (fun x => VInt (Z.of_N x)) w)).
Proof. unfold wd. cbn [eval]. rewrite map_map. cbn [eval]. rewrite (all_some_map _ (fun x => VInt (Z.of_N x))) by reflexivity. reflexivity. Qed.
Definition wv (w : word) : value := VTuple (map (fun x => VInt (Z.of_N x)) w).
Lemma dc_eval d : eval (dc d) = Some (VDict (map (fun '(k, v) => (wv k, wv v)) d)).
Proof.
  unfold dc. cbn [eval]. rewrite map_map.
  rewrite (all_some_map _ (fun '(k, v) => (wv k, wv v))); [reflexivity|]. intros [k v] _. now rewrite !wd_eval.
Qed.
(* ---- and their values as arguments *)
Lemma arr1_list l : as_arr1 (VList (map VInt l)) = Some l.
Proof. cbn [as_arr1]. apply all_some_id. reflexivity. Qed.
Lemma arr2_list M c : M <> [] -> Forall (fun r => List.length r = c) M -> as_arr2 (VList (map (fun r => VList (map VInt r)) M)) = Some (M, c).
Proof.
  intros N F. destruct M as [|r M]; [congruence|].
  assert (E : all_some (map (fun r => match r with VList _ => as_arr1 r | _ => None end) (map (fun r => VList (map VInt r)) (r :: M))) = Some (r :: M)) by (apply all_some_id, arr1_list).
  change (as_arr2 (VList (map (fun r => VList (map VInt r)) (r :: M)))) with
    (obind (all_some (map (fun r => match r with VList _ => as_arr1 r | _ => None end) (map (fun r => VList (map VInt r)) (r :: M)))) (fun rows =>
      let cols := List.length (hd [] rows) in if forallb (fun r => List.length r =? cols) rows then Some (rows, cols) else None)).
  rewrite E. cbn [obind hd]. cbv zeta.
  inversion F as [|x y Hr F']. subst. rewrite (proj2 (forallb_forall _ _)); [reflexivity|].
  intros q [->|Hq]; apply Nat.eqb_eq; [reflexivity|]. rewrite Forall_forall in F'. auto.
Qed.
Lemma to_poly_N n : to_poly (Z.of_N n) = Some n.
Proof. unfold to_poly. destruct (Z.leb_spec 0 (Z.of_N n)); [|lia]. now rewrite N2Z.id. Qed.
Lemma poly_N n : as_poly (VInt (Z.of_N n)) = Some n.
Proof. unfold as_poly. destruct (Z.leb_spec 0 (Z.of_N n)); [|lia]. now rewrite N2Z.id. Qed.
Lemma word_wv w : as_word (wv w) = Some w.
Proof. unfold as_word, wv. apply all_some_id. intros x. cbn [as_int obind]. apply to_poly_N. Qed.
Lemma dict_dv d : NoDup (map fst d) -> as_dict (VDict (map (fun '(k, v) => (wv k, wv v)) d)) = Some d.
Proof.
  intros ND. unfold as_dict. rewrite (all_some_id _ (fun '(k, v) => (wv k, wv v))) by (intros [k v]; now rewrite !word_wv).
  cbn [option_map]. now rewrite dict_of_pairs_fresh.
Qed.
Lemma polys_row l : all_some (map to_poly (map Z.of_N l)) = Some l.
Proof. apply all_some_id, to_poly_N. Qed.

(* ---- going back *)
Lemma back e o s : repr o = Some s -> s = print e -> wfb e = true -> eval e = Some (VObj o) -> prints_back o.
Proof. intros R -> W E. exists (print e). split; [exact R|]. unfold evaluate. now rewrite read_text_print. Qed.

(* ---- what the constructors guarantee *)
Definition rect (M : list (list Z)) (c : nat) : Prop := Forall (fun r => List.length r = c) M.
Definition conv_inv (c : conv_obj) : Prop :=
  match c with CConv ff fb => List.length fb = List.length ff /\ exists n, Forall (fun r => List.length r = n) ff | _ => True end.
Definition inv (o : obj) : Prop :=
  match o with
  | OFrac n d => mk_frac n d = Some (n, d)
  | OField k m => (1 <= k)%N /\ gf_make k (Some m) = Some m
  | OBlock _ M c => rect M c
  | OSystematic P c l => rect P c /\ List.length l = List.length P /\ Forall (fun x => 0 <= x <= Z.of_nat (List.length P + c))%Z l
  | OCyclic n (Some (true, g, h)) _ => (0 <= n)%Z /\ cyclic_polys (Z.to_nat n) (Generator g) = Some (g, h)
  | OCyclic n (Some (false, g, h)) _ => (0 <= n)%Z /\ cyclic_polys (Z.to_nat n) (Check h) = Some (g, h)
  | OHamming m _ | OSimplex m _ => (2 <= m)%Z
  | ORepetition n | OSPC n => (1 <= n)%Z
  | OCordaro n => (2 <= n)%Z
  | ORM r m => (0 <= r < m)%Z
  | OLexi n d => (1 <= d <= n)%Z
  | OPolar m f => sort f = f /\ (1 <=? m)%Z && forallb (fun x => (0 <=? x)%Z && (x <? 2 ^ m)%Z) f && distinctz f = true
  | OBCH m d => (0 <= m)%Z /\ (0 <= d)%Z /\ exists B, BCHCode (Z.to_nat m) (Z.to_nat d) = Built B
  | OConv c => conv_inv c
  | OTerminated c _ m => conv_inv c /\ In m ["direct-truncation"; "zero-termination"; "tail-biting"]
  | OMealy t o tc oc => rect t tc /\ rect o oc
  | OMoore t tc _ => rect t tc
  | OLabeling M => exists c, rect M c /\ (List.length M =? 2 ^ c) && forallb (forallb (fun x => (0 <=? x)%Z && (x <=? 1)%Z)) M && distinct_rows M = true
  | ONatural m | OReflected m => (1 <= m)%Z
  | ORect i q => (1 <= i)%Z /\ (1 <= q)%Z
  | OF2V c => NoDup (map fst (f2v_map c)) /\ f2v_make (f2v_src c) (f2v_tgt c) (f2v_k c) (f2v_map c) = Some c
  | OV2F c => NoDup (map fst (v2f_map c)) /\ v2f_make (v2f_tgt c) (v2f_src c) (v2f_n c) (v2f_map c) = Some c
  | OLZ _ s l x y b => (1 <= s)%Z /\ (1 <= l)%Z /\ (2 <= x)%Z /\ (2 <= y)%Z /\ Z.of_nat (List.length b) = s
  | OLZ78 x y | OLZW x y => (2 <= x)%Z /\ (2 <= y)%Z
  | OBinSeq b p => Forall (fun x => 0 <= x)%Z b
  | OWalsh p o i => exists ord, (o = "natural" /\ ord = Natural \/ o = "sequency" /\ ord = Sequency) /\ WalshHadamard (Z.of_nat (List.length p)) ord i = Some p
  | OLFSR f s => LFSRSequence f s <> None
  | OBarker b => barker_sequence (List.length b) = Some b
  | _ => True
  end.

Ltac ob H := let a := fresh "a" in let E := fresh "E" in apply obind_some in H as (a & E & H).
Ltac b1 H := unfold bind1 in H; match type of H with match ?x with _ => _ end = _ => destruct x as [[|?v [|? ?]]|]; try discriminate H end.
Ltac b2 H := unfold bind2 in H; match type of H with match ?x with _ => _ end = _ => destruct x as [[|?v [|?v [|? ?]]]|]; try discriminate H end.
Ltac b3 H := unfold bind3 in H; match type of H with match ?x with _ => _ end = _ => destruct x as [[|?v [|?v [|?v [|? ?]]]]|]; try discriminate H end.
Ltac b4 H := unfold bind4 in H; match type of H with match ?x with _ => _ end = _ => destruct x as [[|?v [|?v [|?v [|?v [|? ?]]]]]|]; try discriminate H end.
Ltac gu H := let B := fresh "B" in apply guard_some in H as [B ->]; rewrite ?Bool.andb_true_iff in B.

Lemma arr2_rect v M c : as_arr2 v = Some (M, c) -> rect M c.
Proof.
  unfold rect. assert (K : forall M c, forallb (fun r => List.length r =? c) M = true -> Forall (fun r : list Z => List.length r = c) M).
  { intros M0 c0 F. rewrite forallb_forall in F. apply Forall_forall. intros r Hr. now apply Nat.eqb_eq, F. }
  unfold as_arr2. destruct v as [| | | |l| | | |rows cols|]; try discriminate.
  - destruct l as [|x l]; [discriminate|]. intros H. ob H. cbn zeta in H. destruct (forallb _ a) eqn:F; [|discriminate]. inversion H; subst. now apply K.
  - destruct (forallb _ rows) eqn:F; [|discriminate]. intros H. inversion H; subst. now apply K.
Qed.
Lemma req_arr2 v M c : required as_arr2 v = Some (M, c) -> rect M c.
Proof. destruct v as [v|]; [|discriminate]. apply arr2_rect. Qed.
Lemma opt_arr2 v M c : optional as_arr2 v = Some (Some (M, c)) -> rect M c.
Proof.
  unfold optional. destruct v as [v|]; [|discriminate].
  assert (K : option_map Some (as_arr2 v) = Some (Some (M, c)) -> rect M c) by (destruct (as_arr2 v) as [[M' c']|] eqn:E; cbn; [|discriminate]; intros H; inversion H; subst; now apply (arr2_rect v)).
  destruct v; try exact K. discriminate.
Qed.
Lemma frac_again n d n' d' : mk_frac n d = Some (n', d') -> mk_frac n' d' = Some (n', d').
Proof.
  intros H. assert (D : d <> 0%N) by (intros ->; discriminate H).
  destruct (@Algebra_Proof.mk_frac_cross n d D) as (x & E & r & _). rewrite H in E. inversion E; subst x. clear E.
  destruct (@Algebra_Proof.mk_frac_cross n' d' (proj1 r)) as (y & E & ry & Ey). rewrite E. f_equal. apply Algebra_Proof.frac_canonical; auto.
Qed.
Lemma field_again k m p : gf_make k m = Some p -> (1 <= k)%N /\ gf_make k (Some p) = Some p.
Proof.
  unfold gf_make. destruct (N.ltb_spec k 1); [discriminate|]. intros H0. split; [lia|].
  destruct (match m with None => default_primitive_polynomial k | Some m => Some m end) as [q|]; [|discriminate].
  destruct (negb (pdegree q =? Z.of_N k)%Z) eqn:E1; [discriminate|]. destruct (negb (is_irreducible q)) eqn:E2; [discriminate|]. inversion H0; subst. now rewrite E1, E2.
Qed.
Lemma zrange_length a b : List.length (zrange a b) = Z.to_nat (b - a).
Proof. unfold zrange. now rewrite map_length, seq_length. Qed.
Lemma zrange_bounds a b x : In x (zrange a b) -> (a <= x < b)%Z.
Proof. unfold zrange. intros H. apply in_map_iff in H as (i & <- & Hi). apply in_seq in Hi. lia. Qed.
Lemma set_keys k v d x : In x (map fst (dict_set k v d)) -> x = k \/ In x (map fst d).
Proof. induction d as [|[k' v'] d IH]; cbn; [intros [<-|[]]; auto|]. destruct (word_eqb_spec k k') as [->|]; cbn; [tauto|]. intros [<-|Hx]; [auto|]. destruct (IH Hx); auto. Qed.
Lemma set_nodup k v d : NoDup (map fst d) -> NoDup (map fst (dict_set k v d)).
Proof.
  induction d as [|[k' v'] d IH]; intros Hd; cbn; [constructor; [intros []|constructor]|]. inversion Hd as [|? ? H1 H2]; subst.
  destruct (word_eqb_spec k k') as [->|Hne]; cbn; [constructor; auto|]. constructor; [|auto]. intros Hx. apply set_keys in Hx as [->|Hx]; [congruence|contradiction].
Qed.
Lemma keys_of_pairs l : NoDup (map fst (dict_of_pairs l)).
Proof.
  unfold dict_of_pairs. assert (G : forall d, NoDup (map fst d) -> NoDup (map fst (fold_left (fun d kv => dict_set (fst kv) (snd kv) d) l d))).
  { induction l as [|[k v] l IH]; intros d Hd; [exact Hd|]. cbn [fold_left fst snd]. apply IH, set_nodup, Hd. }
  apply G. constructor.
Qed.
