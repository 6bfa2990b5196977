From Coq Require Import String Ascii.
From Verif Require Import Common Repr_Spec Repr_Builtin.
Local Open Scope string_scope.
Local Open Scope nat_scope.

Lemma append_assoc a b c : (a ++ b) ++ c = a ++ (b ++ c).
Proof. induction a as [|x a IH]; cbn; congruence. Qed.
Lemma append_nil a : a ++ "" = a.
Proof. induction a as [|x a IH]; cbn; congruence. Qed.
Lemma append_length a b : String.length (a ++ b) = String.length a + String.length b.
Proof. induction a as [|x a IH]; cbn; congruence. Qed.

Fixpoint all (p : ascii -> bool) (s : string) : bool := match s with String c t => p c && all p t | EmptyString => true end.
Definition head_not (p : ascii -> bool) (s : string) : Prop := match s with String c _ => p c = false | EmptyString => True end.
Lemma span_app p a b : all p a = true -> head_not p b -> span p (a ++ b) = (a, b).
Proof.
  induction a as [|c a IH]; cbn [append span all].
  - intros _ H. destruct b as [|c b]; [reflexivity|]. cbn [span] in *. cbn in H. rewrite H. reflexivity.
  - rewrite Bool.andb_true_iff. intros [Hc Ha] H. rewrite Hc, IH by assumption. reflexivity.
Qed.

(* ---- digits *)
Lemma digit_char d : d < 10 -> is_digit (ascii_of_nat (48 + d)) = true /\ nat_of_ascii (ascii_of_nat (48 + d)) - 48 = d.
Proof. intros H. do 10 (destruct d as [|d]; [split; reflexivity|]). lia. Qed.
Lemma value_of_app b x a c : value_of b x (a ++ c) = value_of b (value_of b x a) c.
Proof. revert x; induction a as [|d a IH]; intros x; cbn; auto. Qed.
Lemma to_digits_spec base : (2 <= base <= 10)%N -> forall fuel n acc, (n < base * base ^ N.of_nat fuel)%N ->
  exists ds, to_digits base fuel n acc = ds ++ acc /\ ds <> "" /\ all is_digit ds = true /\ value_of base 0 ds = n.
Proof.
  intros Hb. induction fuel as [|fuel IH]; intros n acc H; cbn [to_digits].
  - assert (Hm : (n mod base = n)%N) by (apply N.mod_small; cbn in H; lia). assert (Hd : N.to_nat (n mod base) < 10) by lia.
    destruct (digit_char _ Hd) as [D1 D2]. exists (String (ascii_of_nat (48 + N.to_nat (n mod base))) ""). split; [reflexivity|]. split; [discriminate|].
    cbn [all value_of]. rewrite D1, D2. split; [reflexivity|]. rewrite Hm. lia.
  - assert (Hm : (n mod base < base)%N) by (apply N.mod_lt; lia). assert (Hd : N.to_nat (n mod base) < 10) by lia. destruct (digit_char _ Hd) as [D1 D2].
    pose proof (N.div_mod n base ltac:(lia)) as DM. set (c := ascii_of_nat (48 + N.to_nat (n mod base))) in *. destruct (N.eqb_spec (n / base) 0) as [E|E].
    + exists (String c ""). split; [reflexivity|]. split; [discriminate|]. cbn [all value_of]. rewrite D1, D2. split; [reflexivity|]. rewrite E in DM. clear -DM. nia.
    + destruct (IH (n / base)%N (String c acc)) as (ds & E1 & E2 & E3 & E4).
      { apply N.div_lt_upper_bound; [lia|]. rewrite Nat2N.inj_succ, N.pow_succ_r' in H. lia. }
      exists (ds ++ String c ""). rewrite E1. split; [rewrite append_assoc; reflexivity|]. split; [destruct ds; discriminate|]. split.
      * clear -E3 D1. induction ds as [|x ds IH]; cbn [append all] in *; [rewrite D1; reflexivity|]. apply Bool.andb_true_iff in E3 as [-> E3]. auto.
      * rewrite value_of_app, E4. cbn [value_of]. rewrite D2. rewrite N2Nat.id. symmetry. exact DM.
Qed.
Lemma size_bound n : (n < 2 ^ N.of_nat (N.size_nat n))%N.
Proof. destruct n as [|p]; [reflexivity|]. induction p; cbn [N.size_nat Pos.size_nat] in *; rewrite Nat2N.inj_succ, N.pow_succ_r'; lia. Qed.
Lemma dec_spec n : exists ds, dec n = ds /\ ds <> "" /\ all is_digit ds = true /\ value_of 10 0 ds = n.
Proof.
  unfold dec. destruct (to_digits_spec 10 ltac:(lia) (N.size_nat n) n "") as (ds & E & H).
  - pose proof (size_bound n). assert (2 ^ N.of_nat (N.size_nat n) <= 10 ^ N.of_nat (N.size_nat n))%N by (apply N.pow_le_mono_l; lia). lia.
  - exists ds. rewrite E, append_nil. auto.
Qed.
Lemma bin_spec n : exists ds, py_bin n = "0b" ++ ds /\ ds <> "" /\ all is_digit ds = true /\ value_of 2 0 ds = n.
Proof.
  unfold py_bin. destruct (to_digits_spec 2 ltac:(lia) (N.size_nat n) n "") as (ds & E & H).
  - pose proof (size_bound n). lia.
  - exists ds. rewrite E, append_nil. auto.
Qed.

(* ---- what may follow an expression *)
Definition closers : list ascii := [","; ")"; "]"; "}"; ":"]%char.
Definition stop (rest : string) : Prop := match rest with String c _ => In c closers | EmptyString => True end.
Lemma stop_head p rest : forallb (fun c => negb (p c)) closers = true -> stop rest -> head_not p rest.
Proof. intros H S. destruct rest as [|c rest]; [exact I|]. cbn [head_not stop] in *. rewrite forallb_forall in H. specialize (H c S). destruct (p c); [discriminate|reflexivity]. Qed.
Lemma read_digits_spec ds rest : ds <> "" -> all is_digit ds = true -> stop rest -> read_digits (ds ++ rest) = Some (value_of 10 0 ds, rest).
Proof.
  intros H1 H2 H3. unfold read_digits. rewrite (span_app is_digit ds rest H2) by (apply stop_head; auto). destruct ds; [congruence|reflexivity].
Qed.
Lemma read_dec ds rest : ds <> "" -> all is_digit ds = true -> stop rest -> read_number (ds ++ rest) = Some (EInt (Z.of_N (value_of 10 0 ds)), rest).
Proof.
  intros H1 H2 H3. pose proof (read_digits_spec ds rest H1 H2 H3) as R. destruct ds as [|c ds]; [congruence|]. cbn [all] in H2. apply Bool.andb_true_iff in H2 as [Hc Hds].
  assert (Hb : match (ds ++ rest)%string with String "b" _ => False | _ => True end).
  { destruct ds as [|d ds]; cbn [append].
    - destruct rest as [|d rest]; [exact I|]. cbn in H3. repeat (destruct H3 as [<-|H3]; [exact I|]). destruct H3.
    - cbn [all] in Hds. apply Bool.andb_true_iff in Hds as [Hd _]. destruct d as [[] [] [] [] [] [] [] []]; try exact I; discriminate Hd. }
  assert (K : read_number (String c (ds ++ rest)) = option_map (fun '(n, r) => (EInt (Z.of_N n), r)) (read_digits (String c (ds ++ rest)))).
  { unfold read_number. destruct c as [[] [] [] [] [] [] [] []]; try discriminate Hc; try reflexivity.
    destruct (ds ++ rest) as [|d t]; [reflexivity|]. destruct d as [[] [] [] [] [] [] [] []]; try reflexivity. destruct Hb. }
  cbn [append] in R |- *. rewrite K, R. reflexivity.
Qed.

(* ---- sizes and well-formedness *)
Definition ident (s : string) : bool := match s with String c t => is_letter c && all is_word t | EmptyString => false end.
Fixpoint wfb (e : expr) : bool :=
  match e with
  | EInt _ | EBin _ | EBool _ => true
  | EStr s => all is_plain s
  | EList l | ETuple l => forallb wfb l
  | EDict l => forallb (fun '(k, v) => wfb k && wfb v) l
  | ECall f args => ident f && forallb (fun '(p, e) => match p with Some n => ident n | None => true end && wfb e) args
  end.
Definition sum (l : list nat) : nat := fold_right Nat.add 0 l.
Fixpoint size (e : expr) : nat :=
  match e with
  | EInt _ | EBin _ | EBool _ | EStr _ => 1
  | EList l | ETuple l => 2 + sum (map (fun e => 1 + size e) l)
  | EDict l => 2 + sum (map (fun '(k, v) => 1 + size k + size v) l)
  | ECall f args => 2 + sum (map (fun '(_, e) => 1 + size e) args)
  end.
(* first characters of expressions *)
Definition opening (c : ascii) : bool := is_word c || existsb (Ascii.eqb c) ["-"; "'"; "["; "("; "{"]%char.
Lemma print_head e : wfb e = true -> exists c t, print e = String c t /\ opening c = true.
Proof.
  destruct e as [z|n|b|s|l|l|l|f args]; cbn [print wfb]; intros W.
  - unfold py_int. destruct (z <? 0)%Z; [exists "-"%char; eexists; split; reflexivity|]. destruct (dec_spec (Z.to_N z)) as (ds & -> & H1 & H2 & _).
    destruct ds as [|c ds]; [congruence|]. exists c, ds. split; [reflexivity|]. cbn [all] in H2. apply Bool.andb_true_iff in H2 as [Hc _]. unfold opening, is_word. rewrite Hc, Bool.orb_true_r. reflexivity.
  - exists "0"%char. eexists. split; reflexivity.
  - destruct b; cbn; eexists; eexists; split; reflexivity.
  - eexists; eexists; split; reflexivity.
  - eexists; eexists; split; reflexivity.
  - destruct l as [|x [|y l]]; cbn [append]; eexists; eexists; (split; [reflexivity|]); reflexivity.
  - eexists; eexists; split; reflexivity.
  - apply Bool.andb_true_iff in W as [W _]. destruct f as [|c f]; [discriminate|]. cbn [ident append] in *. exists c. eexists. split; [reflexivity|].
    apply Bool.andb_true_iff in W as [W _]. unfold opening, is_word. rewrite W. reflexivity.
Qed.
Lemma opening_not c d : opening c = true -> In d [")"; "]"; "}"; ","; " "; "="; ":"]%char -> Ascii.eqb c d = false.
Proof. intros H I. destruct (Ascii.eqb_spec c d) as [->|]; [|reflexivity]. cbn [In] in I. repeat (destruct I as [<-|I]; [discriminate H|]). destruct I. Qed.

Definition good (N : nat) : Prop := forall f e rest, f < N -> size e <= f -> wfb e = true -> stop rest -> read f (print e ++ rest) = Some (e, rest).

Lemma concat_cons a l : l <> [] -> join (a :: l) = a ++ ", " ++ join l.
Proof. destruct l; [congruence|reflexivity]. Qed.
Lemma items_ok N close : good N -> In close [")"; "]"]%char -> forall l fuel rest, fuel <= N -> 1 + sum (map (fun e => 1 + size e) l) <= fuel -> forallb wfb l = true ->
  read_items fuel close (join (map print l) ++ String close rest) = Some (l, false, rest).
Proof.
  intros G Hc. induction l as [|e l IH]; intros fuel rest Hf Hs W; destruct fuel as [|fuel]; try (cbn in Hs; lia).
  - cbn [map]. change (join []) with "". cbn [append read_items]. rewrite Ascii.eqb_refl. reflexivity.
  - cbn [forallb] in W. apply Bool.andb_true_iff in W as [We Wl]. cbn [map sum fold_right] in Hs. fold (sum (map (fun e => 1 + size e) l)) in Hs.
    assert (Hclose : In close closers) by (cbn in Hc |- *; tauto).
    assert (Hd : forall c, opening c = true -> Ascii.eqb c close = false) by (intros c Hop; apply opening_not; auto; cbn in Hc |- *; tauto).
    destruct (print_head e We) as (c & t & Ep & Hop).
    destruct l as [|e' l'].
    + cbn [map]. change (join [print e]) with (print e). cbn [read_items].
      assert (R : read fuel (print e ++ String close rest) = Some (e, String close rest)) by (apply G; auto; cbn [stop]; auto; lia).
      rewrite Ep in R |- *. cbn [append] in R |- *. rewrite (Hd c Hop), R, Ascii.eqb_refl. reflexivity.
    + cbn [map]. rewrite concat_cons by discriminate. rewrite !append_assoc. cbn [read_items].
      set (more := ", " ++ join (print e' :: map print l') ++ String close rest).
      assert (R : read fuel (print e ++ more) = Some (e, more)) by (apply G; auto; try lia; cbn; tauto).
      rewrite Ep in R |- *. cbn [append] in R |- *. rewrite (Hd c Hop), R. unfold more. cbn [append].
      assert (H1 : Ascii.eqb "," close = false) by (cbn in Hc; destruct Hc as [<-|[<-|[]]]; reflexivity).
      assert (H2 : Ascii.eqb " " close = false) by (cbn in Hc; destruct Hc as [<-|[<-|[]]]; reflexivity). rewrite H1, H2.
      change (Ascii.eqb "," ",") with true. change (Ascii.eqb " " " ") with true. cbv iota.
      change (print e' :: map print l') with (map print (e' :: l')). rewrite IH by (auto; lia). reflexivity.
Qed.
Lemma pairs_ok N : good N -> forall l fuel rest, fuel <= N -> 1 + sum (map (fun '(k, v) => 1 + size k + size v) l) <= fuel -> forallb (fun '(k, v) => wfb k && wfb v) l = true ->
  read_pairs fuel (join (map (fun '(k, v) => print k ++ ": " ++ print v) l) ++ String "}" rest) = Some (l, rest).
Proof.
  intros G. induction l as [|[k v] l IH]; intros fuel rest Hf Hs W; destruct fuel as [|fuel]; try (cbn in Hs; lia).
  - reflexivity.
  - cbn [forallb] in W. apply Bool.andb_true_iff in W as [We Wl]. apply Bool.andb_true_iff in We as [Wk Wv]. cbn [map sum fold_right] in Hs. fold (sum (map (fun '(k, v) => 1 + size k + size v) l)) in Hs.
    destruct (print_head k Wk) as (c & t & Ep & Hop).
    assert (Hd : Ascii.eqb c "}" = false) by (apply opening_not; auto; cbn; tauto).
    destruct l as [|[k' v'] l'].
    + cbn [map]. change (join [?x]) with x. rewrite !append_assoc. cbn [read_pairs].
      assert (R : read fuel (print k ++ ": " ++ print v ++ String "}" rest) = Some (k, ": " ++ print v ++ String "}" rest)) by (apply G; auto; try lia; cbn; tauto).
      rewrite Ep in R |- *. cbn [append] in R |- *. rewrite Hd, R. rewrite (G fuel v (String "}" rest)) by (auto; try lia; cbn; tauto). reflexivity.
    + cbn [map]. rewrite concat_cons by discriminate. rewrite !append_assoc. cbn [read_pairs].
      set (more := ", " ++ join ((print k' ++ ": " ++ print v') :: map (fun '(k, v) => print k ++ ": " ++ print v) l') ++ String "}" rest).
      assert (R : read fuel (print k ++ ": " ++ print v ++ more) = Some (k, ": " ++ print v ++ more)) by (apply G; auto; try lia; cbn; tauto).
      rewrite Ep in R |- *. cbn [append] in R |- *. rewrite Hd, R. rewrite (G fuel v more) by (auto; try lia; cbn; tauto). unfold more. cbn [append].
      change ((print k' ++ ": " ++ print v') :: map (fun '(k, v) => print k ++ ": " ++ print v) l') with (map (fun '(k, v) => print k ++ ": " ++ print v) ((k', v') :: l')).
      rewrite IH by (auto; lia). reflexivity.
Qed.
Lemma ident_all n : ident n = true -> all is_word n = true /\ n <> "".
Proof. destruct n as [|c n]; [discriminate|]. cbn [ident all]. rewrite !Bool.andb_true_iff. intros [H1 H2]. split; [|discriminate]. split; [unfold is_word; rewrite H1; reflexivity|exact H2]. Qed.
(* a positional argument is not taken for a keyword *)
Lemma not_keyword e rest : wfb e = true -> stop rest -> match span is_word (print e ++ rest) with (String _ _, String "=" _) => False | _ => True end.
Proof.
  intros W S.
  assert (K : forall a b, all is_word a = true -> head_not is_word b -> match b with String "=" _ => False | _ => True end -> match span is_word (a ++ b) with (String _ _, String "=" _) => False | _ => True end).
  { intros a b Ha Hb Hn. rewrite (span_app is_word a b Ha Hb). destruct a; [exact I|]. exact Hn. }
  assert (SE : match rest with String "=" _ => False | _ => True end).
  { destruct rest as [|c rest]; [exact I|]. cbn in S. repeat (destruct S as [<-|S]; [exact I|]). destruct S. }
  assert (SH : head_not is_word rest) by (apply stop_head; auto).
  assert (DW : forall ds, all is_digit ds = true -> all is_word ds = true).
  { induction ds as [|c ds IH]; cbn; auto. rewrite !Bool.andb_true_iff. intros [H1 H2]. split; [unfold is_word; rewrite H1; apply Bool.orb_true_r|auto]. }
  destruct e as [z|n|b|s|l|l|l|f args]; cbn [print].
  - unfold py_int. destruct (z <? 0)%Z; [exact I|]. destruct (dec_spec (Z.to_N z)) as (ds & -> & _ & H & _). apply K; auto.
  - destruct (bin_spec n) as (ds & -> & _ & H & _). rewrite append_assoc. change ("0b" ++ ds ++ rest) with (("0b" ++ ds) ++ rest). apply K; auto. cbn [append all]. rewrite (DW ds H). reflexivity.
  - destruct b; apply K; auto.
  - exact I.
  - exact I.
  - destruct l as [|x [|y l]]; exact I.
  - exact I.
  - cbn [wfb] in W. apply Bool.andb_true_iff in W as [Wf _]. rewrite !append_assoc. apply K; [apply ident_all; exact Wf|reflexivity|exact I].
Qed.
Lemma args_ok N : good N -> forall l fuel rest, fuel <= N -> 1 + sum (map (fun '(_, e) => 1 + size e) l) <= fuel ->
  forallb (fun '(p, e) => match p with Some n => ident n | None => true end && wfb e) l = true ->
  read_args fuel (join (map (fun '(p, e) => py_arg p (print e)) l) ++ String ")" rest) = Some (l, rest).
Proof.
  intros G. induction l as [|[p e] l IH]; intros fuel rest Hf Hs W; destruct fuel as [|fuel]; try (cbn in Hs; lia).
  - reflexivity.
  - cbn [forallb] in W. apply Bool.andb_true_iff in W as [We Wl]. apply Bool.andb_true_iff in We as [Wp We]. cbn [map sum fold_right] in Hs. fold (sum (map (fun '(_, e) => 1 + size e) l)) in Hs.
    assert (KW : forall more, stop more -> exists c t, py_arg p (print e) ++ more = String c t /\ Ascii.eqb c ")" = false /\
       (match span is_word (String c t) with (String a b, String "=" r) => (Some (String a b), r) | _ => (None, String c t) end) = (p, print e ++ more)).
    { intros more Sm. destruct p as [n|]; cbn [py_arg].
      - destruct n as [|c n]; [discriminate|]. pose proof (ident_all _ Wp) as [Hall _]. exists c, (n ++ String "=" (print e ++ more)). split; [cbn [append]; rewrite append_assoc; reflexivity|]. split.
        + apply opening_not; [|cbn; tauto]. cbn [ident] in Wp. apply Bool.andb_true_iff in Wp as [H _]. unfold opening, is_word. rewrite H. reflexivity.
        + pose proof (span_app is_word (String c n) (String "=" (print e ++ more)) Hall eq_refl) as SP. cbn [append] in SP. rewrite SP. reflexivity.
      - destruct (print_head e We) as (c & t & Ep & Hop). rewrite Ep. cbn [append]. exists c, (t ++ more). split; [reflexivity|]. split; [apply opening_not; auto; cbn; tauto|].
        pose proof (not_keyword e more We Sm) as NK. rewrite Ep in NK. cbn [append] in NK.
        destruct (span is_word (String c (t ++ more))) as [a b]. destruct a; [reflexivity|]. destruct b as [|x b]; [reflexivity|].
        destruct x as [[] [] [] [] [] [] [] []]; try reflexivity. destruct NK. }
    destruct l as [|q l'].
    + cbn [map]. change (join [?x]) with x. destruct (KW (String ")" rest)) as (c & t & E1 & E2 & E3); [cbn; tauto|]. rewrite E1. cbn [read_args]. rewrite E2, E3.
      rewrite (G fuel e (String ")" rest)) by (auto; try lia; cbn; tauto). reflexivity.
    + cbn [map]. rewrite concat_cons by discriminate. rewrite !append_assoc. set (more := ", " ++ _). destruct (KW more) as (c & t & E1 & E2 & E3); [cbn; tauto|].
      rewrite E1. cbn [read_args]. rewrite E2, E3. rewrite (G fuel e more) by (auto; try lia; cbn; tauto). unfold more. cbn [append].
      match goal with |- context[join (?x :: map ?f l')] => change (x :: map f l') with (map f (q :: l')) end. rewrite IH by (auto; lia). reflexivity.
Qed.

Lemma read_print : forall N, good N.
Proof.
  induction N as [|N G]; intros f e rest Hf Hs W S; [lia|]. destruct f as [|f]; [destruct e; cbn in Hs; lia|].
  assert (G' : good f) by (intros f0 e0 rest0 H0; apply G; lia). clear G Hf N. rename f into N, G' into G.
  destruct e as [z|n|b|s|l|l|l|fn args].
  - cbn [print]. unfold py_int. destruct (Z.ltb_spec z 0).
    + destruct (dec_spec (Z.to_N (- z))) as (ds & -> & H1 & H2 & H3). cbn [append read]. cbn - [read_digits]. rewrite (read_digits_spec ds rest H1 H2 S). cbn [option_map]. rewrite H3, Z2N.id, Z.opp_involutive by lia. reflexivity.
    + destruct (dec_spec (Z.to_N z)) as (ds & -> & H1 & H2 & H3). pose proof (read_dec ds rest H1 H2 S) as R. rewrite H3 in R. rewrite Z2N.id in R by lia.
      destruct ds as [|c ds]; [congruence|]. cbn [all] in H2. apply Bool.andb_true_iff in H2 as [Hc _]. cbn [append] in R |- *. cbn [read].
      destruct c as [[] [] [] [] [] [] [] []]; try discriminate Hc; exact R.
  - cbn [print]. destruct (bin_spec n) as (ds & -> & H1 & H2 & H3). cbn [append read]. cbn - [span]. rewrite (span_app is_digit ds rest H2) by (apply stop_head; auto).
    destruct ds as [|c ds]; [congruence|]. rewrite H3. reflexivity.
  - assert (SH : head_not is_word rest) by (apply stop_head; auto).
    assert (SP : match rest with String "(" _ => False | _ => True end). { destruct rest as [|c rest]; [exact I|]. cbn in S. repeat (destruct S as [<-|S]; [exact I|]). destruct S. }
    destruct b; cbn [print py_bool].
    + change (read (Datatypes.S N) ("True" ++ rest)) with (match span is_word ("True" ++ rest) with
            | (name, String "(" rest) => option_map (fun '(l, rest) => (ECall name l, rest)) (read_args N rest)
            | (name, rest) => if String.eqb name "True" then Some (EBool true, rest) else if String.eqb name "False" then Some (EBool false, rest) else None end).
      rewrite (span_app is_word "True" rest eq_refl SH). destruct rest as [|c rest]; [reflexivity|]. destruct c as [[] [] [] [] [] [] [] []]; try reflexivity. destruct SP.
    + change (read (Datatypes.S N) ("False" ++ rest)) with (match span is_word ("False" ++ rest) with
            | (name, String "(" rest) => option_map (fun '(l, rest) => (ECall name l, rest)) (read_args N rest)
            | (name, rest) => if String.eqb name "True" then Some (EBool true, rest) else if String.eqb name "False" then Some (EBool false, rest) else None end).
      rewrite (span_app is_word "False" rest eq_refl SH). destruct rest as [|c rest]; [reflexivity|]. destruct c as [[] [] [] [] [] [] [] []]; try reflexivity. destruct SP.
  - cbn [print]. rewrite !append_assoc. cbn [append read]. change (Ascii.eqb "'" "[") with false. change (Ascii.eqb "'" "(") with false. change (Ascii.eqb "'" "{") with false. change (Ascii.eqb "'" "'") with true. cbv iota.
    rewrite (span_app is_plain s (String "'" rest) W) by reflexivity. reflexivity.
  - cbn [print]. rewrite !append_assoc. cbn [append read]. change (Ascii.eqb "[" "[") with true. cbv iota. rewrite (items_ok N "]" G) by (auto; cbn in *; auto; lia). reflexivity.
  - cbn [wfb size] in W, Hs. assert (IT := items_ok N ")" G ltac:(cbn; auto) l N rest (le_n N) ltac:(lia) W).
    destruct l as [|x [|y l]].
    + cbn [print]. rewrite !append_assoc. cbn [append read]. change (Ascii.eqb "(" "[") with false. change (Ascii.eqb "(" "(") with true. cbv iota.
      match goal with |- option_map _ (read_items N ")" ?u) = _ => change u with (join (map print []) ++ String ")" rest) end. rewrite IT. reflexivity.
    + cbn [print]. rewrite !append_assoc. cbn [append read]. change (Ascii.eqb "(" "[") with false. change (Ascii.eqb "(" "(") with true. cbv iota.
      cbn [forallb] in W. rewrite Bool.andb_true_r in W. destruct N as [|N']; [cbn in Hs; lia|]. cbn [map sum fold_right] in Hs. destruct (print_head x W) as (c & t & Ep & Hop).
      assert (R : read N' (print x ++ String "," (String ")" rest)) = Some (x, String "," (String ")" rest))) by (apply G; auto; try lia; cbn; tauto).
      cbn [read_items]. rewrite Ep in R |- *. cbn [append] in R |- *. rewrite (opening_not c ")"%char Hop) by (cbn; tauto). rewrite R. reflexivity.
    + cbn [print]. rewrite !append_assoc. cbn [append read]. change (Ascii.eqb "(" "[") with false. change (Ascii.eqb "(" "(") with true. cbv iota.
      match goal with |- option_map _ (read_items N ")" ?u) = _ => change u with (join (map print (x :: y :: l)) ++ String ")" rest) end. rewrite IT. reflexivity.
  - cbn [print]. rewrite !append_assoc. cbn [append read]. change (Ascii.eqb "{" "[") with false. change (Ascii.eqb "{" "(") with false. change (Ascii.eqb "{" "{") with true. cbv iota.
    rewrite (pairs_ok N G) by (auto; cbn in *; auto; lia). reflexivity.
  - cbn [print wfb size] in *. apply Bool.andb_true_iff in W as [Wf Wa]. rewrite !append_assoc. destruct (ident_all fn Wf) as [Hall Hne]. destruct fn as [|c fn]; [congruence|].
    cbn [append read]. assert (Hc : is_letter c = true) by (cbn [ident] in Wf; apply Bool.andb_true_iff in Wf; tauto).
    assert (N1 : Ascii.eqb c "[" = false /\ Ascii.eqb c "(" = false /\ Ascii.eqb c "{" = false /\ Ascii.eqb c "'" = false).
    { clear -Hc. repeat split; match goal with |- Ascii.eqb c ?d = _ => destruct (Ascii.eqb_spec c d) as [->|]; [discriminate Hc|reflexivity] end. }
    destruct N1 as (-> & -> & -> & ->). rewrite Hc.
    match goal with |- context[span is_word (String c (fn ++ ?u))] => change (String c (fn ++ u)) with (String c fn ++ u); rewrite (span_app is_word (String c fn) u Hall) by reflexivity end.
    rewrite (args_ok N G) by (auto; lia). reflexivity.
Qed.

(* ---- the text is long enough for the reader's fuel *)
Lemma join_length l : String.length (join l) = sum (map String.length l) + 2 * (List.length l - 1).
Proof.
  induction l as [|a l IH]; [reflexivity|]. destruct l as [|b l]; [cbn; lia|]. rewrite concat_cons by discriminate. rewrite !append_length, IH. cbn [map sum fold_right List.length String.length]. lia.
Qed.
Lemma sum_le {A} (f g : A -> nat) l : (forall x, In x l -> f x <= g x) -> sum (map f l) <= sum (map g l).
Proof. induction l as [|x l IH]; intros H; [reflexivity|]. cbn [map sum fold_right]. specialize (IH (fun y h => H y (or_intror h))). specialize (H x (or_introl eq_refl)). unfold sum in *. lia. Qed.
Lemma sum_map_lin {A} (f : A -> nat) l : sum (map (fun x => 1 + 2 * f x) l) = List.length l + 2 * sum (map f l).
Proof. induction l as [|x l IH]; [reflexivity|]. cbn [map sum fold_right List.length] in *. unfold sum in *. lia. Qed.
Lemma sum_member {A} (f : A -> nat) l x : In x l -> f x <= sum (map f l).
Proof. induction l as [|y l IH]; intros []; cbn [map sum fold_right]; [subst; lia|]. specialize (IH H). unfold sum in *. lia. Qed.
Lemma size_text : forall N e, size e <= N -> wfb e = true -> size e <= 2 * String.length (print e).
Proof.
  assert (K : forall (l : list string) n, n <= sum (map String.length l) -> n <= String.length (join l)) by (intros l n H; rewrite join_length; lia).
  induction N as [|N IH]; intros e Hs W; [destruct e; cbn in Hs; lia|].
  destruct e as [z|n|b|s|l|l|l|fn args].
  - destruct (print_head (EInt z) W) as (c & t & -> & _). cbn. lia.
  - destruct (print_head (EBin n) W) as (c & t & -> & _). cbn. lia.
  - destruct (print_head (EBool b) W) as (c & t & -> & _). cbn. lia.
  - destruct (print_head (EStr s) W) as (c & t & -> & _). cbn. lia.
  - cbn [print size wfb] in *. rewrite forallb_forall in W. rewrite !append_length, join_length, map_map, map_length. cbn [String.length].
    assert (B : sum (map (fun e => 1 + size e) l) <= sum (map (fun e => 1 + 2 * String.length (print e)) l)).
    { apply sum_le. intros x Hx. pose proof (sum_member (fun e => 1 + size e) l x Hx). cbn beta in *. specialize (IH x ltac:(lia) (W x Hx)). lia. }
    rewrite sum_map_lin in B. lia.
  - cbn [size wfb] in *. rewrite forallb_forall in W.
    assert (B : sum (map (fun e => 1 + size e) l) <= sum (map (fun e => 1 + 2 * String.length (print e)) l)).
    { apply sum_le. intros x Hx. pose proof (sum_member (fun e => 1 + size e) l x Hx). cbn beta in *. specialize (IH x ltac:(lia) (W x Hx)). lia. }
    rewrite sum_map_lin in B. destruct l as [|x [|y l]].
    + cbn. lia.
    + cbn [print]. rewrite !append_length. cbn [String.length map sum fold_right List.length] in *. lia.
    + cbn [print]. rewrite !append_length, join_length, map_map, map_length. cbn [String.length List.length] in *. lia.
  - cbn [print size wfb] in *. rewrite forallb_forall in W. rewrite !append_length, join_length, map_map, map_length. cbn [String.length].
    assert (B : sum (map (fun '(k, v) => 1 + size k + size v) l) <= sum (map (fun p : expr * expr => 1 + 2 * String.length (let '(k, v) := p in print k ++ ": " ++ print v)) l)).
    { apply sum_le. intros [k v] Hx. pose proof (sum_member (fun '(k, v) => 1 + size k + size v) l (k, v) Hx) as M. cbn beta iota in M. specialize (W _ Hx). cbn beta iota in W. apply Bool.andb_true_iff in W as [Wk Wv].
      pose proof (IH k ltac:(lia) Wk). pose proof (IH v ltac:(lia) Wv). rewrite !append_length. cbn [String.length]. lia. }
    rewrite sum_map_lin in B. lia.
  - cbn [print size wfb] in *. apply Bool.andb_true_iff in W as [Wf W]. rewrite forallb_forall in W. rewrite !append_length, join_length, map_map, map_length. cbn [String.length].
    assert (B : sum (map (fun '(_, e) => 1 + size e) args) <= sum (map (fun q : option string * expr => 1 + 2 * String.length (let '(p, e) := q in py_arg p (print e))) args)).
    { apply sum_le. intros [p e] Hx. pose proof (sum_member (fun '((_, e) : option string * expr) => 1 + size e) args (p, e) Hx) as M. cbn beta iota in M. specialize (W _ Hx). cbn beta iota in W. apply Bool.andb_true_iff in W as [_ We].
      pose proof (IH e ltac:(lia) We). destruct p as [n|]; cbn [py_arg]; rewrite ?append_length; lia. }
    rewrite sum_map_lin in B. lia.
Qed.
Lemma read_text_print e : wfb e = true -> read_text (print e) = Some e.
Proof.
  intros W. unfold read_text. pose proof (read_print (2 * String.length (print e) + 3) (2 * String.length (print e) + 2) e "" ltac:(lia)) as R.
  rewrite append_nil in R. rewrite R; auto; [|exact I]. pose proof (size_text _ e (le_n _) W). lia.
Qed.
