(** C13-C17 with the widths that the code really computes, in floating point (Float_Model). *)
From Coq Require Import Reals.
From Verif Require Import Common Prefix_Model LempelZiv_Model LempelZiv_Proof LempelZivWindow_Model PmfCodes_Model PmfCodes_Proof Props_LempelZiv Props_PmfCodes Float_Model Float_Spec Float_Proof.
Local Open Scope nat_scope.

(** an idealised width: the computed one where it is guaranteed, the exact one elsewhere *)
Definition repaired (clog : R -> R) (b : N) (n : N) : nat := if (n <=? 2 ^ 44)%N then float_width clog b n else ceil_log b n.
Lemma repaired_wide clog b : accurate clog -> (2 <= b < 2 ^ 53)%N -> wide_enough b (repaired clog b).
Proof.
  intros A Hb n Hn. unfold repaired. destruct (N.leb_spec n (2 ^ 44)); [apply float_width_ok; assumption|apply ceil_log_ok; [apply Hb|exact Hn]].
Qed.
Lemma repaired_eq clog b n : (n <= 2 ^ 44)%N -> repaired clog b n = float_width clog b n.
Proof. intros H. unfold repaired. destruct (N.leb_spec n (2 ^ 44)); [reflexivity|lia]. Qed.

(** The computed width is enough, and at most one symbol more than needed. *)
Theorem C14_float_width : forall clog b n, accurate clog -> (2 <= b < 2 ^ 53)%N -> (2 <= n)%N -> moderate n ->
  (n <= b ^ N.of_nat (float_width clog b n))%N /\ forall w, (n <= b ^ N.of_nat w)%N -> float_width clog b n <= w + 1.
Proof. intros clog b n A Hb Hn Hm. split; [apply float_width_ok; try assumption; lia|intros w H; apply float_width_tight; assumption]. Qed.
(** correctly rounded logarithms are accurate *)
Theorem C14_float_example : accurate (fun x => binary64 (ln x)) /\ accurate2 (fun x => binary64 (ln x / ln 2)).
Proof. split; [exact correctly_rounded_accurate|exact correctly_rounded_accurate2]. Qed.
Theorem C14_lz78_round_trip_float : forall clog calX calY xs, accurate clog -> (2 <= calX)%N -> (2 <= calY < 2 ^ 53)%N ->
  moderate calX -> moderate (N.of_nat (length xs)) -> Forall (fun x => (x < calX)%N) xs ->
  exists ys, lz78_encode (float_width clog calY) calX calY xs = Some ys /\ Forall (fun y => (y < calY)%N) ys /\
    lz78_decode (float_width clog calY) calX calY ys = Some (map Z.of_N xs).
Proof.
  unfold moderate. intros clog calX calY xs A HX HY MX ML F. pose proof (repaired_wide clog calY A HY) as W.
  destruct (C14_lz78_round_trip calX calY _ xs HX (proj1 HY) W F) as (ys & E & Fy & D). exists ys.
  destruct (C14_lz78_tokens_round_trip calX calY _ xs HX (proj1 HY) W F) as (ts & S & Us & Tt). 
  assert (Agree : forall n, (n <= 2 ^ 44)%N -> repaired clog calY n = float_width clog calY n) by (intros; apply repaired_eq; assumption).
  assert (Lt : length ts <= length xs).
  { unfold lz78_source_to_tokens in S. destruct (in_range calX xs); [|discriminate]. apply lz78_scan_length in S. lia. }
  assert (EQ : lz78_tokens_to_target (repaired clog calY) calX calY ts = ys) by (unfold lz78_encode in E; rewrite S in E; congruence).
  split; [|split; [exact Fy|]].
  - unfold lz78_encode. rewrite S. f_equal. rewrite <- EQ. unfold lz78_tokens_to_target. symmetry. apply (lz78_pack_ext _ _ _ Agree); lia.
  - unfold lz78_decode. rewrite EQ in Tt. unfold lz78_target_to_tokens in *.
    rewrite (lz78_unpack_ext _ _ _ Agree _ _ _ _ _ _ MX Tt) by lia. exact Us.
Qed.
Theorem C15_lzw_round_trip_float : forall clog calX calY xs, accurate clog -> (2 <= calX)%N -> (2 <= calY < 2 ^ 53)%N ->
  moderate (calX + N.of_nat (length xs) + 1)%N -> Forall (fun x => (x < calX)%N) xs ->
  exists ys, lzw_encode (float_width clog calY) calX calY xs = Some ys /\ Forall (fun y => (y < calY)%N) ys /\
    lzw_decode (float_width clog calY) calX calY ys = Some xs.
Proof.
  unfold moderate. intros clog calX calY xs A HX HY ML F. pose proof (repaired_wide clog calY A HY) as W.
  destruct (C15_lzw_round_trip calX calY _ xs HX (proj1 HY) W F) as (ys & E & Fy & D). exists ys.
  assert (Agree : forall n, (n <= 2 ^ 44)%N -> repaired clog calY n = float_width clog calY n) by (intros; apply repaired_eq; assumption).
  split; [|split; [exact Fy|]].
  - rewrite <- E. unfold lzw_encode. destruct (in_range calX xs); [|reflexivity]. symmetry. apply (lzw_scan_ext _ _ _ Agree). unfold lzw_init. rewrite map_length, range_N_length. lia.
  - unfold lzw_decode in *. destruct ys as [|y ys]; [exact D|]. rewrite <- Agree by lia.
    destruct (nth_error _ _) as [old|]; [|discriminate]. destruct (lzw_unscan _ (repaired clog calY) _ _ _ _) as [out|] eqn:U; [|discriminate].
    assert (EX : xs = old ++ out) by congruence. subst xs. rewrite app_length in ML. rewrite (lzw_unscan_ext _ _ _ Agree _ _ _ _ _ _ U); [reflexivity|]. rewrite map_length, range_N_length. lia.
Qed.
Theorem C16_lz77_round_trip_float : forall clog c xs, accurate clog -> lz_valid c = true -> (2 <= calY c < 2 ^ 53)%N ->
  moderate (N.of_nat (ss c)) -> moderate (N.of_nat (ls c)) -> moderate (calX c) ->
  Forall (fun x => (x < calX c)%N) xs -> Forall (fun x => (x < 256)%N) (search_buffer c ++ xs) ->
  exists ys, lz77_encode (float_width clog (calY c)) c xs = Some ys /\ Forall (fun y => (y < calY c)%N) ys /\ lz77_decode (float_width clog (calY c)) c ys = Some xs.
Proof.
  unfold moderate. intros clog c xs A V HY Ms Ml Mx F F'. destruct (C16_lz77_round_trip _ c xs V (repaired_wide clog (calY c) A HY) F F') as (ts & ys & _ & E & Fy & _ & _ & D).
  destruct (lz77_ext (repaired clog (calY c)) (float_width clog (calY c)) c) as (X1 & _ & X3).
  - intros n H. apply repaired_eq. cbn [In] in H. destruct H as [<-|[<-|[<-|[]]]]; assumption.
  - exists ys. rewrite <- X1, <- X3. repeat split; assumption.
Qed.
Theorem C17_lzss_round_trip_float : forall clog c xs, accurate clog -> lz_valid c = true -> (2 <= calY c < 2 ^ 53)%N ->
  moderate (N.of_nat (ss c)) -> moderate (N.of_nat (ls c)) -> moderate (calX c) ->
  Forall (fun x => (x < calX c)%N) xs -> Forall (fun x => (x < 256)%N) (search_buffer c ++ xs) ->
  exists ys, lzss_encode (float_width clog (calY c)) c xs = Some ys /\ Forall (fun y => (y < calY c)%N) ys /\ lzss_decode (float_width clog (calY c)) c ys = Some xs.
Proof.
  unfold moderate. intros clog c xs A V HY Ms Ml Mx F F'. destruct (C17_lzss_round_trip _ c xs V (repaired_wide clog (calY c) A HY) F F') as (ts & ys & _ & E & Fy & _ & _ & D).
  destruct (lzss_ext (repaired clog (calY c)) (float_width clog (calY c)) c) as (_ & X1 & _ & X3).
  - intros n H. apply repaired_eq. cbn [In] in H. destruct H as [<-|[<-|[<-|[]]]]; assumption.
  - exists ys. rewrite <- X1, <- X3. repeat split; assumption.
Qed.
(** TunstallCode without a target block size never fails for lack of room *)
Theorem C13_default_block_size : forall clog2 pop pmf, accurate2 clog2 -> max_heap_pop pop -> 2 <= length pmf -> moderate (N.of_nat (length pmf)) ->
  exists c, tunstall_make pop pmf (default_block_size clog2 (length pmf)) = Some c /\ v2f_n c = default_block_size clog2 (length pmf).
Proof.
  intros clog2 pop pmf A HP HL M. destruct (C13_tunstall pop HP pmf (default_block_size clog2 (length pmf)) HL) as (c & E & _ & _ & N & _); [apply default_block_size_ok; assumption|].
  exists c. split; assumption.
Qed.
