(* Property theorems C14-C17. [width n] plays ceil(log(n, calY)), computed in floating point by the
   code; all that is assumed is that it is large enough for the n values 0..n-1.  The exact ceiling
   satisfies this (ceil_log_ok). *)
From Verif Require Import Common Prefix_Model LempelZiv_Model LempelZiv_Proof LempelZivWindow_Model LempelZivWindow_Proof.
Local Open Scope nat_scope.

Definition wide_enough (calY : N) (width : N -> nat) : Prop :=
  forall n, (1 <= n)%N -> (n <= calY ^ N.of_nat (width n))%N.
Example wide_enough_satisfiable : forall calY, (2 <= calY)%N -> wide_enough calY (ceil_log calY).
Proof. intros calY H n Hn. apply ceil_log_ok; auto. Qed.

(* ---- C14 *)
Theorem C14_lz78_round_trip : forall calX calY width xs, (2 <= calX)%N -> (2 <= calY)%N -> wide_enough calY width ->
  Forall (fun x => (x < calX)%N) xs ->
  exists ys, lz78_encode width calX calY xs = Some ys /\ Forall (fun y => (y < calY)%N) ys /\
    lz78_decode width calX calY ys = Some (map Z.of_N xs).
Proof. intros calX calY width xs HX HY HW. exact (lz78_round_trip width calY HY HW calX HX xs). Qed.
Theorem C14_lz78_tokens_round_trip : forall calX calY width xs, (2 <= calX)%N -> (2 <= calY)%N -> wide_enough calY width ->
  Forall (fun x => (x < calX)%N) xs ->
  exists ts, lz78_source_to_tokens calX xs = Some ts /\ lz78_tokens_to_source ts = Some (map Z.of_N xs) /\
    lz78_target_to_tokens width calX calY (lz78_tokens_to_target width calX calY ts) = Some ts.
Proof. intros calX calY width xs HX HY HW. exact (lz78_tokens_round_trip width calY HY HW calX HX xs). Qed.
(* docstring of encode *)
Example C14_example : lz78_encode (ceil_log 2) 2 2 [1; 0; 1; 1; 0; 1; 0; 1; 0; 0; 0]%N
  = Some [1; 0; 0; 0; 1; 1; 1; 0; 1; 1; 0; 0; 0; 0; 1; 0; 0]%N /\
  lz78_encode (ceil_log 8) 2 8 (repeat 0%N 15) = Some [0; 1; 0; 2; 0; 3; 0; 4; 0]%N /\
  lz78_decode (ceil_log 8) 2 8 [0; 1; 0; 2; 0; 3; 0; 4; 0]%N = Some (repeat 0%Z 15).
Proof. repeat split; vm_compute; reflexivity. Qed.

(* ---- C15 *)
Theorem C15_lzw_round_trip : forall calX calY width xs, (2 <= calX)%N -> (2 <= calY)%N -> wide_enough calY width ->
  Forall (fun x => (x < calX)%N) xs ->
  exists ys, lzw_encode width calX calY xs = Some ys /\ Forall (fun y => (y < calY)%N) ys /\
    lzw_decode width calX calY ys = Some xs.
Proof. intros calX calY width xs HX HY HW. exact (lzw_round_trip width calY HY HW calX HX xs). Qed.
(* the KwKwK case: the decoder meets a pointer not yet in its dictionary *)
Example C15_example : lzw_encode (ceil_log 2) 2 2 (repeat 0%N 15) = Some [0; 1; 0; 1; 1; 1; 0; 0; 1; 0; 1]%N /\
  lzw_decode (ceil_log 2) 2 2 [0; 1; 0; 1; 1; 1; 0; 0; 1; 0; 1]%N = Some (repeat 0%N 15).
Proof. split; vm_compute; reflexivity. Qed.

(* which parameters LempelZiv77Code and LempelZivSSCode accept *)
Theorem C16_constructor : forall c, lz_valid c = true <->
  1 <= ss c /\ 1 <= ls c /\ (2 <= calX c)%N /\ (2 <= calY c)%N /\ length (search_buffer c) = ss c.
Proof. intros c. unfold lz_valid. rewrite !andb_true_iff, !Nat.leb_le, !N.leb_le, Nat.eqb_eq. tauto. Qed.
(* ---- C16 : symbols must fit a byte, see C16_large_alphabet_refuted *)
Theorem C16_lz77_round_trip : forall width c xs, lz_valid c = true -> wide_enough (calY c) width ->
  Forall (fun x => (x < calX c)%N) xs -> Forall (fun x => (x < 256)%N) (search_buffer c ++ xs) ->
  exists ts ys, lz77_source_to_tokens c xs = Some ts /\ lz77_encode width c xs = Some ys /\
    Forall (fun y => (y < calY c)%N) ys /\ lz77_tokens_to_source c ts = Some xs /\
    lz77_target_to_tokens width c ys = Some ts /\ lz77_decode width c ys = Some xs.
Proof. intros width c xs HV HW. exact (lz77_round_trip width c HV HW xs). Qed.
Theorem C16_large_alphabet_refuted : exists c xs, lz_valid c = true /\ Forall (fun x => (x < calX c)%N) xs /\
  forall width, lz77_encode width c xs = None.
Proof.
  exists {| ss := 2; ls := 2; calX := 300; calY := 2; search_buffer := [0; 0]%N |}, [256%N].
  split; [reflexivity|]. split; [repeat constructor|]. intros width. unfold lz77_encode.
  rewrite lz77_large_symbol; [reflexivity|]. constructor. lia.
Qed.
(* the matches found are the longest available ones *)
Theorem C16_longest_match : forall buffer s i l0 p l, s <= i -> i + l0 <= length buffer ->
  longest_match buffer s i l0 = Some (p, l) ->
  forall l' q, l < l' <= l0 -> q < s -> exists j, j < l' /\ nth (i - s + q + j) buffer 0%N <> nth (i + j) buffer 0%N.
Proof. exact longest_match_longest. Qed.
Definition c16_ex := {| ss := 9; ls := 9; calX := 3; calY := 3; search_buffer := repeat 0%N 9 |}.
Example C16_example : lz_valid c16_ex = true /\
  lz77_encode (ceil_log 3) c16_ex [0; 0; 1; 0; 1; 0; 2; 1; 0; 2; 1; 0; 2; 1; 2]%N =
    Some [2; 2; 0; 2; 1; 2; 1; 1; 0; 2; 2; 0; 2; 1; 2]%N /\
  lz77_decode (ceil_log 3) c16_ex [2; 2; 0; 2; 1; 2; 1; 1; 0; 2; 2; 0; 2; 1; 2]%N =
    Some [0; 0; 1; 0; 1; 0; 2; 1; 0; 2; 1; 0; 2; 1; 2]%N.
Proof. repeat split; vm_compute; reflexivity. Qed.

(* ---- C17 *)
Theorem C17_lzss_round_trip : forall width c xs, lz_valid c = true -> wide_enough (calY c) width ->
  Forall (fun x => (x < calX c)%N) xs -> Forall (fun x => (x < 256)%N) (search_buffer c ++ xs) ->
  exists ts ys, lzss_source_to_tokens width c xs = Some ts /\ lzss_encode width c xs = Some ys /\
    Forall (fun y => (y < calY c)%N) ys /\ lzss_tokens_to_source c ts = Some xs /\
    lzss_target_to_tokens width c ys = Some ts /\ lzss_decode width c ys = Some xs.
Proof. intros width c xs HV HW. exact (lzss_round_trip width c HV HW xs). Qed.
Theorem C17_large_alphabet_refuted : exists c xs, lz_valid c = true /\ Forall (fun x => (x < calX c)%N) xs /\
  forall width, lzss_encode width c xs = None.
Proof.
  exists {| ss := 2; ls := 2; calX := 300; calY := 2; search_buffer := [0; 0]%N |}, [256%N].
  split; [reflexivity|]. split; [repeat constructor|]. intros width. unfold lzss_encode.
  rewrite lzss_large_symbol; [reflexivity|]. constructor. lia.
Qed.
Definition c17_ex := {| ss := 8; ls := 4; calX := 4; calY := 2; search_buffer := repeat 0%N 8 |}.
Example C17_example : lz_valid c17_ex = true /\
  lzss_encode (ceil_log 2) c17_ex [3; 0; 0; 0; 3; 2; 0; 3]%N =
    Some [0; 1; 1; 1; 0; 1; 1; 1; 1; 0; 1; 0; 1; 0; 1; 0; 0; 1]%N /\
  lzss_decode (ceil_log 2) c17_ex [0; 1; 1; 1; 0; 1; 1; 1; 1; 0; 1; 0; 1; 0; 1; 0; 0; 1]%N =
    Some [3; 0; 0; 0; 3; 2; 0; 3]%N.
Proof. repeat split; vm_compute; reflexivity. Qed.

Print Assumptions C14_lz78_round_trip.
Print Assumptions C15_lzw_round_trip.
Print Assumptions C16_lz77_round_trip.
Print Assumptions C17_lzss_round_trip.
