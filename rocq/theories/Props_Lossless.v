(* Property theorems C01-C09 (statements only; proofs are in the *_Proof files). *)
From Verif Require Import Common Bits_Model Bits_Proof IntegerCodes_Model IntegerCodes_Proof
  Prefix_Model Prefix_Proof Cover_Proof Canonical_Proof Parse_Proof Spec_Lossless Kraft_Proof McMillan_Proof.
From Coq Require Import QArith.
Local Open Scope nat_scope.

(* ---- C01 *)
Theorem C01_int_bits_int : forall (n : N) (w : nat) (o : bit_order),
  (n < 2 ^ N.of_nat w)%N -> bits_to_int (int_to_bits n w o) o = n.
Proof. exact bits_int_round_trip. Qed.
Theorem C01_bits_int_bits : forall (bs : list bool) (o : bit_order),
  int_to_bits (bits_to_int bs o) (length bs) o = bs.
Proof. exact int_bits_round_trip. Qed.
Theorem C01_orders_are_reversals : forall (n : N) (w : nat),
  int_to_bits n w MSB_first = rev (int_to_bits n w LSB_first).
Proof. exact int_to_bits_msb. Qed.
(* the LSB-first integer really has the given bits *)
Theorem C01_bit_values : forall (bs : list bool) (i : nat),
  N.testbit (bits_to_int bs LSB_first) (N.of_nat i) = nth i bs false.
Proof. exact bits_to_int_testbit. Qed.
Example C01_example : int_to_bits 6 4 MSB_first = [false; true; true; false] /\
  bits_to_int [false; true; true; false] MSB_first = 6%N /\ (6 < 2 ^ N.of_nat 4)%N.
Proof. repeat split; vm_compute; reflexivity. Qed.

(* ---- C02 *)
Theorem C02_unary_round_trip : forall xs, unary_code_decode (unary_code_encode xs) = Some xs.
Proof. exact unary_round_trip. Qed.
Theorem C02_unary_inverse : forall bits xs, unary_code_decode bits = Some xs -> unary_code_encode xs = bits.
Proof. exact unary_inverse. Qed.
(* accepted exactly when the string is empty or ends with the terminating 0 *)
Theorem C02_unary_accepts_iff : forall bits,
  (exists xs, unary_code_decode bits = Some xs) <-> (bits = [] \/ last bits true = false).
Proof. exact unary_accepts_iff. Qed.
Example C02_example : unary_code_encode [4; 0; 1] = [true; true; true; true; false; false; true; false]
  /\ unary_code_decode [true; false; true] = None.
Proof. split; reflexivity. Qed.

(* ---- C03 *)
Theorem C03_fibonacci_round_trip : forall xs, Forall (fun n => (1 <= n)%N) xs ->
  exists bits, fib_code_encode xs = Some bits /\ fib_code_decode bits = Some xs.
Proof. exact fib_round_trip. Qed.
Theorem C03_fibonacci_inverse : forall bits xs, fib_code_decode bits = Some xs -> fib_code_encode xs = Some bits.
Proof. exact fib_inverse. Qed.
(* each codeword is a word without two consecutive ones, ending in 1, followed by one more 1;
   its value is the sum of the Fibonacci numbers at the ones (Zeckendorf representation) *)
Theorem C03_codeword_shape : forall n, (1 <= n)%N -> exists w,
  fibonacci_encode n = Some ((w ++ [true]) ++ [true]) /\
  (forall a b, w ++ [true] <> a ++ [true; true] ++ b) /\ fib_sum 0 (w ++ [true]) = n.
Proof.
  intros n Hn. destruct (fibonacci_encode_shape n Hn) as [w [H1 [H2 H3]]]. exists w. repeat split; auto.
  intros a b E. rewrite E in H1. clear -H1. induction a as [|x a IH]; [discriminate|].
  apply IH. destruct a as [|y a]; cbn [app] in *; cbn [no11] in H1;
  apply andb_prop in H1 as [_ H1]; exact H1.
Qed.
Example C03_example : fib_code_encode [4; 1; 3]%N = Some [true; false; true; true; true; true; false; false; true; true]
  /\ Forall (fun n => (1 <= n)%N) [4; 1; 3]%N.
Proof. split; [vm_compute; reflexivity|repeat constructor; lia]. Qed.

(* ---- C04 *)
Theorem C04_is_prefix_free : forall ws, Forall (fun w => w <> []) ws ->
  is_prefix_free ws = true <-> prefix_free_words ws.
Proof. exact is_prefix_free_iff. Qed.
Example C04_example : is_prefix_free [[0]; [1; 0]; [1; 1]]%N = true /\ is_prefix_free [[1; 0]; [1]]%N = false
  /\ is_prefix_free [[1; 0]; [1; 0]]%N = false.
Proof. repeat split; reflexivity. Qed.

(* ---- C05 *)
Theorem C05_sardinas_patterson : forall ws, Forall (fun w => w <> []) ws ->
  is_uniquely_parsable ws = Some true <-> uniquely_decodable ws.
Proof. exact is_uniquely_parsable_iff. Qed.
(* the loop terminates on every input *)
Theorem C05_terminates : forall ws, exists b, is_uniquely_parsable ws = Some b.
Proof. exact is_uniquely_parsable_total. Qed.
Example C05_example : is_uniquely_parsable [[0]; [0; 1]; [1; 1]]%N = Some true /\ is_prefix_free [[0]; [0; 1]; [1; 1]]%N = false
  /\ is_uniquely_parsable [[0]; [0; 1]; [1; 0]]%N = Some false.
Proof. repeat split; vm_compute; reflexivity. Qed.
(* McMillan: whatever is uniquely decodable meets Kraft's inequality, so a prefix-free code with the same lengths exists *)
Theorem C05_mcmillan : forall b ws, (2 <= b)%N -> Forall (Forall (fun x => (x < b)%N)) ws -> Forall (fun w => w <> []) ws ->
  is_uniquely_parsable ws = Some true -> (kraft_sum b (map (@length N) ws) <= 1)%Q.
Proof. intros b ws Hb Hr Hn H. apply (mcmillan b ws Hb Hr). apply is_uniquely_parsable_iff; auto. Qed.
(* With an empty codeword (which the class constructor accepts) the answer is wrong: the code below
   is reported uniquely decodable and prefix-free although decode (encode [0]) is []. *)
Theorem C05_empty_codeword_refuted : exists c,
  f2v_make 2 2 1 [([0], []); ([1], [1])]%N = Some c /\ f2v_is_uniquely_decodable c = Some true /\
  f2v_is_prefix_free c = true /\ f2v_encode c [0%N] = Some [] /\ f2v_decode c [] = Some [].
Proof. eexists. repeat split; vm_compute; reflexivity. Qed.

(* ---- C06 *)
Theorem C06_from_lengths : forall lengths src tgt k, (2 <= src)%N -> (2 <= tgt)%N -> 1 <= k ->
  N.of_nat (length lengths) = (src ^ N.of_nat k)%N -> Forall (fun l => 0 < l) lengths ->
  ((exists c, f2v_from_lengths lengths (Some src) tgt = Some c) <-> (kraft_sum tgt lengths <= 1)%Q) /\
  (forall c, f2v_from_lengths lengths (Some src) tgt = Some c ->
     map (@length N) (f2v_codewords c) = lengths /\ prefix_free_words (f2v_codewords c) /\
     f2v_is_prefix_free c = true /\ Forall (Forall (fun x => (x < tgt)%N)) (f2v_codewords c) /\
     map fst (f2v_map c) = tuples src k).
Proof. exact from_lengths_correct. Qed.
(* the symbol conversions used by it *)
Theorem C06_symbols_round_trip : forall s b, (2 <= b)%N -> Forall (fun x => (x < b)%N) s ->
  integer_to_symbols (symbols_to_integer s b) b (length s) = s.
Proof. exact its_s2i. Qed.
Theorem C06_integer_round_trip : forall n b w, (2 <= b)%N -> (n < b ^ N.of_nat w)%N ->
  symbols_to_integer (integer_to_symbols n b w) b = n.
Proof. intros n b w Hb Hn. rewrite s2i_its, N.mod_small; auto. Qed.
Theorem C06_infer_block_size : forall size card k, (2 <= card)%N ->
  infer_block_size size card = Some k <-> 1 <= k /\ size = (card ^ N.of_nat k)%N.
Proof. exact infer_block_size_iff. Qed.
Example C06_example :
  option_map f2v_codewords (f2v_from_lengths [2; 1; 3; 3] (Some 2%N) 2) = Some [[1; 0]; [0]; [1; 1; 0]; [1; 1; 1]]%N
  /\ f2v_from_lengths [1; 1; 3; 3] (Some 2%N) 2 = None /\ N.of_nat (length [2; 1; 3; 3]) = (2 ^ N.of_nat 2)%N.
Proof. repeat split; vm_compute; reflexivity. Qed.

(* ---- C07 *)
Theorem C07_f2v_round_trip : forall src tgt k m c input,
  f2v_make src tgt k m = Some c -> NoDup (map fst m) ->
  Forall (fun w => w <> []) (map snd m) -> f2v_is_prefix_free c = true ->
  length input mod k = 0 -> Forall (fun x => (x < src)%N) input ->
  exists out, f2v_encode c input = Some out /\ f2v_decode c out = Some input.
Proof. exact f2v_round_trip. Qed.
(* conversely whatever decode accepts re-encodes to the same string *)
Theorem C07_f2v_decode_sound : forall src tgt k m c bits out,
  f2v_make src tgt k m = Some c -> NoDup (map fst m) ->
  Forall (fun w => w <> []) (map snd m) -> f2v_decode c bits = Some out -> f2v_encode c out = Some bits.
Proof. exact f2v_decode_sound. Qed.
Example C07_example : exists c, f2v_from_lengths [2; 1; 3; 3] (Some 2%N) 2 = Some c /\
  f2v_is_prefix_free c = true /\ f2v_encode c [0; 1; 1; 0; 1; 1]%N = Some [0; 1; 1; 0; 1; 1; 1]%N /\
  f2v_decode c [0; 1; 1; 0; 1; 1; 1]%N = Some [0; 1; 1; 0; 1; 1]%N.
Proof. eexists. repeat split; vm_compute; reflexivity. Qed.

(* ---- C08 *)
Theorem C08_v2f_round_trip : forall tgt src n m c input,
  v2f_make tgt src n m = Some c -> NoDup (map fst m) ->
  v2f_is_fully_covering c = Some true -> v2f_is_prefix_free c = true ->
  Forall (fun x => (x < src)%N) input ->
  exists out pad sw, v2f_encode c input = Some out /\ v2f_decode c out = Some (input ++ pad) /\
    (pad = [] \/ In sw (v2f_sourcewords c) /\ length pad < length sw) /\
    (forall us, incl us (v2f_sourcewords c) -> input = concat us -> pad = []).
Proof. exact v2f_round_trip. Qed.
Example C08_example : exists c, v2f_from_sourcewords [[0; 0]; [0; 1]; [1]]%N 2 = Some c /\
  v2f_is_fully_covering c = Some true /\ v2f_is_prefix_free c = true /\
  v2f_encode c [0; 1; 1; 0]%N = Some [0; 1; 1; 0; 0; 0]%N /\ v2f_decode c [0; 1; 1; 0; 0; 0]%N = Some [0; 1; 1; 0; 0]%N.
Proof. eexists. repeat split; vm_compute; reflexivity. Qed.

(* ---- C09 *)
Theorem C09_is_fully_covering : forall ws card, Forall (fun w => w <> []) ws ->
  is_fully_covering ws card = Some true <-> covers_every_sequence ws card.
Proof. exact is_fully_covering_iff. Qed.
Theorem C09_terminates : forall ws card, exists b, is_fully_covering ws card = Some b.
Proof. exact is_fully_covering_total. Qed.
Example C09_example : is_fully_covering [[0; 0]; [0; 1]; [1]]%N 2 = Some true /\ is_fully_covering [[0; 0]; [1]]%N 2 = Some false.
Proof. split; vm_compute; reflexivity. Qed.

Print Assumptions C01_int_bits_int. Print Assumptions C01_bits_int_bits. Print Assumptions C01_orders_are_reversals.
Print Assumptions C01_bit_values. Print Assumptions C02_unary_round_trip. Print Assumptions C02_unary_inverse.
Print Assumptions C02_unary_accepts_iff. Print Assumptions C03_fibonacci_round_trip. Print Assumptions C03_fibonacci_inverse.
Print Assumptions C03_codeword_shape. Print Assumptions C04_is_prefix_free. Print Assumptions C05_sardinas_patterson.
Print Assumptions C05_terminates. Print Assumptions C06_from_lengths. Print Assumptions C06_symbols_round_trip.
Print Assumptions C06_integer_round_trip. Print Assumptions C06_infer_block_size. Print Assumptions C07_f2v_round_trip.
Print Assumptions C07_f2v_decode_sound. Print Assumptions C08_v2f_round_trip. Print Assumptions C09_is_fully_covering.
Print Assumptions C09_terminates. Print Assumptions C05_mcmillan.
