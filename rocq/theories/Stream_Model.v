(** Model of /repo/src/komm/_error_control_convolutional/ViterbiStreamDecoder.py.
    [viterbi_streaming] and [streaming_memory] (the matrices created in lines 31-37) are in FSM_Model.v. *)
From Coq Require Import QArith.
From Verif Require Import Common Vec_Model BlockCode_Model FSM_Model FSM_Spec Conv_Model.
Local Open Scope nat_scope.

(** ViterbiStreamDecoder.py:25-37: the object is the code, the metric chosen by [input_type] and the memory, which [decode]
    replaces.  traceback_length = 0 makes line 271 of MealyMachine.py raise and is outside the model. *)
Record stream_decoder (A : Type) := { sd_code : conv; sd_metric : nat -> list A -> xQ; sd_memory : metric_memory xQ }.
Arguments sd_code {A}. Arguments sd_metric {A}. Arguments sd_memory {A}.
(** lines 44-48: metric_function with input_type = "hard" and "soft"; the same formulas as in ViterbiDecoder.py *)
Definition stream_decoder_hard (c : conv) (tau state : nat) : stream_decoder bool :=
  {| sd_code := c; sd_metric := metric_hard (cv_n c); sd_memory := streaming_memory xQ (conv_fsm c) tau state (Some 0%Q) |}.
Definition stream_decoder_soft (c : conv) (tau state : nat) : stream_decoder Q :=
  {| sd_code := c; sd_metric := metric_soft (cv_n c); sd_memory := streaming_memory xQ (conv_fsm c) tau state (Some 0%Q) |}.
(** _util/bit_operations.py:88, (x >> i) % 2 for a Python integer x, also negative (-1 marks a missing edge) *)
Definition zbits (w : nat) (x : Z) : vec := map (fun i => Z.odd (Z.shiftr x (Z.of_nat i))) (seq 0 w).
(** lines 71-80: decode; None = ValueError from input.reshape(-1, n).  The second component is the object afterwards. *)
Definition stream_decode {A} (D : stream_decoder A) (input : list A) : option (vec * stream_decoder A) :=
  let n := cv_n (sd_code D) in
  if length input mod n =? 0 then
    let '(input_hat, memory) := viterbi_streaming xQ (conv_fsm (sd_code D)) (sd_metric D) (sd_memory D) (reshape n input) in
    Some (concat (map (zbits (cv_k (sd_code D))) input_hat), {| sd_code := sd_code D; sd_metric := sd_metric D; sd_memory := memory |})
  else None.
(** a program that calls decode on the given pieces of the stream, one after another, and joins the answers *)
Fixpoint stream_calls {A} (D : stream_decoder A) (pieces : list (list A)) : option (vec * stream_decoder A) :=
  match pieces with
  | [] => Some ([], D)
  | p :: ps =>
      match stream_decode D p with
      | None => None
      | Some (out, D') => option_map (fun '(out', D'') => (out ++ out', D'')) (stream_calls D' ps)
      end
  end.
