(** The Viterbi algorithm with the numbers the code really uses: IEEE binary64 path metrics.
    /repo/src/komm/_finite_state_machine/MealyMachine.py 190-283 (the arrays of metrics are float64; the metric of a
    transition is added to the metric of a state, candidates are compared with <),
    _error_control_decoders/ViterbiDecoder.py 46-88, _error_control_convolutional/ViterbiStreamDecoder.py 30-75,
    TerminatedConvolutionalCode.py 219-224, 269-274.
    The algorithms are those of FSM_Model, on the metric type [xF] below.
    Simplifications: no NaN; a sum below -2^1024 stays a number instead of becoming -inf (there are none in the
    theorems, whose metrics are bounded). *)
From Coq Require Import Reals.
From Flocq Require Import Core.
From Verif Require Import Common Vec_Model LinAlg_Model BlockCode_Model FSM_Model Conv_Model Stream_Model Float_Model.
Local Open Scope nat_scope.

(** a float64 that is a number, or +inf; + rounds to nearest even and overflows to +inf *)
Definition xF : metric_ops :=
  {| mt := option R;
     mlt := fun a b => match a, b with
                       | Some x, Some y => if Rlt_dec x y then true else false
                       | Some _, None => true
                       | None, _ => false
                       end;
     madd := fun a b => match a, b with
                        | Some x, Some y => let z := binary64 (x + y) in if Rlt_dec z (bpow radix2 1024) then Some z else None
                        | _, _ => None
                        end;
     minf := None |}.

(** ViterbiDecoder.py 51-52: float(np.count_nonzero(...)) *)
Definition float_metric_hard (n : nat) (y : nat) (z : vec) : xF :=
  Some (IZR (Z.of_nat (length (filter (fun b => b) (vxor (nbits n y) z))))).

(** ViterbiDecoder.py 80-88 with the post-processing of TerminatedConvolutionalCode.py; compare viterbi_decode_metric *)
Definition float_viterbi_decode {A} (c : conv) (metric : nat -> A -> xF) (m : term_mode) (zs : list A) : option vec :=
  let M := conv_fsm c in
  let init := upd 0 (Some 0%R : xF) (repeat (None : xF) (num_states M)) in
  let '(xs_hat, final) := viterbi xF M metric zs init in
  let bits (xs : list BinNums.Z) := concat (map (fun x => nbits (cv_k c) (Z.to_nat x)) xs) in
  match m with
  | DirectTruncation => Some (bits (nth (argmin_by (mle xF) final) xs_hat []))
  | ZeroTermination =>
      let x := nth 0 xs_hat [] in
      Some (bits (if cv_mem c =? 0 then [] else firstn (length x - cv_mem c) x))
  | TailBiting => None
  end.
Definition float_viterbi_decode_hard (c : conv) (m : term_mode) (r : vec) : option vec :=
  float_viterbi_decode c (float_metric_hard (cv_n c)) m (reshape (cv_n c) r).

(** ViterbiStreamDecoder.py 30-75: the stream decoder and a sequence of calls; compare stream_decode, stream_calls *)
Record float_stream := { fs_code : conv; fs_memory : metric_memory xF }.
Definition float_stream_hard (c : conv) (tau state : nat) : float_stream :=
  {| fs_code := c; fs_memory := streaming_memory xF (conv_fsm c) tau state (Some 0%R) |}.
Definition float_stream_decode (D : float_stream) (input : vec) : option (vec * float_stream) :=
  let c := fs_code D in
  if length input mod cv_n c =? 0 then
    let '(input_hat, memory) := viterbi_streaming xF (conv_fsm c) (float_metric_hard (cv_n c)) (fs_memory D) (reshape (cv_n c) input) in
    Some (concat (map (zbits (cv_k c)) input_hat), {| fs_code := c; fs_memory := memory |})
  else None.
Fixpoint float_stream_calls (D : float_stream) (pieces : list vec) : option (vec * float_stream) :=
  match pieces with
  | [] => Some ([], D)
  | p :: ps =>
      match float_stream_decode D p with
      | None => None
      | Some (out, D') => option_map (fun '(out', D'') => (out ++ out', D'')) (float_stream_calls D' ps)
      end
  end.

(** ViterbiDecoder.py 54-55: np.dot(bits, z) with the products added from left to right (np.dot may use another order:
    the theorems hold for every metric within a given distance of the exact sum) *)
Definition float_dot (n : nat) (y : nat) (z : list R) : R :=
  fold_left (fun a x => binary64 (a + x)) (map (fun '(b, x) => if b : bool then x else 0%R) (combine (nbits n y) z)) 0%R.
