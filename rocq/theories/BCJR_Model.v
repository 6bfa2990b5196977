(* Model of Labeling.marginalize (_labelings/base.py:91-116), BCJRDecoder (_error_control_decoders/BCJRDecoder.py) and the
   bcjr_ methods of the termination strategies (TerminatedConvolutionalCode.py).
   Floating-point numbers are idealised to real numbers. *)
From Coq Require Import Reals.
From Verif Require Import Common Bits_Model Vec_Model LinAlg_Model FSM_Model FB_Model Labeling_Model Conv_Model.
Local Open Scope nat_scope.

(* a float that may be infinite or not a number *)
Inductive lval := NaN | NegInf | PosInf | Fin (x : R).
(* subtraction of two logarithms, None being -inf: (-inf) - (-inf) is NaN *)
Definition lsub (a b : option R) : lval :=
  match a, b with
  | None, None => NaN
  | None, Some _ => NegInf
  | Some _, None => PosInf
  | Some x, Some y => Fin (x - y)
  end.
(* BCJRDecoder.py:90, `output < 0.0` (False on NaN) *)
Definition lneg (l : lval) : bool :=
  match l with Fin x => if Rlt_dec x 0 then true else false | NegInf => true | _ => false end.

(* base.py:111-115, one row of M metrics: column j of m @ mask0 (mask1) is the sum of the metrics whose label has a 0 (1) at
   position j. The metrics are non-negative, so that np.log is xlog. *)
Definition masked_sum (matrix : list (list bool)) (row : list R) (j : nat) (b : bool) : R :=
  Rsum (map (fun '(label, p) => (p * (if Bool.eqb (nth j label false) b then 1 else 0))%R) (combine matrix row)).
Definition marginalize_row (matrix : list (list bool)) (m : nat) (row : list R) : list lval :=
  map (fun j => lsub (xlog (masked_sum matrix row j false)) (xlog (masked_sum matrix row j true))) (seq 0 m).
(* base.py:104-116 on a one-dimensional array; None = ValueError *)
Definition marginalize (lab : labeling) (metrics : list R) : option (list lval) :=
  if length metrics mod cardinality lab =? 0
  then Some (concat (map (marginalize_row (matrix lab) (num_bits lab)) (reshape (cardinality lab) metrics)))
  else None.

(* BCJRDecoder.py:49, 52-53: (-1)^bit summed against the L-values of the block, halved *)
Definition bcjr_metric (n : nat) (y : nat) (z : list R) : option R :=
  Some (1 / 2 * Rsum (map (fun '(b, x) => if b : bool then (- x)%R else x) (combine (nbits n y) z)))%R.
(* np.eye(1, num_states, 0), TerminatedConvolutionalCode.py:229, 279-280 *)
Definition unit_dist (num : nat) : list R := map (fun s => if s =? 0 then 1%R else 0%R) (seq 0 num).
(* np.ones(num) / num, TerminatedConvolutionalCode.py:230 and MealyMachine.py:314-315 *)
Definition uniform_dist (num : nat) : list R := repeat (/ INR num)%R num.

(* TerminatedConvolutionalCode.py:226-231, 276-281, 318-321 *)
Definition bcjr_distributions (m : term_mode) (num : nat) : option (list R * list R) :=
  match m with
  | DirectTruncation => Some (unit_dist num, uniform_dist num)
  | ZeroTermination => Some (unit_dist num, unit_dist num)
  | TailBiting => None
  end.
(* TerminatedConvolutionalCode.py:233-236, 283-287 (x[:-mu]; x[:-0] is empty), 323-326 *)
Definition bcjr_post_process {A} (m : term_mode) (mu : nat) (rows : list A) : list A :=
  match m with ZeroTermination => if mu =? 0 then [] else firstn (length rows - mu) rows | _ => rows end.

(* BCJRDecoder.py:72-86 for one block li; None = NotImplementedError (tail-biting, raised by the constructor).
   A row of posteriors that is NaN (None) gives NaN. The labeling is NaturalLabeling(k), line 50. *)
Definition bcjr_soft (c : conv) (m : term_mode) (li : list R) : option (list lval) :=
  let M := conv_fsm c in
  let k := cv_k c in
  match bcjr_distributions m (num_states M) with
  | None => None
  | Some (initial, final) =>
      let observed := reshape (cv_n c) li in
      let priors := repeat (uniform_dist (num_input_symbols M)) (length observed) in
      let rows := bcjr_post_process m (cv_mem c) (forward_backward M (bcjr_metric (cv_n c)) observed priors initial final) in
      Some (concat (map (fun row => match row with
                                    | Some p => marginalize_row (matrix (NaturalLabeling k)) k p
                                    | None => repeat NaN k
                                    end) rows))
  end.
(* BCJRDecoder.py:88-92 *)
Definition bcjr_hard (c : conv) (m : term_mode) (li : list R) : option (list bool) := option_map (map lneg) (bcjr_soft c m li).
