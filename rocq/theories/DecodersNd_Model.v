(** Model of the decoders on arrays with any number of axes: the bodies of the decode methods are the functions
    on one block of the files cited below, wrapped by @blockwise(length) and @vectorize (_util/decorators.py
    16-48).  A block on which the body raises is None, and np.apply_along_axis then raises. *)
From Coq Require Import QArith Reals.
From Verif Require Import Common Vec_Model BlockCode_Model ReedMuller_Model Polar_Model SC_Model Wagner_Model BCH_Model FSM_Model Conv_Model BCJR_Model Array_Model NdMaps_Model.
Local Open Scope nat_scope.

(** @blockwise(b) @vectorize def decode(r): ... *)
Definition lifted {A B} (dA : A) (dB : B) (b : nat) (f : list A -> option (list B)) : array A -> option (array B) :=
  blockwise b (vectorize dA dB f).

(** ReedDecoder.decode (ReedDecoder.py 47-74) *)
Definition reed_hard_nd (rho mu : nat) : array bool -> option (array bool) := lifted false false (2 ^ mu) (fun r => Some (reed_decode_hard rho mu r)).
Definition reed_soft_nd (rho mu : nat) : array Q -> option (array bool) := lifted 0%Q false (2 ^ mu) (fun r => Some (reed_decode_soft rho mu r)).
(** WagnerDecoder.decode (WagnerDecoder.py 35-46) *)
Definition wagner_nd (C : block_code) : array Q -> option (array bool) := lifted 0%Q false (bc_n C) (fun r => Some (wagner_decode C r)).
(** BerlekampDecoder.decode (BerlekampDecoder.py 39-55) *)
Definition berlekamp_nd (B : bch) : array bool -> option (array bool) := lifted false false (bc_n (bch_code B)) (berlekamp_decode B).
(** SCDecoder.decode (SCDecoder.py 55-97): the while loop is given 4 * 2^mu steps, which is enough (C42_sc_terminates);
    lines 93-97: the hard decisions are taken on the whole output array. *)
Definition sc_soft_nd (mu : nat) (frozen : list nat) : array R -> option (array R) := lifted 0%R 0%R (2 ^ mu) (sc_decode_soft mu frozen (4 * 2 ^ mu)).
Definition sc_hard_nd (mu : nat) (frozen : list nat) (li : array R) : option (array bool) := option_map (elementwise SC_Model.neg) (sc_soft_nd mu frozen li).
(** TerminatedConvolutionalCode.encode (TerminatedConvolutionalCode.py 126-136) *)
Definition terminated_encode_nd (c : conv) (h : nat) (m : term_mode) : array bool -> option (array bool) :=
  lifted false false (h * cv_k c) (fun u => option_map fst (terminated_run c h m u)).
(** ViterbiDecoder.decode (ViterbiDecoder.py 74-90) *)
Definition viterbi_hard_nd (c : conv) (h : nat) (m : term_mode) : array bool -> option (array bool) :=
  lifted false false (terminated_length c h m) (viterbi_decode_hard c m).
Definition viterbi_soft_nd (c : conv) (h : nat) (m : term_mode) : array Q -> option (array bool) :=
  lifted 0%Q false (terminated_length c h m) (viterbi_decode_soft c m).
(** BCJRDecoder.decode (BCJRDecoder.py 72-92); hard decisions on the whole output array (lines 88-90) *)
Definition bcjr_soft_nd (c : conv) (h : nat) (m : term_mode) : array R -> option (array lval) :=
  lifted 0%R NaN (terminated_length c h m) (bcjr_soft c m).
Definition bcjr_hard_nd (c : conv) (h : nat) (m : term_mode) (li : array R) : option (array bool) :=
  option_map (elementwise lneg) (bcjr_soft_nd c h m li).
