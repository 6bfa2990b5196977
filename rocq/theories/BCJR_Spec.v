(* A-posteriori probabilities of message bits over a memoryless channel, by enumeration of all messages. *)
From Coq Require Import Reals.
From Verif Require Import Common Vec_Model FB_Model.
From Verif Require Vec_Proof.
Local Open Scope nat_scope.

(* all words of K bits *)
Fixpoint all_words (K : nat) : list vec :=
  match K with 0 => [[]] | S K' => map (cons false) (all_words K') ++ map (cons true) (all_words K') end.
(* probability (density) of the received values given that v was sent: w j b is that of the j-th received value given bit b *)
Definition likelihood (w : nat -> bool -> R) (v : vec) : R :=
  fold_right Rmult 1%R (map (fun j => w j (nth j v false)) (seq 0 (length v))).
(* total likelihood of the messages of K bits whose bit i is b, when message u is sent as the word enc u *)
Definition bit_likelihood (w : nat -> bool -> R) (enc : vec -> vec) (K i : nat) (b : bool) : R :=
  Rsum (map (fun u => likelihood w (enc u)) (filter (fun u => Bool.eqb (nth i u false) b) (all_words K))).
(* li are the log-likelihood ratios ln(w j 0 / w j 1) of the received values *)
Definition llrs (w : nat -> bool -> R) (li : list R) : Prop :=
  forall j, j < length li -> (0 < w j false)%R /\ (0 < w j true)%R /\ nth j li 0%R = ln (w j false / w j true).
