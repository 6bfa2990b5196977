(* Model of the discrete channels' transition matrices and transmit methods and
   of DiscreteMemorylessSource.emit.
   Source: /repo/src/komm/_channels/*.py, /repo/src/komm/_sources/DiscreteMemorylessSource.py,
   /repo/src/komm/_util/validators.py.
   F is any ordered field (exact arithmetic); [draws] are the values returned by
   rng.random, one per symbol, each in [0, 1).  numpy arrays of any shape are
   modelled by the sequence of their elements. *)
Set Warnings "-notation-overridden,-ambiguous-paths".
From mathcomp Require Import all_ssreflect all_algebra.
From Verif Require Import Markov_Model.
Set Implicit Arguments.
Unset Strict Implicit.
Unset Printing Implicit Defensive.
Import Order.TTheory GRing.Theory Num.Theory.
Local Open Scope ring_scope.

Section Channels.
Variable F : realFieldType.

(* validators.py 18-21 *)
Definition valid_probability (p : F) : bool := (0 <= p) && (p <= 1).

(* BinarySymmetricChannel.py 62-63, 116-117 *)
Definition bsc_matrix (p : F) : seq (seq F) := [:: [:: 1 - p; p]; [:: p; 1 - p]].
Definition bsc_transmit (p : F) (input : seq nat) (draws : seq F) : seq nat :=
  [seq ((xu.1 + (xu.2 < p)%R) %% 2)%N | xu <- zip input draws].

(* BinaryErasureChannel.py 62-63, 115-118 *)
Definition bec_matrix (eps : F) : seq (seq F) := [:: [:: 1 - eps; 0; eps]; [:: 0; 1 - eps; eps]].
Definition bec_transmit (eps : F) (input : seq nat) (draws : seq F) : seq nat :=
  [seq if xu.2 < eps then 2%N else xu.1 | xu <- zip input draws].

(* ZChannel.py 62-63, 119-120 *)
Definition z_matrix (p : F) : seq (seq F) := [:: [:: 1; 0]; [:: p; 1 - p]].
Definition z_transmit (p : F) (input : seq nat) (draws : seq F) : seq nat :=
  [seq (xu.1 * (p <= xu.2)%R)%N | xu <- zip input draws].

(* DiscreteMemorylessChannel.py 26 / validators.py 44-55; tol: np.allclose *)
Definition dmc_accepts (tol : F) (W : seq (seq F)) : bool :=
  [&& all (fun row => size row == size (head [::] W)) W,
      all (fun row => all (fun x => 0 <= x) row) W &
      all (fun row => `| \sum_(x <- row) x - 1 | <= tol) W].

(* DiscreteMemorylessChannel.py 110-114 (choice: Markov_Model.choice) *)
Definition dmc_transmit (W : seq (seq F)) (input : seq nat) (draws : seq F) : seq nat :=
  [seq choice (nth [::] W xu.1) xu.2 | xu <- zip input draws].

(* DiscreteMemorylessSource.py 29-33, 123 *)
Definition source_accepts (tol : F) (pmf : seq F) : bool :=
  all (fun x => 0 <= x) pmf && (`| \sum_(x <- pmf) x - 1 | <= tol).
Definition source_uniform (m : nat) : seq F := nseq m (1 / m%:R).
Definition source_emit (pmf : seq F) (draws : seq F) : seq nat := [seq choice pmf u | u <- draws].

End Channels.
