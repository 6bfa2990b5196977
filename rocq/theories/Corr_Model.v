(* Model of /repo/src/komm/_util/sequences.py (autocorrelation, cyclic_autocorrelation), used by BinarySequence and
   ComplexSequence, and of /repo/src/komm/_sequences_complex (Zadoff-Chu). *)
From Coq Require Import Reals.
From Coquelicot Require Import Complex.
From Verif Require Import Common.
Local Open Scope nat_scope.

(* the dtype of the array: integers (BinarySequence.polar_sequence) or complex numbers *)
Record dtype := { carrier :> Type; d_zero : carrier; d_add : carrier -> carrier -> carrier; d_mul : carrier -> carrier -> carrier; d_conj : carrier -> carrier }.
Definition int_dtype : dtype := {| carrier := Z; d_zero := 0%Z; d_add := Z.add; d_mul := Z.mul; d_conj := fun z => z |}.
Definition complex_dtype : dtype := {| carrier := C; d_zero := RtoC 0; d_add := Cplus; d_mul := Cmult; d_conj := Cconj |}.

Section Corr.
Context (T : dtype).
(* numpy.dot *)
Definition npdot (a b : list T) : T := fold_right (d_add T) (d_zero T) (map (fun p => d_mul T (fst p) (snd p)) (combine a b)).
(* sequence[:k], sequence[k:] for a negative or non-negative k *)
Definition py_index (n : nat) (k : Z) : nat := if (k <? 0)%Z then Z.to_nat (Z.of_nat n + k) else Z.to_nat k.
Definition slice_to (s : list T) (k : Z) : list T := firstn (py_index (length s) k) s.
Definition slice_from (s : list T) (k : Z) : list T := skipn (py_index (length s) k) s.

(* sequences.py 37-48, one shift *)
Definition autocorrelation_at (s : list T) (l : Z) : T :=
  let seq_conj := map (d_conj T) s in
  if (l <? 0)%Z then npdot (slice_to s l) (slice_from seq_conj (- l))
  else if (0 <? l)%Z then npdot (slice_from s l) (slice_to seq_conj (- l))
  else npdot s seq_conj.
(* numpy.roll *)
Definition roll (s : list T) (l : Z) : list T := map (fun i => nth (Z.to_nat ((Z.of_nat i - l) mod Z.of_nat (length s))) s (d_zero T)) (seq 0 (length s)).
(* sequences.py 80, one shift *)
Definition cyclic_at (s : list T) (l : Z) : T := npdot s (map (d_conj T) (roll s l)).
(* sequences.py 48, 81 *)
Definition energy (s : list T) : T := npdot s (map (d_conj T) s).
(* 39, 79: the default shifts *)
Definition default_shifts (s : list T) : list Z := map Z.of_nat (seq 0 (length s)).
Definition autocorrelation (s : list T) (shifts : option (list Z)) : list T :=
  map (autocorrelation_at s) (match shifts with None => default_shifts s | Some l => l end).
Definition cyclic_autocorrelation (s : list T) (shifts : option (list Z)) : list T :=
  map (cyclic_at s) (match shifts with None => default_shifts s | Some l => l end).
End Corr.
(* 49, 82 with normalized=True, for complex sequences *)
Definition autocorrelation_normalized (s : list C) (shifts : option (list Z)) : list C :=
  map (fun z => Cdiv z (energy complex_dtype s)) (autocorrelation complex_dtype s shifts).
Definition cyclic_autocorrelation_normalized (s : list C) (shifts : option (list Z)) : list C :=
  map (fun z => Cdiv z (energy complex_dtype s)) (cyclic_autocorrelation complex_dtype s shifts).

(* exp(j x) *)
Definition cexp (x : R) : C := (cos x, sin x).
(* sequences.py 5-9 of _sequences_complex and ZadoffChuSequence.py 47-52; real numbers instead of floating point *)
Definition zadoff_chu_sequence (length root_index : Z) : list C :=
  map (fun n => cexp (- (PI * IZR root_index * IZR (Z.of_nat n) * (IZR (Z.of_nat n) + 1) / IZR length))%R) (seq 0 (Z.to_nat length)).
Definition ZadoffChu (length root_index : Z) : option (list C) :=
  if (length mod 2 =? 0)%Z then None
  else if negb ((1 <=? root_index)%Z && (root_index <? length)%Z) then None
  else Some (zadoff_chu_sequence length root_index).
