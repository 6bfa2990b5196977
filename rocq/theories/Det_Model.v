(* Model of /repo/src/komm/_algebra/ring.py: determinant, for elements of a ring given by its operations. *)
From Verif Require Import Common.
From Verif Require BinPoly_Model.
Local Open Scope nat_scope.

(* ring.py 10-28: the part of the RingElement / Ring protocols used by determinant; [rmul] is int * element *)
Record ring_ops (A : Type) := { r_zero : A; r_add : A -> A -> A; r_mul : A -> A -> A; r_rmul : Z -> A -> A }.
Arguments r_zero {A}. Arguments r_add {A}. Arguments r_mul {A}. Arguments r_rmul {A}.

(* row[:j] + row[j+1:] *)
Definition without {A} (j : nat) (row : list A) : list A := firstn j row ++ skipn (S j) row.

(* ring.py 112-124; the fuel is the number of rows. [None] is an exception: a matrix that is not square (113-114), or an
   empty one, for which matrix[0] fails in line 117. *)
Fixpoint det_loop {A} (R : ring_ops A) (fuel : nat) (matrix : list (list A)) : option A :=
  match fuel with
  | 0 => None
  | S fuel =>
      let n := length matrix in
      if negb (forallb (fun row => length row =? n) matrix) then None
      else match matrix with
           | [] => None
           | [row] => nth_error row 0
           | row0 :: rest =>
               fold_left (fun acc j =>
                 match acc, nth_error row0 j, det_loop R fuel (map (without j) rest) with
                 | Some det, Some cofactor, Some minor =>
                     let sign := if j mod 2 =? 1 then (-1)%Z else 1%Z in
                     Some (r_add R det (r_mul R (r_rmul R sign cofactor) minor))
                 | _, _, _ => None
                 end) (seq 0 n) (Some (r_zero R))
           end
  end.
Definition determinant {A} (R : ring_ops A) (matrix : list (list A)) : option A := det_loop R (length matrix) matrix.

(* Integers.py: Integer arithmetic; BinaryPolynomial.py 108-134 is [poly_ring] below *)
Definition int_ring : ring_ops Z := {| r_zero := 0%Z; r_add := Z.add; r_mul := Z.mul; r_rmul := Z.mul |}.
(* BinaryPolynomial.py 108-134: addition is xor, multiplication carry-less; int * p is p or 0 by the parity of the int *)
Definition poly_ring : ring_ops N :=
  {| r_zero := 0%N; r_add := BinPoly_Model.padd; r_mul := BinPoly_Model.pmul; r_rmul := fun z p => if Z.even z then 0%N else p |}.
