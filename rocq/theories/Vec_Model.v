(* Binary vectors and matrices as lists, and the numpy operations the code applies to them.
   A numpy integer array reduced modulo 2 is a [list bool]; a 2-d array is a list of rows.
   Simplification: a 2-d array with no rows does not remember its number of columns, so the
   operations that need it take the number of columns [n] explicitly. *)
From Verif Require Import Common.

Notation vec := (list bool) (only parsing).
Notation mat := (list (list bool)) (only parsing).

(* np.zeros(n, dtype=int) *)
Definition zeros (n : nat) : vec := repeat false n.

(* (u + v) % 2 for arrays of equal length, e.g. matrices.py:53 *)
Fixpoint vxor (u v : vec) : vec :=
  match u, v with
  | x :: u', y :: v' => xorb x y :: vxor u' v'
  | _, _ => []
  end.

(* np.dot(u, v) % 2 *)
Fixpoint dot (u v : vec) : bool :=
  match u, v with
  | x :: u', y :: v' => xorb (x && y) (dot u' v')
  | _, _ => false
  end.

(* (u @ M) % 2 for a matrix with n columns, e.g. _error_control_block/base.py:79-84.
   Written as the sum of the rows selected by u. *)
Fixpoint vecmat (n : nat) (u : vec) (M : mat) : vec :=
  match u, M with
  | x :: u', r :: M' => if x then vxor r (vecmat n u' M') else vecmat n u' M'
  | _, _ => zeros n
  end.

(* np.dot(A, B) % 2 where B has n columns *)
Definition matmul (n : nat) (A B : mat) : mat := map (fun r => vecmat n r B) A.

(* (M @ v) % 2, equivalently (v @ M.T) % 2, e.g. base.py:126-131 *)
Definition matvec (M : mat) (v : vec) : vec := map (fun r => dot r v) M.

(* row i of np.eye(n) *)
Definition unit_vec (n i : nat) : vec := map (fun j => Nat.eqb j i) (seq 0 n).

(* np.eye(n, dtype=int) *)
Definition eye (n : nat) : mat := map (unit_vec n) (seq 0 n).

(* M[:, j] *)
Definition column (j : nat) (M : mat) : vec := map (fun r => nth j r false) M.

(* M.T where M has n columns *)
Definition transpose (n : nat) (M : mat) : mat := map (fun j => column j M) (seq 0 n).

(* shape of M is (_, n) *)
Definition wf (n : nat) (M : mat) : Prop := Forall (fun r => length r = n) M.
