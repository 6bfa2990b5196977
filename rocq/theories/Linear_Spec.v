(* Specification vocabulary for linear algebra and codes over GF(2), independent of the algorithms. *)
From Verif Require Import Common Vec_Model.

(* The row space of M: all sums of rows of M (M has n columns). *)
Inductive row_space (n : nat) (M : mat) : vec -> Prop :=
| rs_zero : row_space n M (zeros n)
| rs_add r v : In r M -> row_space n M v -> row_space n M (vxor r v).

(* No non-trivial selection of rows sums to zero. *)
Definition independent (n : nat) (M : mat) : Prop :=
  forall c, length c = length M -> vecmat n c M = zeros n -> c = zeros (length M).

(* column j holds the first 1 of the row *)
Definition leading (row : vec) (j : nat) : Prop :=
  nth j row false = true /\ forall i, i < j -> nth i row false = false.

Definition zero_row (row : vec) : Prop := forall j, nth j row false = false.

(* Reduced row echelon form: zero rows last, leading columns strictly increase with the row,
   and a leading column is zero in every other row. *)
Definition is_rref (M : mat) : Prop :=
  (forall i i', i < i' -> i' < length M -> zero_row (nth i M []) -> zero_row (nth i' M [])) /\
  (forall i i' j j', i < i' -> i' < length M ->
     leading (nth i M []) j -> leading (nth i' M []) j' -> j < j') /\
  (forall i i' j, i < length M -> i' < length M -> i <> i' ->
     leading (nth i M []) j -> nth j (nth i' M []) false = false).

(* The set S of vectors has exactly [card] members. *)
Definition has_card {A} (S : A -> Prop) (card : nat) : Prop :=
  exists l, NoDup l /\ length l = card /\ forall x, In x l <-> S x.

Definition invertible (k : nat) (P : mat) : Prop :=
  wf k P /\ length P = k /\
  exists Q, wf k Q /\ length Q = k /\ matmul k Q P = eye k /\ matmul k P Q = eye k.

(* v is orthogonal to every row of M *)
Definition orthogonal_to (M : mat) (v : vec) : Prop := forall r, In r M -> dot r v = false.

(* Hamming weight and distance *)
Definition weight (v : vec) : nat := length (filter (fun b => b) v).
Definition hdist (u v : vec) : nat := weight (vxor u v).
