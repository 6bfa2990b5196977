(* Model of /repo/src/komm/_util/matrices.py lines 14-173: rref, xrref, rank, pseudo_inverse,
   null_matrix.  [n] is the number of columns (matrix.shape[1]). *)
From Verif Require Import Common Vec_Model.

(* matrices.py:14-16 _pivot: index of the first non-zero entry, or row.size *)
Fixpoint pivot (row : vec) : nat :=
  match row with
  | [] => 0
  | true :: _ => 0
  | false :: row' => S (pivot row')
  end.

(* np.argmin on a non-empty list: first index of a minimum (matrices.py:43) *)
Fixpoint argmin (l : list nat) : nat :=
  match l with
  | [] => 0
  | x :: l' => match l' with
               | [] => 0
               | _ => if x <=? nth (argmin l') l' 0 then 0 else S (argmin l')
               end
  end.

(* reduced[i] = x *)
Fixpoint upd {A} (i : nat) (x : A) (l : list A) : list A :=
  match l, i with
  | [], _ => []
  | _ :: l', 0 => x :: l'
  | y :: l', S i' => y :: upd i' x l'
  end.

(* matrices.py:51-53, one row i of the elimination loop; reduced[r] is not changed by the loop *)
Definition eliminate (r f : nat) (pr : vec) (ir : nat * vec) : vec :=
  let (i, row) := ir in
  if negb (i =? r) && nth f row false then vxor row pr else row.

(* matrices.py:41-53, body of the loop for one r *)
Definition rref_step (n : nat) (M : mat) (r : nat) : mat :=
  let p := argmin (map pivot (skipn r M)) + r in
  let M1 := upd p (nth r M []) (upd r (nth p M []) M) in
  let f := pivot (nth r M1 []) in
  if n <=? f then M1
  else map (eliminate r f (nth r M1 [])) (combine (seq 0 (length M1)) M1).

(* matrices.py:19-54 rref (the mutation of the caller's integer array is not modelled) *)
Definition rref (n : nat) (M : mat) : mat := fold_left (rref_step n) (seq 0 (length M)) M.

(* matrices.py:95-99, one column of the pivot search; "break" = nothing more is appended *)
Definition pivot_step (R : mat) (pivots : list nat) (j : nat) : list nat :=
  if length R <=? length pivots then pivots
  else if list_eq_dec Bool.bool_dec (column j R) (unit_vec (length R) (length pivots))
       then pivots ++ [j] else pivots.

(* matrices.py:57-101 xrref: (row_transform, reduced, pivots) *)
Definition xrref (n : nat) (M : mat) : mat * mat * list nat :=
  let augmented := map (fun '(r, e) => r ++ e) (combine M (eye (length M))) in
  let augmented_rref := rref (n + length M) augmented in
  let reduced := map (firstn n) augmented_rref in
  let row_transform := map (skipn n) augmented_rref in
  (row_transform, reduced, fold_left (pivot_step reduced) (seq 0 n) []).

(* matrices.py:104-119 rank *)
Definition rank (n : nat) (M : mat) : nat := let '(_, _, pivots) := xrref n M in length pivots.

(* matrices.py:122-160 pseudo_inverse; the result has n rows and length M columns *)
Definition pseudo_inverse (n : nat) (M : mat) : mat :=
  let '(row_transform, reduced, pivots) := xrref n M in
  let k := length M in
  let zero := repeat (zeros k) n in
  if length pivots =? 0 then zero
  else
    (* reduced_inverse[pivots] = np.eye(pivots.size, k) *)
    let reduced_inverse :=
      fold_left (fun R '(t, p) => upd p (unit_vec k t) R) (combine (seq 0 (length pivots)) pivots) zero in
    matmul k reduced_inverse row_transform.

(* np.setdiff1d(range(n), pivots) *)
Definition not_pivots (n : nat) (pivots : list nat) : list nat :=
  filter (fun j => negb (existsb (Nat.eqb j) pivots)) (seq 0 n).

(* position of x in l *)
Fixpoint index_of (x : nat) (l : list nat) : option nat :=
  match l with
  | [] => None
  | y :: l' => if x =? y then Some 0 else option_map S (index_of x l')
  end.

(* matrices.py:163-173 null_matrix.  null[:, not_pivots] = eye and null[:, pivots] = reduced[:, not_pivots].T
   are assignments whose shapes agree only when every row has a pivot, and indexing by the (float)
   empty array np.array([]) raises; in all other cases numpy raises, modelled by None. *)
Definition null_matrix (n : nat) (M : mat) : option mat :=
  let '(_, reduced, pivots) := xrref n M in
  let k := length M in
  if (length pivots =? k) && negb (k =? 0) then
    let np := not_pivots n pivots in
    Some (map (fun i =>
      map (fun j =>
        match index_of j pivots with
        | Some t => nth (nth i np 0) (nth t reduced []) false
        | None => match index_of j np with Some s => s =? i | None => false end
        end) (seq 0 n)) (seq 0 (n - k)))
  else None.
