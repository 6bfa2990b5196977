(* Model of /repo/src/komm/_labelings. A label is a list of bits ([bool] for 0/1); index and bit sequences are
   one-dimensional arrays (the code applies the same operation along the last axis of larger arrays).
   [None] is a raised exception. *)
From Verif Require Import Common Bits_Model.
Local Open Scope nat_scope.

Definition label_eqb (a b : list bool) : bool := if list_eq_dec Bool.bool_dec a b then true else false.

(* Labeling.py 22-23: entries must be 0 or 1 *)
Definition entry (z : Z) : option bool := if Z.eqb z 0 then Some false else if Z.eqb z 1 then Some true else None.
Fixpoint all_some {A} (l : list (option A)) : option (list A) :=
  match l with
  | [] => Some []
  | None :: _ => None
  | Some a :: l => match all_some l with None => None | Some r => Some (a :: r) end
  end.
(* len(set(rows)) == M *)
Fixpoint distinct (rows : list (list bool)) : bool :=
  match rows with [] => true | r :: rs => negb (existsb (label_eqb r) rs) && distinct rs end.
(* Labeling.py 15-26 __init__; a ragged list, or one without rows, is not a 2D-array (17-18) *)
Definition Labeling_matrix (matrix : list (list Z)) : option (list (list bool)) :=
  match matrix with
  | [] => None
  | r0 :: _ =>
      let m := length r0 in
      if negb (forallb (fun r => length r =? m) matrix) then None
      else if negb (length matrix =? 2 ^ m) then None
      else match all_some (map (fun r => all_some (map entry r)) matrix) with
           | None => None
           | Some rows => if distinct rows then Some rows else None
           end
  end.

(* itertools.product over the rows of the matrices, each combination concatenated: ProductLabeling.py 126-131;
   ReflectedRectangularLabeling.py 60-62 uses it for two labelings *)
Fixpoint product_rows (ms : list (list (list bool))) : list (list bool) :=
  match ms with
  | [] => [[]]
  | m :: ms => flat_map (fun r => map (fun s => r ++ s) (product_rows ms)) m
  end.
(* NaturalLabeling.py 38-40, ReflectedLabeling.py 37-39 *)
Definition natural_matrix (m : nat) : list (list bool) :=
  map (fun i => int_to_bits (N.of_nat i) m MSB_first) (seq 0 (2 ^ m)).
Definition gray (i : N) : N := N.lxor i (N.shiftr i 1).
Definition reflected_matrix (m : nat) : list (list bool) :=
  map (fun i => int_to_bits (gray (N.of_nat i)) m MSB_first) (seq 0 (2 ^ m)).

(* the labeling objects *)
Inductive labeling :=
| Labeling (rows : list (list bool))                  (* Labeling.py: the validated matrix *)
| NaturalLabeling (m : nat)
| ReflectedLabeling (m : nat)
| ProductLabeling (labelings : list labeling)         (* ProductLabeling.py 67: labelings * repeat *)
| ReflectedRectangularLabeling (mi mq : nat).

Fixpoint matrix (l : labeling) : list (list bool) :=
  match l with
  | Labeling rows => rows
  | NaturalLabeling m => natural_matrix m
  | ReflectedLabeling m => reflected_matrix m
  | ProductLabeling ls => product_rows (map matrix ls)
  | ReflectedRectangularLabeling mi mq => product_rows [reflected_matrix mi; reflected_matrix mq]
  end.
(* base.py 27 (matrix.shape[1]), NaturalLabeling.py 50, ReflectedLabeling.py 49, ProductLabeling.py 144, ReflectedRectangularLabeling.py 72-73 *)
Fixpoint num_bits (l : labeling) : nat :=
  match l with
  | Labeling rows => length (nth 0 rows [])
  | NaturalLabeling m => m
  | ReflectedLabeling m => m
  | ProductLabeling ls => fold_right Nat.add 0 (map num_bits ls)
  | ReflectedRectangularLabeling mi mq => mi + mq
  end.
(* base.py 35, NaturalLabeling.py 60-61, ReflectedLabeling.py 59-60, ProductLabeling.py 157, ReflectedRectangularLabeling.py 83-84 *)
Fixpoint cardinality (l : labeling) : nat :=
  match l with
  | Labeling rows => length rows
  | NaturalLabeling m => 2 ^ m
  | ReflectedLabeling m => 2 ^ m
  | ProductLabeling ls => fold_right Nat.mul 1 (map cardinality ls)
  | ReflectedRectangularLabeling mi mq => 2 ^ (mi + mq)
  end.

(* the constructors: Labeling.py 15-26, NaturalLabeling.py 16-21, ReflectedLabeling.py 15-20, ProductLabeling.py 62-67,
   ReflectedRectangularLabeling.py 16-31 (27-28 for a pair; a single even n stands for (n/2, n/2)) *)
Definition mk_Labeling (m : list (list Z)) : option labeling := option_map Labeling (Labeling_matrix m).
Definition mk_Natural (m : nat) : option labeling := if m <? 1 then None else Some (NaturalLabeling m).
Definition mk_Reflected (m : nat) : option labeling := if m <? 1 then None else Some (ReflectedLabeling m).
Definition mk_Product (ls : list labeling) (repeat_ : nat) : option labeling :=
  if length ls <? 1 then None else if repeat_ <? 1 then None else Some (ProductLabeling (concat (repeat ls repeat_))).
Definition mk_Rect (mi mq : nat) : option labeling :=
  if (1 <=? mi) && (1 <=? mq) then Some (ReflectedRectangularLabeling mi mq) else None.
Definition mk_Rect1 (n : nat) : option labeling :=
  if (0 <? n) && (n mod 2 =? 0) then mk_Rect (n / 2) (n / 2) else None.

(* bits.reshape(-1, m) *)
Fixpoint chunks {A} (fuel m : nat) (l : list A) : list (list A) :=
  match fuel with 0 => [] | S f => firstn m l :: chunks f m (skipn m l) end.

(* base.py 43 inverse_mapping and its lookup: a dict keeps the last index of equal rows; a missing key is a KeyError *)
Definition inverse_mapping (rows : list (list bool)) : list (list bool * nat) := combine rows (seq 0 (length rows)).
Definition dict_get (d : list (list bool * nat)) (k : list bool) : option nat :=
  fold_left (fun acc kv => if label_eqb (fst kv) k then Some (snd kv) else acc) d None.
(* base.py 56-61 *)
Definition base_indices_to_bits (l : labeling) (indices : list Z) : option (list bool) :=
  if negb (forallb (fun i => (0 <=? i)%Z && (i <? Z.of_nat (cardinality l))%Z) indices) then None
  else Some (concat (map (fun i => nth (Z.to_nat i) (matrix l) []) indices)).
(* numpy.apply_along_axis raises a ValueError when there is nothing to iterate over; it is called on the reshaped bits
   at base.py 83-87 and, through bits_to_int (bit_operations.py 45), at NaturalLabeling.py 101, ReflectedLabeling.py 100 *)
Definition along_axis (fuel m : nat) (bits : list bool) : option (list (list bool)) :=
  if fuel =? 0 then None else Some (chunks fuel m bits).
(* base.py 74-88: a zero m makes the remainder in line 76 fail *)
Definition base_bits_to_indices (l : labeling) (bits : list bool) : option (list nat) :=
  let m := num_bits l in
  if m =? 0 then None
  else if negb (length bits mod m =? 0) then None
  else match along_axis (length bits / m) m bits with
       | None => None
       | Some rows => all_some (map (dict_get (inverse_mapping (matrix l))) rows)
       end.
(* NaturalLabeling.py 84-87, 99-103 (reshape(-1, m) raises if m does not divide the size). Two's complement makes
   (i >> j) % 2 the j-th bit of a negative index; [Z.testbit] is that. *)
Definition z_to_bits (i : Z) (m : nat) : list bool := map (fun j => Z.testbit i (Z.of_nat (m - 1 - j))) (seq 0 m).
Definition natural_indices_to_bits (m : nat) (indices : list Z) : option (list bool) :=
  Some (concat (map (fun i => z_to_bits i m) indices)).
Definition natural_bits_to_indices (m : nat) (bits : list bool) : option (list nat) :=
  if negb (length bits mod m =? 0) then None
  else option_map (map (fun b => N.to_nat (bits_to_int b MSB_first))) (along_axis (length bits / m) m bits).
(* ReflectedLabeling.py 83-86 (indices ^ indices >> 1 is i ^ (i >> 1)), 98-104 *)
Definition reflected_indices_to_bits (m : nat) (indices : list Z) : option (list bool) :=
  Some (concat (map (fun i => z_to_bits (Z.lxor i (Z.shiftr i 1)) m) indices)).
Definition ungray (m : nat) (n : N) : N := fold_left (fun acc s => N.lxor acc (N.shiftr n (N.of_nat s))) (seq 0 m) 0%N.
Definition reflected_bits_to_indices (m : nat) (bits : list bool) : option (list nat) :=
  if negb (length bits mod m =? 0) then None
  else option_map (map (fun b => N.to_nat (ungray m (bits_to_int b MSB_first)))) (along_axis (length bits / m) m bits).

(* the methods of the five classes *)
Definition indices_to_bits (l : labeling) (indices : list Z) : option (list bool) :=
  match l with
  | NaturalLabeling m => natural_indices_to_bits m indices
  | ReflectedLabeling m => reflected_indices_to_bits m indices
  | _ => base_indices_to_bits l indices
  end.
Definition bits_to_indices (l : labeling) (bits : list bool) : option (list nat) :=
  match l with
  | NaturalLabeling m => natural_bits_to_indices m bits
  | ReflectedLabeling m => reflected_bits_to_indices m bits
  | _ => base_bits_to_indices l bits
  end.
