(** The soft-decision decoders of block codes with the numbers the code really uses: IEEE binary64 values.
    /repo/src/komm/_error_control_decoders/ExhaustiveSearchDecoder.py 46-57, WagnerDecoder.py 36-46, ReedDecoder.py 58-74,
    SCDecoder.py 17-97, _util/special_functions.py 158-165 (boxplus).
    Comparisons, changes of sign, absolute values, minima and products by +1 and -1 are exact; sums are rounded to nearest
    even.  The order in which numpy adds the elements of an array (pairwise, blocked, in BLAS, with or without fused
    multiply-add, the products being exact) is left open: a sum is any function that adds in some order.
    Simplifications: no NaN; a sum of magnitude 2^1024 or more stays a number instead of becoming infinite. *)
Set Warnings "-ambiguous-paths".
From Coq Require Import Reals Permutation.
From Flocq Require Import Core.
From Verif Require Import Common Vec_Model LinAlg_Model BlockCode_Model ReedMuller_Model Polar_Model SC_Model Float_Model.
Local Open Scope nat_scope.

(** x is a result of adding the numbers of l in some order, every addition rounded *)
Inductive rounded_sum : list R -> R -> Prop :=
| sum_none : rounded_sum [] 0%R
| sum_one : forall x, rounded_sum [x] x
| sum_add : forall l1 l2 l x1 x2, rounded_sum l1 x1 -> rounded_sum l2 x2 -> Permutation (l1 ++ l2) l ->
    rounded_sum l (binary64 (x1 + x2)).
(** np.sum, and @ applied to an array of +1 and -1 *)
Definition any_order (npsum : list R -> R) : Prop := forall l, rounded_sum l (npsum l).

(** x <= y *)
Definition leR (x y : R) : bool := if Rle_dec x y then true else false.

(** ExhaustiveSearchDecoder.py 51: -r * (-1) ** codeword *)
Definition signed (r : list R) (c : vec) : list R := map (fun '(x, b) => if b : bool then x else (- x)%R) (combine r c).
(** ExhaustiveSearchDecoder.py 46-55 *)
Definition float_exhaustive (npsum : list R -> R) (C : block_code) (r : list R) : vec :=
  let cs := codewords C in
  let metrics := map (fun c => npsum (signed r c)) cs in
  bc_project C (nth (argmin_by leR metrics) cs []).

(** WagnerDecoder.py 38-44 *)
Definition float_wagner (C : block_code) (r : list R) : vec :=
  let v_hat := map neg r in
  let v_hat := if Nat.odd (vsum v_hat) then
      let i := argmin_by leR (map Rabs r) in upd i (negb (nth i v_hat false)) v_hat
    else v_hat in
  bc_project C v_hat.

(** np.min(np.abs(r[row])) *)
Fixpoint float_min_abs (l : list R) : R :=
  match l with
  | [] => 0%R
  | x :: l' => match l' with [] => Rabs x | _ => Rmin (Rabs x) (float_min_abs l') end
  end.
(** ReedDecoder.py 63-68, one iteration; the products (1 - 2 * checksums) * min_reliability are summed by npdot *)
Definition float_reed_step (npdot : list R -> R) (r : list R) (st : vec * vec) (pg : list (list nat) * vec) : vec * vec :=
  let (u_hat, bx) := st in
  let (partition, g) := pg in
  let cs := checksums bx partition in
  let rel := map (fun row => float_min_abs (map (fun p => nth p r 0%R) row)) partition in
  let u := neg (npdot (map (fun '(c, x) => if c : bool then (- x)%R else x) (combine cs rel))) in
  (u_hat ++ [u], if u then vxor bx g else bx).
(** ReedDecoder.py 58-69 *)
Definition float_reed_soft (npdot : list R -> R) (rho mu : nat) (r : list R) : vec :=
  fst (fold_left (float_reed_step npdot r) (combine (reed_partitions rho mu) (reed_muller_generator_matrix rho mu)) ([], map neg r)).

(** special_functions.py 158-165; fexp and flog1p are the elementary functions of the C library *)
Definition float_boxplus (fexp flog1p : R -> R) (a b : R) : R :=
  let s := (Rsign a * Rsign b * Rmin (Rabs a) (Rabs b))%R in
  let p1 := fexp (- Rabs (binary64 (a + b)))%R in
  let p2 := fexp (- Rabs (binary64 (a - b)))%R in
  binary64 (binary64 (s + flog1p p1) - flog1p p2).
(** SCDecoder.py 17-18: s + (-1) ** b * r *)
Definition float_g_node (r s : list R) (b : vec) : list R :=
  map2 (fun '(x, y) c => binary64 (y + (if c : bool then -1 else 1) * x)) (combine r s) b.
(** SCDecoder.py 63-89, one iteration of the while loop; compare sc_step *)
Definition float_sc_step (fexp flog1p : R -> R) (mu : nat) (frozen : list nat) (depth index : nat) (st : sc_state) : sc_state :=
  let get k := match sc_beliefs st k with Some b => b | None => [] end in
  if depth =? mu then
    {| sc_active := parent depth index; sc_beliefs := sc_beliefs st;
       sc_decisions := dict_set (sc_decisions st) (depth, index)
         (if existsb (Nat.eqb index) frozen then [false] else map neg (get (depth, index))) |}
  else
    let child_l := (depth + 1, index * 2) in
    let child_r := (depth + 1, index * 2 + 1) in
    let msg := get (depth, index) in
    let M := length msg in
    match sc_decisions st child_l with
    | None => {| sc_active := Some child_l;
                 sc_beliefs := dict_set (sc_beliefs st) child_l (map2 (float_boxplus fexp flog1p) (firstn (M / 2) msg) (skipn (M / 2) msg));
                 sc_decisions := sc_decisions st |}
    | Some a =>
      match sc_decisions st child_r with
      | None => {| sc_active := Some child_r;
                   sc_beliefs := dict_set (sc_beliefs st) child_r (float_g_node (firstn (M / 2) msg) (skipn (M / 2) msg) a);
                   sc_decisions := sc_decisions st |}
      | Some b => {| sc_active := parent depth index; sc_beliefs := sc_beliefs st;
                     sc_decisions := dict_set (sc_decisions st) (depth, index) (vxor a b ++ b) |}
      end
    end.
(** the while loop with an iteration budget *)
Fixpoint float_sc_loop (fexp flog1p : R -> R) (mu : nat) (frozen : list nat) (fuel : nat) (st : sc_state) : option sc_state :=
  match sc_active st with
  | None => Some st
  | Some (depth, index) =>
    match fuel with 0 => None | S f => float_sc_loop fexp flog1p mu frozen f (float_sc_step fexp flog1p mu frozen depth index st) end
  end.
(** SCDecoder.py 57-91: soft output *)
Definition float_sc_soft (fexp flog1p : R -> R) (mu : nat) (frozen : list nat) (fuel : nat) (li : list R) : option (list R) :=
  let init := {| sc_active := Some (0, 0); sc_beliefs := dict_set (fun _ => None) (0, 0) li; sc_decisions := fun _ => None |} in
  match float_sc_loop fexp flog1p mu frozen fuel init with
  | None => None
  | Some st => Some (map (fun i => match sc_beliefs st (mu, i) with Some (x :: _) => x | _ => 0%R end) (polar_active mu frozen))
  end.
(** SCDecoder.py 94-95: hard output *)
Definition float_sc_hard (fexp flog1p : R -> R) (mu : nat) (frozen : list nat) (fuel : nat) (li : list R) : option vec :=
  option_map (map neg) (float_sc_soft fexp flog1p mu frozen fuel li).
