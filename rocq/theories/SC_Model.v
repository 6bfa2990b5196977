(* Model of /repo/src/komm/_error_control_decoders/SCDecoder.py and of boxplus in _util/special_functions.py.
   Floating-point numbers are idealised to real numbers. *)
From Coq Require Import Reals.
From Verif Require Import Common Vec_Model LinAlg_Model BlockCode_Model Polar_Model.
Local Open Scope nat_scope.

(* np.sign *)
Definition Rsign (x : R) : R := if Rlt_dec x 0 then (-1)%R else if Rlt_dec 0 x then 1%R else 0%R.
(* special_functions.py:162-165; log1p(x) = ln(1 + x) *)
Definition boxplus (a b : R) : R :=
  (Rsign a * Rsign b * Rmin (Rabs a) (Rabs b) + ln (1 + exp (- Rabs (a + b))) - ln (1 + exp (- Rabs (a - b))))%R.

(* elementwise application to two arrays of the same shape *)
Fixpoint map2 {A B C} (f : A -> B -> C) (a : list A) (b : list B) : list C :=
  match a, b with x :: a', y :: b' => f x y :: map2 f a' b' | _, _ => [] end.

(* SCDecoder.py:17-18: s + (-1) ** b * r *)
Definition g_node (r s : list R) (b : vec) : list R :=
  map2 (fun '(x, y) c => (y + (if c : bool then -1 else 1) * x)%R) (combine r s) b.

(* a node is (depth, index); dictionaries are partial functions on nodes *)
Notation node := (nat * nat)%type (only parsing).
Definition node_eqb (a b : node) : bool := (fst a =? fst b) && (snd a =? snd b).
Definition dict_set {V} (d : node -> option V) (k : node) (v : V) : node -> option V :=
  fun x => if node_eqb x k then Some v else d x.

Record sc_state := SC {
  sc_active : option node;          (* None: active[0] < 0 *)
  sc_beliefs : node -> option (list R);
  sc_decisions : node -> option vec }.

(* parent = (depth - 1, index // 2) *)
Definition parent (depth index : nat) : option node :=
  match depth with 0 => None | S d => Some (d, index / 2) end.

Definition neg (x : R) : bool := if Rlt_dec x 0 then true else false.

(* SCDecoder.py:63-89, one iteration of the while loop; a missing dictionary key (KeyError) gives the empty array,
   which never happens (proved) *)
Definition sc_step (mu : nat) (frozen : list nat) (depth index : nat) (st : sc_state) : sc_state :=
  let get k := match sc_beliefs st k with Some b => b | None => [] end in
  if depth =? mu then
    {| sc_active := parent depth index; sc_beliefs := sc_beliefs st;
       sc_decisions := dict_set (sc_decisions st) (depth, index)
         (if existsb (Nat.eqb index) frozen then [false] else map neg (get (depth, index))) |}
  else
    let child_l := (depth + 1, index * 2) in
    let child_r := (depth + 1, index * 2 + 1) in
    let msg := get (depth, index) in
    let M := length msg in
    match sc_decisions st child_l with
    | None => {| sc_active := Some child_l;
                 sc_beliefs := dict_set (sc_beliefs st) child_l (map2 boxplus (firstn (M / 2) msg) (skipn (M / 2) msg));
                 sc_decisions := sc_decisions st |}
    | Some a =>
      match sc_decisions st child_r with
      | None => {| sc_active := Some child_r;
                   sc_beliefs := dict_set (sc_beliefs st) child_r (g_node (firstn (M / 2) msg) (skipn (M / 2) msg) a);
                   sc_decisions := sc_decisions st |}
      | Some b => {| sc_active := parent depth index; sc_beliefs := sc_beliefs st;
                     sc_decisions := dict_set (sc_decisions st) (depth, index) (vxor a b ++ b) |}
      end
    end.

(* the while loop with an iteration budget; None = budget exhausted *)
Fixpoint sc_loop (mu : nat) (frozen : list nat) (fuel : nat) (st : sc_state) : option sc_state :=
  match sc_active st with
  | None => Some st
  | Some (depth, index) =>
    match fuel with 0 => None | S f => sc_loop mu frozen f (sc_step mu frozen depth index st) end
  end.

(* SCDecoder.py:57-91: soft output *)
Definition sc_decode_soft (mu : nat) (frozen : list nat) (fuel : nat) (li : list R) : option (list R) :=
  let init := {| sc_active := Some (0, 0); sc_beliefs := dict_set (fun _ => None) (0, 0) li; sc_decisions := fun _ => None |} in
  match sc_loop mu frozen fuel init with
  | None => None
  | Some st => Some (map (fun i => match sc_beliefs st (mu, i) with Some (x :: _) => x | _ => 0%R end) (polar_active mu frozen))
  end.
(* SCDecoder.py:94-95: hard output *)
Definition sc_decode_hard (mu : nat) (frozen : list nat) (fuel : nat) (li : list R) : option vec :=
  option_map (map neg) (sc_decode_soft mu frozen fuel li).
