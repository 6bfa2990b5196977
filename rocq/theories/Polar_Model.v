(* Model of /repo/src/komm/_error_control_block/PolarCode.py *)
From Verif Require Import Common Bits_Model Vec_Model LinAlg_Model BlockCode_Model.
Local Open Scope nat_scope.

(* np.kron(A, B) for binary matrices *)
Definition krow (ra rb : vec) : vec := flat_map (fun x => map (andb x) rb) ra.
Definition kron (A B : mat) : mat := flat_map (fun ra => map (krow ra) B) A.

(* PolarCode.py:60-62 *)
Definition polar_kernel : mat := [[true; false]; [true; true]].
Definition hadamard (mu : nat) : mat := fold_left (fun h _ => kron h polar_kernel) (seq 0 mu) [[true]].

(* PolarCode.py:79: v[i : i + m] ^= v[i + m : i + 2 * m] *)
Definition slice_xor (m : nat) (v : vec) (i : nat) : vec :=
  firstn i v ++ vxor (firstn m (skipn i v)) (firstn m (skipn (i + m) v)) ++ skipn (i + m) v.
(* PolarCode.py:77-79, one value of d; range(0, n, 2 * m) *)
Definition butterfly (n : nat) (v : vec) (d : nat) : vec :=
  let m := 2 ^ d in
  fold_left (slice_xor m) (map (fun t => t * (2 * m)) (seq 0 (n / (2 * m)))) v.
(* PolarCode.py:76-80 *)
Definition polar_transform (mu : nat) (v : vec) : vec := fold_left (butterfly (2 ^ mu)) (seq 0 mu) v.
(* PolarCode.py:73-80 *)
Definition polar_encode (mu : nat) (active : list nat) (u : vec) : vec :=
  polar_transform mu (put active u (zeros (2 ^ mu))).

(* PolarCode.py:59 *)
Definition polar_active (mu : nat) (frozen : list nat) : list nat := not_pivots (2 ^ mu) frozen.

(* np.unique(l).size == l.size *)
Fixpoint distinctb (l : list nat) : bool :=
  match l with [] => true | x :: l' => negb (existsb (Nat.eqb x) l') && distinctb l' end.

(* PolarCode.py:50-63.  The order in which the frozen indices are given is irrelevant, so np.sort is not modelled.
   None = ValueError (or, when every index is frozen, the failure of BlockCode on an empty generator matrix). *)
Definition PolarCode (mu : nat) (frozen : list nat) : option block_code :=
  if (1 <=? mu) && forallb (fun i => i <? 2 ^ mu) frozen && distinctb frozen then
    let active := polar_active mu frozen in
    match code_of_generator (2 ^ mu) (map (fun i => nth i (hadamard mu) []) active) with
    | Some C => Some {| bc_n := bc_n C; bc_k := bc_k C; bc_m := bc_m C; bc_G := bc_G C; bc_Ginv := bc_Ginv C; bc_H := bc_H C;
                        bc_encode := polar_encode mu active; bc_project := bc_project C; bc_check := bc_check C |}
    | None => None
    end
  else None.
