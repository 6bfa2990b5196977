(* What it means for a block code object to be consistent, in terms of its public operations. *)
From Coq Require Import QArith.
From Verif Require Import Common Bits_Model Vec_Model Linear_Spec BlockCode_Model.
Local Open Scope nat_scope.

(* v is produced by encode from some message *)
Definition is_codeword (C : block_code) (v : vec) : Prop :=
  exists u, length u = bc_k C /\ bc_encode C u = v.

(* encode is the linear map given by the generator matrix and project_word undoes it *)
Record encoder_ok (C : block_code) : Prop := {
  ok_G : wf (bc_n C) (bc_G C) /\ length (bc_G C) = bc_k C;
  ok_encode : forall u, length u = bc_k C -> bc_encode C u = vecmat (bc_n C) u (bc_G C);
  ok_encode_length : forall u, length u = bc_k C -> length (bc_encode C u) = bc_n C;
  ok_encode_linear : forall u v, length u = bc_k C -> length v = bc_k C ->
    bc_encode C (vxor u v) = vxor (bc_encode C u) (bc_encode C v);
  ok_encode_injective : forall u v, length u = bc_k C -> length v = bc_k C ->
    bc_encode C u = bc_encode C v -> u = v;
  ok_project : forall u, length u = bc_k C -> bc_project C (bc_encode C u) = u }.

(* check computes the syndrome given by the check matrix; it vanishes exactly on the codewords;
   every syndrome occurs *)
Record check_ok (C : block_code) : Prop := {
  ok_H : wf (bc_n C) (bc_H C) /\ length (bc_H C) = bc_m C;
  ok_check : forall r, length r = bc_n C -> bc_check C r = matvec (bc_H C) r;
  ok_check_zero : forall r, length r = bc_n C ->
    (bc_check C r = zeros (bc_m C) <-> is_codeword C r);
  ok_check_onto : forall s, length s = bc_m C -> exists r, length r = bc_n C /\ bc_check C r = s;
  ok_GH : forall g h, In g (bc_G C) -> In h (bc_H C) -> dot g h = false }.

Record valid_code (C : block_code) : Prop := {
  ok_params : bc_n C = bc_k C + bc_m C;
  ok_encoder :> encoder_ok C;
  ok_checker :> check_ok C }.

(* d is the minimum Hamming distance between distinct codewords *)
Definition is_minimum_distance (C : block_code) (d : nat) : Prop :=
  (forall v w, is_codeword C v -> is_codeword C w -> v <> w -> d <= hdist v w) /\
  (exists v w, is_codeword C v /\ is_codeword C w /\ v <> w /\ hdist v w = d).

(* c is a codeword at minimum Hamming distance from r *)
Definition nearest_codeword (C : block_code) (r c : vec) : Prop :=
  is_codeword C c /\ forall c', is_codeword C c' -> hdist r c <= hdist r c'.

(* every word is within rho of the code and some word is at distance exactly rho *)
Definition is_covering_radius (C : block_code) (rho : nat) : Prop :=
  (forall r, length r = bc_n C -> exists c, is_codeword C c /\ hdist r c <= rho) /\
  (exists r, length r = bc_n C /\ forall c, is_codeword C c -> rho <= hdist r c).

(* the table returned by coset_leaders, in terms of check *)
Definition leaders_spec (C : block_code) (lds : list vec) : Prop :=
  length lds = 2 ^ bc_m C /\
  forall i, i < 2 ^ bc_m C ->
    length (nth i lds []) = bc_n C /\
    bc_check C (nth i lds []) = message (bc_m C) i /\
    forall v, length v = bc_n C -> bc_check C v = message (bc_m C) i -> weight (nth i lds []) <= weight v.

(* correlation of a soft word with the antipodal image of a codeword: sum of r_i (-1)^(c_i) *)
Fixpoint correlation (r : list Q) (c : vec) : Q :=
  match r, c with
  | x :: r', b :: c' => (x * (if b then (-1) else 1) + correlation r' c')%Q
  | _, _ => 0%Q
  end.

