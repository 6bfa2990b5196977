(* Model of /repo/src/komm/_error_control_decoders/WagnerDecoder.py; floating point is idealised to exact rationals *)
From Coq Require Import QArith Qabs.
From Verif Require Import Common Vec_Model LinAlg_Model BlockCode_Model ReedMuller_Model.
Local Open Scope nat_scope.

(* WagnerDecoder.py:38-44 *)
Definition wagner_decode (C : block_code) (r : list Q) : vec :=
  let v_hat := map Qneg r in
  let v_hat := if Nat.odd (vsum v_hat) then
      let i := argmin_by Qle_bool (map Qabs r) in upd i (negb (nth i v_hat false)) v_hat
    else v_hat in
  bc_project C v_hat.
