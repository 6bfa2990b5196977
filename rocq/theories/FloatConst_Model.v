(** Amplitude constellations and uniform quantizers computed in double precision.

    Every arithmetic operation is rounded to the nearest double, ties to even ([binary64] of Float_Model, which has gradual
    underflow but no overflow: infinities and NaNs are not modelled).  Integers that the Python code keeps as [int] are exact
    until they meet a float. *)
From Coq Require Import Reals.
From Verif Require Import Common Float_Model Quant_Model Const_Model.
Local Open Scope R_scope.

(** np.linspace(a, b, num): one rounding for b - a, for the step, for each product and for each sum; the last entry is set to b
    (numpy/core/function_base.py, called at src/komm/_constellations/PAMConstellation.py 60). *)
Definition float_linspace (a b : R) (num : nat) : list R :=
  let delta := binary64 (b - a) in
  if Nat.leb num 1 then map (fun k => binary64 (binary64 (INR k * delta) + a)) (seq 0 num)
  else
    let step := binary64 (delta / INR (num - 1)) in
    map (fun k => if Nat.eqb k (num - 1) then b
                  else if Req_EM_T step 0 then binary64 (binary64 (binary64 (INR k / INR (num - 1)) * delta) + a)
                  else binary64 (binary64 (INR k * step) + a)) (seq 0 num).

(** src/komm/_constellations/PAMConstellation.py 58-60 *)
Definition float_pam_points (M : nat) (delta : R) : list R :=
  let peak := binary64 (binary64 ((INR M - 1) * delta) / 2) in float_linspace (- peak) peak M.

(** ndarray.astype(int) of an integral float: what does not fit int64 becomes a value [conv] of the platform (-2^63 on x86-64,
    the nearest end of the range on ARM64). *)
Definition astype_int (conv : Z -> Z) (z : Z) : Z := if (Z.leb (- 2 ^ 63) z && Z.ltb z (2 ^ 63))%bool then z else conv z.
(** the conversion on x86-64 *)
Definition conv_x86 (_ : Z) : Z := (- 2 ^ 63)%Z.

(** src/komm/_constellations/PAMConstellation.py 153-157, one entry of the result *)
Definition float_pam_closest (conv : Z -> Z) (M : nat) (delta x : R) : nat :=
  let normalized := binary64 (x / delta) in
  clip M (astype_int conv (npround (binary64 (normalized + binary64 ((INR M - 1) / 2))))).

(** src/komm/_constellations/QAMConstellation.py 202-209, one axis, phase_offset = 0 (then np.exp(-0j) = 1 and the product is
    exact); clipping happens before the conversion to int. *)
Definition float_qam_axis (M : nat) (delta x : R) : nat :=
  let received := binary64 (x / binary64 (delta / 2)) in
  clip M (npround (binary64 (binary64 (binary64 (received + INR M) - 1) / 2))).
(** src/komm/_constellations/QAMConstellation.py 201-211, phase_offset = 0 *)
Definition float_qam_closest (Mi Mq : nat) (di dq : R) (w : R * R) : nat := (Mq * float_qam_axis Mi di (fst w) + float_qam_axis Mq dq (snd w))%nat.
(** src/komm/_constellations/QAMConstellation.py 88-98, phase_offset = 0: sums x + j y of the points of the two axes *)
Definition float_qam_points (Mi Mq : nat) (di dq : R) : list (R * R) :=
  concat (map (fun x => map (fun y => (x, y)) (float_pam_points Mq dq)) (float_pam_points Mi di)).

(** src/komm/_constellations/ASKConstellation.py 72-76, phase_offset = 0 *)
Definition float_ask_points (M : nat) (A : R) : list R := map (fun i => binary64 (A * INR i)) (seq 0 M).
(** src/komm/_constellations/ASKConstellation.py 167-171, one entry, phase_offset = 0; x is the real part of the received value *)
Definition float_ask_closest (conv : Z -> Z) (M : nat) (A x : R) : nat := clip M (astype_int conv (npround (binary64 (x / A)))).

(** src/komm/_quantization/UniformQuantizer.py 128-129 *)
Definition float_uniform_levels (L : nat) (step offset : R) : list R :=
  map (fun i => binary64 (binary64 (binary64 (INR i - binary64 ((INR L - 1) / 2)) + offset) * step)) (seq 0 L).
(** src/komm/_quantization/UniformQuantizer.py 143 *)
Definition float_uniform_thresholds (L : nat) (step offset : R) : list R :=
  removelast (map (fun y => binary64 (y + binary64 (step / 2))) (float_uniform_levels L step offset)).
(** src/komm/_quantization/UniformQuantizer.py 49-56, 116-143; comparisons of floats are exact, so that digitize and quantize
    of Quant_Model apply to these arrays. *)
Definition float_uniform_quantizer (L : nat) (step offset : R) : option quantizer :=
  if Nat.leb L 1 then None else if Rltb 0 step then
    Some {| levels := float_uniform_levels L step offset; thresholds := float_uniform_thresholds L step offset |} else None.
(** src/komm/_quantization/UniformQuantizer.py 58-85 and 87-114 *)
Definition float_mid_riser (L : nat) (step : R) : option quantizer := float_uniform_quantizer L step (if Nat.even L then 0 else - (1 / 2)).
Definition float_mid_tread (L : nat) (step : R) : option quantizer := float_uniform_quantizer L step (if Nat.odd L then 0 else - (1 / 2)).
