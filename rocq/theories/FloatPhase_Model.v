(** Phase constellations (PSK, APSK) and the generic nearest-point search computed in double precision.

    Every real operation is rounded to the nearest double, ties to even ([binary64] of Float_Model: gradual underflow, no
    overflow, no NaN).  The elementary functions of the C library and the product of two complex numbers (which compilers may
    contract with fused multiply-add) are parameters collected in [library]; what is assumed of them is in FloatPhase_Spec. *)
Set Warnings "-ambiguous-paths".
From Coq Require Import Reals.
From Coquelicot Require Import Complex.
From Verif Require Import Common Float_Model BlockCode_Model Corr_Model Const_Model FloatConst_Model SC_Model FloatSoft_Model.
Local Open Scope R_scope.

(** cos, sin, atan2, hypot of the C library, and the product of complex128 numbers *)
Record library := { lib_cos : R -> R; lib_sin : R -> R; lib_atan2 : R -> R -> R; lib_hypot : R -> R -> R; lib_mul : C -> C -> C }.
(** the textbook product: four rounded products, one rounded difference and one rounded sum *)
Definition plain_mul (z w : C) : C :=
  (binary64 (binary64 (fst z * fst w) - binary64 (snd z * snd w)), binary64 (binary64 (fst z * snd w) + binary64 (snd z * fst w))).

(** np.pi, and 2 * np.pi (exact doubling) *)
Definition np_pi : R := binary64 PI.
Definition two_pi : R := binary64 (2 * np_pi).
(** np.exp(1j * t): cexp of a purely imaginary number *)
Definition float_cexp (L : library) (t : R) : C := (lib_cos L t, lib_sin L t).
(** PSKConstellation.py 71, 2j * np.pi * phi; the real part is zero *)
Definition float_rotation (L : library) (phi : R) : C := float_cexp L (binary64 (two_pi * phi)).
(** PSKConstellation.py 71, 2j * np.pi * i / M; numpy divides complex numbers by multiplying with the reciprocal *)
Definition float_phase (M i : nat) : R := binary64 (binary64 (two_pi * INR i) * binary64 (1 / INR M)).
(** ndarray.round(15), one real number: np.around multiplies by 10^15, rounds to an integer (ties to even) and divides *)
Definition round15 (x : R) : R := binary64 (IZR (npround (binary64 (x * 10 ^ 15))) / 10 ^ 15).
(** PSKConstellation.py 69-73 *)
Definition float_psk_points (L : library) (M : nat) (A phi : R) : list C :=
  map (fun i => let z := lib_mul L (lib_mul L (RtoC A) (float_cexp L (float_phase M i))) (float_rotation L phi) in (round15 (fst z), round15 (snd z))) (seq 0 M).
(** PSKConstellation.py 163-166, one entry; np.mod of an integral float is exact *)
Definition float_psk_closest (L : library) (M : nat) (phi : R) (w : C) : nat :=
  let z := lib_mul L w (float_cexp L (binary64 (- two_pi * phi))) in
  let turn := binary64 (lib_atan2 L (snd z) (fst z) / two_pi) in
  Z.to_nat (npround (binary64 (INR M * turn)) mod Z.of_nat M).
(** APSKConstellation.py 90-93; a ring is (order, amplitude, phase offset) *)
Definition float_apsk_points (L : library) (rings : list (nat * R * R)) : list C :=
  concat (map (fun r => let '(M, A, phi) := r in float_psk_points L M A phi) rings).

(** base.py 124, one coordinate: the difference of two complex numbers *)
Definition float_sub (a b : C) : C := (binary64 (fst a - fst b), binary64 (snd a - snd b)).
(** base.py 125, one coordinate: np.abs(diff) ** 2 *)
Definition float_square (L : library) (d : C) : R := let h := lib_hypot L (fst d) (snd d) in binary64 (h * h).
(** base.py 123-125, one received point: the squared distances to all points; npsum is np.sum *)
Definition float_distances (L : library) (npsum : list R -> R) (m : list (list C)) (r : list C) : list R :=
  map (fun p => npsum (map2 (fun a b => float_square L (float_sub a b)) r p)) m.
(** base.py 138-142 *)
Definition float_base_closest (L : library) (npsum : list R -> R) (m : list (list C)) (r : list C) : nat := argmin_by leR (float_distances L npsum m r).
(** APSKConstellation.py 182: the search over the points of all rings *)
Definition float_apsk_closest (L : library) (npsum : list R -> R) (rings : list (nat * R * R)) (w : C) : nat :=
  float_base_closest L npsum (map (fun z => [z]) (float_apsk_points L rings)) [w].
