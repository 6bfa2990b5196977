Set Warnings "-ambiguous-paths".
(** Model of /repo/src/komm/_pulses: RectangularPulse, ManchesterPulse,
    SincPulse, RaisedCosinePulse, BeaulieuPulse, GaussianPulse, the square-root
    pulses, and [taps].

    Simplifications: floating point is exact real arithmetic; an array argument
    is handled entry by entry (each of these methods is an entrywise numpy
    expression), so a method is a function of one real; a complex number is a
    pair (real part, imaginary part). *)
From Coq Require Import List ZArith Reals Lra.
From Coquelicot Require Import Rbar.
Import ListNotations.
Local Open Scope R_scope.

(** [np.sinc] (numpy): sin(pi x) / (pi x), and 1 at 0. *)
Definition sinc (x : R) : R :=
  if Req_EM_T x 0 then 1 else sin (PI * x) / (PI * x).

(** [np.isclose(a, b)] with its default tolerances rtol = 1e-5, atol = 1e-8. *)
Definition isclose (a b : R) : Prop :=
  Rabs (a - b) <= 1 / 100000000 + 1 / 100000 * Rabs b.
Definition isclose_dec (a b : R) : {isclose a b} + {~ isclose a b} :=
  Rle_dec (Rabs (a - b)) (1 / 100000000 + 1 / 100000 * Rabs b).

(** util.py 5-7: 1.0 * (-0.5 <= x) * (x < 0.5). *)
Definition rect (x : R) : R :=
  1 * (if Rle_dec (- (1/2)) x then 1 else 0) * (if Rlt_dec x (1/2) then 1 else 0).

(** util.py 10-12. *)
Definition tri (x : R) : R :=
  (1 - Rabs x) * (if Rle_dec (-1) x then 1 else 0) * (if Rlt_dec x 1 then 1 else 0) + 0.

(** util.py 15-18. *)
Definition raised_cosine (x a : R) : R :=
  PI / 4 * sinc x * (sinc (a * x + 1/2) + sinc (a * x - 1/2)) + 0.

(** Complex numbers as pairs: product with exp(j theta), [np.abs], and
    [np.sqrt] (principal branch: the imaginary part of the result has the sign
    of the imaginary part of the argument). *)
Definition cexp (theta : R) : R * R := (cos theta, sin theta).
Definition cscale (x : R) (z : R * R) : R * R := (x * fst z, x * snd z).
Definition cabs (z : R * R) : R := sqrt (fst z ^ 2 + snd z ^ 2).
Definition csqrt (z : R * R) : R * R :=
  (sqrt ((cabs z + fst z) / 2),
   (if Rlt_dec (snd z) 0 then -1 else 1) * sqrt ((cabs z - fst z) / 2)).

(** base.py 10-52: the interface of a pulse.  The support is a pair of extended
    reals, [-np.inf] and [np.inf] being allowed. *)
Record pulse := Pulse {
  waveform : R -> R;
  spectrum : R -> R * R;
  energy : R;
  autocorrelation : R -> R;
  energy_spectral_density : R -> R;
  support : Rbar * Rbar }.

(** base.py 54-74, [Pulse.taps]; [None] is the ValueError of lines 67-70.
    [np.arange(start * sps, end * sps + 1)] has max(0, end*sps + 1 - start*sps)
    entries. *)
Definition is_minus_inf (x : Rbar) : bool := match x with m_infty => true | _ => false end.
Definition is_plus_inf (x : Rbar) : bool := match x with p_infty => true | _ => false end.
Definition arange (a b : Z) : list Z :=
  map (fun i => (a + Z.of_nat i)%Z) (seq 0 (Z.to_nat (b - a))).
Definition taps (p : pulse) (sps : Z) (span : option (Z * Z)) : option (list R) :=
  if (match span with None => true | Some _ => false end
      && (is_minus_inf (fst (support p)) || is_plus_inf (snd (support p))))%bool
  then None
  else
    let '(start, stop) := match span with Some s => s | None => (0, 1)%Z end in
    Some (map (fun i => waveform p (IZR i / IZR sps))
              (arange (start * sps) (stop * sps + 1))).

(** RectangularPulse.py 43-176 (waveform 65-67, spectrum 89-93, energy 111-112,
    autocorrelation 134-136, energy_spectral_density 158-160, support 176). *)
Definition RectangularPulse (w : R) : pulse := {|
  waveform t := rect ((t - w / 2) / w);
  spectrum f := cscale (w * sinc (w * f)) (cexp (-2 * PI * w / 2 * f));
  energy := w;
  autocorrelation tau := w * tri (tau / w);
  energy_spectral_density f := w ^ 2 * sinc (w * f) ^ 2;
  support := (Finite 0, Finite w) |}.

(** ManchesterPulse.py 35-129 (waveform 49-50, spectrum 66-69, energy 83,
    autocorrelation 99-100, energy_spectral_density 116-117, support 129). *)
Definition ManchesterPulse : pulse := {|
  waveform t := - rect (2 * (t - 1/4)) + rect (2 * (t - 3/4));
  spectrum f := cscale (sinc (f / 2) * sin (2 * PI * f / 4))
                       (cexp (-2 * PI * (f / 2 + 1 / 4)));
  energy := 1;
  autocorrelation tau :=
    tri (2 * tau) - 1/2 * tri (2 * (tau - 1/2)) - 1/2 * tri (2 * (tau + 1/2));
  energy_spectral_density f := sinc (f / 2) ^ 2 * sin (2 * PI * f / 4) ^ 2;
  support := (Finite 0, Finite 1) |}.

(** SincPulse.py 30-122. *)
Definition SincPulse : pulse := {|
  waveform t := sinc t;
  spectrum f := (rect f, 0);
  energy := 1;
  autocorrelation tau := sinc tau;
  energy_spectral_density f := rect f;
  support := (m_infty, p_infty) |}.

(** RaisedCosinePulse.py 78-89 (the real spectrum; [astype(complex)]/[dtype=complex]
    puts a zero imaginary part). *)
Definition rc_spectrum (a f : R) : R :=
  if Req_EM_T a 0 then rect f
  else
    let f1 := (1 - a) / 2 in
    let f2 := (1 + a) / 2 in
    if Rlt_dec (Rabs f) f1 then 1
    else if Rlt_dec (Rabs f) f2 then 1/2 * (1 + cos (PI * (Rabs f - f1) / a))
    else 0.

(** RaisedCosinePulse.py 120-132. *)
Definition rc_autocorrelation (a tau : R) : R :=
  if Req_EM_T a 0 then sinc tau
  else
    let term :=
      if isclose_dec (Rabs tau) (1 / a) then cos (PI / a) / 2
      else sinc (a * tau) * cos (PI * tau) / (1 - (a * tau) ^ 2) in
    raised_cosine tau a - a / 4 * term.

(** RaisedCosinePulse.py 47-164. *)
Definition rc_pulse (a : R) : pulse := {|
  waveform t := raised_cosine t a;
  spectrum f := (rc_spectrum a f, 0);
  energy := 1 - a / 4;
  autocorrelation := rc_autocorrelation a;
  energy_spectral_density f := cabs (rc_spectrum a f, 0) ^ 2;
  support := (m_infty, p_infty) |}.

(** RaisedCosinePulse.py 49-51: the constructor; [None] is the ValueError. *)
Definition RaisedCosinePulse (a : R) : option pulse :=
  if Rle_dec 0 a then if Rle_dec a 1 then Some (rc_pulse a) else None else None.

(** base.py 86-112, [RootPulse]: everything but the waveform comes from the base
    pulse. *)
Definition root_pulse (base : pulse) (wf : R -> R) : pulse := {|
  waveform := wf;
  spectrum f := csqrt (spectrum base f);
  energy := waveform base 0;
  autocorrelation tau := waveform base tau;
  energy_spectral_density f := cabs (csqrt (spectrum base f)) ^ 2;
  support := (m_infty, p_infty) |}.

(** RaisedCosinePulse.py 203-224, [_RootRaisedCosinePulse.waveform].  The later
    assignment (line 223) overwrites the earlier one (line 219). *)
Definition rrc_waveform (a t : R) : R :=
  if Req_EM_T a 0 then sinc t
  else
    let f1 := (1 - a) / 2 in
    let f2 := (1 + a) / 2 in
    let num := sin (2 * PI * f1 * t) + 4 * a * t * cos (2 * PI * f2 * t) in
    let den := PI * t * (1 - (4 * a * t) ^ 2) in
    if isclose_dec (Rabs t) (1 / (4 * a)) then
      let lhs := (1 + 2 / PI) * sin (PI / (4 * a)) in
      let rhs := (1 - 2 / PI) * cos (PI / (4 * a)) in
      a / sqrt 2 * (lhs + rhs)
    else if isclose_dec t 0 then 1 + a * (4 / PI - 1)
    else num / den.

(** RaisedCosinePulse.py 181-200. *)
Definition rc_root (a : R) : pulse := root_pulse (rc_pulse a) (rrc_waveform a).
(** SincPulse.py 139-148. *)
Definition sinc_root : pulse := SincPulse.

(** BeaulieuPulse.py 66-77. *)
Definition beaulieu_waveform (a t : R) : R :=
  if Req_EM_T a 0 then sinc t
  else
    let b := 2 * ln 2 / a in
    let num := 4 * b * PI * t * sin (PI * a * t) + 2 * b ^ 2 * cos (PI * a * t) - b ^ 2 in
    let den := (2 * PI * t) ^ 2 + b ^ 2 in
    sinc t * num / den.

(** BeaulieuPulse.py 88-102. *)
Definition beaulieu_spectrum (a f : R) : R :=
  if Req_EM_T a 0 then rect f
  else
    let b := 2 * ln 2 / a in
    let f1 := (1 - a) / 2 in
    let f2 := (1 + a) / 2 in
    if Rlt_dec (Rabs f) f1 then 1
    else if Rlt_dec (Rabs f) (1/2) then exp (- b * (Rabs f - f1))
    else if Rlt_dec (Rabs f) f2 then 1 - exp (- b * (f2 - Rabs f))
    else 0.

(** BeaulieuPulse.py 137-154. *)
Definition beaulieu_autocorrelation (a tau : R) : R :=
  if Req_EM_T a 0 then sinc tau
  else
    let b := 2 * ln 2 / a in
    let f1 := (1 - a) / 2 in
    let f2 := (1 + a) / 2 in
    let c0 := cos (PI * tau) in
    let s0 := sin (PI * tau) in
    let c1 := cos (2 * PI * f1 * tau) in
    let s1 := sin (2 * PI * f1 * tau) in
    let c2 := cos (2 * PI * f2 * tau) in
    let s2 := sin (2 * PI * f2 * tau) in
    let term0 := sinc tau * (2 * cos (PI * a * tau) - 1) in
    let term1 := (4 * b * (c1 + c2) + 4 * PI * tau * (s2 - s1) - 2 * b * c0)
                 / (4 * b ^ 2 + (2 * PI * tau) ^ 2) in
    let term2 := (4 * b * c2 + 8 * PI * tau * s2 - 2 * b * c0 - 4 * PI * tau * s0)
                 / (b ^ 2 + (2 * PI * tau) ^ 2) in
    term0 + term1 - term2.

(** BeaulieuPulse.py 46-187. *)
Definition beaulieu_pulse (a : R) : pulse := {|
  waveform := beaulieu_waveform a;
  spectrum f := (beaulieu_spectrum a f, 0);
  energy := 1 - a / (4 * ln 2);
  autocorrelation := beaulieu_autocorrelation a;
  energy_spectral_density f := cabs (beaulieu_spectrum a f, 0) ^ 2;
  support := (m_infty, p_infty) |}.

(** BeaulieuPulse.py 48-50: the constructor; [None] is the ValueError. *)
Definition BeaulieuPulse (a : R) : option pulse :=
  if Rle_dec 0 a then if Rle_dec a 1 then Some (beaulieu_pulse a) else None else None.

(** BeaulieuPulse.py 223-260, [_RootBeaulieuPulse.waveform].  The Gauss-Legendre
    nodes and weights on [-1, 1] (line 230) are a parameter [rule]: a list of
    pairs (node, weight); lines 231-232 move it to [0, sqrt(a/2)]. *)
Definition rb_quadrature (rule : list (R * R)) (a : R) : list (R * R) :=
  let vmax := sqrt (a / 2) in
  map (fun xw => ((fst xw + 1) * (vmax / 2), snd xw * (vmax / 2))) rule.
Definition rb_waveform (rule : list (R * R)) (a t : R) : R :=
  if Req_EM_T a 0 then sinc t
  else
    let b := ln 2 / a in
    let f1 := (1 - a) / 2 in
    let f2 := (1 + a) / 2 in
    let band1 := (1 - a) * sinc ((1 - a) * t) in
    let num := b * cos (2 * PI * f1 * t) - 2 * PI * t * sin (2 * PI * f1 * t)
               - b / sqrt 2 * cos (PI * t) + sqrt 2 * PI * t * sin (PI * t) in
    let band2 := 2 * num / (b ^ 2 + (2 * PI * t) ^ 2) in
    let band3 :=
      fold_right Rplus 0
        (map (fun vw =>
                let v := fst vw in
                let w := snd vw in
                cos (2 * PI * t * (f2 - v ^ 2))
                * (4 * w * v * sqrt (1 - exp (-2 * b * v ^ 2))))
             (rb_quadrature rule a)) in
    band1 + band2 + band3.
(** BeaulieuPulse.py 204-220. *)
Definition beaulieu_root (rule : list (R * R)) (a : R) : pulse :=
  root_pulse (beaulieu_pulse a) (rb_waveform rule a).

(** GaussianPulse.py 34-130 (waveform 54-56, spectrum 67-70, energy 79-80,
    autocorrelation 96-100, energy_spectral_density 116-118, support 130). *)
Definition b_bar (B : R) : R := B / sqrt (ln 2).
Definition gaussian_pulse (B : R) : pulse := {|
  waveform t := exp (- (1/2) * (2 * PI * b_bar B * t) ^ 2);
  spectrum f := (1 / (sqrt (2 * PI) * b_bar B) * exp (- (1/2) * (f / b_bar B) ^ 2), 0);
  energy := 1 / (2 * sqrt PI * b_bar B);
  autocorrelation tau :=
    (1 / (2 * sqrt PI * b_bar B)) * exp (- (PI * b_bar B * tau) ^ 2);
  energy_spectral_density f := (1 / (2 * PI * b_bar B ^ 2)) * exp (- (f / b_bar B) ^ 2);
  support := (m_infty, p_infty) |}.

(** GaussianPulse.py 36-38: the constructor; [None] is the ValueError. *)
Definition GaussianPulse (B : R) : option pulse :=
  if Rlt_dec 0 B then Some (gaussian_pulse B) else None.
