(* Model of /repo/src/komm/_constellations: base.py, Constellation.py, PAMConstellation.py, QAMConstellation.py, ASKConstellation.py,
   PSKConstellation.py, APSKConstellation.py, CrossQAMConstellation.py, OrthogonalConstellation.py, SimplexConstellation.py,
   BiorthogonalConstellation.py.  Floating-point numbers are replaced by real numbers; real arrays are complex arrays with zero imaginary
   part; leading (batch) dimensions are not modelled: the input is one flat sequence.  The cosmetic roundings "+ 0.0" and
   "matrix.round(15)" (PSKConstellation.py 73) are not modelled. *)
From Coq Require Import Reals.
From Coquelicot Require Import Complex.
From Verif Require Import Common Conv_Model Corr_Model BlockCode_Model Quant_Model.
Local Open Scope R_scope.

(* one constellation object: its class supplies these fields; [mean0], [mean_energy0] are mean(None) and mean_energy(None);
   a minimum distance of None is numpy's inf; [closest] is closest_indices on one received point *)
Record constellation := { matrix : list (list C); order : nat; dimension : nat; is_complex : bool;
  mean0 : list C; mean_energy0 : R; minimum_distance : option R; closest : list C -> nat }.

(* numpy.argmin, numpy.argmax: the first index of a least / greatest entry *)
Definition argmin (l : list R) : nat := argmin_by Rleb l.
Definition argmax (l : list R) : nat := argmin_by (fun x y => Rleb y x) l.
(* numpy.round / numpy.around: to the nearest integer, halves to the even one *)
Definition npround (x : R) : Z :=
  let f := Int_part x in let d := x - IZR f in
  if Rltb d (1/2) then f else if Rltb (1/2) d then (f + 1)%Z else if Z.even f then f else (f + 1)%Z.
(* numpy.clip(z, 0, M - 1) *)
Definition clip (M : nat) (z : Z) : nat := Z.to_nat (Z.min (Z.max z 0) (Z.of_nat M - 1)).
(* numpy.angle *)
Definition angle (z : C) : R :=
  let '(x, y) := z in
  if Rltb 0 x then atan (y / x)
  else if Rltb x 0 then (if Rleb 0 y then atan (y / x) + PI else atan (y / x) - PI)
  else if Rltb 0 y then PI / 2 else if Rltb y 0 then - (PI / 2) else 0.

(* base.py 123-125, the row of distances of one received point *)
Fixpoint sqnorm_diff (r p : list C) : R :=
  match r, p with a :: r', b :: p' => Cmod (Cminus a b) ^ 2 + sqnorm_diff r' p' | _, _ => 0 end.
Definition squared_distances (m : list (list C)) (r : list C) : list R := map (sqnorm_diff r) m.
(* base.py 138-142 *)
Definition base_closest (m : list (list C)) (r : list C) : nat := argmin (squared_distances m r).
(* base.py 74-75, 91-93, with given priors *)
Definition base_mean (dim : nat) (m : list (list C)) (priors : list R) : list C :=
  map (fun c => fold_right Cplus (RtoC 0) (map (fun pr => Cmult (RtoC (fst pr)) (nth c (snd pr) (RtoC 0))) (combine priors m))) (seq 0 dim).
Definition base_mean_energy (m : list (list C)) (priors : list R) : R :=
  fold_right Rplus 0 (map (fun pr => fst pr * fold_right Rplus 0 (map (fun z => Cmod z ^ 2) (snd pr))) (combine priors m)).
(* base.py 40-41 *)
Definition uniform_priors (m : list (list C)) : list R := map (fun _ => 1 / INR (length m)) m.
(* base.py 103-106: the minimum over all pairs at different positions *)
Definition rmin (l : list R) : option R := match l with [] => None | x :: l => Some (fold_left Rmin l x) end.
Definition base_minimum_distance (m : list (list C)) : option R :=
  rmin (concat (map (fun i => map (fun j => sqrt (sqnorm_diff (nth i m []) (nth j m []))) (filter (fun j => negb (Nat.eqb i j)) (seq 0 (length m)))) (seq 0 (length m)))).

(* Constellation.py 28-152 (everything inherited); [complex] tells whether the given matrix had a complex dtype *)
Definition Constellation (complex : bool) (dim : nat) (m : list (list C)) : constellation :=
  {| matrix := m; order := length m; dimension := dim; is_complex := complex; mean0 := base_mean dim m (uniform_priors m);
     mean_energy0 := base_mean_energy m (uniform_priors m); minimum_distance := base_minimum_distance m; closest := base_closest m |}.

(* the single coordinate of a received point of a constellation of dimension 1 *)
Definition coord (r : list C) : C := nth 0 r (RtoC 0).
(* PAMConstellation.py 58-60 *)
Definition pam_points (M : nat) (delta : R) : list R := let peak := (INR M - 1) * delta / 2 in linspace (- peak) peak M.
(* 153-157 *)
Definition pam_closest (M : nat) (delta : R) (x : R) : nat := clip M (npround (x / delta + (INR M - 1) / 2)).
Definition PAMConstellation (M : nat) (delta : R) : constellation :=
  {| matrix := map (fun x => [RtoC x]) (pam_points M delta); order := M; dimension := 1; is_complex := false; mean0 := [RtoC 0];
     mean_energy0 := delta ^ 2 * (INR M ^ 2 - 1) / 12; minimum_distance := Some delta; closest := fun r => pam_closest M delta (fst (coord r)) |}.

(* exp(2j pi phi) *)
Definition rotation (phi : R) : C := cexp (2 * PI * phi).
(* QAMConstellation.py 92-98 *)
Definition qam_points (Mi Mq : nat) (di dq phi : R) : list C :=
  concat (map (fun x => map (fun y => Cmult (Cplus (RtoC x) (Cmult Ci (RtoC y))) (rotation phi)) (pam_points Mq dq)) (pam_points Mi di)).
(* 201-211 *)
Definition qam_axis (M : nat) (x : R) : nat := clip M (npround ((x + INR M - 1) / 2)).
Definition qam_closest (Mi Mq : nat) (di dq phi : R) (w : C) : nat :=
  let z := Cmult w (cexp (- (2 * PI * phi))) in
  let indices_i := qam_axis Mi (fst z / (di / 2)) in
  let indices_q := qam_axis Mq (snd z / (dq / 2)) in
  (Mq * indices_i + indices_q)%nat.
Definition QAMConstellation (Mi Mq : nat) (di dq phi : R) : constellation :=
  {| matrix := map (fun z => [z]) (qam_points Mi Mq di dq phi); order := (Mi * Mq)%nat; dimension := 1; is_complex := true; mean0 := [RtoC 0];
     mean_energy0 := di ^ 2 * (INR Mi ^ 2 - 1) / 12 + dq ^ 2 * (INR Mq ^ 2 - 1) / 12;
     minimum_distance := Some (Rmin di dq); closest := fun r => qam_closest Mi Mq di dq phi (coord r) |}.
(* 46-57: a single integer must be a perfect square *)
Definition QAMConstellation_square (M : nat) (delta phi : R) : option constellation :=
  if Nat.eqb (Nat.sqrt M * Nat.sqrt M) M then Some (QAMConstellation (Nat.sqrt M) (Nat.sqrt M) delta delta phi) else None.

(* ASKConstellation.py 72-76 *)
Definition ask_points (M : nat) (A phi : R) : list C := map (fun i => Cmult (RtoC (A * INR i)) (rotation phi)) (seq 0 M).
(* 167-171 *)
Definition ask_closest (M : nat) (A phi : R) (w : C) : nat := clip M (npround (fst (Cmult w (cexp (- (2 * PI * phi)))) / A)).
Definition ASKConstellation (M : nat) (A phi : R) : constellation :=
  {| matrix := map (fun z => [z]) (ask_points M A phi); order := M; dimension := 1; is_complex := true;
     mean0 := [Cmult (RtoC (1/2 * A * (INR M - 1))) (rotation phi)]; mean_energy0 := A ^ 2 * (INR M - 1) * (2 * INR M - 1) / 6;
     minimum_distance := Some A; closest := fun r => ask_closest M A phi (coord r) |}.

(* PSKConstellation.py 69-73 *)
Definition psk_points (M : nat) (A phi : R) : list C := map (fun i => Cmult (Cmult (RtoC A) (cexp (2 * PI * INR i / INR M))) (rotation phi)) (seq 0 M).
(* 163-166 *)
Definition psk_closest (M : nat) (phi : R) (w : C) : nat :=
  let turn := angle (Cmult w (cexp (- (2 * PI * phi)))) / (2 * PI) in
  Z.to_nat (npround (INR M * turn) mod Z.of_nat M).
Definition PSKConstellation (M : nat) (A phi : R) : constellation :=
  {| matrix := map (fun z => [z]) (psk_points M A phi); order := M; dimension := 1; is_complex := true; mean0 := [RtoC 0];
     mean_energy0 := A ^ 2; minimum_distance := Some (2 * A * sin (PI / INR M)); closest := fun r => psk_closest M phi (coord r) |}.

(* APSKConstellation.py 90-93, 108, 136, 151-152; a ring is (order, amplitude, phase offset) *)
Definition apsk_points (rings : list (nat * R * R)) : list C := concat (map (fun r => let '(M, A, phi) := r in psk_points M A phi) rings).
Definition APSKConstellation (rings : list (nat * R * R)) : constellation :=
  let m := map (fun z => [z]) (apsk_points rings) in
  let order := list_sum (map (fun r => fst (fst r)) rings) in
  {| matrix := m; order := order; dimension := 1; is_complex := true; mean0 := [RtoC 0];
     mean_energy0 := fold_right Rplus 0 (map (fun r => let '(M, A, _) := r in INR M * A ^ 2) rings) / INR order;
     minimum_distance := base_minimum_distance m; closest := base_closest m |}.

(* CrossQAMConstellation.py 92-99 *)
Definition cross_points (M : nat) (delta phi : R) : list C :=
  let k := Nat.log2 M in
  let L := (3 * 2 ^ ((k - 3) / 2))%nat in
  let threshold := INR (2 ^ ((k - 1) / 2)) * (delta / 2) in
  map (fun z => Cmult z (rotation phi))
    (filter (fun z : C => negb (Rltb threshold (Rabs (fst z)) && Rltb threshold (Rabs (snd z)))) (qam_points L L delta delta 0)).
(* 34-39: bit_length() - 1 = log2; order & (order - 1) = 0 *)
Definition CrossQAMConstellation (M : nat) (delta phi : R) : option constellation :=
  let k := Nat.log2 M in
  if (M <? 32)%nat || negb (Nat.eqb (Nat.land M (M - 1)) 0) || Nat.even k then None
  else let m := map (fun z => [z]) (cross_points M delta phi) in
  Some {| matrix := m; order := M; dimension := 1; is_complex := true; mean0 := [RtoC 0];
          mean_energy0 := delta ^ 2 * (31 * INR M - 32) / 192; minimum_distance := Some delta; closest := base_closest m |}.

(* OrthogonalConstellation.py 65-66, 102-104, 119-120, 135, 156-159 *)
Definition unit_vector (M : nat) (A : R) (i : nat) : list C := map (fun j => RtoC (if Nat.eqb i j then A else 0)) (seq 0 M).
Definition OrthogonalConstellation (M : nat) (A : R) : constellation :=
  {| matrix := map (unit_vector M A) (seq 0 M); order := M; dimension := M; is_complex := false; mean0 := map (fun _ => RtoC (A / INR M)) (seq 0 M);
     mean_energy0 := A ^ 2; minimum_distance := Some (A * sqrt 2); closest := fun r => argmax (map fst r) |}.
(* SimplexConstellation.py 65-66, 102-103, 118-120, 135-136, 154-157 *)
Definition simplex_vector (M : nat) (A : R) (i : nat) : list C := map (fun j => RtoC (A * ((if Nat.eqb i j then 1 else 0) - 1 / INR M))) (seq 0 M).
Definition SimplexConstellation (M : nat) (A : R) : constellation :=
  {| matrix := map (simplex_vector M A) (seq 0 M); order := M; dimension := M; is_complex := false; mean0 := map (fun _ => RtoC 0) (seq 0 M);
     mean_energy0 := A ^ 2 * (INR M - 1) / INR M; minimum_distance := Some (A * sqrt 2); closest := fun r => argmax (map fst r) |}.
(* BiorthogonalConstellation.py 46-47, 70-73, 109-110, 125-126, 148-149, 167-173 *)
Definition BiorthogonalConstellation (M : nat) (A : R) : option constellation :=
  if negb (Nat.eqb (M mod 2) 0) then None
  else let N := (M / 2)%nat in
  Some {| matrix := map (unit_vector N A) (seq 0 N) ++ map (unit_vector N (- A)) (seq 0 N); order := M; dimension := N; is_complex := false;
          mean0 := map (fun _ => RtoC 0) (seq 0 N); mean_energy0 := A ^ 2;
          minimum_distance := Some (if Nat.eqb M 2 then 2 * A else A * sqrt 2);
          closest := fun r => let x := map fst r in argmax (x ++ map Ropp x) |}.

(* base.py 119-121: fancy indexing raises for an index out of range (negative indices are not modelled) *)
Definition indices_to_symbols (K : constellation) (indices : list nat) : option (list C) :=
  if forallb (fun i => Nat.ltb i (length (matrix K))) indices then Some (concat (map (fun i => nth i (matrix K) []) indices)) else None.
(* base.py 50-58 and 138-142, PAMConstellation.py 153-157, ... on a flat sequence *)
Definition closest_indices (K : constellation) (received : list C) : option (list nat) :=
  if negb (Nat.eqb (length received mod dimension K) 0) then None else Some (map (closest K) (reshape (dimension K) received)).
(* base.py 155-158 *)
Definition closest_symbols (K : constellation) (received : list C) : option (list C) :=
  match closest_indices K received with None => None | Some idx => indices_to_symbols K idx end.

(* base.py 187-191 for one received point; a log-probability of None is -inf (numpy's log of a zero prior) *)
Definition posterior_row (K : constellation) (noise_power : R) (priors : list R) (r : list C) : list R :=
  let variance := if is_complex K then noise_power else 2 * noise_power in
  let logp := map (fun pd => if Rltb 0 (fst pd) then Some (- snd pd / variance + ln (fst pd)) else None) (combine priors (squared_distances (matrix K) r)) in
  let top := fold_right (fun x acc => match x, acc with None, _ => acc | Some _, None => x | Some a, Some b => Some (Rmax a b) end) None logp in
  let p := map (fun x => match x, top with Some a, Some t => exp (a - t) | _, _ => 0 end) logp in
  map (fun v => v / fold_right Rplus 0 p) p.
(* base.py 38-48: every prior non-negative, sum within numpy's isclose of 1, one per point *)
Definition valid_priors (K : constellation) (priors : list R) : bool :=
  forallb (Rleb 0) priors && Rleb (Rabs (fold_right Rplus 0 priors - 1)) (1 / 100000000 + 1 / 100000) && Nat.eqb (length priors) (order K).
(* base.py 182-192 *)
Definition posteriors (K : constellation) (received : list C) (noise_power : R) (priors : option (list R)) : option (list R) :=
  let priors := match priors with None => map (fun _ => 1 / INR (order K)) (seq 0 (order K)) | Some p => p end in
  if negb (valid_priors K priors) then None
  else if negb (Nat.eqb (length received mod dimension K) 0) then None
  else Some (concat (map (posterior_row K noise_power priors) (reshape (dimension K) received))).
