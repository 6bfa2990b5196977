(** /repo/src/komm/_util/signal_processing.py 204-209: fourier_transform, with the numpy functions it calls.
    Real numbers instead of floating point; time_step <> 0 (the code divides by it). *)
From Coq Require Import Reals.
From Coquelicot Require Import Complex.
From Verif Require Import Common Corr_Model Array_Model SignalNd_Model.
Local Open Scope nat_scope.

(** numpy.fft.fft of one line with [n] points: the line is cropped or zero-padded to [n] samples *)
Definition fft_line (n : nat) (x : list C) : list C :=
  map (fun k => fold_right Cplus (RtoC 0)
                  (map (fun m => Cmult (nth m x (RtoC 0)) (cexp (- (2 * PI * INR k * INR m / INR n)))) (seq 0 n)))
      (seq 0 n).
(** numpy.fft.fftfreq: the integers 0, ..., (n-1)//2, -(n//2), ..., -1 times 1/(n d) *)
Definition fftfreq (n : nat) (d : R) : list R :=
  map (fun k => (k * (1 / (INR n * d)))%R)
      (map INR (seq 0 ((n - 1) / 2 + 1)) ++ map (fun i => (INR i - INR (n / 2))%R) (seq 0 (n / 2))).
(** numpy.fft.fftshift of one line: numpy.roll by half its length *)
Definition fftshift (T : dtype) (x : list T) : list T := roll T x (Z.of_nat (length x / 2)).

(** signal_processing.py 204-209; nfft = 0 counts as "not given"; fewer than 1 point is a ValueError *)
Definition fourier_transform (waveform : array C) (time_step : R) (nfft : option Z) (axis : Z) : option (array C * list R) :=
  match norm_axis (length (shape waveform)) axis with
  | None => None
  | Some ax =>
      let n := match nfft with
               | None | Some 0%Z => Z.of_nat (nth ax (shape waveform) 0)
               | Some k => k
               end in
      if (n <? 1)%Z then None
      else
        let n := Z.to_nat n in
        let spectrum := along (RtoC 0) (RtoC 0) (fft_line n) n ax waveform in
        let spectrum := along (RtoC 0) (RtoC 0) (fftshift complex_dtype) n ax spectrum in
        let spectrum := Arr (shape spectrum) (map (fun z => Cmult z (RtoC time_step)) (data spectrum)) in
        Some (spectrum, fftshift real_dtype (fftfreq n time_step))
  end.
