(** Model of PyDynamic/misc/testsignals.py:282-286 corr_noise.calc_psd(noise, Fs) without
    further keyword arguments. *)
From Coq Require Import Reals List Arith Bool.
From Verif Require Import Base.
Import ListNotations.
Open Scope R_scope.

(** scipy.signal.periodogram(x, fs) with default arguments (scipy 1.5.4, signal/spectral.py:
    window "boxcar", detrend "constant", one-sided, scaling "density") for a real vector x:
    an empty vector is returned as it is; otherwise one segment of n = len(x) samples
    without its mean; numpy.fft.rfft; |X_k|^2 / (fs n), all lines but the first and, for
    even n, the last one doubled; the frequencies rfftfreq(n, 1/fs) are k / (n / fs).
    fs = 0 (a Python number) is a division by zero. *)
Definition detrended (x : vec) (i : nat) : R := x i - rsum (alen x) x / INR (alen x).
Definition rfft_re (n : nat) (s : nat -> R) (k : nat) : R :=
  rsum n (fun m => s m * cos (2 * PI * INR k * INR m / INR n)).
Definition rfft_im (n : nat) (s : nat -> R) (k : nat) : R :=
  - rsum n (fun m => s m * sin (2 * PI * INR k * INR m / INR n)).
Definition doubled (n k : nat) : bool :=
  if (n mod 2 =? 1)%nat then (1 <=? k)%nat else ((1 <=? k) && (k <? n / 2))%nat.
Definition periodogram (x : vec) (fs : R) : res (vec * vec) :=
  let n := alen x in
  if (n =? 0)%nat then Ok (x, x)
  else if Req_EM_T fs 0 then Err ZeroDivisionError
  else
    let scale := 1 / (fs * INR n) in
    let re := rfft_re n (detrended x) in
    let im := rfft_im n (detrended x) in
    Ok (mkArr (n / 2 + 1) (fun k => INR k / (INR n * (1 / fs))),
        mkArr (n / 2 + 1) (fun k => (if doubled n k then 2 else 1) * (scale * (re k * re k + im k * im k)))).

(** The argument noise: an array, or anything else (None, a list, ...). *)
Inductive psd_arg := PsdArray (v : vec) | PsdOther.
(** calc_psd; [noise] is the attribute set by calc_noise or calc_noise2 (None: neither was
    called).  283 isinstance(noise, np.ndarray); 286 everything else is ignored. *)
Definition calc_psd (noise : option vec) (arg : psd_arg) (fs : R) : res (vec * vec) :=
  match arg with
  | PsdArray v => periodogram v fs
  | PsdOther => match noise with
                | Some v => periodogram v fs
                | None => Err AttributeError
                end
  end.
