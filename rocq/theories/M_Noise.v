(** Model of PyDynamic/misc/noise.py, PyDynamic/misc/testsignals.py and
    PyDynamic/misc/SecondOrderSystem.py (all lines below refer to those files).
    Exact reals instead of floats; random draws are arguments. *)
From Coq Require Import Reals String List Arith ZArith Bool Lia.
From Verif Require Import Base M_Interp Cplx.
Import ListNotations.
Open Scope R_scope.

(** * misc/noise.py *)

(** Argument color_value: str, float/int, anything else. *)
Inductive color := ColName (s : string) | ColNum (x : R) | ColOther.
Open Scope string_scope.
(** noise.py:25-26, table of colours. *)
Definition colors : list (string * R) :=
  [("violet", 2); ("blue", 1); ("white", 0); ("pink", - (1)); ("red", - (2)); ("brown", - (2))].
Close Scope string_scope.
Fixpoint lookup (s : string) (l : list (string * R)) : option R :=
  match l with
  | [] => None
  | (k, v) :: r => if String.eqb s k then Some v else lookup s r
  end.
(** noise.py:29-55, get_alpha (IOError is OSError in python 3). *)
Definition get_alpha (c : color) : res R :=
  match c with
  | ColName s => match lookup s colors with Some v => Ok v | None => Err NotImplementedError end
  | ColNum x => Ok x
  | ColOther => Err OSError
  end.

(** np.linspace(0, s, steps)[i] with s = steps (numpy: one point gives the start). *)
Definition linspace0 (steps i : nat) : R :=
  if (steps =? 1)%nat then 0 else INR i * (INR steps / INR (steps - 1)).
(** np.fft.rfft, real and imaginary part of bin k (documented definition of the real DFT). *)
Definition rfft_re (w : vec) (k : nat) : R :=
  rsum (alen w) (fun n => w n * cos (2 * PI * INR k * INR n / INR (alen w))).
Definition rfft_im (w : vec) (k : nat) : R :=
  rsum (alen w) (fun n => - (w n * sin (2 * PI * INR k * INR n / INR (alen w)))).
(** np.fft.irfft(X, L): the bins 0..L//2 are used and continued to a Hermitian spectrum;
    the imaginary parts of bin 0 and (L even) bin L/2 do not enter. *)
Definition irfft_at (L : nat) (re im : nat -> R) (n : nat) : R :=
  / INR L * (re 0%nat +
    rsum (L / 2) (fun j =>
      let k := S j in
      if (2 * k =? L)%nat then re k * cos (2 * PI * INR k * INR n / INR L)
      else 2 * (re k * cos (2 * PI * INR k * INR n / INR L)
                - im k * sin (2 * PI * INR k * INR n / INR L)))).

(** np.mean / np.std (population) of a vector. *)
Definition np_mean (v : vec) : R := rsum (alen v) v / INR (alen v).
Definition np_std (v : vec) : R :=
  sqrt (rsum (alen v) (fun i => (v i - np_mean v) ^ 2) / INR (alen v)).

(** noise.py:100-117: colouring of the white noise [w] with exponent alpha. *)
Definition coloured (w : vec) (alpha : R) : vec :=
  let N := alen w in
  let steps := (N / 2 + 1)%nat in
  let k := fun i => linspace0 steps i + 1 in
  let re := fun i => rfft_re w i * Rpower (k i) (alpha / 2) in
  let im := fun i => rfft_im w i * Rpower (k i) (alpha / 2) in
  mkArr N (irfft_at N re im).

(** noise.py:62-124, power_law_noise.  [N] None / Some; [w] None / Some; [draw n] is
    white_gaussian(n).  Without N and w a single number is drawn, rfft of which is an
    AxisError (the same happens to a w that is no ndarray, e.g. a list).
    rfft of an empty array is a ValueError.  Division by a zero standard deviation gives
    nan in numpy: [None] in the result. *)
Definition power_law_noise (draw : nat -> vec) (N : option nat) (w : option vec) (c : color)
           (mean std : R) : res (option vec) :=
  match N, w with
  | Some _, Some _ => Err UserWarning
  | _, _ =>
    let go := fun w0 : vec =>
      do alpha <- get_alpha c ;;
      if (alen w0 =? 0)%nat then Err ValueError
      else
        let f := coloured w0 alpha in
        if Req_EM_T (np_std f) 0 then Ok None
        else
          let m := np_mean f in
          let s := np_std f in
          Ok (Some (mkArr (alen f) (fun i => mean + std * ((f i - m) / s))))
    in
    match w with
    | Some w0 => go w0
    | None =>
        match N with
        | Some n => go (draw n)
        | None => do _ <- get_alpha c ;; Err AxisError
        end
    end
  end.

(** noise.py:127-150, power_law_acf.  irfft without length uses L = 2 (N - 1); L = 0 is a
    ValueError. *)
Definition power_law_acf (N : nat) (c : color) (std : R) : res vec :=
  do alpha <- get_alpha c ;;
  let L := (2 * (N - 1))%nat in
  if (L =? 0)%nat then Err ValueError
  else
    let S_ := fun i => Rpower (linspace0 N i + 1) alpha in
    let R_ := irfft_at L S_ (fun _ => 0) in
    Ok (mkArr (Nat.min N L) (fun i => std ^ 2 * R_ i / R_ 0%nat)).

(** Arguments phi, theta: float/int or list/ndarray. *)
Inductive coef := CoNum (x : R) | CoVec (v : vec).
Definition coef_vec (c : coef) : vec :=
  match c with CoNum x => of_list [x] | CoVec v => v end.
(** noise.py:199-203, one pass of the loop: e is the list of the values e[0..n-1]. *)
Definition arma_step (phi theta : vec) (w : nat -> R) (e : list R) (n : nat) : R :=
  let mp := Nat.min (alen phi) n in
  let mq := Nat.min (alen theta) n in
  rsum mp (fun i => phi i * nth (n - mp + i) e 0)
  + rsum mq (fun i => theta i * w (n - mq + i)%nat) + w n.
Fixpoint arma_run (phi theta : vec) (w : nat -> R) (n : nat) : list R :=
  match n with
  | O => []
  | S m => let e := arma_run phi theta w m in e ++ [arma_step phi theta w e m]
  end.
(** noise.py:153-205, ARMA; [w] is the drawn white noise (its length is [length]). *)
Definition ARMA (w : vec) (phi theta : coef) : vec :=
  let e := arma_run (coef_vec phi) (coef_vec theta) w (alen w) in
  mkArr (alen w) (fun i => nth i e 0).

(** * misc/testsignals.py *)

(** testsignals.py:35-63, shocklikeGaussian; [z] is randn(len(time)). *)
Definition shock_at (t0 m0 sigma t : R) : R :=
  - m0 * (t - t0) / sigma * exp (1 / 2) * exp (- (t - t0) ^ 2 / (2 * sigma ^ 2)).
Definition shocklikeGaussian (time : vec) (t0 m0 sigma noise : R) (z : vec) : vec :=
  mkArr (alen time) (fun i =>
    shock_at t0 m0 sigma (time i) + (if rltb 0 noise then z i * noise else 0)).

(** testsignals.py:66-91, GaussianPulse. *)
Definition pulse_at (t0 m0 sigma t : R) : R :=
  m0 * exp (- (t - t0) ^ 2 / (2 * sigma ^ 2)).
Definition GaussianPulse (time : vec) (t0 m0 sigma noise : R) (z : vec) : vec :=
  mkArr (alen time) (fun i =>
    pulse_at t0 m0 sigma (time i) + (if rltb 0 noise then z i * noise else 0)).

(** Argument noise of rect: float, ndarray, anything else (e.g. an int). *)
Inductive rnoise := RnFloat (s : R) | RnVec (v : vec) | RnOther.
(** testsignals.py:94-135, rect. *)
Definition rect (time : vec) (t0 t1 height : R) (noise : rnoise) (z : vec) : res vec :=
  let x := fun i =>
    let a := if rltb t0 (time i) then height else 0 in
    if rltb t1 (time i) then 0 else a in
  match noise with
  | RnFloat s =>
      if rltb 0 s then Ok (mkArr (alen time) (fun i => x i + z i * s))
      else Ok (mkArr (alen time) x)
  | RnVec v =>
      if (alen time =? alen v)%nat then Ok (mkArr (alen time) (fun i => x i + v i))
      else Err ValueError
  | RnOther => Err NotImplementedError
  end.

(** testsignals.py:138-163, squarepulse (time of dtype float; an empty time array fails
    at time[-1] with IndexError).  numpulse is a nonnegative int (a negative one gives a
    negative width and an empty loop). *)
Fixpoint square_loop (time : vec) (height width : R) (k : nat) : res vec :=
  match k with
  | O => Ok (mkArr (alen time) (fun _ => 0))
  | S j =>
      do x <- square_loop time height width j ;;
      do r <- rect time ((2 * INR j + 1) * width) ((2 * INR j + 2) * width) height (RnFloat 0) time ;;
      Ok (mkArr (alen time) (fun i => x i + r i))
  end.
Definition squarepulse (time : vec) (height : R) (numpulse : nat) (noise : R) (z : vec) : res vec :=
  if (alen time =? 0)%nat then Err IndexError
  else
    let width := (time (alen time - 1)%nat - time 0%nat) / (2 * INR numpulse + 1) in
    do x <- square_loop time height width numpulse ;;
    if rltb 0 noise then Ok (mkArr (alen time) (fun i => x i + z i * noise)) else Ok x.

(** testsignals.py:166-188, sine (freq = 0 is a ZeroDivisionError). *)
Definition sine (time : vec) (amp freq noise : R) (z : vec) : res vec :=
  if Req_EM_T freq 0 then Err ZeroDivisionError
  else Ok (mkArr (alen time) (fun i =>
    amp * sin (2 * PI / freq * time i) + (if rltb 0 noise then z i * noise else 0))).

(** testsignals.py:191-215, multi_sine (zip stops at the shorter list). *)
Definition multi_sine (time : vec) (amps freqs : list R) (noise : R) (z : vec) : vec :=
  mkArr (alen time) (fun i =>
    fold_left (fun acc af => acc + fst af * sin (snd af * time i)) (combine amps freqs) 0
    + z i * noise ^ 2).

(** scipy.special.comb(4, l) for l <= 4 (0 beyond). *)
Definition comb4 (l : nat) : R :=
  match l with O => 1 | 1%nat => 4 | 2%nat => 6 | 3%nat => 4 | 4%nat => 1 | _ => 0 end.
(** testsignals.py:242 and 262, Cw: Cw**2 (the square root is taken at 242, squared at 276). *)
Definition Cw2 (w : R) : R := rsum 5 (fun l => comb4 l ^ 2 * w ^ (2 * l)).
(** np.diff *)
Definition np_diff (n : nat) (f : nat -> R) (i : nat) : R := f (S i) - f i.
(** testsignals.py:226-244, corr_noise.calc_noise; [z] is randn(N + 4). *)
Definition calc_noise (w sigma : R) (N : nat) (z : nat -> R) : vec :=
  let d1 := np_diff (N + 4) (fun i => z i * w ^ 4) in
  let a1 := fun i => d1 i - 4 * z (i + 1)%nat * w ^ 3 in
  let a2 := fun i => np_diff (N + 3) a1 i + 6 * z (i + 2)%nat * w ^ 2 in
  let a3 := fun i => np_diff (N + 2) a2 i - 4 * z (i + 3)%nat * w in
  let noise := fun i => np_diff (N + 1) a3 i + z (i + 4)%nat in
  mkArr N (fun i => noise i * sigma / sqrt (Cw2 w)).

(** testsignals.py:246-263, calc_noise2: np.ceil yields a float, randn(float) raises. *)
Definition calc_noise2 (w sigma : R) (N : nat) : res vec := Err TypeError.

(** testsignals.py:271-286, calc_cov; [noise] None: no noise has been generated yet
    (self.noise does not exist). *)
Definition cw (w : R) (k : nat) : R :=
  if (4 <? k)%nat then 0
  else rsum (5 - k) (fun l => comb4 l * comb4 (k + l) * w ^ (k + 2 * l)) / sqrt (Cw2 w) ^ 2.
Definition calc_cov (w sigma : R) (noise : option vec) : res mat :=
  match noise with
  | None => Err AttributeError
  | Some v =>
      let N := alen v in
      let Sg := fun m n => if (m <=? n)%nat then sigma ^ 2 * cw w (n - m) else 0 in
      Ok (mkMat N N (fun i j => Sg i j + Sg j i - (if (i =? j)%nat then Sg i i else 0)))
  end.

(** * misc/SecondOrderSystem.py *)

(** SecondOrderSystem.py:62-68, one value of sos_FreqResp (None: the denominator is 0,
    numpy gives inf or nan).  The array branch computes rho * (...)**(-1) entry by entry. *)
Definition sos_den (d om0 w : R) : C := (om0 ^ 2 - w ^ 2, 2 * d * om0 * w).
Definition sos_scalar (S_ d f0 f : R) : option C :=
  let om0 := 2 * PI * f0 in
  let rho := S_ * om0 ^ 2 in
  let w := 2 * PI * f in
  let den := sos_den d om0 w in
  if Req_EM_T (cnorm2 den) 0 then None else Some (cdiv (RtoC rho) den).
Definition sos_entry (S_ d f0 f : R) : option C :=
  let om0 := 2 * PI * f0 in
  let rho := S_ * om0 ^ 2 in
  let w := 2 * PI * f in
  let den := cadd (RtoC (om0 ^ 2)) (csub (cmul (0, 2) (RtoC (d * om0 * w))) (RtoC (w ^ 2))) in
  if Req_EM_T (cnorm2 den) 0 then None else Some (cmul (RtoC rho) (cinv den)).
(** SecondOrderSystem.py:26-70, sos_FreqResp: float parameters / arrays of length K (all
    three of one shape; other shapes fail to broadcast or are scalars for d, f0, which is
    not modelled). *)
Definition sos_FreqResp (S_ d f0 : R) (freqs : vec) : arr (option C) :=
  mkArr (alen freqs) (fun i => sos_scalar S_ d f0 (freqs i)).
Definition sos_FreqResp_arr (S_ d f0 freqs : vec) (i k : nat) : option C :=
  sos_entry (S_ k) (d k) (f0 k) (freqs i).
(** SecondOrderSystem.py:73-102, sos_phys2filter. *)
Definition sos_phys2filter (S_ d f0 : R) : list R * list R :=
  ([S_ * (2 * PI * f0) ^ 2], [1; 2 * d * 2 * PI * f0; (2 * PI * f0) ^ 2]).
Definition sos_phys2filter_arr (S_ d f0 : vec) (k : nat) : list R * list R :=
  ([S_ k * (2 * PI * f0 k) ^ 2], [1; 4 * d k * PI * f0 k; (2 * PI * f0 k) ^ 2]).
(** SecondOrderSystem.py:105-150, sos_realimag: draws (runs values each) of S, d and f0;
    mean over the runs and np.cov of the stacked real and imaginary parts (rows are
    variables; one run: nan, [None]). *)
Definition sos_draw (x u : R) (z : vec) : vec := mkArr (alen z) (fun k => x + z k * u).
Definition sos_realimag (S_ d f0 uS ud uf0 : R) (f : vec) (runs : nat) (zS zd zf : vec)
  : option (arr C * mat) :=
  let SMC := sos_draw S_ uS zS in
  let dMC := sos_draw d ud zd in
  let fMC := sos_draw f0 uf0 zf in
  let H := fun i k => match sos_entry (SMC k) (dMC k) (fMC k) (f i) with Some h => h | None => C0 end in
  let bad := existsb (fun i => existsb (fun k =>
               match sos_entry (SMC k) (dMC k) (fMC k) (f i) with Some _ => false | None => true end)
               (seq 0 runs)) (seq 0 (alen f)) in
  if (bad || (runs <=? 1)%nat)%bool then None
  else
    let n := alen f in
    let row := fun i k => if (i <? n)%nat then fst (H i k) else snd (H (i - n)%nat k) in
    let mu := fun i => rsum runs (row i) / INR runs in
    Some (mkArr n (fun i => (rsum runs (fun k => fst (H i k)) / INR runs,
                             rsum runs (fun k => snd (H i k)) / INR runs)),
          mkMat (2 * n) (2 * n) (fun i j =>
            rsum runs (fun k => (row i k - mu i) * (row j k - mu j)) / INR (runs - 1))).
