(** Specification vocabulary for the discrete Fourier transform and for amplitude / phase.
    Only argument types are shared with the model (M_DFT.sunc). *)
From Coq Require Import Reals Arith ZArith List.
From Verif Require Import Base Stats.
From Verif Require M_DFT.
Open Scope R_scope.

(** A complex vector of h lines is stored as h real parts followed by h imaginary parts.
    Coefficient of sample n in entry i of the DFT of length N (exp(-2 pi i k n / N)). *)
Definition dft_coeff (N h i n : nat) : R :=
  if (i <? h)%nat then cos (2 * PI * INR i * INR n / INR N)
  else - sin (2 * PI * INR (i - h) * INR n / INR N).
(** Entry i of the DFT (length N, zero padded) of the first L samples of s. *)
Definition dft_map (N h L : nat) (s : nat -> R) (i : nat) : R :=
  rsum L (fun n => dft_coeff N h i n * s n).

(** Inverse DFT of length N (even) of the half spectrum s (N/2+1 lines): the other
    lines are the complex conjugates; real part of 1/N sum_k S_k exp(2 pi i k n / N). *)
Definition spec_re (N : nat) (s : nat -> R) (k : nat) : R :=
  if (k <=? N / 2)%nat then s k else s (N - k)%nat.
Definition spec_im (N : nat) (s : nat -> R) (k : nat) : R :=
  let h := (N / 2 + 1)%nat in
  if (k <=? N / 2)%nat then s (h + k)%nat else - s (h + (N - k))%nat.
Definition idft_map (N : nat) (s : nat -> R) (n : nat) : R :=
  rsum N (fun k => spec_re N s k * cos (2 * PI * INR k * INR n / INR N)
                 - spec_im N s k * sin (2 * PI * INR k * INR n / INR N)) / INR N.

(** Covariance described by a scalar variance, a vector of variances or a matrix. *)
Definition sig_U (u : M_DFT.sunc) (i j : nat) : R :=
  match u with
  | M_DFT.SuFloat c => if (i =? j)%nat then c else 0
  | M_DFT.SuVec v => if (i =? j)%nat then v i else 0
  | M_DFT.SuMat m => m i j
  end.
Definition sig_fits (L : nat) (u : M_DFT.sunc) : Prop :=
  match u with
  | M_DFT.SuFloat _ => True
  | M_DFT.SuVec v => alen v = L
  | M_DFT.SuMat m => mrows m = L /\ mcols m = L
  end.
(** Window weights (1 without window) and admissible windows: same length as the signal,
    and no window together with a vector of variances. *)
Definition win (w : option vec) (n : nat) : R := match w with Some v => v n | None => 1 end.
Definition win_fits (L : nat) (u : M_DFT.sunc) (w : option vec) : Prop :=
  match w with
  | None => True
  | Some v => alen v = L /\ match u with M_DFT.SuVec _ => False | _ => True end
  end.
(** Transform length: the padded length N if given, else the signal length. *)
Definition dft_len (L : nat) (N : option Z) : nat :=
  match N with Some z => Z.to_nat z | None => L end.

(** Admissible padded length, mask and number of returned samples. *)
Definition pad_fits (L : nat) (N : option Z) : Prop :=
  match N with Some z => (Z.of_nat L <= z)%Z | None => True end.
Definition mask_fits (n : nat) (mask : option (arr bool)) : Prop :=
  match mask with Some m => alen m = (n / 2 + 1)%nat | None => True end.
Definition nx_fits (N : nat) (Nx : option nat) (nx : nat) : Prop :=
  match Nx with None => nx = N | Some v => nx = v /\ (v <= N)%nat end.
(** Entry i of a vector that lists the real parts, then the imaginary parts, of the lines
    idx only: its position in the full vector of H lines. *)
Definition row (H : nat) (idx : list nat) (i : nat) : nat :=
  if (i <? length idx)%nat then nth i idx 0%nat else (H + nth (i - length idx) idx 0)%nat.

(** Covariance of real/imaginary (or amplitude/phase) parts as dense function. *)
Definition fun_U (u : M_DFT.funcert) (i j : nat) : R :=
  match u with
  | M_DFT.FuVec v => if (i =? j)%nat then v i else 0
  | M_DFT.FuMat m => m i j
  end.
Definition fun_fits (n : nat) (u : M_DFT.funcert) : Prop :=
  match u with
  | M_DFT.FuVec v => alen v = n
  | M_DFT.FuMat m => mrows m = n /\ mcols m = n
  end.
Definition ap_U (u : M_DFT.apunc) (i j : nat) : R :=
  match u with
  | M_DFT.ApVec v => if (i =? j)%nat then v i else 0
  | M_DFT.ApMat m => m i j
  | M_DFT.ApDia d => M_DFT.dia_toarray d i j
  end.
Definition ap_fits (n : nat) (u : M_DFT.apunc) : Prop :=
  match u with
  | M_DFT.ApVec v => alen v = n
  | M_DFT.ApMat m => mrows m = n /\ mcols m = n
  | M_DFT.ApDia d => (2 * M_DFT.dia_half d = n)%nat
  end.
Definition dense (u : M_DFT.cunc2) (i j : nat) : R :=
  match u with M_DFT.UDense m => m i j | M_DFT.USparse d => M_DFT.dia_toarray d i j end.
Definition dense_shape (n : nat) (u : M_DFT.cunc2) : Prop :=
  match u with
  | M_DFT.UDense m => mrows m = n /\ mcols m = n
  | M_DFT.USparse d => (2 * M_DFT.dia_half d = n)%nat
  end.

(** Amplitude and argument.  [arg p x y] is the branch of the argument of x+iy that is
    continuous around the direction p (p = 0: principal value off the negative real
    axis): p + 2 atan(y' / (r + x')) in the frame rotated by -p. *)
Definition amp (x y : R) : R := sqrt (x * x + y * y).
Definition arg (p x y : R) : R :=
  let x' := x * cos p + y * sin p in
  let y' := y * cos p - x * sin p in
  p + 2 * atan (y' / (amp x y + x')).
(** x+iy does not point into the direction opposite to p. *)
Definition off_cut (p x y : R) : Prop := 0 < amp x y + (x * cos p + y * sin p).

(** (real, imaginary) -> (amplitude, phase), line by line; branch p k for line k. *)
Definition to_amp_phase (h : nat) (p : nat -> R) (s : nat -> R) (i : nat) : R :=
  if (i <? h)%nat then amp (s i) (s (h + i)%nat)
  else arg (p (i - h)%nat) (s (i - h)%nat) (s i).
(** (amplitude, phase) -> (real, imaginary). *)
Definition to_real_imag (h : nat) (s : nat -> R) (i : nat) : R :=
  if (i <? h)%nat then s i * cos (s (h + i)%nat) else s (i - h)%nat * sin (s i).

(** Line-wise complex product and quotient of stacked vectors. *)
Definition cmul_map (h : nat) (a b : nat -> R) (i : nat) : R :=
  if (i <? h)%nat then a i * b i - a (h + i)%nat * b (h + i)%nat
  else a (i - h)%nat * b i + a i * b (i - h)%nat.
(** q is the quotient a / b: b * q = a, line by line. *)
Definition is_quot (h : nat) (a b q : nat -> R) : Prop :=
  forall i, (i < 2 * h)%nat -> cmul_map h b q i = a i.
Definition cdiv_map (h : nat) (a b : nat -> R) (i : nat) : R :=
  if (i <? h)%nat
  then (a i * b i + a (h + i)%nat * b (h + i)%nat) / (b i * b i + b (h + i)%nat * b (h + i)%nat)
  else (a i * b (i - h)%nat - a (i - h)%nat * b i) / (b (i - h)%nat * b (i - h)%nat + b i * b i).

(** The stacked vector (A, P). *)
Definition stk (A P : vec) (i : nat) : R :=
  if (i <? alen A)%nat then A i else P (i - alen A)%nat.

(** Optional full covariance (absent: exactly known). *)
Definition opt_U (u : option M_DFT.sunc) (i j : nat) : R :=
  match u with Some (M_DFT.SuMat m) => m i j | _ => 0 end.
Definition opt_full (n : nat) (u : option M_DFT.sunc) : Prop :=
  match u with None => True | Some (M_DFT.SuMat m) => mrows m = n /\ mcols m = n | _ => False end.
