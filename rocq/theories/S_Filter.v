(** Specification vocabulary for FIR filtering and convolution (independent of the
    model: no definition of M_Filter.v is used). *)
From Coq Require Import Reals List Arith ZArith Bool.
From Verif Require Import Base.
Open Scope R_scope.

(** Filter output: sum_k theta_k x_{n-k}, the signal being continued into the past by its
    first value. *)
Definition fir_value (theta x : vec) (n : nat) : R :=
  rsum (alen theta) (fun k => theta k * (if (k <=? n)%nat then x (n - k)%nat else x 0%nat)).

(** The signal continued by [p] earlier samples equal to [h]. *)
Definition continued (p : nat) (h : R) (x : nat -> R) (i : nat) : R :=
  if (i <? p)%nat then h else x (i - p)%nat.

(** Stationary continuation of a covariance U (n x n) by [p] earlier samples: covariances
    that involve a new sample are those of the first sample at the same lag (0 when
    the lag exceeds the available n-1). *)
Definition stat_cont (n p : nat) (U : nat -> nat -> R) (i j : nat) : R :=
  if (p <=? i)%nat && (p <=? j)%nat then U (i - p)%nat (j - p)%nat
  else if (j <=? i)%nat
       then (if (i - j <? n)%nat then U (i - j)%nat 0%nat else 0)
       else (if (j - i <? n)%nat then U 0%nat (j - i)%nat else 0).

(** Filter output for one outcome: [th] the filter (m coefficients), [s] the continued
    signal (first m-1 entries are the past). *)
Definition fir_outcome (m : nat) (th s : nat -> R) (i : nat) : R :=
  rsum m (fun k => th k * s (i + (m - 1) - k)%nat).

(** Full discrete convolution of the first n1 / n2 entries of two sequences. *)
Definition full_conv (n1 n2 : nat) (x1 x2 : nat -> R) (k : nat) : R :=
  rsum n1 (fun i => rsum n2 (fun j => if (i + j =? k)%nat then x1 i * x2 j else 0)).

(** Input covariance described by sigma_noise (a type of user arguments shared with the
    model): white noise of standard deviation s; point-wise standard deviations v
    ("diag"); one-sided autocovariance v ("corr", zero beyond its length); full matrix. *)
From Coq Require Import String.
From Verif Require M_Filter.
Definition sig_cov (sn : M_Filter.noise) (kind : string) (i j : nat) : R :=
  match sn with
  | M_Filter.NsFloat s => if (i =? j)%nat then s * s else 0
  | M_Filter.NsVec v =>
      if String.eqb kind "diag" then (if (i =? j)%nat then v i * v i else 0)
      else let lag := (Nat.max i j - Nat.min i j)%nat in
           if (lag <? alen v)%nat then v lag else 0
  | M_Filter.NsMat m => m i j
  | _ => 0
  end.

(** Covariance of the filter coefficients described by Utheta. *)
Definition coeff_cov (u : M_Filter.cunc) (i j : nat) : R :=
  match u with
  | M_Filter.UtVec v => if (i =? j)%nat then v i * v i else 0
  | M_Filter.UtMat m => m i j
  | _ => 0
  end.

(** Shapes fit a signal of length n / a filter with N coefficients. *)
Definition noise_fits (n : nat) (sn : M_Filter.noise) (kind : string) : Prop :=
  match sn with
  | M_Filter.NsFloat _ => True
  | M_Filter.NsVec v => (kind = "diag"%string /\ alen v = n) \/ kind = "corr"%string
  | M_Filter.NsMat m => mrows m = n /\ mcols m = n
  | _ => False
  end.
Definition coeff_fits (N : nat) (u : M_Filter.cunc) : Prop :=
  match u with
  | M_Filter.UtNone => True
  | M_Filter.UtVec v => alen v = N
  | M_Filter.UtMat m => mrows m = N /\ mcols m = N
  | M_Filter.UtFloat _ => True
  end.

(** Coefficient uncertainty given as None or as a full matrix (N coefficients). *)
Definition coeff_matrix (N : nat) (u : M_Filter.cunc) : Prop :=
  match u with
  | M_Filter.UtNone => True
  | M_Filter.UtMat m => mrows m = N /\ mcols m = N
  | _ => False
  end.
(** Point-wise (or no) uncertainty of the signal / of the coefficients. *)
Definition noise_pointwise (n : nat) (sn : M_Filter.noise) (kind : string) : Prop :=
  match sn with
  | M_Filter.NsNone | M_Filter.NsFloat _ => True
  | M_Filter.NsVec v => kind = "diag"%string /\ alen v = n
  | _ => False
  end.
Definition coeff_pointwise (N : nat) (u : M_Filter.cunc) : Prop :=
  match u with
  | M_Filter.UtNone => True
  | M_Filter.UtVec v => alen v = N
  | _ => False
  end.
(** Signal uncertainty multiplied by c (standard uncertainties by |c|, covariances by c^2). *)
Definition scale_noise (c : R) (kind : string) (sn : M_Filter.noise) : M_Filter.noise :=
  match sn with
  | M_Filter.NsFloat s => M_Filter.NsFloat (Rabs c * s)
  | M_Filter.NsVec v =>
      if String.eqb kind "diag" then M_Filter.NsVec (mkArr (alen v) (fun i => Rabs c * v i))
      else M_Filter.NsVec (mkArr (alen v) (fun i => c * c * v i))
  | M_Filter.NsMat m => M_Filter.NsMat (mkMat (mrows m) (mcols m) (fun i j => c * c * m i j))
  | o => o
  end.
Definition scale_vec (c : R) (v : vec) : vec := mkArr (alen v) (fun i => c * v i).

(** Decision table of FIRuncFilter for arguments of fitting shape:
    None = accepted, Some e = exception e. *)
Definition fir_table (sn : M_Filter.noise) (u : M_Filter.cunc) (lowpass : bool)
           (kind : string) (full : bool) : option exn :=
  let pointwise_u := match u with M_Filter.UtMat _ => false | _ => true end in
  let matrix_u := match u with M_Filter.UtMat _ | M_Filter.UtNone => true | _ => false end in
  let simple := (negb full && negb lowpass && pointwise_u)%bool in
  let general := if matrix_u then None else Some ValueError in
  match sn with
  | M_Filter.NsNone => if simple then None else Some ValueError
  | M_Filter.NsFloat _ => if simple then None else general
  | M_Filter.NsVec _ =>
      if String.eqb kind "diag" then (if simple then None else general)
      else if String.eqb kind "corr" then general
      else Some ValueError
  | M_Filter.NsMat _ => general
  | M_Filter.NsNd => Some UnboundLocalError
  | M_Filter.NsOther => Some ValueError
  end.
(** Shapes that fit a signal of length n for the table above. *)
Definition noise_shape (n : nat) (sn : M_Filter.noise) (kind : string) : Prop :=
  match sn with
  | M_Filter.NsVec v => kind = "diag"%string -> alen v = n
  | M_Filter.NsMat m => mrows m = n /\ mcols m = n
  | _ => True
  end.
