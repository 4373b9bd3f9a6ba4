(** Spec vocabulary for fits: least squares, linear systems, singular values,
    misfits of filters, second order systems.  No model definition is used. *)
From Coq Require Import Reals List Arith ZArith Permutation Sorted.
From Verif Require Import Base Cplx S_Poly.
Import ListNotations.
Open Scope R_scope.

(** Row i of the product A c. *)
Definition mv (A : mat) (c : nat -> R) (i : nat) : R := rsum (mcols A) (fun j => A i j * c j).
Definition sqdist (m : nat) (x y : nat -> R) : R := rsum m (fun i => (x i - y i) ^ 2).

(** c minimises |A c - y|. *)
Definition least_squares (A : mat) (y c : vec) : Prop :=
  alen c = mcols A /\
  forall c' : nat -> R, sqdist (mrows A) (mv A c) y <= sqdist (mrows A) (mv A c') y.
(** A least squares solver without rounding errors. *)
Definition exact_lstsq (lstsq : mat -> vec -> vec) : Prop :=
  forall A y, mrows A = alen y -> least_squares A y (lstsq A y).

(** The columns of A are linearly independent. *)
Definition indep_cols (A : mat) : Prop :=
  forall c : nat -> R, (forall i, (i < mrows A)%nat -> mv A c i = 0) ->
  forall j, (j < mcols A)%nat -> c j = 0.
Definition regular (A : mat) : Prop := mrows A = mcols A /\ indep_cols A.
(** A solver of regular linear systems without rounding errors. *)
Definition exact_solve (solve : mat -> vec -> res vec) : Prop :=
  forall A y, regular A -> mrows A = alen y ->
  exists x, solve A y = Ok x /\ alen x = mcols A /\ forall i, (i < alen y)%nat -> mv A x i = y i.
(** Matrix inversion without rounding errors. *)
Definition exact_inv (inv : mat -> res mat) : Prop :=
  forall A, regular A ->
  exists B, inv A = Ok B /\ mrows B = mcols A /\ mcols B = mrows A /\
    forall i j, (i < mrows A)%nat -> (j < mrows A)%nat ->
      rsum (mcols A) (fun k => A i k * B k j) = if (i =? j)%nat then 1 else 0.

Definition kron (i j : nat) : R := if (i =? j)%nat then 1 else 0.
(** X = u diag(s) v with orthonormal columns of u, orthonormal rows of v and
    s >= 0. *)
Definition is_svd (X u : mat) (s : vec) (v : mat) : Prop :=
  mrows u = mrows X /\ mcols u = alen s /\ mrows v = alen s /\ mcols v = mcols X /\
  (forall k, (k < alen s)%nat -> 0 <= s k) /\
  (forall i j, (i < mrows X)%nat -> (j < mcols X)%nat ->
     rsum (alen s) (fun k => u i k * s k * v k j) = X i j) /\
  (forall k l, (k < alen s)%nat -> (l < alen s)%nat ->
     rsum (mrows X) (fun i => u i k * u i l) = kron k l) /\
  (forall k l, (k < alen s)%nat -> (l < alen s)%nat ->
     rsum (mcols X) (fun j => v k j * v l j) = kron k l).

(** Angular frequency (rad/sample) *)
Definition radf (f : vec) (Fs : R) (i : nat) : R := 2 * PI * f i / Fs.

(** Sum of the squared deviations of the frequency response of the FIR filter c
    from the targets t. *)
Definition fir_misfit (f : vec) (Fs : R) (t : nat -> C) (c : vec) : R :=
  rsum (alen f) (fun i => cnorm2 (csub (freq_resp c (radf f Fs i)) (t i))).
(** The same with a weight for each response value. *)
Definition fir_wmisfit (f : vec) (Fs : R) (wt : nat -> R) (t : nat -> C) (c : vec) : R :=
  rsum (alen f) (fun i => cnorm2 (csub (cscal (wt i) (freq_resp c (radf f Fs i))) (t i))).
(** Equation error of the filter (b, a). *)
Definition iir_misfit (f : vec) (Fs : R) (t : nat -> C) (b a : vec) : R :=
  rsum (alen f) (fun i => cnorm2 (csub (cmul (t i) (freq_resp a (radf f Fs i)))
                                       (freq_resp b (radf f Fs i)))).

(** The frequencies tell FIR filters of length L apart. *)
Definition determines (f : vec) (Fs : R) (L : nat) : Prop :=
  forall c : vec, alen c = L -> (forall i, (i < alen f)%nat -> freq_resp c (radf f Fs i) = C0) ->
  forall j, (j < L)%nat -> c j = 0.
(** Distinct frequencies strictly between 0 and half the sampling rate. *)
Definition interior_distinct (f : vec) (Fs : R) : Prop :=
  (forall i, (i < alen f)%nat -> 0 < f i < Fs / 2) /\
  forall i j, (i < alen f)%nat -> (j < alen f)%nat -> i <> j -> f i <> f j.

(** h is the response at frequency f of the second order system with static gain
    S0, damping delta and resonance frequency f0. *)
Definition som_response (S0 delta f0 f : R) (h : C) : Prop :=
  cmul h (1 - (f / f0) ^ 2, 2 * delta * (f / f0)) = RtoC S0.

(** X has the rows cos(w_i n), n < L, followed by the rows -sin(w_i n). *)
Definition fir_design_matrix (f : vec) (Fs : R) (L : nat) (X : mat) : Prop :=
  mrows X = (alen f + alen f)%nat /\ mcols X = L /\
  forall i n, (i < alen f)%nat -> (n < L)%nat ->
    X i n = cos (radf f Fs i * INR n) /\ X (alen f + i)%nat n = - sin (radf f Fs i * INR n).
(** [svd] decomposes the design matrix for f, Fs and L coefficients exactly. *)
Definition svd_for (svd : mat -> mat * vec * mat) (f : vec) (Fs : R) (L : nat) : Prop :=
  forall X, fir_design_matrix f Fs L X ->
    is_svd X (fst (fst (svd X))) (snd (fst (svd X))) (snd (svd X)).

(** Complex response i of a row of real parts followed by imaginary parts. *)
Definition resp (m : nat) (row : vec) (i : nat) : C := (row i, row (m + i)%nat).

(** Both forms of the input: complex values, or real parts followed by imaginary
    parts (given as complex numbers without imaginary part). *)
Definition response_form (H : arr C) (UH : mat) (f : vec) (Hc : nat -> C) : Prop :=
  mrows UH = (alen f + alen f)%nat /\ mcols UH = (alen f + alen f)%nat /\ (0 < alen f)%nat /\
  ((alen H = alen f /\ forall i, (i < alen f)%nat -> Hc i = H i) \/
   (alen H = (alen f + alen f)%nat /\
    forall i, (i < alen f)%nat -> Hc i = (fst (H i), fst (H (alen f + i)%nat)))).

(** ** IIR fits *)

(** H exp(-i w tau) or exp(-i w tau)/H: t is the response to be fitted. *)
Definition iir_target (inv : bool) (H : nat -> C) (f : vec) (Fs tau : R) (t : nat -> C) : Prop :=
  forall i, (i < alen f)%nat ->
    if inv then cmul (H i) (t i) = cis (- (radf f Fs i * tau))
    else t i = cmul (H i) (cis (- (radf f Fs i * tau))).
(** (b, a) is a least squares fit (equation error) with orders Nb and Na, a_0 = 1,
    to the responses t. *)
Definition iir_fits (f : vec) (Fs : R) (t : nat -> C) (Nb Na : nat) (b a : vec) : Prop :=
  alen b = S Nb /\ alen a = S Na /\ a 0%nat = 1 /\
  forall b' a' : vec, alen b' = S Nb -> alen a' = S Na -> a' 0%nat = 1 ->
    iir_misfit f Fs t b a <= iir_misfit f Fs t b' a'.
(** At most one filter of these orders has the responses t. *)
Definition iir_determines (f : vec) (Fs : R) (t : nat -> C) (Nb Na : nat) : Prop :=
  forall b a : vec, alen b = S Nb -> alen a = S Na -> a 0%nat = 0 ->
    (forall i, (i < alen f)%nat -> cmul (t i) (freq_resp a (radf f Fs i)) = freq_resp b (radf f Fs i)) ->
    (forall j, (j < S Nb)%nat -> b j = 0) /\ (forall j, (j < S Na)%nat -> a j = 0).

(** y is the smallest integer >= x. *)
Definition is_ceil (x y : R) : Prop := (exists z : Z, y = IZR z) /\ x <= y < x + 1.
(** y is x without its fractional part. *)
Definition is_trunc (x y : R) : Prop := (exists z : Z, y = IZR z) /\ 0 <= x * y /\ Rabs y <= Rabs x < Rabs y + 1.
(** m is the median of the values of v: the middle value, or the mean of the two
    middle values, in sorted order. *)
Definition is_median (v : vec) (m : R) : Prop :=
  exists s : list R, Permutation (map v (seq 0 (alen v))) s /\ Sorted Rle s /\
    m = (nth ((alen v - 1) / 2) s 0 + nth (alen v / 2) s 0) / 2.
