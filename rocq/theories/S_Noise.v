(** Specification vocabulary for noise generators, test signals and second order systems
    (no model definition is used). *)
From Coq Require Import Reals List Arith.
From Verif Require Import Base Cplx.
Import ListNotations.
Open Scope R_scope.

(** ARMA(p, q) recursion: sum over the lags 1..p and 1..q, terms before the start omitted. *)
Definition arma_recursion (phi theta : vec) (w e : nat -> R) (n : nat) : Prop :=
  e n = w n
        + rsum (alen phi) (fun j => if (S j <=? n)%nat then phi j * e (n - S j)%nat else 0)
        + rsum (alen theta) (fun j => if (S j <=? n)%nat then theta j * w (n - S j)%nat else 0).
(** The same coefficients in reversed order. *)
Definition reversed (v : vec) : vec := mkArr (alen v) (fun i => v (alen v - 1 - i)%nat).

(** Empirical mean and standard deviation (of the population of the n values). *)
Definition has_emp_mean (n : nat) (y : nat -> R) (m : R) : Prop := rsum n y / INR n = m.
Definition has_emp_std (n : nat) (y : nat -> R) (s : R) : Prop :=
  sqrt (rsum n (fun i => (y i - rsum n y / INR n) ^ 2) / INR n) = s.
Definition constant (n : nat) (w : nat -> R) : Prop :=
  forall i j, (i < n)%nat -> (j < n)%nat -> w i = w j.
(** Bin k of the DFT of n samples. *)
Definition dft_bin (n : nat) (y : nat -> R) (k : nat) : C :=
  csum n (fun m => cscal (y m) (cis (- (2 * PI * INR k * INR m / INR n)))).

(** Signal height on (t0, t1], zero elsewhere. *)
Definition is_rect (t0 t1 height t x : R) : Prop :=
  (t0 < t <= t1 -> x = height) /\ (~ (t0 < t <= t1) -> x = 0).
(** n pulses of equal width, separated by pauses of that width, in [ta, tb]. *)
Definition in_pulse (ta tb : R) (n : nat) (t : R) : Prop :=
  exists k, (k < n)%nat /\
    let w := (tb - ta) / (2 * INR n + 1) in
    ta + (2 * INR k + 1) * w < t <= ta + (2 * INR k + 2) * w.
Definition is_pulse_train (ta tb : R) (n : nat) (height t x : R) : Prop :=
  (in_pulse ta tb n t -> x = height) /\ (~ in_pulse ta tb n t -> x = 0).

(** Moving average of order 4 with coefficients c: sum_l c_l z(n+l). *)
Definition moving_average (c : nat -> R) (z : nat -> R) (n : nat) : R :=
  rsum 5 (fun l => c l * z (n + l)%nat).
(** Binomial coefficients of order 4. *)
Definition binom4 (l : nat) : R := nth l [1; 4; 6; 4; 1] 0.
(** Sum of squares of the coefficients binom(4,l) w^l (the variance of their moving
    average of white noise). *)
Definition ma_energy (w : R) : R := rsum 5 (fun l => (binom4 l * w ^ l) ^ 2).
(** Kronecker delta *)
Definition delta (i j : nat) : R := if (i =? j)%nat then 1 else 0.

(** h is the value of the rational function B/A (real coefficients, highest power first) at s *)
Definition response_at (b a : list R) (s h : C) : Prop :=
  horner s (map RtoC a) <> C0 /\ cmul h (horner s (map RtoC a)) = horner s (map RtoC b).

(** h is the response at frequency f of the second order system with static gain S, damping
    d and resonance frequency f0: h (w0^2 + 2 i d w0 w - w^2) = S w0^2 with w = 2 pi f and
    w0 = 2 pi f0. *)
Definition second_order (S_ d f0 f : R) (h : C) : Prop :=
  let w0 := 2 * PI * f0 in
  let w := 2 * PI * f in
  (w0 ^ 2 - w ^ 2, 2 * d * w0 * w) <> C0 /\ cmul h (w0 ^ 2 - w ^ 2, 2 * d * w0 * w) = (S_ * w0 ^ 2, 0).
