(** Specification vocabulary: order of covariance matrices, exactly known quantities, delayed and
    superposed signals (no definition of the model is used). *)
From Coq Require Import Reals List Arith ZArith Bool.
From Verif Require Import Base Stats S_Filter.
Open Scope R_scope.

(** The covariance [V] is at least the covariance [U] (on the indices below [n]): no linear
    combination has a larger variance under [U] than under [V]. *)
Definition at_most (n : nat) (U V : nat -> nat -> R) : Prop := psd n (fun i j => V i j - U i j).

(** No uncertainty at all on the indices below [n]. *)
Definition all_zero (n : nat) (U : nat -> nat -> R) : Prop :=
  forall i j, (i < n)%nat -> (j < n)%nat -> U i j = 0.

(** The signal preceded by [p] samples equal to its first one. *)
Definition delayed (p : nat) (y : vec) : vec := mkArr (p + alen y) (continued p (y 0%nat) y).

(** a x + b y, entry by entry. *)
Definition superposed (a : R) (x : vec) (b : R) (y : vec) : vec :=
  mkArr (alen x) (fun i => a * x i + b * y i).

(** The uncertainty of a signal given in other units (x -> c x): variances and covariances are
    multiplied by c^2. *)
From Verif Require M_DFT.
Definition rescaled (c : R) (x : vec) : vec := mkArr (alen x) (fun i => c * x i).
Definition rescaled_sig (c : R) (u : M_DFT.sunc) : M_DFT.sunc :=
  match u with
  | M_DFT.SuFloat s => M_DFT.SuFloat (c ^ 2 * s)
  | M_DFT.SuVec v => M_DFT.SuVec (mkArr (alen v) (fun i => c ^ 2 * v i))
  | M_DFT.SuMat m => M_DFT.SuMat (mkMat (mrows m) (mcols m) (fun i j => c ^ 2 * m i j))
  end.
Definition rescaled_fun (c : R) (u : M_DFT.funcert) : M_DFT.funcert :=
  match u with
  | M_DFT.FuVec v => M_DFT.FuVec (mkArr (alen v) (fun i => c ^ 2 * v i))
  | M_DFT.FuMat m => M_DFT.FuMat (mkMat (mrows m) (mcols m) (fun i j => c ^ 2 * m i j))
  end.
Definition rescaled_ap (c : R) (u : M_DFT.apunc) : M_DFT.apunc :=
  match u with
  | M_DFT.ApVec v => M_DFT.ApVec (mkArr (alen v) (fun i => c ^ 2 * v i))
  | M_DFT.ApMat m => M_DFT.ApMat (mkMat (mrows m) (mcols m) (fun i j => c ^ 2 * m i j))
  | d => d
  end.
(** Amplitude and phase: amplitudes are multiplied by c, phases are unchanged. *)
Definition unit_of (h : nat) (c : R) (i : nat) : R := if (i <? h)%nat then c else 1.
