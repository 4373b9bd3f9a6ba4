(** Specification vocabulary for T_Tools.v: eigenvalues, sample statistics. *)
From Coq Require Import Reals List Arith String Ascii.
From Verif Require Import Base Stats.
Import ListNotations.
Open Scope R_scope.

Definition sqnorm (n : nat) (v : nat -> R) : R := rsum n (fun i => v i ^ 2).

(** [e] is an eigenvalue of the n x n matrix [M]. *)
Definition is_eig (n : nat) (M : nat -> nat -> R) (e : R) : Prop :=
  exists v : nat -> R, (exists i, (i < n)%nat /\ v i <> 0) /\
    forall i, (i < n)%nat -> rsum n (fun j => M i j * v j) = e * v i.

(** [e] is the smallest eigenvalue of the symmetric matrix [M]: an eigenvalue, and a
    lower bound of the Rayleigh quotient. *)
Definition is_min_eig (n : nat) (M : nat -> nat -> R) (e : R) : Prop :=
  is_eig n M e /\ forall v, e * sqnorm n v <= quad n M v.

(** Arithmetic mean and unbiased sample covariance of r observations of two quantities. *)
Definition smean (r : nat) (a : nat -> R) : R := / INR r * rsum r a.
Definition scov (r : nat) (a b : nat -> R) : R :=
  (rsum r (fun k => a k * b k) - INR r * smean r a * smean r b) / (INR r - 1).

(** How often character [c] occurs in [s]. *)
Fixpoint occurs (c : ascii) (s : string) : nat :=
  match s with
  | EmptyString => 0
  | String d r => (if Ascii.eqb c d then 1 else 0) + occurs c r
  end%nat.
