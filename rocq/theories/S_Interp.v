(** Specification vocabulary for T_Interp.v. *)
From Coq Require Import Reals List Arith.
From Verif Require Import Base Stats.
Import ListNotations.
Open Scope R_scope.

(** The first [n] time stamps are strictly increasing. *)
Definition increasing (n : nat) (t : nat -> R) : Prop :=
  forall i j, (i < j)%nat -> (j < n)%nat -> t i < t j.

(** Value at [v] of the straight line through nodes [i] and [i+1]. *)
Definition chord (t y : nat -> R) (i : nat) (v : R) : R :=
  y i + (y (S i) - y i) * ((v - t i) / (t (S i) - t i)).

(** Covariance matrix of uncorrelated values with standard uncertainties [u]. *)
Definition uncorrelated (u : nat -> R) (i j : nat) : R := if (i =? j)%nat then u i ^ 2 else 0.

(** [v] lies in the segment between nodes [i] and [i+1] (of [n] nodes). *)
Definition in_segment (n : nat) (t : nat -> R) (i : nat) (v : R) : Prop :=
  (S i < n)%nat /\ t i <= v <= t (S i).

(** Rows of data: time stamp, value, uncertainty. *)
Definition rows3 (t y u : list R) : list (R * (R * R)) := combine t (combine y u).
