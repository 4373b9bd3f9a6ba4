(** Specification vocabulary for Monte Carlo propagation (no model definition is used). *)
From Coq Require Import Reals List Arith ZArith.
From Verif Require Import Base.
Import ListNotations.
Open Scope R_scope.

(** Sums, averages, scatter and sample covariance over a finite list of results. *)
Fixpoint tot (l : list R) : R := match l with [] => 0 | x :: r => x + tot r end.
Definition avg {A} (f : A -> R) (l : list A) : R := tot (map f l) / INR (length l).
Definition scatter {A} (f g : A -> R) (l : list A) : R :=
  tot (map (fun a => (f a - avg f l) * (g a - avg g l)) l).
Definition sample_cov {A} (f g : A -> R) (l : list A) : R :=
  scatter f g l / (INR (length l) - 1).

(** Output y of the rational filter (b, a) at rest for the input x:
    sum_j a_j y(n-j) = sum_j b_j x(n-j), samples before the start being zero. *)
Definition filter_response (b a x y : vec) : Prop :=
  alen y = alen x /\
  forall n, (n < alen x)%nat ->
    rsum (alen a) (fun j => if (j <=? n)%nat then a j * y (n - j)%nat else 0)
    = rsum (alen b) (fun j => if (j <=? n)%nat then b j * x (n - j)%nat else 0).

(** Number of list elements with a property given by a decision. *)
Fixpoint how_many {A} (p : A -> bool) (l : list A) : nat :=
  match l with [] => 0%nat | x :: r => ((if p x then 1 else 0) + how_many p r)%nat end.

(** v lies in bin i of n bins with the edges e: half open, the last one closed. *)
Definition in_bin (e : nat -> R) (n i : nat) (v : R) : Prop :=
  e i <= v /\ (v < e (S i) \/ (S i = n /\ v = e n)).
(** n+1 equidistant edges from lo to hi *)
Definition even_edge (lo hi : R) (n i : nat) : R := lo + INR i * ((hi - lo) / INR n).
