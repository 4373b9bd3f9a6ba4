(** Specification vocabulary: random vectors with finite support.

    This file does not refer to any model of PyDynamic code.  A random object is a
    finite list of (probability, outcome) pairs; expectation, mean and covariance are
    plain weighted sums over the outcomes. *)
From Coq Require Import Reals List Arith.
From Verif Require Import Base.
Import ListNotations.
Open Scope R_scope.

Definition dist (A : Type) := list (R * A).

(** Expectation. *)
Fixpoint Ex {A} (d : dist A) (f : A -> R) : R :=
  match d with
  | [] => 0
  | (p, a) :: d' => p * f a + Ex d' f
  end.

(** Probability distribution: non-negative weights summing up to one. *)
Definition is_prob {A} (d : dist A) : Prop :=
  (forall p a, In (p, a) d -> 0 <= p) /\ Ex d (fun _ => 1) = 1.

(** Covariance of two real valued functions of the outcome. *)
Definition Cov {A} (d : dist A) (f g : A -> R) : R :=
  Ex d (fun a => (f a - Ex d f) * (g a - Ex d g)).

(** [d] has mean [mu] and covariance [U] on the indices below [n]. *)
Definition has_mean (n : nat) (d : dist (nat -> R)) (mu : nat -> R) : Prop :=
  forall i, (i < n)%nat -> Ex d (fun s => s i) = mu i.
Definition has_cov (n : nat) (d : dist (nat -> R)) (U : nat -> nat -> R) : Prop :=
  forall i j, (i < n)%nat -> (j < n)%nat -> Cov d (fun s => s i) (fun s => s j) = U i j.

(** Joint distribution of two independent random objects. *)
Definition indep {A B} (d1 : dist A) (d2 : dist B) : dist (A * B) :=
  flat_map (fun p => map (fun q => (fst p * fst q, (snd p, snd q))) d2) d1.

(** Symmetric and positive semi-definite on the indices below [n]. *)
Definition symm (n : nat) (U : nat -> nat -> R) : Prop :=
  forall i j, (i < n)%nat -> (j < n)%nat -> U i j = U j i.
Definition quad (n : nat) (U : nat -> nat -> R) (v : nat -> R) : R :=
  rsum n (fun i => rsum n (fun j => v i * U i j * v j)).
Definition psd (n : nat) (U : nat -> nat -> R) : Prop :=
  symm n U /\ forall v : nat -> R, 0 <= quad n U v.

(** J U K^T, the first order law of propagation (m inputs). *)
Definition sandwich (m : nat) (J : nat -> nat -> R) (U : nat -> nat -> R)
           (K : nat -> nat -> R) (i j : nat) : R :=
  rsum m (fun a => rsum m (fun b => J i a * U a b * K j b)).
