(** Specification vocabulary: partial derivatives and first order propagation.
    Independent of every model file. *)
From Coq Require Import Reals Arith.
From Verif Require Import Base Stats.
Open Scope R_scope.

(** The point [s] with coordinate [j] replaced by [t]. *)
Definition upd (s : nat -> R) (j : nat) (t : R) : nat -> R :=
  fun i => if (i =? j)%nat then t else s i.

(** [J] is the matrix of the partial derivatives at [s] of the map [G] with [m] inputs and
    [n] outputs. *)
Definition is_jac (n m : nat) (G : (nat -> R) -> nat -> R) (s : nat -> R)
           (J : nat -> nat -> R) : Prop :=
  forall i j, (i < n)%nat -> (j < m)%nat ->
    derivable_pt_lim (fun t => G (upd s j t) i) (s j) (J i j).
