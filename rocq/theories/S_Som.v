(** Spec vocabulary for the fit of second order systems.  No model definition is
    used. *)
From Coq Require Import Reals List Arith.
From Verif Require Import Base Cplx S_Jac S_Fit S_MC.
Import ListNotations.
Open Scope R_scope.

(** Reciprocal response mu_0 + 2 i w mu_1 - w^2 mu_2 at w = 2 pi f. *)
Definition som_recip (mu : nat -> R) (f : R) : C :=
  (mu 0%nat - (2 * PI * f) ^ 2 * mu 2%nat, 2 * (2 * PI * f) * mu 1%nat).
(** Squared deviation from t, real and imaginary parts divided by the variances v
    (real parts first). *)
Definition som_misfit (f : vec) (v : nat -> R) (t : nat -> C) (mu : nat -> R) : R :=
  rsum (alen f) (fun i => (fst (som_recip mu (f i)) - fst (t i)) ^ 2 / v i
                        + (snd (som_recip mu (f i)) - snd (t i)) ^ 2 / v (alen f + i)%nat).
Definition som_fits (f : vec) (v : nat -> R) (t : nat -> C) (mu : nat -> R) : Prop :=
  forall mu', som_misfit f v t mu <= som_misfit f v t mu'.
(** Static gain, damping, resonance frequency of a system with these auxiliary
    parameters, for mu_0 mu_2 > 0: 1/mu_0 = S0, mu_1 = delta/(S0 w0),
    mu_2 = 1/(S0 w0^2). *)
Definition som_params (mu : nat -> R) (i : nat) : R :=
  match i with
  | O => / mu 0%nat
  | S O => mu 1%nat / sqrt (mu 0%nat * mu 2%nat)
  | _ => sqrt (mu 0%nat / mu 2%nat) / (2 * PI)
  end.
(** Two frequencies of different magnitude. *)
Definition two_frequencies (f : vec) : Prop :=
  exists i j, (i < alen f)%nat /\ (j < alen f)%nat /\ f i ^ 2 <> f j ^ 2.
(** p = (S0, delta, f0) *)
Definition is_triple (p : vec) (S0 delta f0 : R) : Prop :=
  alen p = 3%nat /\ p 0%nat = S0 /\ p 1%nat = delta /\ p 2%nat = f0.
