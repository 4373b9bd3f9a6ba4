(** Specification of one simulated run of MC (no model function is used; the data types
    of the arguments come from the model). *)
From Coq Require Import Reals List Arith ZArith.
From Verif Require Import Base Stats M_MC S_MC.
Import ListNotations.
Open Scope R_scope.

(** xk: the simulated signal for the estimate x, the uncertainty Ux and the draw zk. *)
Definition input_draw (x : vec) (Ux : mcunc) (zk xk : vec) : Prop :=
  alen xk = alen x /\
  match Ux with
  | McFloat u => forall i, (i < alen x)%nat -> xk i = x i + u * zk i
  | McVec v => alen v = alen x /\ forall i, (i < alen x)%nat -> xk i = x i + v i * zk i
  | McMat m => mrows m = alen x /\ mcols m = alen x /\ forall i, (i < alen x)%nat -> xk i = zk i
  | McOther => False
  end.
(** The uncertainty has the right shape for a signal of length n. *)
Definition fits (n : nat) (Ux : mcunc) : Prop :=
  match Ux with
  | McFloat _ => True
  | McVec v => alen v = n
  | McMat m => mrows m = n /\ mcols m = n
  | McOther => False
  end.
(** Positive definite: positive for every direction that is not zero. *)
Definition pos_def (m : mat) : Prop :=
  forall v : nat -> R, (exists i, (i < mrows m)%nat /\ v i <> 0) ->
    0 < rsum (mrows m) (fun i => rsum (mrows m) (fun j => v i * m i j * v j)).
(** m is symmetric, and e has the sign of its smallest eigenvalue. *)
Definition least_sign (e : R) (m : mat) : Prop :=
  symm (mrows m) m /\
  (pos_def m -> 0 < e) /\ (psd (mrows m) m -> ~ pos_def m -> e = 0) /\ (~ psd (mrows m) m -> e < 0).
(** A covariance matrix that leaves no combination of the (several) samples certain. *)
Definition proper (min_eig : mat -> R) (n : nat) (Ux : mcunc) : Prop :=
  match Ux with McMat m => n <> 1%nat /\ least_sign (min_eig m) m /\ pos_def m | _ => True end.
(** w: the signal xk after the optional low-pass filter. *)
Definition lowpassed (blow alow : option vec) (xk w : vec) : Prop :=
  match blow with
  | None => w = xk
  | Some bl => filter_response bl (match alow with Some al => al | None => mkArr 1 (fun _ => 1) end) xk w
  end.
(** Coefficients drawn together: a_1..a_n followed by b_0..b_m. *)
Definition drawn_b (na nb : nat) (th : vec) : vec := mkArr nb (fun i => th (na - 1 + i)%nat).
Definition drawn_a (na : nat) (th : vec) : vec :=
  mkArr na (fun i => if (i =? 0)%nat then 1 else th (i - 1)%nat).
(** Index of the entry that a circular shift by s moves to i. *)
Definition shifted_from (n : nat) (s : Z) (i : nat) : nat := Z.to_nat ((Z.of_nat i - s) mod Z.of_nat n).
