(** Specification vocabulary for convolutions (no definition of the model is used). *)
From Coq Require Import Reals List Arith ZArith Bool String.
From Verif Require Import Base S_Filter.
Open Scope R_scope.

(** The three modes of numpy.convolve. *)
Definition numpy_mode (mode : string) : Prop :=
  mode = "full"%string \/ mode = "valid"%string \/ mode = "same"%string.
(** The three modes of scipy.ndimage.convolve1d that are supported. *)
Definition ndimage_mode (mode : string) : Prop :=
  mode = "nearest"%string \/ mode = "reflect"%string \/ mode = "mirror"%string.

(** numpy.convolve: number of entries and position of entry 0 in the full convolution. *)
Definition np_conv_len (mode : string) (n1 n2 : nat) : nat :=
  if String.eqb mode "full" then (n1 + n2 - 1)%nat
  else if String.eqb mode "valid" then (Nat.max n1 n2 - Nat.min n1 n2 + 1)%nat
  else Nat.max n1 n2.
Definition np_conv_start (mode : string) (n1 n2 : nat) : nat :=
  if String.eqb mode "full" then 0%nat
  else if String.eqb mode "valid" then (Nat.min n1 n2 - 1)%nat
  else ((Nat.min n1 n2 - 1) / 2)%nat.
Definition np_conv (mode : string) (n1 n2 : nat) (x1 x2 : nat -> R) (k : nat) : R :=
  full_conv n1 n2 x1 x2 (k + np_conv_start mode n1 n2).

(** Continuation of the index range 0..n-1 to all integers:
    nearest (a a | a b c | c c), reflect (b a | a b c | c b), mirror (c b | a b c | b a). *)
Definition is_continuation (mode : string) (n : nat) (e : Z -> nat) : Prop :=
  (forall i, (i < n)%nat -> e (Z.of_nat i) = i) /\
  (mode = "nearest"%string ->
     (forall z, (z < 0)%Z -> e z = 0%nat) /\
     (forall z, (Z.of_nat n <= z)%Z -> e z = (n - 1)%nat)) /\
  (mode = "reflect"%string ->
     (forall z, e (-1 - z)%Z = e z) /\ (forall z, e (2 * Z.of_nat n - 1 - z)%Z = e z)) /\
  (mode = "mirror"%string ->
     (n = 1%nat -> forall z, e z = 0%nat) /\
     (forall z, e (- z)%Z = e z) /\ (forall z, e (2 * Z.of_nat n - 2 - z)%Z = e z)).

(** scipy.ndimage.convolve1d(x1, x2, mode): the kernel x2 is centred at n2 // 2. *)
Definition nd_conv (e : Z -> nat) (n2 : nat) (x1 x2 : nat -> R) (k : nat) : R :=
  rsum n2 (fun j => x2 j * x1 (e (Z.of_nat k + Z.of_nat (n2 / 2) - Z.of_nat j)%Z)).

(** Covariance given by an optional matrix (None = no uncertainty). *)
Definition opt_cov (U : option mat) (i j : nat) : R :=
  match U with Some m => m i j | None => 0 end.
Definition opt_square (n : nat) (U : option mat) : Prop :=
  match U with Some m => mrows m = n /\ mcols m = n | None => True end.
