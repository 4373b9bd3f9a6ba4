(** Python-like results, numpy-like arrays and finite sums used by all models.

    - A Python call returns a value or raises: [res].
    - A numpy array of reals is its shape together with an index function.  Only
      indices inside the shape are meaningful; every theorem quantifies over
      indices inside the shape only.
    - numpy floats are modelled by exact reals. *)
From Coq Require Import Reals List Arith ZArith Bool.
Import ListNotations.
Open Scope R_scope.

(** Exception classes raised by the modelled code. *)
Inductive exn :=
| ValueError | TypeError | IndexError | NameError | UnboundLocalError
| NotImplementedError | AssertionError | AttributeError | LinAlgError
| UserWarning | ZeroDivisionError | KeyError | OSError
| AxisError.      (* numpy: a ValueError and an IndexError *)

Inductive res (A : Type) :=
| Ok (a : A)
| Err (e : exn).
Arguments Ok {A} a.
Arguments Err {A} e.

Definition bind {A B} (m : res A) (f : A -> res B) : res B :=
  match m with Ok a => f a | Err e => Err e end.
Notation "'do' x <- m ;; f" := (bind m (fun x => f))
  (at level 200, x pattern, m at level 100, f at level 200, right associativity).

(** One dimensional array: length and index function. *)
Record arr (A : Type) := mkArr { alen : nat; aget : nat -> A }.
Arguments mkArr {A} alen aget.
Arguments alen {A} a.
Arguments aget {A} a n.
Notation vec := (arr R).
Coercion aget : arr >-> Funclass.

(** Two dimensional array of reals: shape and index function. *)
Record mat := mkMat { mrows : nat; mcols : nat; mget : nat -> nat -> R }.
Coercion mget : mat >-> Funclass.

(** Array literals for examples. *)
Definition of_list (l : list R) : vec := mkArr (length l) (fun i => nth i l 0).
Definition of_rows (l : list (list R)) : mat :=
  mkMat (length l) (length (hd [] l)) (fun i j => nth j (nth i l []) 0).

(** [rsum n f] = f 0 + ... + f (n-1). *)
Fixpoint rsum (n : nat) (f : nat -> R) : R :=
  match n with O => 0 | S m => rsum m f + f m end.

(** Entry [i], 0 outside the array (only used where the code pads by 0). *)
Definition vpad (v : vec) (i : nat) : R := if i <? alen v then v i else 0.

(** Index arithmetic of numpy.roll: out[i] = in[(i - s) mod n]. *)
Definition roll_idx (n : nat) (s : Z) (i : nat) : nat :=
  Z.to_nat ((Z.of_nat i - s) mod Z.of_nat n).

(** numpy.roll of a one dimensional array. *)
Definition roll {A} (x : arr A) (s : Z) : arr A :=
  mkArr (alen x) (fun i => x (roll_idx (alen x) s i)).

(** numpy.roll(M, s, axis=(0,1)) for s = (s0, s1). *)
Definition roll2 (M : mat) (s0 s1 : Z) : mat :=
  mkMat (mrows M) (mcols M)
    (fun i j => M (roll_idx (mrows M) s0 i) (roll_idx (mcols M) s1 j)).

(** numpy.roll(M, s) without axis: the flattened array is rolled; a tuple of shifts is
    summed up (numpy broadcasts the tuple against axis 0 of the flattened array). *)
Definition roll_flat (M : mat) (s : Z) : mat :=
  mkMat (mrows M) (mcols M)
    (fun i j =>
       let f := roll_idx (mrows M * mcols M) s (i * mcols M + j) in
       M (f / mcols M)%nat (f mod mcols M)%nat).

Definition zeros2 (r c : nat) : mat := mkMat r c (fun _ _ => 0).
Definition transp (M : mat) : mat := mkMat (mcols M) (mrows M) (fun i j => M j i).
Definition diagm (v : vec) : mat :=
  mkMat (alen v) (alen v) (fun i j => if i =? j then v i else 0).
Definition diag_of (M : mat) : vec := mkArr (mrows M) (fun i => M i i).
Definition vmap (f : R -> R) (v : vec) : vec := mkArr (alen v) (fun i => f (v i)).

(** A += B with numpy broadcasting of B (axes of length 1 are repeated). *)
Definition iadd2 (A B : mat) : res mat :=
  if ((mrows B =? mrows A) || (mrows B =? 1)) && ((mcols B =? mcols A) || (mcols B =? 1))
  then Ok (mkMat (mrows A) (mcols A)
             (fun i j => A i j + B (if mrows B =? mrows A then i else 0%nat)
                                   (if mcols B =? mcols A then j else 0%nat)))
  else Err ValueError.
Definition iadd1 (a b : vec) : res vec :=
  if (alen b =? alen a) || (alen b =? 1)
  then Ok (mkArr (alen a) (fun i => a i + b (if alen b =? alen a then i else 0%nat)))
  else Err ValueError.

(** numpy.r_[np.full(k, v), x] *)
Definition prepend (k : nat) (v : R) (x : vec) : vec :=
  mkArr (k + alen x) (fun i => if i <? k then v else x (i - k)%nat).

(** numpy.outer *)
Definition outer (a b : vec) : mat := mkMat (alen a) (alen b) (fun i j => a i * b j).

(** scipy.linalg.toeplitz(c, r): first column c, first row r (r[0] ignored). *)
Definition toeplitz (c r : vec) : mat :=
  mkMat (alen c) (alen r) (fun i j => if j <=? i then c (i - j)%nat else r (j - i)%nat).

(** scipy.signal.convolve(a, b, mode="valid") for arrays of equal dimension: the operand
    that is at least as large in every axis is the "volume", otherwise ValueError
    (scipy/signal/signaltools.py, convolve and _inputs_swap_needed). *)
Definition conv1_core (big small : vec) : vec :=
  mkArr (alen big - alen small + 1)
    (fun i => rsum (alen small) (fun k => small k * big (i + (alen small - 1) - k)%nat)).
Definition conv1_valid (a b : vec) : vec :=
  if alen b <=? alen a then conv1_core a b else conv1_core b a.

Definition conv2_core (big small : mat) : mat :=
  mkMat (mrows big - mrows small + 1) (mcols big - mcols small + 1)
    (fun i j =>
       rsum (mrows small) (fun k => rsum (mcols small) (fun l =>
         small k l * big (i + (mrows small - 1) - k)%nat (j + (mcols small - 1) - l)%nat))).
Definition conv2_valid (a b : mat) : res mat :=
  if (mrows b <=? mrows a) && (mcols b <=? mcols a) then Ok (conv2_core a b)
  else if (mrows a <=? mrows b) && (mcols a <=? mcols b) then Ok (conv2_core b a)
  else Err ValueError.

(** Slices x[a:b] and M[a:b, a:b] with a, b within 0..len (b clipped to the length). *)
Definition slice {A} (x : arr A) (a b : nat) : arr A :=
  mkArr (Nat.min b (alen x) - a) (fun i => x (a + i)%nat).
Definition slice2 (M : mat) (a b : nat) : mat :=
  mkMat (Nat.min b (mrows M) - a) (Nat.min b (mcols M) - a)
        (fun i j => M (a + i)%nat (a + j)%nat).

(** Pointwise equality of arrays (inside the shape). *)
Definition veq (a b : vec) : Prop :=
  alen a = alen b /\ forall i, (i < alen a)%nat -> a i = b i.
Definition meq (A B : mat) : Prop :=
  mrows A = mrows B /\ mcols A = mcols B /\
  forall i j, (i < mrows A)%nat -> (j < mcols A)%nat -> A i j = B i j.
