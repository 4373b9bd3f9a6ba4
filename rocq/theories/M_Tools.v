(** Model of PyDynamic/misc/tools.py: make_semiposdef, FreqResp2RealImag, progress_bar
    (trimOrPad and shift_uncertainty: M_Filter.v; make_equidistant:
    M_Interp.v; print_vec, print_mat are in M_More.v). *)
From Coq Require Import Reals List Arith ZArith Bool String Ascii.
From Verif Require Import Base M_MC.
Import ListNotations.
Open Scope R_scope.

(** ** misc/tools.py:167-224 make_semiposdef

    [eigmin] stands for np.real(np.linalg.eigvals(M)).min() and
    np.real(eigs(M, which="SR", return_eigenvectors=False)).min(), the numerical routine.
    A while loop may run for ever: [fuel] bounds the number of passes through its body and
    [None] means that the loop is still running.  The second component of a result is the
    number of passes. *)
Section Semiposdef.
Variable eigmin : mat -> R.

(** 0.5 * (matrix + matrix.T) of a square matrix, lines 199 and 212. *)
Definition symmetrised (M : mat) : mat :=
  mkMat (mrows M) (mcols M) (fun i j => 1 / 2 * (M i j + M j i)).
(** matrix += c * np.eye(n), lines 205 and 217. *)
Definition add_eye (M : mat) (c : R) : mat :=
  mkMat (mrows M) (mcols M) (fun i j => M i j + c * (if (i =? j)%nat then 1 else 0)).

(** Lines 204-208: the counter is incremented in the sparse branch. *)
Fixpoint sparse_loop (fuel : nat) (tol : R) (maxiter count : Z) (e : R) (M : mat) (it : nat)
  : option (mat * nat) :=
  if Rlt_dec e tol then
    if (count <? maxiter)%Z then
      match fuel with
      | O => None
      | S f =>
          let M' := add_eye M (Rabs e + tol) in
          sparse_loop f tol maxiter (count + 1) (eigmin M') M' (S it)
      end
    else Some (M, it)
  else Some (M, it).

(** Lines 215-217: count stays 0, and e belongs to the matrix before the increment. *)
Fixpoint dense_loop (fuel : nat) (tol : R) (maxiter count : Z) (e : R) (M : mat) (it : nat)
  : option (mat * nat) :=
  if Rlt_dec e tol then
    if (count <? maxiter)%Z then
      match fuel with
      | O => None
      | S f =>
          let e' := eigmin M in
          dense_loop f tol maxiter count e' (add_eye M (Rabs e' + tol)) (S it)
      end
    else Some (M, it)
  else Some (M, it).

(** scipy.sparse.linalg.eigs with the default k=6 raises TypeError for a sparse matrix
    with k >= n-1. *)
Definition make_semiposdef (fuel : nat) (sparse : bool) (M : mat) (maxiter : Z) (tol : R)
  : option (res (mat * nat)) :=
  if negb (mrows M =? mcols M)%nat then Some (Err ValueError)
  else
    let S_ := symmetrised M in
    if sparse then
      if (mrows M - 1 <=? 6)%nat then Some (Err TypeError)
      else match sparse_loop fuel tol maxiter 0 (eigmin S_) S_ 0 with
           | None => None | Some r => Some (Ok r) end
    else match dense_loop fuel tol maxiter 0 (eigmin S_) S_ 0 with
         | None => None | Some r => Some (Ok r) end.
End Semiposdef.

(** ** misc/tools.py:227-275 FreqResp2RealImag

    Unc: one- or two-dimensional.  [mvn mean cov runs r]: row r of what
    np.random.multivariate_normal(mean, cov, runs) returns; the call raises ValueError if
    the covariance is not square (it has as many rows as the mean here).  np.mean without
    axis averages over all entries, None: NaN. *)
Inductive frunc := FrVec (v : vec) | FrMat (m : mat).
Definition fr_len (u : frunc) : nat := match u with FrVec v => alen v | FrMat m => mrows m end.
Definition fr_mat (u : frunc) : mat := match u with FrVec v => diagm v | FrMat m => m end.

(** np.cov(X, rowvar=False): X has one observation per row. *)
Definition np_mean_col (X : mat) (j : nat) : R :=
  rsum (mrows X) (fun r => X r j) / INR (mrows X).
Definition np_cov (X : mat) : mat :=
  mkMat (mcols X) (mcols X) (fun i j =>
    rsum (mrows X) (fun r => (X r i - np_mean_col X i) * (X r j - np_mean_col X j))
    / INR (mrows X - 1)).
(** with the special cases of a single row and of none, see M_MC.np_cov_rows (an even number
    of columns: nothing to squeeze otherwise) *)
Definition np_cov_any (X : mat) : mc_cov :=
  match mrows X with
  | O => CovNaN
  | S O => if (mcols X <=? 1)%nat then CovNaN else CovScalar (var_of (mkArr (mcols X) (fun j => X 0%nat j)))
  | _ => CovMat (np_cov X)
  end.
(** np.mean of all entries of the columns c0..c1-1 *)
Definition np_mean_all (X : mat) (c0 c1 : nat) : option R :=
  if (mrows X * (c1 - c0) =? 0)%nat then None
  else Some (rsum (mrows X) (fun r => rsum (c1 - c0) (fun c => X r (c0 + c)%nat))
             / INR (mrows X * (c1 - c0))).

Definition FreqResp2RealImag (mvn : vec -> mat -> nat -> nat -> vec) (Abs Phase : vec) (Unc : frunc) (runs : nat)
  : res (option R * option R * mc_cov) :=
  if negb (alen Abs =? alen Phase)%nat || negb (2 * alen Abs =? fr_len Unc)%nat
  then Err ValueError
  else
    let U := fr_mat Unc in
    if negb (mrows U =? mcols U)%nat then Err ValueError
    else
      let Nf := alen Abs in
      let mean := mkArr (2 * Nf) (fun i => if (i <? Nf)%nat then Abs i else Phase (i - Nf)%nat) in
      let draws := mvn mean U runs in
      (* 262-265 *)
      let RI := mkMat runs (2 * Nf)
                  (fun r c => if (c <? Nf)%nat
                              then draws r c * cos (draws r (Nf + c)%nat)
                              else draws r (c - Nf)%nat * sin (draws r c)) in
      Ok (np_mean_all RI 0 Nf, np_mean_all RI Nf (2 * Nf), np_cov_any RI).

(** ** misc/tools.py:294-333 progress_bar, the text written to fout.

    [dec] is Python's decimal representation of an integer.  width * (count+1) / count_max
    is a float, int() truncates towards zero; a string times a negative number is empty. *)
Open Scope string_scope.
Fixpoint str_rep (s : string) (n : nat) : string :=
  match n with O => "" | S m => s ++ str_rep s m end.
Definition cr : string := String (ascii_of_nat 13) "".
Definition progress_bar (dec : Z -> string) (count count_max width : Z)
           (prefix done_ind todo_ind : string) : res string :=
  if (count_max =? 0)%Z then Err ZeroDivisionError
  else
    let x := Z.quot (width * (count + 1)) count_max in
    Ok (prefix ++ "[" ++ str_rep done_ind (Z.to_nat x) ++ str_rep todo_ind (Z.to_nat (width - x))
        ++ "] " ++ dec (count + 1)%Z ++ "/" ++ dec count_max ++ cr).
