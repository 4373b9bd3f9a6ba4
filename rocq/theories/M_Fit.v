(** Model of PyDynamic/model_estimation/fit_filter.py and
    PyDynamic/model_estimation/fit_transfer.py.

    Oracles (arguments of the functions): [lstsq] for numpy.linalg.lstsq,
    [solve] for numpy.linalg.solve with one right hand side, [svd] for
    numpy.linalg.svd(X, full_matrices=False), [roots] for numpy.roots and
    [mvn mean cov runs] for the rows handed out by
    numpy.random.multivariate_normal.  Console output is dropped.  Division by a
    vanishing response (infinities in numpy) is outside the model, except where
    the code tests for it. *)
From Coq Require Import Reals String List Arith ZArith Bool.
From Verif Require Import Base Cplx M_Filter M_MC M_DFT M_FilterStuff.
Import ListNotations.
Local Notation length := Datatypes.length.
Open Scope R_scope.

(** ** Shared numpy operations *)

(** numpy.linalg.lstsq(A, y)[0]: LinAlgError when the numbers of rows differ. *)
Definition np_lstsq (lstsq : mat -> vec -> vec) (A : mat) (y : vec) : res vec :=
  if (mrows A =? alen y)%nat then Ok (lstsq A y) else Err LinAlgError.

(** vstack([real(E), imag(E)]) / r_[real(E), imag(E)] for E with [m] rows *)
Definition stack2 (m cols : nat) (E : nat -> nat -> C) : mat :=
  mkMat (m + m) cols (fun r n => if (r <? m)%nat then Re (E r n) else Im (E (r - m)%nat n)).
(** hstack((real(v), imag(v))) *)
Definition stack1 (m : nat) (v : nat -> C) : vec :=
  mkArr (m + m) (fun r => if (r <? m)%nat then Re (v r) else Im (v (r - m)%nat)).
(** row[:m] + 1j * row[m:] *)
Definition unstack (m : nat) (row : vec) (i : nat) : C := (row i, row (m + i)%nat).

(** Matrix products *)
Definition mdotv (A : mat) (x : vec) : vec :=
  mkArr (mrows A) (fun i => rsum (mcols A) (fun j => A i j * x j)).
Definition mdot (A B : mat) : mat :=
  mkMat (mrows A) (mcols B) (fun i j => rsum (mcols A) (fun k => A i k * B k j)).

(** numpy.random.multivariate_normal(mean, cov, runs): the covariance must be
    square and fit the mean, otherwise ValueError. *)
Definition draw_mvn (mvn : vec -> mat -> nat -> nat -> vec) (mean : vec) (U : mat) (runs : nat)
  : res (list vec) :=
  if ((mrows U =? alen mean) && (mcols U =? alen mean))%nat
  then Ok (map (mvn mean U runs) (seq 0 runs))
  else Err ValueError.

(** exp(-1j w n) with w = 2 pi f / Fs *)
Definition Eexp (f : vec) (Fs : R) (i n : nat) : C := cis (- (2 * PI * f i / Fs * INR n)).

(** ** LSFIR and invLSFIR *)

(** The weighted design matrix, fit_filter.py:206-222 and 269-283: for a matrix
    Wt, np.diag(Wt) is its diagonal as a 1D array, so that np.dot(weights, E) is
    one row; a vector Wt is put on the diagonal (eye * Wt: a vector of length one
    is broadcast). *)
Inductive weights := WtNone | WtVec (v : vec) | WtMat (m : mat).
Definition fir_design (N : nat) (f : vec) (Fs : R) (Wt : weights) : res mat :=
  let M := alen f in
  match Wt with
  | WtNone => Ok (stack2 M (S N) (Eexp f Fs))
  | WtVec v =>
      if (alen v =? M)%nat then Ok (stack2 M (S N) (fun i n => cscal (v i) (Eexp f Fs i n)))
      else if (alen v =? 1)%nat then Ok (stack2 M (S N) (fun i n => cscal (v 0%nat) (Eexp f Fs i n)))
      else Err ValueError
  | WtMat m =>
      if (Nat.min (mrows m) (mcols m) =? M)%nat
      then Ok (stack2 1 (S N) (fun _ n => csum M (fun i => cscal (m i i) (Eexp f Fs i n))))
      else Err ValueError
  end.

(** H * exp(1j w tau), fit_filter.py:223 and 285 (both columns; a length of one
    is broadcast). *)
Definition delayed (H : arr C) (f : vec) (Fs tau : R) : res (arr C) :=
  let E i := cis (2 * PI * f i / Fs * tau) in
  if (alen H =? alen f)%nat then Ok (mkArr (alen f) (fun i => cmul (H i) (E i)))
  else if (alen H =? 1)%nat then Ok (mkArr (alen f) (fun i => cmul (H 0%nat) (E i)))
  else if (alen f =? 1)%nat then Ok (mkArr (alen H) (fun i => cmul (H i) (E 0%nat)))
  else Err ValueError.

(** LSFIR: fit_filter.py:178-230 *)
Definition LSFIR (lstsq : mat -> vec -> vec) (H : arr C) (N : nat) (tau : R) (f : vec) (Fs : R)
           (Wt : weights) : res vec :=
  do X <- fir_design N f Fs Wt ;;
  do Hs <- delayed H f Fs tau ;;
  np_lstsq lstsq X (stack1 (alen Hs) (fun i => cinv (Hs i))).

(** invLSFIR: fit_filter.py:232-302 *)
Definition invLSFIR (lstsq : mat -> vec -> vec) (H : arr C) (N : nat) (tau : R) (f : vec) (Fs : R)
           (Wt : weights) : res vec :=
  do X <- fir_design N f Fs Wt ;;
  do Hs <- delayed H f Fs tau ;;
  np_lstsq lstsq X (stack1 (alen Hs) (fun i => cinv (Hs i))).

(** ** invLSFIR_unc: fit_filter.py:305-413 *)

(** One row of HiMC, lines 368-376. *)
Definition himc_row (f : vec) (Fs tau : R) (d : vec) : vec :=
  let Nf := alen f in
  let omtau i := 2 * PI * f i / Fs * tau in
  let absH i := d i ^ 2 + d (Nf + i)%nat ^ 2 in
  mkArr (Nf + Nf)
    (fun r => if (r <? Nf)%nat
              then (d r * cos (omtau r) + d (Nf + r)%nat * sin (omtau r)) / absH r
              else let i := (r - Nf)%nat in
                   (d (Nf + i)%nat * cos (omtau i) - d i * sin (omtau i)) / absH i).

(** Lines 394-401: pseudo-inverse from the singular value decomposition (numpy's
    v is the transposed matrix of right singular vectors). *)
Definition trunc_s (tol : option R) (s : vec) : vec :=
  vmap (fun x => match tol with Some t => if Rlt_dec x t then 0 else x | None => x end) s.
Definition stsinv (x : R) : R := if Rlt_dec 0 x then / (x * x) else 0.
Definition svd_pinv (u : mat) (s : vec) (v : mat) : mat :=
  mkMat (mcols v) (mrows u) (fun i j => rsum (alen s) (fun k => v k i * stsinv (s k) * s k * u j k)).

(** H: complex values, or (len(H) == UH.shape[0]) real and imaginary parts, then
    given here as complex numbers with imaginary part 0.  [runs] is 10000.  The
    test "wt.shape != np.diag(UiH).shape[0]" (line 380) compares a tuple with a
    number and is always true.  Arrays of different length (len(f) <> number of
    responses) do not fit in lines 371-376; broadcasting of a single value there
    is left out. *)
Definition invLSFIR_unc (mvn : vec -> mat -> nat -> nat -> vec) (svd : mat -> mat * vec * mat)
           (H : arr C) (UH : mat) (N : nat) (tau : R) (f : vec) (Fs : R)
           (wt : option vec) (trunc_svd_tol : option R) (runs : nat) : res (vec * mat) :=
  let Nf := alen f in
  let cplx := negb (alen H =? mrows UH)%nat in
  let RI := if cplx then stack1 (alen H) H else mkArr (alen H) (fun i => Re (H i)) in
  let Hc : arr C := if cplx then H else mkArr Nf (fun i => (Re (H i), Re (H (Nf + i)%nat))) in
  do HRI <- draw_mvn mvn RI UH runs ;;
  if negb (alen RI =? Nf + Nf)%nat then Err ValueError
  else
    let UiH := rows_cov (Nf + Nf) (map (himc_row f Fs tau) HRI) in
    match wt with
    | Some _ => Err ValueError
    | None =>
        let w := fun _ : nat => 1 in                        (* np.ones(2 * Nf) *)
        let X0 := stack2 Nf (S N) (Eexp f Fs) in
        let X := mkMat (mrows X0) (mcols X0) (fun r n => w r * X0 r n) in
        let Hri := stack1 Nf (fun i => cinv (cmul (Hc i) (cis (2 * PI * f i / Fs * tau)))) in
        let '(u, s, v) := svd X in
        let M := svd_pinv u (trunc_s trunc_svd_tol s) v in
        Ok (mdotv M Hri, mdot (mdot M UiH) (transp M))
    end.

(** ** invLSFIR_uncMC: fit_filter.py:416-485, [runs] is 10000; np.cov squeezes its result, so
    that for N = 0 the 1x1 matrix here is an array without axes in the code (likewise in
    invLSIIR_unc for Na = Nb = 0); for len(H) <> len(f) see
    the remark at invLSIIR_unc *)
Definition uncmc_target (f : vec) (Fs tau : R) (d : vec) : vec :=
  let Nf := alen f in
  stack1 Nf (fun i => cinv (cmul (unstack Nf d i) (cis (2 * PI * f i / Fs * tau)))).
Definition invLSFIR_uncMC (mvn : vec -> mat -> nat -> nat -> vec) (lstsq : mat -> vec -> vec)
           (H : arr C) (UH : mat) (N : nat) (tau : R) (f : vec) (Fs : R) (runs : nat)
  : res (vec * mat) :=
  let Nf := alen f in
  do HRI <- draw_mvn mvn (stack1 (alen H) H) UH runs ;;
  if negb (alen H =? Nf)%nat then Err ValueError
  else
    let X := stack2 Nf (S N) (Eexp f Fs) in
    let bF := map (fun d => lstsq X (uncmc_target f Fs tau d)) HRI in
    Ok (rows_mean (S N) bF, rows_cov (S N) bF).

(** ** IIR fits *)

(** _fitIIR: fit_filter.py:43-87.  Columns 0..Na-1 of D are Htau times
    exp(-1j w n), n = 1..Na, the other Nb+1 ones -exp(-1j w n), n = 0..Nb. *)
Definition iir_htau (Hv : arr C) (f : vec) (Fs tau : R) (inv : bool) (i : nat) : C :=
  cmul (cis (- (2 * PI * f i / Fs * tau))) (if inv then cinv (Hv i) else Hv i).
Definition iir_D (Hv : arr C) (f : vec) (Fs tau : R) (Na : nat) (inv : bool) (i j : nat) : C :=
  if (j <? Na)%nat then cmul (iir_htau Hv f Fs tau inv i) (Eexp f Fs i (S j))
  else copp (Eexp f Fs i (j - Na)).
Definition fitIIR (lstsq : mat -> vec -> vec) (Hv : arr C) (tau : R) (f : vec) (Fs : R)
           (Na Nb : nat) (inv : bool) : vec * vec :=
  let p := (Na + S Nb)%nat in
  let D := iir_D Hv f Fs tau Na inv in
  let Tmp1 := mkMat p p (fun j l => rsum (alen f) (fun i => Re (cmul (cconj (D i j)) (D i l)))) in
  let Tmp2 := mkArr p (fun j => rsum (alen f) (fun i =>
                Re (cmul (cconj (D i j)) (copp (iir_htau Hv f Fs tau inv i))))) in
  let ab := lstsq Tmp1 Tmp2 in
  (slice ab Na (alen ab), mkArr (S Na) (fun i => match i with O => 1 | S j => ab j end)).

(** count_nonzero(abs(roots(a)) > 1) > 0 *)
Definition has_outside_root (roots : vec -> list C) (a : vec) : bool :=
  existsb (fun z => rltb 1 (cabs z)) (roots a).

(** np.median of a non-empty array *)
Fixpoint insert_sorted (x : R) (l : list R) : list R :=
  match l with [] => [x] | y :: r => if Rle_dec x y then x :: l else y :: insert_sorted x r end.
Definition sort_list (l : list R) : list R := fold_right insert_sorted [] l.
Definition median (v : vec) : R :=
  let l := sort_list (map v (seq 0 (alen v))) in
  let n := alen v in
  if Nat.even n then (nth (n / 2 - 1) l 0 + nth (n / 2) l 0) / 2 else nth (n / 2) l 0.
(** np.ceil *)
Definition np_ceil (x : R) : R := - IZR (Int_part (- x)).

(** Lines 149-151 and 563-565: the new delay. *)
Definition next_tau (b a astab : vec) (Fs tau : R) : res R :=
  do g1 <- grpdelay b a Fs 512 ;;
  do g2 <- grpdelay b astab Fs 512 ;;
  let d := mkArr (alen (fst g1)) (fun k => fst g2 k - fst g1 k) in
  Ok (np_ceil (tau + median d)).

(** Coefficients of mapinside(a); they are real, see C63_real. *)
Definition mapped (roots : vec -> list C) (a : vec) : vec :=
  let p := mapinside roots a in mkArr (alen p) (fun i => Re (p i)).

(** The stabilisation loop, lines 140-158 and 554-572: "while stable is not True
    and run < maxiter".  None: more than [fuel] passes. *)
Fixpoint iir_loop (fit : R -> vec * vec) (roots : vec -> list C) (Fs : R) (maxiter fuel run : nat)
         (stable : bool) (tau : R) (b a astab : vec) : option (res (vec * vec * R)) :=
  if negb stable && (run <? maxiter)%nat then
    match fuel with
    | O => None
    | S fuel' =>
        match next_tau b a astab Fs tau with
        | Err e => Some (Err e)
        | Ok tau' =>
            let '(b', a') := fit tau' in
            if has_outside_root roots a'
            then iir_loop fit roots Fs maxiter fuel' (S run) false tau' b' a' (mapped roots a')
            else iir_loop fit roots Fs maxiter fuel' (S run) true tau' b' a' astab
        end
    end
  else Some (Ok (b, a, tau)).

Definition iir_stabilise (lstsq : mat -> vec -> vec) (roots : vec -> list C) (fuel : nat)
           (Hv : arr C) (Nb Na : nat) (f : vec) (Fs tau : R) (inv : bool)
  : option (res (vec * vec * R)) :=
  let fit t := fitIIR lstsq Hv t f Fs Na Nb inv in
  let '(b, a) := fit tau in
  iir_loop fit roots Fs 50 fuel 1 (negb (has_outside_root roots a)) tau b a (mapped roots a).

(** Htau = exp(-1j w tau) Hvals and diag(Htau) Ea (lines 77-78): a single response
    value is broadcast, any other length than len(f) does not fit. *)
Definition iir_values (Hv : arr C) (n : nat) : res (arr C) :=
  if (alen Hv =? n)%nat then Ok Hv
  else if (alen Hv =? 1)%nat then Ok (mkArr n (fun _ => Hv 0%nat))
  else Err ValueError.

(** LSIIR: fit_filter.py:90-175.  The returned delay is int(tau). *)
Definition LSIIR (lstsq : mat -> vec -> vec) (roots : vec -> list C) (fuel : nat)
           (Hvals : arr C) (Nb Na : nat) (f : vec) (Fs tau : R) (justFit : bool)
  : option (res (vec * vec * R)) :=
  match iir_values Hvals (alen f) with
  | Err e => Some (Err e)
  | Ok Hv =>
      if justFit then
        let '(b, a) := fitIIR lstsq Hv tau f Fs Na Nb false in Some (Ok (b, a, 0))
      else
        match iir_stabilise lstsq roots fuel Hv Nb Na f Fs tau false with
        | Some (Ok (b, a, t)) => Some (Ok (b, a, Rtrunc t))
        | r => r
        end
  end.

(** invLSIIR: fit_filter.py:488-584.  With justFit only the coefficients are
    returned (no delay: None). *)
Definition invLSIIR (lstsq : mat -> vec -> vec) (roots : vec -> list C) (fuel : nat)
           (Hvals : arr C) (Nb Na : nat) (f : vec) (Fs tau : R) (justFit : bool)
  : option (res (vec * vec * option R)) :=
  match iir_values Hvals (alen f) with
  | Err e => Some (Err e)
  | Ok Hv =>
      if justFit then
        let '(b, a) := fitIIR lstsq Hv tau f Fs Na Nb true in Some (Ok (b, a, None))
      else
        match iir_stabilise lstsq roots fuel Hv Nb Na f Fs tau true with
        | Some (Ok (b, a, t)) => Some (Ok (b, a, Some (Rtrunc t)))
        | Some (Err e) => Some (Err e)
        | None => None
        end
  end.

(** invLSIIR_unc: fit_filter.py:587-655, [runs] is 1000.  Each fit is one call of
    invLSIIR with 50 units of fuel (enough, see C75).  For len(H) <> len(f) numpy
    would broadcast the imaginary parts if exactly one is left (len(f) =
    2 len(H) - 1); this case is left out (ValueError here). *)
Fixpoint unc_fits (fit : vec -> option (res (vec * vec * option R))) (Na : nat) (rows : list vec)
  : res (list (vec * R)) :=
  match rows with
  | [] => Ok []
  | d :: rest =>
      match fit d with
      | Some (Ok (b, a, Some t)) =>
          do l <- unc_fits fit Na rest ;;
          Ok ((mkArr (Na + alen b) (fun i => if (i <? Na)%nat then a (S i) else b (i - Na)%nat), t) :: l)
      | Some (Err e) => Err e
      | _ => Err ValueError                       (* not reached *)
      end
  end.
Definition invLSIIR_unc (mvn : vec -> mat -> nat -> nat -> vec) (lstsq : mat -> vec -> vec)
           (roots : vec -> list C) (H : arr C) (UH : mat) (Nb Na : nat) (f : vec) (Fs tau : R)
           (runs : nat) : res (vec * vec * R * mat) :=
  let Nf := alen f in
  do HRI <- draw_mvn mvn (stack1 (alen H) H) UH runs ;;
  if negb (alen H =? Nf)%nat then Err ValueError
  else
    do fits <- unc_fits (fun d => invLSIIR lstsq roots 50 (mkArr Nf (unstack Nf d)) Nb Na f Fs tau false)
                        Na HRI ;;
    let AB := map fst fits in
    let m := rows_mean (Na + S Nb) AB in
    Ok (mkArr (S Nb) (fun i => m (Na + i)%nat),
        mkArr (S Na) (fun i => match i with O => 1 | S j => m j end),
        lsum (map snd fits) / INR (length fits),
        rows_cov (Na + S Nb) AB).

(** ** fit_som: fit_transfer.py:15-194 *)

(** np.c_[ones, 2j om, -om^2] with om = 2 pi f scaling, real over imaginary parts *)
Definition som_design (f : vec) (scaling : R) : mat :=
  stack2 (alen f) 3
    (fun i n => let om := 2 * PI * f i * scaling in
       match n with O => (1, 0) | S O => (0, 2 * om) | _ => (- om ^ 2, 0) end).

(** solve(W, B) column by column *)
Fixpoint solve_cols (solve : mat -> vec -> res vec) (W B : mat) (n : nat) : res (list vec) :=
  match n with
  | O => Ok []
  | S m => do l <- solve_cols solve W B m ;;
           do c <- solve W (mkArr (mrows B) (fun i => B i m)) ;;
           Ok (l ++ [c])%list
  end.
Definition solve_mat (solve : mat -> vec -> res vec) (W B : mat) : res mat :=
  do l <- solve_cols solve W B (mcols B) ;;
  Ok (mkMat (mrows W) (mcols B) (fun i j => nth j l (mkArr 0 (fun _ => 0)) i)).

(** XVX = X^T W^-1 X, XVy = X^T W^-1 y, solve(XVX, XVy) (lines 113-116, 140-143,
    183-186) *)
Definition som_normal (solve : mat -> vec -> res vec) (W X : mat) : res mat :=
  do WX <- solve_mat solve W X ;; Ok (mdot (transp X) WX).
Definition som_gls (solve : mat -> vec -> res vec) (W X : mat) (y : vec) : res vec :=
  do XVX <- som_normal solve W X ;;
  do Wy <- solve W y ;;
  solve XVX (mdotv (transp X) Wy).

(** Lines 121-125, 148-152, 189-193 *)
Definition som_pars (mu : vec) : vec :=
  of_list [1 / mu 0%nat;
           mu 1%nat / sqrt (Rabs (mu 0%nat * mu 2%nat));
           sqrt (Rabs (mu 0%nat / mu 2%nat)) / 2 / PI].
(** mu[1] *= scaling, mu[2] *= scaling^2 *)
Definition som_rescale (scaling : R) (mu : vec) : vec :=
  mkArr (alen mu) (fun i => match i with 1%nat => mu i * scaling | 2%nat => mu i * scaling ^ 2 | _ => mu i end).
(** Lines 153-168; x ** (3/2) is x sqrt(x) for x >= 0. *)
Definition som_C (mu : vec) : mat :=
  let m0 := mu 0%nat in let m1 := mu 1%nat in let m2 := mu 2%nat in
  let p32 x := x * sqrt x in
  of_rows [[- 1 / m0 ^ 2; 0; 0];
           [- m1 / (2 * p32 (Rabs (m0 + m2))); 1 / sqrt (Rabs (m0 + m2)); - m1 / (2 * p32 (Rabs (m0 + m2)))];
           [1 / (4 * PI * m2 * sqrt (Rabs (m0 / m2))); 0; - m0 / (4 * PI * m2 ^ 2 * sqrt (Rabs (m0 / m2)))]].

Inductive som_unc := SuNone | SuStd (v : vec) | SuCov (m : mat).
Inductive som_weighting := SwNone | SwStr (s : string) | SwArr (v : vec).

Definition eye (n : nat) : mat := diagm (mkArr n (fun _ => 1)).

(** The draws of the response (lines 67-81): [z] are the standard normal numbers
    (real and imaginary parts) of one run. *)
Definition som_draws (mvn : vec -> mat -> nat -> nat -> vec) (z : nat -> vec) (n : nat)
           (H : vec) (UH : som_unc) (runs : nat) : res (list vec) :=
  match UH with
  | SuNone => Ok []
  | SuStd v => if (alen v =? n + n)%nat
               then Ok (map (fun k => mkArr (n + n) (fun r => H r + z k r * v r)) (seq 0 runs))
               else Err AssertionError
  | SuCov m => if ((mrows m =? n + n) && (mrows m =? mcols m))%nat
               then Ok (map (mvn H m runs) (seq 0 runs))
               else Err AssertionError
  end.
(** Row of iRI *)
Definition som_irow (n : nat) (d : vec) : vec := stack1 n (fun i => cinv (unstack n d i)).

(** The weighting matrix (lines 86-98); [iURI] is None when UH is not an array:
    the name is then unbound.  For a single run iURI has no axes (see M_MC.np_cov_rows):
    np.diag raises ValueError, and W = iURI makes solve raise LinAlgError in line 113.
    Without runs W is NaN, but is not used then. *)
Definition som_W (n : nat) (iURI : option mc_cov) (wgt : som_weighting) : res mat :=
  match wgt with
  | SwStr s =>
      if String.eqb s "diag" then
        match iURI with
        | Some (CovMat U) => Ok (diagm (diag_of U))
        | Some (CovScalar _) => Err ValueError
        | Some CovNaN => Ok (eye (n + n))
        | None => Err UnboundLocalError
        end
      else if String.eqb s "cov" then
        match iURI with
        | Some (CovMat U) => Ok U
        | Some (CovScalar _) => Err LinAlgError
        | Some CovNaN => Ok (eye (n + n))
        | None => Err UnboundLocalError
        end
      else Ok (eye (n + n))
  | SwArr v => if (alen v =? n + n)%nat then Ok (diagm v) else Err AssertionError
  | SwNone => Ok (eye (n + n))
  end.

Definition has_zero (n : nat) (H : vec) : bool :=
  existsb (fun i => if Req_EM_T (cnorm2 (unstack n H i)) 0 then true else false) (seq 0 n).

Fixpoint som_mc (solve : mat -> vec -> res vec) (W X : mat) (rows : list vec) : res (list vec) :=
  match rows with
  | [] => Ok []
  | d :: rest => do mu <- som_gls solve W X d ;;
                 do l <- som_mc solve W X rest ;; Ok (mu :: l)
  end.

(** The estimates, and the covariance unless UH is missing; SomNaN: all entries NaN. *)
Inductive som_out := SomFit (p : vec) (Up : option mc_cov) | SomNaN.

(** MCruns: None or a number of runs (int or float, truncated); [runs0] is the
    10000 of line 70.  np.min of an empty array raises ValueError (len(f) = 0).
    The determinant of W is not checked by the code: solve raises LinAlgError for
    a singular matrix. *)
Definition fit_som (solve : mat -> vec -> res vec) (inv : mat -> res mat)
           (mvn : vec -> mat -> nat -> nat -> vec) (z : nat -> vec) (runs0 : nat)
           (f H : vec) (UH : som_unc) (wgt : som_weighting) (MCruns : option nat) (scaling : R)
  : res som_out :=
  let n := alen f in
  if negb (n + n =? alen H)%nat then Err AssertionError
  else
    let runs := match MCruns with Some r => r | None => runs0 end in
    do draws <- som_draws mvn z n H UH runs ;;
    let iRI := map (som_irow n) draws in
    let iURI := np_cov_rows (n + n) iRI in
    let given := match UH with SuNone => false | _ => true end in
    do W <- som_W n (if given then Some iURI else None) wgt ;;
    if given then
      match MCruns with
      | Some _ =>
          do MU <- som_mc solve W (som_design f scaling) iRI ;;
          let PARS := map (fun mu => som_pars (som_rescale scaling mu)) MU in
          if (runs =? 0)%nat then Ok SomNaN
          else Ok (SomFit (rows_mean 3 PARS) (Some (np_cov_rows 3 PARS)))
      | None =>
          if (n =? 0)%nat then Err ValueError
          else if has_zero n H then Err AssertionError
          else
            let X := som_design f 1 in
            do mu <- som_gls solve W X (som_irow n H) ;;
            do XVX <- som_normal solve W X ;;
            do iXVX <- inv XVX ;;
            do U <- match iURI with CovMat U => Ok U | _ => Err LinAlgError end ;;   (* always a matrix *)
            do WU <- solve_mat solve W U ;;
            do WX <- solve_mat solve W X ;;
            let XVUVX := mdot (mdot (transp X) WU) WX in
            let Umu := mdot (mdot iXVX XVUVX) iXVX in
            let Cm := som_C mu in
            Ok (SomFit (som_pars mu) (Some (CovMat (mdot Cm (mdot Umu (transp Cm))))))
      end
    else
      if (n =? 0)%nat then Err ValueError
      else if has_zero n H then Err AssertionError
      else
        do mu <- som_gls solve W (som_design f scaling) (som_irow n H) ;;
        Ok (SomFit (som_pars (som_rescale scaling mu)) None).
