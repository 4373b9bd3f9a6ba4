(** Behaviour of the modelled functions that depends on the element type of an array or on
    the storage of a sparse matrix:
    - PyDynamic/uncertainty/propagate_DFT.py:93-126 _prod fills np.zeros_like(matrix), so
      that for a matrix of integers every product is truncated;
    - propagate_DFT.py:667-677 and 859-870 read a scipy dia_matrix by storage order;
    - PyDynamic/misc/testsignals.py squarepulse and multi_sine add floats in place to
      np.zeros_like(time);
    - testsignals.py corr_noise.calc_autocorr;
    - PyDynamic/misc/tools.py:76-99 trimOrPad with its argument mode.
    Vectors (windows, spectra, filters) hold floats; integer covariance matrices are
    arrays of dtype int, all of whose entries are integers. *)
From Coq Require Import Reals List Arith ZArith Bool String.
From Verif Require Import Base M_Interp M_Filter M_DFT M_Noise.
From Verif Require M_Fit.
Import ListNotations.
Open Scope R_scope.

(** Storing a float in an array of the given element type (numpy casting on item
    assignment: truncation towards zero for integers). *)
Definition cast (dt : dtype) (v : R) : R :=
  match dt with DFloat => v | DInt => Rtrunc v end.

(** propagate_DFT.py:115-119 _prod(vector, matrix), [dt] element type of the matrix. *)
Definition prod_vm_dt (dt : dtype) (a : vec) (B : mat) : res mat :=
  if (alen a <? mrows B)%nat then Err IndexError
  else Ok (mkMat (mrows B) (mcols B) (fun i j => cast dt (a i * B i j))).
(** propagate_DFT.py:120-124 _prod(matrix, vector). *)
Definition prod_mv_dt (dt : dtype) (A : mat) (b : vec) : res mat :=
  if (alen b <? mcols A)%nat then Err IndexError
  else Ok (mkMat (mrows A) (mcols A) (fun i j => cast dt (A i j * b j))).
(** _prod(v, _prod(M, w)): the inner product has the type of M as well. *)
Definition prod3_dt (dt : dtype) (v : vec) (M : mat) (w : vec) : res mat :=
  do C <- prod_mv_dt dt M w ;; prod_vm_dt dt v C.

(** propagate_DFT.py:58-90 _apply_window with a matrix Ux of the given type. *)
Definition apply_window_dt (dt : dtype) (x : vec) (M : mat) (w : vec) : res (vec * sunc) :=
  if negb (alen x =? alen w)%nat then Err AssertionError
  else if negb ((mrows M =? mcols M) && (mrows M =? alen x))%nat then Err AssertionError
  else do Uw <- prod3_dt dt w M w ;; Ok (vmul x w, SuMat Uw).
(** propagate_DFT.py:189-346 GUM_DFT(x, Ux, N, window) with a matrix Ux of the given type:
    only the window makes a difference (np.dot with the float sensitivities is exact). *)
Definition GUM_DFT_window_dt (dt : dtype) (x : vec) (M : mat) (N : option Z) (w : vec)
  : res dft_out :=
  do (x', U') <- apply_window_dt dt x M w ;; GUM_DFT x' U' N None None None false None.

(** propagate_DFT.py:481-595 DFT2AmpPhase, branch of a two-dimensional UF (570-590). *)
Definition DFT2AmpPhase_dt (dt : dtype) (F : vec) (M : mat) : res (vec * vec * mat) :=
  let h := (alen F / 2)%nat in
  if negb (alen F =? 2 * h)%nat then ap_odd (prod3_dt dt) F M
  else
    let R_ := slice F 0 h in
    let I_ := slice F h (alen F) in
    let A := mkArr h (fun k => sqrt (R_ k ^ 2 + I_ k ^ 2)) in
    let P := mkArr h (fun k => arctan2 (I_ k) (R_ k)) in
    let aR := mkArr h (fun k => R_ k / A k) in
    let aI := mkArr h (fun k => I_ k / A k) in
    let pR := mkArr h (fun k => - I_ k / A k ^ 2) in
    let pI := mkArr h (fun k => R_ k / A k ^ 2) in
    let URR := blk11 M h in
    let URI := blk12 M h in
    let UII := blk22 M h in
    let p3 := prod3_dt dt in
    do _ <- uf_check (diag_len URR) (diag_len UII) h ;;
    do U11 <- sum4 (p3 aR URR aR) (p3 aR URI aI) (p3 aI (transp URI) aR) (p3 aI UII aI) ;;
    do U12 <- sum4 (p3 aR URR pR) (p3 aR URI pI) (p3 aI (transp URI) pR) (p3 aI UII pI) ;;
    do U22 <- sum4 (p3 pR URR pR) (p3 pR URI pI) (p3 pI (transp URI) pR) (p3 pI UII pI) ;;
    do UAP <- stack4 U11 U12 (transp U12) U22 ;;
    Ok (A, P, UAP).

(** propagate_DFT.py:598-711 AmpPhase2DFT, branch of a dense two-dimensional UAP (688-709). *)
Definition AmpPhase2DFT_dt (dt : dtype) (A P : vec) (M : mat) : res (vec * mat) :=
  let N := alen A in
  if negb (alen A =? alen P)%nat then Err ValueError
  else if negb ((mrows M =? 2 * N)%nat && (mcols M =? 2 * N)%nat) then Err ValueError
  else
    let F := cat (mkArr N (fun k => A k * cos (P k))) (mkArr N (fun k => A k * sin (P k))) in
    let CRA := mkArr N (fun k => cos (P k)) in
    let CRP := mkArr N (fun k => - A k * sin (P k)) in
    let CIA := mkArr N (fun k => sin (P k)) in
    let CIP := mkArr N (fun k => A k * cos (P k)) in
    let Uaa := blk11 M N in
    let Uap := blk12 M N in
    let Upp := blk22 M N in
    let p3 := prod3_dt dt in
    do U11 <- sum4 (p3 CRA Uaa CRA) (p3 CRP (transp Uap) CRA) (p3 CRA Uap CRP) (p3 CRP Upp CRP) ;;
    do U12 <- sum4 (p3 CRA Uaa CIA) (p3 CRP (transp Uap) CIA) (p3 CRA Uap CIP) (p3 CRP Upp CIP) ;;
    do U22 <- sum4 (p3 CIA Uaa CIA) (p3 CIP (transp Uap) CIA) (p3 CIA Uap CIP) (p3 CIP Upp CIP) ;;
    do UF <- stack4 U11 U12 (transp U12) U22 ;;
    Ok (F, UF).

(** propagate_DFT.py:1033-1130 DFT_multiply(Y, F, UY) with a two-dimensional UY and UF None
    (_calcU, lines 1097-1109). *)
Definition DFT_multiply_dt (dt : dtype) (Y F : vec) (M : mat) : res (vec * mat) :=
  if negb (alen Y =? alen F)%nat then Err ValueError
  else
    let h := (alen Y / 2)%nat in
      let RA := slice F 0 h in let IA := slice F h (alen F) in
      do YF <- mul_est Y F ;;
      let UBRR := blk11 M h in let UBRI := blk12 M h in let UBII := blk22 M h in
      let neg (m : res mat) := do m' <- m ;; Ok (scale2 (-1) m') in
      let p3 := prod3_dt dt in
      do rr <- sum4 (p3 RA UBRR RA) (neg (p3 IA (transp UBRI) RA))
                    (neg (p3 RA UBRI IA)) (p3 IA UBII IA) ;;
      do ri <- sum4 (p3 RA UBRR IA) (neg (p3 IA (transp UBRI) IA))
                    (p3 RA UBRI RA) (neg (p3 IA UBII RA)) ;;
      do ii <- sum4 (p3 IA UBRR IA) (p3 RA (transp UBRI) IA)
                    (p3 IA UBRI RA) (p3 RA UBII RA) ;;
      do U <- stack4 rr ri (transp ri) ii ;;
      Ok (YF, U).

(** ** scipy.sparse.dia_matrix of shape (n, n): stored diagonals in storage order, each an
    offset and a data row; data[k][j] is the entry in row j - offset[k], column j. *)
Record gdia := mkGdia { gd_n : nat; gd_diags : list (Z * vec) }.
(** dia_matrix.toarray() *)
Definition gdia_toarray (g : gdia) : mat :=
  mkMat (gd_n g) (gd_n g) (fun i j =>
    fold_right (fun d acc =>
      (if (Z.of_nat j - Z.of_nat i =? fst d)%Z then vpad (snd d) j else 0) + acc) 0 (gd_diags g)).
(** Python slice x[a:b] with integer bounds of any sign. *)
Definition pybound (len : nat) (z : Z) : nat :=
  if (z <? 0)%Z then Z.to_nat (z + Z.of_nat len) else Nat.min (Z.to_nat z) len.
Definition pyslice (x : vec) (a b : Z) : vec :=
  let lo := pybound (alen x) a in
  mkArr (pybound (alen x) b - lo) (fun i => x (lo + i)%nat).
(** Lines 668-675 and 860-867: diags[0] and diags[1][offset[1] : nrows + offset[1]]. *)
Definition gdia_read (g : gdia) : res (vec * vec) :=
  match gd_diags g with
  | (_, d0) :: (o1, d1) :: _ => Ok (d0, pyslice d1 o1 (Z.of_nat (gd_n g) + o1))
  | _ => Err IndexError
  end.
(** AmpPhase2DFT, lines 638-686, UAP a dia_matrix: the elementwise products need arrays of
    one length (numpy's broadcasting of a one-element array is reported as ValueError as
    well; for N = 1 the final sparse.diags raises it). *)
Definition AmpPhase2DFT_gdia (A P : vec) (g : gdia) (keep_sparse : bool) : res (vec * cunc2) :=
  let N := alen A in
  if negb (alen A =? alen P)%nat then Err ValueError
  else if negb (gd_n g =? 2 * N)%nat then Err ValueError
  else
    do (main, up) <- gdia_read g ;;
    if negb ((alen main =? 2 * N)%nat && (alen up =? N)%nat) then Err ValueError
    else AmpPhase2DFT A P (ApDia (mkDia N main up up)) keep_sparse.
(** AmpPhase2Time, lines 828-887, UAP a dia_matrix.  The checks, the inverse transform and
    the sensitivities (lines 828-854) come before the diagonals are read; they depend on
    the shape of UAP only and are those of the vector branch. *)
Definition AmpPhase2Time_gdia (A P : vec) (g : gdia) : res (vec * mat) :=
  do _ <- AmpPhase2Time A P (ApVec (mkArr (gd_n g) (fun _ => 0))) ;;
  do (main, up) <- gdia_read g ;;
  AmpPhase2Time A P (ApDia (mkDia (gd_n g / 2) main up up)).
(** scipy.sparse.diags(v): main diagonal only.  scipy.sparse.diags([m, u, l], [0, n, -n]):
    the rows are padded to the common length 2n; an upper diagonal is stored from column n
    on.  scipy.sparse.dia_matrix(dense): the diagonals with a non-zero entry in increasing
    order of their offsets (coo_matrix.todia). *)
Definition sp_diags1 (v : vec) : gdia := mkGdia (alen v) [(0%Z, v)].
Definition up_row (n : nat) (u : vec) : vec :=
  mkArr (2 * n) (fun j => if (j <? n)%nat then 0 else u (j - n)%nat).
Definition lo_row (n : nat) (l : vec) : vec :=
  mkArr (2 * n) (fun j => if (j <? n)%nat then l j else 0).
Definition sp_diags3 (n : nat) (m u l : vec) : gdia :=
  mkGdia (2 * n) [(0%Z, m); (Z.of_nat n, up_row n u); (- Z.of_nat n, lo_row n l)%Z].
Definition sp_sorted (n : nat) (m u l : vec) : gdia :=
  mkGdia (2 * n) [(- Z.of_nat n, lo_row n l)%Z; (0%Z, m); (Z.of_nat n, up_row n u)].

(** ** testsignals.py:134-163 squarepulse, [dt] element type of time: "x += floats" on an
    integer array raises numpy's UFuncTypeError, a TypeError. *)
Definition squarepulse_dt (dt : dtype) (time : vec) (height : R) (numpulse : nat) (noise : R)
           (z : vec) : res vec :=
  match dt with
  | DFloat => squarepulse time height numpulse noise z
  | DInt =>
      if (alen time =? 0)%nat then Err IndexError
      else match numpulse with
           | S _ => Err TypeError
           | O => if rltb 0 noise then Err TypeError else Ok (mkArr (alen time) (fun _ => 0))
           end
  end.
(** testsignals.py:191-215 multi_sine: line 214 adds floats in every case. *)
Definition multi_sine_dt (dt : dtype) (time : vec) (amps freqs : list R) (noise : R) (z : vec)
  : res vec :=
  match dt with
  | DFloat => Ok (multi_sine time amps freqs noise z)
  | DInt => Err TypeError
  end.

(** ** numpy.corrcoef(x, y)[0, 1] for arrays of n entries: covariance divided by the square
    roots of the variances and clipped to [-1, 1]; nan (None) if a variance vanishes or
    n < 2. *)
Definition np_mean (n : nat) (x : nat -> R) : R := rsum n x / INR n.
Definition np_cov (n : nat) (x y : nat -> R) : R :=
  rsum n (fun i => (x i - np_mean n x) * (y i - np_mean n y)) / (INR n - 1).
Definition np_clip1 (v : R) : R := Rmax (-1) (Rmin 1 v).
Definition np_corrcoef (n : nat) (x y : nat -> R) : option R :=
  if (n <? 2)%nat then None
  else if Req_EM_T (np_cov n x x) 0 then None
  else if Req_EM_T (np_cov n y y) 0 then None
  else Some (np_clip1 (np_cov n x y / sqrt (np_cov n x x) / sqrt (np_cov n y y))).
(** testsignals.py:265-269 corr_noise.calc_autocorr(lag); [noise] is the attribute set by
    calc_noise or calc_noise2 (None: neither was called; the attribute is read for every
    element of range(1, lag)).  noise[:-i] and noise[i:] have max(N - i, 0) entries. *)
Definition calc_autocorr (noise : option vec) (lag : nat) : res (list (option R)) :=
  match noise with
  | None => if (2 <=? lag)%nat then Err AttributeError else Ok [Some 1]
  | Some x => Ok (Some 1 :: map (fun i => np_corrcoef (alen x - i) x (fun k => x (i + k)%nat))
                                (seq 1 (lag - 1)))
  end.

(** ** tools.py:76-99 trimOrPad(array, length, mode) for an array of floats and the modes of
    numpy.pad; np.pad(array, (0, n), mode) is called only if the array is too short,
    and refuses to extend an empty array with the modes other than "constant" and "empty"; an
    unknown mode raises ValueError.  Only the name of the mode is handed over, so that the
    further arguments have their default values: "linear_ramp" ends at 0, "maximum", "mean",
    "median" and "minimum" refer to the whole array.  Mode "empty" leaves the new entries
    undefined: [junk] are the contents of the memory.  The index
    functions of np.pad are those of M_Filter.v, here without padding in front. *)
Definition np_max (a : vec) : R := fold_right Rmax (a 0%nat) (map a (seq 0 (alen a))).
Definition np_min (a : vec) : R := fold_right Rmin (a 0%nat) (map a (seq 0 (alen a))).
Definition np_pad_right (junk : nat -> R) (mode : string) (a : vec) (k : nat) : res vec :=
  let n := alen a in
  let fill (f : nat -> R) := Ok (mkArr (n + k) (fun i => if (i <? n)%nat then a i else f i)) in
  let nonempty (f : nat -> R) := if (n =? 0)%nat then Err ValueError else fill f in
  if (mode =? "constant")%string then fill (fun _ => 0)
  else if (mode =? "empty")%string then fill junk
  else if (mode =? "edge")%string then nonempty (fun i => a (pad_edge_idx n 0 i))
  else if (mode =? "wrap")%string then nonempty (fun i => a (i mod n)%nat)
  else if (mode =? "reflect")%string then nonempty (fun i => a (pad_refl_idx n 0 i))
  else if (mode =? "symmetric")%string then nonempty (fun i => a (pad_sym_idx n 0 i))
  (* linspace(0, a[n-1], k, endpoint=False), reversed *)
  else if (mode =? "linear_ramp")%string then nonempty (fun i => INR (n + k - 1 - i) * (a (n - 1)%nat / INR k))
  else if (mode =? "maximum")%string then nonempty (fun _ => np_max a)
  else if (mode =? "mean")%string then nonempty (fun _ => rsum n a / INR n)
  else if (mode =? "median")%string then nonempty (fun _ => M_Fit.median a)
  else if (mode =? "minimum")%string then nonempty (fun _ => np_min a)
  else Err ValueError.
Definition trimOrPad_mode (junk : nat -> R) (a : vec) (len : nat) (mode : string) : res vec :=
  if (alen a <? len)%nat then np_pad_right junk mode a (len - alen a) else Ok (slice a 0 len).
