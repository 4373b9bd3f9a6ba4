(** Model of PyDynamic/uncertainty/propagate_filter.py (FIR part; IIRuncFilter: M_IIR.v),
    PyDynamic/uncertainty/propagate_convolution.py and of
    PyDynamic/misc/tools.py: trimOrPad, shift_uncertainty.

    Reals are exact; arrays have at least one element per axis (numpy's zero-size
    special cases are not modelled).  print() calls are dropped. *)
From Coq Require Import Reals List Arith ZArith Bool String.
From Verif Require Import Base.
Import ListNotations.
Open Scope R_scope.
Open Scope string_scope.

(** misc/tools.py:76-99, default mode "constant" (np.pad appends zeros). *)
Definition trimOrPad (a : vec) (len : nat) : vec :=
  if (alen a <? len)%nat
  then mkArr (alen a + (len - alen a)) (fun i => if (i <? alen a)%nat then a i else 0)
  else slice a 0 len.

(** scipy.signal.lfilter(b, a, x, zi): transposed direct form II, the state [z] being the
    delay registers (0 beyond the last one).  Coefficients are divided by a[0] as scipy
    does.  Used by propagate_filter.py:86,188 and propagate_MonteCarlo.py. *)
Definition lf_out (b a : vec) (z : nat -> R) (xn : R) : R :=
  z O + vpad b 0 / vpad a 0 * xn.
Definition lf_next (b a : vec) (z : nat -> R) (xn : R) : nat -> R :=
  fun i => z (S i) + vpad b (S i) / vpad a 0 * xn
           - vpad a (S i) / vpad a 0 * lf_out b a z xn.
Fixpoint lf_state (b a : vec) (zi : nat -> R) (x : nat -> R) (n : nat) : nat -> R :=
  match n with
  | O => zi
  | S m => lf_next b a (lf_state b a zi x m) (x m)
  end.
Definition lfilter (b a : vec) (x : vec) (zi : vec) : vec :=
  mkArr (alen x) (fun n => lf_out b a (lf_state b a (vpad zi) x n) (x n)).

(** scipy.signal.lfilter_zi(b, 1.0): steady state of the step response.  scipy solves
    zi = A zi + B with A the transposed companion matrix of [1,0,..,0] and B = b[1:];
    the solution is written down here (see P_Filter.lfilter_zi_steady for the equation).
    scipy.linalg.companion raises ValueError for fewer than two coefficients. *)
Definition lfilter_zi1 (b : vec) : res vec :=
  if (alen b <? 2)%nat then Err ValueError
  else Ok (mkArr (alen b - 1)
             (fun i => rsum (alen b - 1 - i) (fun k => b (i + 1 + k)%nat))).

Definition vscale (c : R) (v : vec) : vec := mkArr (alen v) (fun i => c * v i).

(** The array 1.0 used as denominator. *)
Definition one_vec : vec := mkArr 1 (fun _ => 1).

(** propagate_filter.py:223-232 _stationary_prepend_covariance(U, n):
    toeplitz(c, r) with c = r_[U[:,0], 0..], r = r_[U[0,:], 0..], then
    U_adjusted[n:, n:] = U. *)
Definition stationary_prepend_covariance (U : mat) (n : nat) : mat :=
  let c := mkArr (mrows U + n) (fun i => if (i <? mrows U)%nat then U i 0%nat else 0) in
  let r := mkArr (mcols U + n) (fun j => if (j <? mcols U)%nat then U 0%nat j else 0) in
  let T := toeplitz c r in
  mkMat (mrows T) (mcols T)
    (fun i j => if (n <=? i)%nat && (n <=? j)%nat then U (i - n)%nat (j - n)%nat else T i j).

(** np.pad(U, ((n,0),(n,0)), "constant", constant_values=0) *)
Definition zero_prepend_covariance (U : mat) (n : nat) : mat :=
  mkMat (n + mrows U) (n + mcols U)
    (fun i j => if (n <=? i)%nat && (n <=? j)%nat then U (i - n)%nat (j - n)%nat else 0).

(** Uncertainty of the filter coefficients as passed by the user. *)
Inductive cunc := UtNone | UtFloat (u : R) | UtVec (v : vec) | UtMat (m : mat).

(** scipy.signal.convolve(M, Utheta, "valid") / (M, Utheta.T): arrays of different
    dimension raise ValueError. *)
Definition conv2_valid_unc (M : mat) (u : cunc) (tr : bool) : res mat :=
  match u with
  | UtMat m => conv2_valid M (if tr then transp m else m)
  | _ => Err ValueError
  end.

Definition is_none (u : cunc) : bool := match u with UtNone => true | _ => false end.

(** propagate_filter.py:76-91: value of the history, branch by branch. *)
Definition history_value (x : vec) (ic : string) : res R :=
  if ic =? "constant" then (if (alen x =? 0)%nat then Err IndexError else Ok (x 0%nat))
  else if ic =? "zero" then Ok 0
  else Err ValueError.

(** propagate_filter.py:27-124 _fir_filter *)
Definition fir_filter (x theta : vec) (Ux : option mat) (Utheta : cunc) (ic : string)
  : res (vec * mat) :=
  let Ntheta := alen theta in
  do x0 <- history_value x ic ;;
  do zi <- lfilter_zi1 theta ;;
  let y := lfilter theta one_vec x (vscale x0 zi) in
  let Uy := zeros2 (alen x) (alen x) in
  (* Ux_extended, lines 97-109; only looked at when Ux is not None *)
  let ext := fun U => if ic =? "constant" then stationary_prepend_covariance U (Ntheta - 1)
                      else zero_prepend_covariance U (Ntheta - 1) in
  do Uy <- match Ux with
           | None => Ok Uy
           | Some U => do c <- conv2_valid (outer theta theta) (ext U) ;; iadd2 Uy c
           end ;;
  do Uy <- match Utheta with
           | UtNone => Ok Uy
           | u => let xe := prepend (Ntheta - 1) x0 x in
                  do c <- conv2_valid_unc (outer xe xe) u false ;; iadd2 Uy c
           end ;;
  do Uy <- match Ux, Utheta with
           | None, _ => Ok Uy
           | _, UtNone => Ok Uy
           | Some U, u => do c <- conv2_valid_unc (ext U) u true ;; iadd2 Uy c
           end ;;
  Ok (y, Uy).

(** propagate_filter.py:127-220 _fir_filter_diag *)
Definition fir_filter_diag (x theta : vec) (Ux_diag Utheta_diag : option vec) (ic : string)
  : res (vec * vec) :=
  let Ntheta := alen theta in
  do x0 <- history_value x ic ;;
  do zi <- lfilter_zi1 theta ;;
  let y := lfilter theta one_vec x (vscale x0 zi) in
  let Uy := mkArr (alen x) (fun _ => 0) in
  let ext := fun u : vec =>
    prepend (Ntheta - 1) (if ic =? "constant" then u 0%nat else 0) u in
  do Uy <- match Ux_diag with
           | None => Ok Uy
           | Some u => iadd1 Uy (conv1_valid (vmap Rsqr theta) (ext u))
           end ;;
  do Uy <- match Utheta_diag with
           | None => Ok Uy
           | Some ut => iadd1 Uy (conv1_valid (vmap Rsqr (prepend (Ntheta - 1) x0 x)) ut)
           end ;;
  do Uy <- match Ux_diag, Utheta_diag with
           | Some u, Some ut => iadd1 Uy (conv1_valid (ext u) ut)
           | _, _ => Ok Uy
           end ;;
  Ok (y, Uy).

(** Element type of an input array: np.full_like keeps it, so that a float fill value is
    truncated towards zero when the array holds integers. *)
Inductive dtype := DFloat | DInt.
Definition Rtrunc (v : R) : R :=
  if Rle_dec 0 v then IZR (Int_part v) else - IZR (Int_part (- v)).
Definition full_like (dt : dtype) (n : nat) (v : R) : vec :=
  mkArr n (fun _ => match dt with DFloat => v | DInt => Rtrunc v end).

(** sigma_noise as passed by the user: None, float, 1D array, 2D array, array of another
    dimension, or an object of another type (int, list, ...). *)
Inductive noise :=
| NsNone | NsFloat (s : R) | NsVec (v : vec) | NsMat (m : mat) | NsNd | NsOther.

(** Second component of the result: point-wise standard uncertainties or covariance. *)
Inductive fir_unc := PointU (u : vec) | FullU (U : mat).

(** propagate_filter.py:322-336: condition for the efficient computation. *)
Definition fast_path (sn : noise) (Utheta : cunc) (blow : option vec) (kind : string)
           (full : bool) : bool :=
  negb full
  && match sn with NsFloat _ | NsVec _ | NsNone => true | _ => false end
  && match Utheta with UtMat _ => false | _ => true end
  && match blow with None => true | Some _ => false end
  && ((kind =? "diag")
      || negb match sn with NsVec _ | NsMat _ | NsNd => true | _ => false end).

(** propagate_filter.py:364-383: input covariance of the general path. *)
Definition noise_cov (n : nat) (sn : noise) (kind : string) : res mat :=
  match sn with
  | NsFloat s => Ok (diagm (mkArr n (fun _ => Rsqr s)))
  | NsVec v =>
      if kind =? "diag" then Ok (diagm (vmap Rsqr v))
      else if kind =? "corr" then let t := trimOrPad v n in Ok (toeplitz t t)
      else Err ValueError
  | NsMat m => Ok m
  | NsNd => Err UnboundLocalError
  | NsNone | NsOther => Err ValueError
  end.

(** propagate_filter.py:235-407 FIRuncFilter.  [ydt], [tdt]: element types of y and theta
    (np.full_like in lines 341 and 348).  Utheta other than None/float/1D/2D array is not
    modelled; blow is None or an array. *)
Definition FIRuncFilter (ydt tdt : dtype) (y : vec) (sn : noise) (theta : vec)
           (Utheta : cunc) (shift : Z) (blow : option vec) (kind : string) (full : bool)
  : res (vec * fir_unc) :=
  if fast_path sn Utheta blow kind full then
    let Uy_diag := match sn with
                   | NsFloat s => Some (full_like ydt (alen y) (Rsqr s))
                   | NsVec v => Some (vmap Rsqr v)
                   | _ => None
                   end in
    let Ut_diag := match Utheta with
                   | UtFloat u => Some (full_like tdt (alen theta) u)
                   | UtVec v => Some (vmap Rsqr v)
                   | _ => None
                   end in
    do r <- fir_filter_diag y theta Uy_diag Ut_diag "constant" ;;
    let '(x, Ux) := r in Ok (x, PointU (vmap (fun v => sqrt (Rabs v)) Ux))
  else
    do Uy <- noise_cov (alen y) sn kind ;;
    do r <- match blow with
            | Some bl =>
                do low <- fir_filter y bl (Some Uy) UtNone "constant" ;;
                let '(xlow, Ulow) := low in
                fir_filter xlow theta (Some Ulow) Utheta "constant"
            | None => fir_filter y theta (Some Uy) Utheta "constant"
            end ;;
    let '(x, Ux) := r in
    (* lines 400-402: np.roll(Ux, (-shift, -shift)) without axis *)
    let x' := if (shift =? 0)%Z then x else roll x (- shift) in
    let Ux' := if (shift =? 0)%Z then Ux else roll_flat Ux (- shift + - shift) in
    if full then Ok (x', FullU Ux')
    else Ok (x', PointU (vmap (fun v => sqrt (Rabs v)) (diag_of Ux'))).

(** ** propagate_convolution.py *)

(** np.pad(x, (0, k), "constant") and the 2D counterpart. *)
Definition zpad_end (x : vec) (k : nat) : vec :=
  mkArr (alen x + k) (fun i => if (i <? alen x)%nat then x i else 0).
Definition zpad_end2 (U : mat) (k : nat) : mat :=
  mkMat (mrows U + k) (mcols U + k)
    (fun i j => if (i <? mrows U)%nat && (j <? mcols U)%nat then U i j else 0).

(** Source index used by np.pad for position [i] (0 <= i < n + 2k) of an axis of length n
    padded by k on both sides:
    - "edge": clip;
    - "symmetric": reflection with repeated edge, period 2n;
    - "reflect": reflection without repeated edge, period 2n-2 (n = 1: constant). *)
Definition pad_edge_idx (n k i : nat) : nat :=
  if (i <? k)%nat then 0%nat else if (i - k <? n)%nat then (i - k)%nat else (n - 1)%nat.
Definition pad_sym_idx (n k i : nat) : nat :=
  let m := Z.to_nat ((Z.of_nat i - Z.of_nat k) mod (2 * Z.of_nat n))%Z in
  if (m <? n)%nat then m else (2 * n - 1 - m)%nat.
Definition pad_refl_idx (n k i : nat) : nat :=
  if (n =? 1)%nat then 0%nat
  else let m := Z.to_nat ((Z.of_nat i - Z.of_nat k) mod (2 * Z.of_nat n - 2))%Z in
       if (m <? n)%nat then m else (2 * n - 2 - m)%nat.

(** propagate_convolution.py:118-123: translation of the ndimage mode names. *)
Definition pad_idx (mode : string) : nat -> nat -> nat -> nat :=
  if mode =? "nearest" then pad_edge_idx
  else if mode =? "reflect" then pad_sym_idx
  else pad_refl_idx.

Definition pad_by (idx : nat -> nat -> nat -> nat) (x : vec) (k : nat) : vec :=
  mkArr (k + alen x + k) (fun i => x (idx (alen x) k i)).
Definition pad2_by (idx : nat -> nat -> nat -> nat) (U : mat) (k : nat) : mat :=
  mkMat (k + mrows U + k) (k + mcols U + k)
    (fun i j => U (idx (mrows U) k i) (idx (mcols U) k j)).

Definition opt_unc (U : option mat) : cunc := match U with None => UtNone | Some m => UtMat m end.

Definition is_numpy_mode (mode : string) : bool :=
  (mode =? "valid") || (mode =? "full") || (mode =? "same").

(** propagate_convolution.py:19-151 convolve_unc.  U1, U2 are None or 2D arrays. *)
Definition convolve_unc (x1 : vec) (U1 : option mat) (x2 : vec) (U2 : option mat)
           (mode : string) : res (vec * mat) :=
  let swap := (alen x1 <? alen x2)%nat && is_numpy_mode mode in
  let '(x1, x2) := if swap then (x2, x1) else (x1, x2) in
  let '(U1, U2) := if swap then (U2, U1) else (U1, U2) in
  let n1 := alen x1 in
  let n2 := alen x2 in
  if mode =? "valid" then
    do r <- fir_filter x1 x2 U1 (opt_unc U2) "zero" ;;
    let '(y, Uy) := r in
    Ok (slice y (n2 - 1) (alen y), slice2 Uy (n2 - 1) (mrows Uy))
  else if mode =? "full" then
    let pad_len := (n2 - 1)%nat in
    do r <- fir_filter (zpad_end x1 pad_len) x2
              (option_map (fun U => zpad_end2 U pad_len) U1) (opt_unc U2) "zero" ;;
    Ok r
  else if mode =? "same" then
    let pad_len := ((n2 - 1) / 2)%nat in
    do r <- fir_filter (zpad_end x1 pad_len) x2
              (option_map (fun U => zpad_end2 U pad_len) U1) (opt_unc U2) "zero" ;;
    let '(y, Uy) := r in
    Ok (slice y pad_len (alen y), slice2 Uy pad_len (mrows Uy))
  else if (mode =? "nearest") || (mode =? "reflect") || (mode =? "mirror") then
    let pad_len := ((n2 + 1) / 2)%nat in
    do r <- fir_filter (pad_by (pad_idx mode) x1 pad_len) x2
              (option_map (fun U => pad2_by (pad_idx mode) U pad_len) U1) (opt_unc U2) "zero" ;;
    let '(y, Uy) := r in
    Ok (slice y n2 (n2 + n1), slice2 Uy n2 (n2 + n1))
  else Err ValueError.

(** ** misc/tools.py:37-74 shift_uncertainty *)
Inductive shift_unc := SuFloat (u : R) | SuVec (v : vec) | SuMat (m : mat) | SuNd | SuOther.
Inductive py_shift := ShInt (s : Z) | ShOther.

Definition shift_uncertainty (x : vec) (ux : shift_unc) (shift : py_shift)
  : res (vec * shift_unc) :=
  match shift with
  | ShOther => Err AssertionError
  | ShInt s =>
      let xs := roll x s in
      match ux with
      | SuFloat u => Ok (xs, SuFloat u)
      | SuVec v => Ok (xs, SuVec (roll v s))
      | SuMat m => if (mrows m =? mcols m)%nat then Ok (xs, SuMat (roll2 m s s))
                   else Err AssertionError
      | SuNd => Err TypeError
      | SuOther => Err TypeError
      end
  end.
