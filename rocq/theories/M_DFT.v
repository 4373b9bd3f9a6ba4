(** Model of PyDynamic/uncertainty/propagate_DFT.py.

    Reals are exact.  print() and warnings are dropped; the MemoryError fall-backs (lines 331-344,
    1021-1028: return the three blocks instead of the stacked matrix) are in M_Mem.v.
    A vector "real parts followed by imaginary parts" of h complex numbers has length 2h;
    numpy's broadcasting of slices of different length (only possible when one of
    them has length 1, i.e. for malformed F of length 1 or 3) is reported as ValueError. *)
From Coq Require Import Reals List Arith ZArith Bool String.
From Verif Require Import Base.
Import ListNotations.
Open Scope R_scope.

(** ** numpy helpers *)

(** np.dot of two matrices: ValueError if the inner dimensions differ. *)
Definition dot (A B : mat) : res mat :=
  if (mcols A =? mrows B)%nat
  then Ok (mkMat (mrows A) (mcols B) (fun i j => rsum (mcols A) (fun k => A i k * B k j)))
  else Err ValueError.

(** A + B with numpy broadcasting of axes of length 1. *)
Definition bdim (a b : nat) : res nat :=
  if (a =? b)%nat then Ok a else if (a =? 1)%nat then Ok b else if (b =? 1)%nat then Ok a
  else Err ValueError.
Definition bidx (full a i : nat) : nat := if (a =? full)%nat then i else 0%nat.
Definition add2 (A B : mat) : res mat :=
  do r <- bdim (mrows A) (mrows B) ;;
  do c <- bdim (mcols A) (mcols B) ;;
  Ok (mkMat r c (fun i j => A (bidx r (mrows A) i) (bidx c (mcols A) j)
                          + B (bidx r (mrows B) i) (bidx c (mcols B) j))).
(** Operations on one-dimensional arrays with numpy broadcasting, and a * b * c. *)
Definition bvec (op : R -> R -> R) (a b : vec) : res vec :=
  do n <- bdim (alen a) (alen b) ;;
  Ok (mkArr n (fun i => op (a (bidx n (alen a) i)) (b (bidx n (alen b) i)))).
Definition bmul3 (a b c : vec) : res vec := do t <- bvec Rmult a b ;; bvec Rmult t c.
Definition scale2 (c : R) (A : mat) : mat := mkMat (mrows A) (mcols A) (fun i j => c * A i j).

(** M[r0:r1, c0:c1] *)
Definition sub2 (M : mat) (r0 r1 c0 c1 : nat) : mat :=
  mkMat (Nat.min r1 (mrows M) - r0) (Nat.min c1 (mcols M) - c0)
        (fun i j => M (r0 + i)%nat (c0 + j)%nat).

(** np.r_[a, b] *)
Definition cat (a b : vec) : vec :=
  mkArr (alen a + alen b) (fun i => if (i <? alen a)%nat then a i else b (i - alen a)%nat).

(** np.vstack((np.hstack((A, B)), np.hstack((B.T, D)))) of matrices. *)
Definition stack4 (A B C D : mat) : res mat :=
  if (mrows A =? mrows B)%nat && (mrows C =? mrows D)%nat
     && (mcols A + mcols B =? mcols C + mcols D)%nat
  then Ok (mkMat (mrows A + mrows C) (mcols A + mcols B)
        (fun i j =>
           if (i <? mrows A)%nat
           then (if (j <? mcols A)%nat then A i j else B i (j - mcols A)%nat)
           else (if (j <? mcols C)%nat then C (i - mrows A)%nat j
                 else D (i - mrows A)%nat (j - mcols C)%nat)))
  else Err ValueError.

(** Elementwise combination of two vectors of the length of the first. *)
Definition vmap2 (f : R -> R -> R) (a b : vec) : vec :=
  mkArr (alen a) (fun i => f (a i) (b i)).
Definition vmul := vmap2 Rmult.
Definition vadd := vmap2 Rplus.

(** np.arctan2(y, x) (signed zeros are not distinguished). *)
Definition arctan2 (y x : R) : R :=
  if Rlt_dec 0 x then atan (y / x)
  else if Rlt_dec x 0 then (if Rle_dec 0 y then atan (y / x) + PI else atan (y / x) - PI)
  else if Rlt_dec 0 y then PI / 2
  else if Rlt_dec y 0 then - (PI / 2)
  else 0.

(** numpy.fft.rfft(x): for k = 0..n/2 real and imaginary part of
    sum_m x[m] exp(-2 pi i k m / n); ValueError for empty input. *)
Definition rfft_angle (n k m : nat) : R := 2 * PI * INR k * INR m / INR n.
Definition rfft_re (x : vec) (k : nat) : R :=
  rsum (alen x) (fun m => x m * cos (rfft_angle (alen x) k m)).
Definition rfft_im (x : vec) (k : nat) : R :=
  rsum (alen x) (fun m => - (x m * sin (rfft_angle (alen x) k m))).
Definition rfft (x : vec) : res (vec * vec) :=
  if (alen x =? 0)%nat then Err ValueError
  else Ok (mkArr (alen x / 2 + 1) (rfft_re x), mkArr (alen x / 2 + 1) (rfft_im x)).

(** numpy.fft.irfft(c) for h complex values: n = 2(h-1) real values, the missing half
    of the spectrum being the conjugate of the given one; the imaginary parts of the
    first and the last value are ignored.  ValueError for h <= 1 (n <= 0). *)
Definition irfft_val (h : nat) (re im : nat -> R) (m : nat) : R :=
  let n := (2 * (h - 1))%nat in
  (re 0%nat
   + rsum (h - 2) (fun k => 2 * (re (S k) * cos (rfft_angle n (S k) m)
                                 - im (S k) * sin (rfft_angle n (S k) m)))
   + re (h - 1)%nat * cos (PI * INR m)) / INR n.
Definition irfft (re im : vec) : res vec :=
  if (alen re <=? 1)%nat then Err ValueError
  else Ok (mkArr (2 * (alen re - 1)) (irfft_val (alen re) re im)).

(** Indices where a boolean mask is True, in increasing order (the running index km of
    the loops in GUM_DFT enumerates exactly these). *)
Definition true_idx (m : arr bool) : list nat := filter m (seq 0 (alen m)).
Definition take_list (v : nat -> R) (idx : list nat) : vec :=
  mkArr (List.length idx) (fun i => v (nth i idx 0%nat)).

(** ** propagate_DFT.py:93-126 _prod, matrix times diagonal.  An index error arises if
    the vector is too short; a longer vector is accepted. *)
Definition prod_vm (a : vec) (B : mat) : res mat :=
  if (alen a <? mrows B)%nat then Err IndexError
  else Ok (mkMat (mrows B) (mcols B) (fun i j => a i * B i j)).
Definition prod_mv (A : mat) (b : vec) : res mat :=
  if (alen b <? mcols A)%nat then Err IndexError
  else Ok (mkMat (mrows A) (mcols A) (fun i j => A i j * b j)).
(** _prod(v, _prod(M, w)) *)
Definition prod3 (v : vec) (M : mat) (w : vec) : res mat :=
  do C <- prod_mv M w ;; prod_vm v C.
(** sum of four matrices, added from the left *)
Definition sum4 (a b c d : res mat) : res mat :=
  do a' <- a ;; do b' <- b ;; do s <- add2 a' b' ;;
  do c' <- c ;; do s2 <- add2 s c' ;; do d' <- d ;; add2 s2 d'.

(** Uncertainty of a time domain signal: float, 1D or 2D array (line 193). *)
Inductive sunc := SuFloat (u : R) | SuVec (v : vec) | SuMat (m : mat).

(** ** propagate_DFT.py:58-90 _apply_window *)
Definition apply_window (x : vec) (Ux : sunc) (w : vec) : res (vec * sunc) :=
  if negb (alen x =? alen w)%nat then Err AssertionError
  else
    let xw := vmul x w in
    match Ux with
    | SuFloat u => Ok (xw, SuVec (vmap (fun t => u * t ^ 2) w))
    | SuVec _ => Err IndexError      (* Ux.shape[1] of a one-dimensional array *)
    | SuMat M =>
        if negb ((mrows M =? mcols M) && (mrows M =? alen x))%nat then Err AssertionError
        else do Uw <- prod3 w M w ;; Ok (xw, SuMat Uw)
    end.

(** Covariance returned by GUM_DFT: 1D for scalar Ux, 2D otherwise. *)
Inductive funcert := FuVec (v : vec) | FuMat (m : mat).
Record dft_out := mkDft {
  dft_F : vec;                                  (* real parts, imaginary parts *)
  dft_U : funcert;
  dft_C : option (option mat * option mat)      (* CxCos, CxSin if returnC *)
}.

(** beta of line 297 and the sensitivities of lines 300-302: L is the number of samples of
    the signal before padding, N the transform length. *)
Definition beta_dft (N m : nat) : R := 2 * PI * INR m / INR N.
Definition Cxkc (N k m : nat) : R := cos (INR k * beta_dft N m).
Definition Cxks (N k m : nat) : R := - sin (INR k * beta_dft N m).

(** ** propagate_DFT.py:189-346 GUM_DFT (x, Ux, N, window, CxCos, CxSin, returnC, mask) *)
Definition GUM_DFT (x : vec) (Ux : sunc) (N : option Z) (window : option vec)
           (CxCos CxSin : option mat) (returnC : bool) (mask : option (arr bool))
  : res dft_out :=
  (* 253-254 *)
  do (x, Ux) <- match window with
                 | Some w => apply_window x Ux w
                 | None => Ok (x, Ux)
                 end ;;
  (* 255-268 zero padding *)
  do (xp, L) <- match N with
                 | Some z =>
                     if (z <? Z.of_nat (alen x))%Z then Err ValueError
                     else let L := (Z.to_nat z - alen x)%nat in
                          Ok (cat x (mkArr L (fun _ => 0)), L)
                 | None => Ok (x, 0%nat)
                 end ;;
  let n := alen xp in
  let M := if Nat.even n then (n + 2)%nat else (n + 1)%nat in   (* 270-273 *)
  do (re, im) <- rfft xp ;;
  (* 275-291 *)
  do idx <- match mask with
            | Some m => if (alen m =? alen re)%nat then Ok (true_idx m) else Err IndexError
            | None => Ok (seq 0 (alen re))
            end ;;
  let F := cat (take_list re idx) (take_list im idx) in
  let nx := (n - L)%nat in
  match Ux with
  | SuFloat u =>
      (* 304-317 *)
      let UF := cat (take_list (fun k => rsum nx (fun m => u * Cxkc n k m ^ 2)) idx)
                    (take_list (fun k => rsum nx (fun m => u * Cxks n k m ^ 2)) idx) in
      Ok (mkDft F (FuVec UF) (if returnC then Some (CxCos, CxSin) else None))
  | _ =>
      (* 318-330 *)
      let U := match Ux with SuMat U => U | SuVec v => diagm v | SuFloat _ => zeros2 0 0 end in
      do (cc, cs) <- match CxCos with
        | None =>
            Ok (mkMat (List.length idx) nx (fun i m => Cxkc n (nth i idx 0%nat) m),
                mkMat (List.length idx) nx (fun i m => Cxks n (nth i idx 0%nat) m))
        | Some cc => match CxSin with Some cs => Ok (cc, cs) | None => Err AttributeError end
        end ;;
      do t1 <- dot U (transp cc) ;; do UFCC <- dot cc t1 ;;
      do t2 <- dot U (transp cs) ;; do UFCS <- dot cc t2 ;;
      do UFSS <- dot cs t2 ;;
      do UF <- stack4 UFCC UFCS (transp UFCS) UFSS ;;
      Ok (mkDft F (FuMat UF) (if returnC then Some (Some cc, Some cs) else None))
  end.

(** First axis of the covariance (UF.shape[0]). *)
Definition fu_len (u : funcert) : nat :=
  match u with FuVec v => alen v | FuMat m => mrows m end.

(** Sensitivities of GUM_iDFT (lines 420-434): Nx rows, h = N/2+1 columns. *)
Definition idft_Cc (N Nx : nat) : mat :=
  let h := (N / 2 + 1)%nat in
  mkMat Nx h (fun n k =>
    if (1 <=? k)%nat && (k <? N / 2)%nat then 2 * cos (INR k * beta_dft N n)
    else if (k =? h - 1)%nat then cos (PI * INR n)
    else 1).
Definition idft_Cs (N Nx : nat) : mat :=
  let h := (N / 2 + 1)%nat in
  mkMat Nx h (fun n k =>
    if (1 <=? k)%nat && (k <? N / 2)%nat then - 2 * sin (INR k * beta_dft N n)
    else if (k =? h - 1)%nat then - sin (PI * INR n)
    else 0).

(** ** propagate_DFT.py:349-454 GUM_iDFT.  UF.shape[0] <= 2 makes N <= 0 and irfft raise
    ValueError.  Nx is a natural number (a negative Nx makes np.zeros raise). *)
Definition GUM_iDFT (F : vec) (UF : funcert) (Nx : option nat) (Cc Cs : option mat)
  : res (vec * mat * (mat * mat)) :=
  let m := fu_len UF in
  if (m <=? 2)%nat then Err ValueError
  else
    let N := (m - 2)%nat in
    let h := (N / 2 + 1)%nat in
    do nx <- match Nx with
             | None => Ok N
             | Some v => if (N <? v)%nat then Err ValueError else Ok v
             end ;;
    (* line 419: F[:h] + 1j*F[h:] *)
    let re := slice F 0 h in
    let imv := slice F h (alen F) in
    do (re, im) <- (if (alen imv =? alen re)%nat then Ok (re, imv)
              else if (alen imv =? 1)%nat then Ok (re, mkArr (alen re) (fun _ => imv 0%nat))
              else if (alen re =? 1)%nat then Ok (mkArr (alen imv) (fun _ => re 0%nat), imv)
              else Err ValueError) ;;
    do xr <- irfft re im ;;
    let x := slice xr 0 nx in
    let cc := match Cc with Some c => c | None => idft_Cc N nx end in
    let cs := match Cs with Some c => c | None => idft_Cs N nx end in
    do Ux <- match UF with
      | FuMat U =>
          let RR := sub2 U 0 h 0 h in
          let RI := sub2 U 0 h h (mcols U) in
          let II := sub2 U h (mrows U) h (mcols U) in
          do a <- dot RR (transp cc) ;; do a' <- dot cc a ;;
          do b <- dot RI (transp cs) ;; do b' <- dot cc b ;;
          do s <- add2 a' (scale2 2 b') ;;
          do c <- dot II (transp cs) ;; do c' <- dot cs c ;;
          add2 s c'
      | FuVec v =>
          let RR := slice v 0 h in
          let II := slice v h (alen v) in
          do a <- prod_vm RR (transp cc) ;; do a' <- dot cc a ;;
          do c <- prod_vm II (transp cs) ;; do c' <- dot cs c ;;
          add2 a' c'
      end ;;
    Ok (x, scale2 (/ INR N ^ 2) Ux, (cc, cs)).

(** ** propagate_DFT.py:457-477 GUM_DFTfreq: numpy.fft.rfftfreq(N, dt) = k/(N dt),
    k = 0..N/2.  1.0/(N dt) of Python numbers fails for N = 0 and for dt = 0. *)
Definition GUM_DFTfreq (N : nat) (dt : R) : res vec :=
  if (N =? 0)%nat then Err ZeroDivisionError
  else if Req_EM_T dt 0 then Err ZeroDivisionError
  else Ok (mkArr (N / 2 + 1) (fun k => INR k / (INR N * dt))).

(** scipy.sparse.diags([main, up, lo], [0, n, -n]): a 2n x 2n dia_matrix whose stored
    diagonals appear in this order.  data[1][offsets[1] : 2n + offsets[1]] is [up]. *)
Record dia := mkDia { dia_half : nat; dia_main : vec; dia_up : vec; dia_lo : vec }.
Definition dia_toarray (D : dia) : mat :=
  let n := dia_half D in
  mkMat (2 * n) (2 * n) (fun i j =>
    if (i =? j)%nat then dia_main D i
    else if (j =? i + n)%nat then dia_up D i
    else if (i =? j + n)%nat then dia_lo D j
    else 0).
(** Covariance matrices that may be stored as a dia_matrix. *)
Inductive cunc2 := UDense (m : mat) | USparse (d : dia).

(** Blocks of a dense 2h x 2h matrix M as sliced with [:h] and [h:]. *)
Definition blk11 (M : mat) (h : nat) := sub2 M 0 h 0 h.
Definition blk12 (M : mat) (h : nat) := sub2 M 0 h h (mcols M).
Definition blk22 (M : mat) (h : nat) := sub2 M h (mrows M) h (mcols M).

(** Lines 538-547 of DFT2AmpPhase: uF and A/uF (only printed) have to be broadcastable.
    d1, d2: number of uncertainties of real and imaginary parts, n: number of amplitudes. *)
Definition uf_check (d1 d2 n : nat) : res nat := do u <- bdim d1 d2 ;; bdim n u.
Definition diag_len (M : mat) : nat := Nat.min (mrows M) (mcols M).
(** Lines 532-590 for an F of odd length 2h+1 and two-dimensional UF: h real parts and h+1
    imaginary parts are combined by broadcasting, which raises unless h <= 1.  [p3] is the
    product _prod(v, _prod(M, w)). *)
Definition ap_odd (p3 : vec -> mat -> vec -> res mat) (F : vec) (M : mat) : res (vec * vec * mat) :=
  let h := (alen F / 2)%nat in
  let R_ := slice F 0 h in
  let I_ := slice F h (alen F) in
  do A <- bvec (fun r i => sqrt (r ^ 2 + i ^ 2)) R_ I_ ;;
  do P <- bvec (fun r i => arctan2 i r) R_ I_ ;;
  let URR := blk11 M h in
  let URI := blk12 M h in
  let UII := blk22 M h in
  do _ <- uf_check (diag_len URR) (diag_len UII) (alen A) ;;
  do aR <- bvec Rdiv R_ A ;;
  do aI <- bvec Rdiv I_ A ;;
  do pR <- bvec (fun i a => - i / a ^ 2) I_ A ;;
  do pI <- bvec (fun r a => r / a ^ 2) R_ A ;;
  do U11 <- sum4 (p3 aR URR aR) (p3 aR URI aI) (p3 aI (transp URI) aR) (p3 aI UII aI) ;;
  do U12 <- sum4 (p3 aR URR pR) (p3 aR URI pI) (p3 aI (transp URI) pR) (p3 aI UII pI) ;;
  do U22 <- sum4 (p3 pR URR pR) (p3 pR URI pI) (p3 pI (transp URI) pR) (p3 pI UII pI) ;;
  do UAP <- stack4 U11 U12 (transp U12) U22 ;;
  Ok (A, P, UAP).

(** ** propagate_DFT.py:481-595 DFT2AmpPhase (return_type only decides whether A and P
    are concatenated; the warning of lines 546-552 is not modelled).  N//2+1 with
    N = len(F)-2 is len(F)//2.  One-dimensional UF of length h+1: the single last entry is
    broadcast to all imaginary parts; every other length than 2h raises ValueError (at the
    latest sparse.diags, which also refuses every F of odd length, and duplicate offsets,
    h = 0). *)
Definition DFT2AmpPhase (F : vec) (UF : funcert) (keep_sparse : bool)
  : res (vec * vec * cunc2) :=
  let h := (alen F / 2)%nat in
  if negb (alen F =? 2 * h)%nat then
    match UF with
    | FuVec _ => Err ValueError
    | FuMat M => do (A, P, U) <- ap_odd prod3 F M ;; Ok (A, P, UDense U)
    end
  else
    let R_ := slice F 0 h in
    let I_ := slice F h (alen F) in
    let A := mkArr h (fun k => sqrt (R_ k ^ 2 + I_ k ^ 2)) in
    let P := mkArr h (fun k => arctan2 (I_ k) (R_ k)) in
    let aR := mkArr h (fun k => R_ k / A k) in
    let aI := mkArr h (fun k => I_ k / A k) in
    let pR := mkArr h (fun k => - I_ k / A k ^ 2) in
    let pI := mkArr h (fun k => R_ k / A k ^ 2) in
    match UF with
    | FuVec v =>
        (* 561-569 *)
        if (negb (alen v =? 2 * h) && negb (alen v =? S h) || (h =? 0))%nat then Err ValueError
        else
          let URR := slice v 0 h in
          let UII := if (alen v =? 2 * h)%nat then slice v h (alen v) else mkArr h (fun _ => v h) in
          let U11 := mkArr h (fun k => URR k * aR k ^ 2 + UII k * aI k ^ 2) in
          let U12 := mkArr h (fun k => aR k * URR k * pR k + aI k * UII k * pI k) in
          let U22 := mkArr h (fun k => URR k * pR k ^ 2 + UII k * pI k ^ 2) in
          let D := mkDia h (cat U11 U22) U12 U12 in
          Ok (A, P, if keep_sparse then USparse D else UDense (dia_toarray D))
    | FuMat M =>
        (* 570-590 *)
        let URR := blk11 M h in
        let URI := blk12 M h in
        let UII := blk22 M h in
        do _ <- uf_check (diag_len URR) (diag_len UII) h ;;
        do U11 <- sum4 (prod3 aR URR aR) (prod3 aR URI aI)
                       (prod3 aI (transp URI) aR) (prod3 aI UII aI) ;;
        do U12 <- sum4 (prod3 aR URR pR) (prod3 aR URI pI)
                       (prod3 aI (transp URI) pR) (prod3 aI UII pI) ;;
        do U22 <- sum4 (prod3 pR URR pR) (prod3 pR URI pI)
                       (prod3 pI (transp URI) pR) (prod3 pI UII pI) ;;
        do UAP <- stack4 U11 U12 (transp U12) U22 ;;
        Ok (A, P, UDense UAP)
    end.

(** Covariance of (A,P) as passed by the user: 1D array, dense or sparse matrix. *)
Inductive apunc := ApVec (v : vec) | ApMat (m : mat) | ApDia (d : dia).

(** ** propagate_DFT.py:598-711 AmpPhase2DFT (A one-dimensional). *)
Definition AmpPhase2DFT (A P : vec) (UAP : apunc) (keep_sparse : bool)
  : res (vec * cunc2) :=
  let N := alen A in
  if negb (alen A =? alen P)%nat then Err ValueError                    (* 638-642 *)
  else if negb match UAP with
               | ApVec v => (alen v =? 2 * N)%nat
               | ApMat m => (mrows m =? 2 * N)%nat && (mcols m =? 2 * N)%nat
               | ApDia d => (2 * dia_half d =? 2 * N)%nat
               end then Err ValueError                                   (* 643-647 *)
  else
    let F := cat (mkArr N (fun k => A k * cos (P k))) (mkArr N (fun k => A k * sin (P k))) in
    let CRA := mkArr N (fun k => cos (P k)) in
    let CRP := mkArr N (fun k => - A k * sin (P k)) in
    let CIA := mkArr N (fun k => sin (P k)) in
    let CIP := mkArr N (fun k => A k * cos (P k)) in
    match UAP with
    | ApVec v =>
        (* 660-668; sparse.diags refuses duplicate offsets (N = 0) *)
        if (N =? 0)%nat then Err ValueError
        else
          let Ua := slice v 0 N in
          let Up := slice v N (alen v) in
          let U11 := mkArr N (fun k => CRA k * Ua k * CRA k + CRP k * Up k * CRP k) in
          let U12 := mkArr N (fun k => CRA k * Ua k * CIA k + CRP k * Up k * CIP k) in
          let U22 := mkArr N (fun k => CIA k * Ua k * CIA k + CIP k * Up k * CIP k) in
          let D := mkDia N (cat U11 U22) U12 U12 in
          Ok (F, if keep_sparse then USparse D else UDense (dia_toarray D))
    | ApDia d =>
        (* 670-686 *)
        let Uaa := slice (dia_main d) 0 N in
        let Uap := dia_up d in
        let Upp := slice (dia_main d) N (alen (dia_main d)) in
        let U11 := mkArr N (fun k => Uaa k * CRA k ^ 2 + CRP k * Uap k * CRA k
                                     + CRA k * Uap k * CRP k + Upp k * CRP k ^ 2) in
        let U12 := mkArr N (fun k => CRA k * Uaa k * CIA k + CRP k * Uap k * CIA k
                                     + CRA k * Uap k * CIA k + CRP k * Upp k * CIP k) in
        let U22 := mkArr N (fun k => Uaa k * CIA k ^ 2 + CIP k * Uap k * CIA k
                                     + CIA k * Uap k * CIP k + Upp k * CIP k ^ 2) in
        let D := mkDia N (cat U11 U22) U12 U12 in
        Ok (F, if keep_sparse then USparse D else UDense (dia_toarray D))
    | ApMat M =>
        (* 688-709 *)
        let Uaa := blk11 M N in
        let Uap := blk12 M N in
        let Upp := blk22 M N in
        do U11 <- sum4 (prod3 CRA Uaa CRA) (prod3 CRP (transp Uap) CRA)
                       (prod3 CRA Uap CRP) (prod3 CRP Upp CRP) ;;
        do U12 <- sum4 (prod3 CRA Uaa CIA) (prod3 CRP (transp Uap) CIA)
                       (prod3 CRA Uap CIP) (prod3 CRP Upp CIP) ;;
        do U22 <- sum4 (prod3 CIA Uaa CIA) (prod3 CIP (transp Uap) CIA)
                       (prod3 CIA Uap CIP) (prod3 CIP Upp CIP) ;;
        do UF <- stack4 U11 U12 (transp U12) U22 ;;
        Ok (F, UDense UF)
    end.

(** ** propagate_DFT.py:714-738 Time2AmpPhase *)
Definition Time2AmpPhase (x : vec) (Ux : sunc) : res (vec * vec * cunc2) :=
  do o <- GUM_DFT x Ux None None None None false None ;;
  DFT2AmpPhase (dft_F o) (dft_U o) false.

(** ** propagate_DFT.py:741-791 Time2AmpPhase_multi.

    x is given by rows; Ux is an array of floats, so that every Ux[m] is a float.  Line 777
    passes CxCos, CxSin as the third and fourth positional argument, i.e. as N and window:
    a matrix passed as N is ignored (it is no int), a matrix passed as window makes
    _apply_window fail with AssertionError unless len(window) = nx; with float Ux both
    are None in every iteration.  Result rows: amplitude, phase, 3*ns variances. *)
Definition take_sel (v : vec) (sel : list nat) : res (list R) :=
  if forallb (fun i => i <? alen v)%nat sel then Ok (map v sel) else Err IndexError.
Definition as_window (c : option mat) : option vec :=
  match c with None => None | Some m => Some (mkArr (mrows m) (fun i => m i 0%nat)) end.
Fixpoint t2ap_loop (rows : list (vec * R)) (nx : nat) (sel : list nat)
         (CxCos CxSin : option mat) : res (list (list R * list R * list R)) :=
  match rows with
  | [] => Ok []
  | (xm, um) :: rest =>
      do o <- GUM_DFT xm (SuFloat um) None (as_window CxSin) None None true None ;;
      do (CxCos', CxSin') <- match dft_C o with Some c => Ok c | None => Err ValueError end ;;
      do (Am, Pm, Um) <- DFT2AmpPhase (dft_F o) (dft_U o) true ;;
      let N := (nx / 2 + 1)%nat in
      match Um with
      | UDense _ => Err NotImplementedError        (* .data of an ndarray is a memoryview *)
      | USparse D =>
          do a <- take_sel Am sel ;;
          do p <- take_sel Pm sel ;;
          do u1 <- take_sel (slice (dia_main D) 0 N) sel ;;
          do u2 <- take_sel (dia_up D) sel ;;
          do u3 <- take_sel (slice (dia_main D) N (alen (dia_main D))) sel ;;
          do tl <- t2ap_loop rest nx sel CxCos' CxSin' ;;
          Ok ((a, p, (u1 ++ u2 ++ u3)%list) :: tl)
      end
  end.
Definition Time2AmpPhase_multi (nx : nat) (x : list vec) (Ux : vec) (selector : option (list nat))
  : res (list (list R * list R * list R)) :=
  if negb (alen Ux =? List.length x)%nat then Err AssertionError
  else
    let sel := match selector with Some s => s | None => seq 0 (nx / 2 + 1) end in
    t2ap_loop (combine x (map Ux (seq 0 (alen Ux)))) nx sel None None.

(** Sensitivities of AmpPhase2Time (lines 845-857). *)
Definition apt_Cc (N : nat) (A P : vec) : mat :=
  let h := (N / 2 + 1)%nat in
  mkMat N h (fun n k =>
    if (1 <=? k)%nat && (k <? N / 2)%nat then 2 * cos (P k + INR k * beta_dft N n)
    else if (k =? h - 1)%nat then cos (P (alen P - 1)%nat + PI * INR n)
    else cos (P 0%nat)).
Definition apt_Cs (N : nat) (A P : vec) : mat :=
  let h := (N / 2 + 1)%nat in
  mkMat N h (fun n k =>
    if (1 <=? k)%nat && (k <? N / 2)%nat then - A k * 2 * sin (P k + INR k * beta_dft N n)
    else if (k =? h - 1)%nat then - A (alen A - 1)%nat * sin (P (alen P - 1)%nat + PI * INR n)
    else - A 0%nat * sin (P 0%nat)).

(** ** propagate_DFT.py:794-887 AmpPhase2Time.  Pf[k] = P[k] for the indices used
    (k < N/2); these must exist in A, otherwise IndexError. *)
Definition ap_len (u : apunc) : nat :=
  match u with ApVec v => alen v | ApMat m => mrows m | ApDia d => (2 * dia_half d)%nat end.
Definition AmpPhase2Time (A P : vec) (UAP : apunc) : res (vec * mat) :=
  let m := ap_len UAP in
  if negb (alen A =? alen P)%nat then Err ValueError
  else if Nat.odd m then Err ValueError
  else
    do x <- irfft (mkArr (alen A) (fun k => A k * cos (P k)))
                  (mkArr (alen A) (fun k => A k * sin (P k))) ;;
    if (m <? 2)%nat then Err ValueError
    else
      let N := (m - 2)%nat in
      if (alen A <? N / 2)%nat then Err IndexError
      else
        let h := (N / 2 + 1)%nat in
        let Cc := apt_Cc N A P in
        let Cs := apt_Cs N A P in
        do Ux <- match UAP with
          | ApVec v =>
              do a <- prod_vm (slice v 0 h) (transp Cc) ;; do a' <- dot Cc a ;;
              do c <- prod_vm (slice v h (alen v)) (transp Cs) ;; do c' <- dot Cs c ;;
              add2 a' c'
          | ApDia d =>
              do a <- prod_vm (slice (dia_main d) 0 h) (transp Cc) ;; do a' <- dot Cc a ;;
              do b <- prod_vm (dia_up d) (transp Cs) ;; do b' <- dot Cc b ;;
              do s <- add2 a' (scale2 2 b') ;;
              do c <- prod_vm (slice (dia_main d) h (alen (dia_main d))) (transp Cs) ;;
              do c' <- dot Cs c ;;
              add2 s c'
          | ApMat U =>
              do a <- dot (blk11 U h) (transp Cc) ;; do a' <- dot Cc a ;;
              do b <- dot (blk12 U h) (transp Cs) ;; do b' <- dot Cc b ;;
              do s <- add2 a' (scale2 2 b') ;;
              do c <- dot (blk22 U h) (transp Cs) ;; do c' <- dot Cs c ;;
              add2 s c'
          end ;;
        Ok (x, scale2 (/ INR N ^ 2) Ux).

(** ** propagate_DFT.py:129-186 _matprod (return_as_matrix=True) *)
Definition matprod (M : apunc) (V W : vec) : res mat :=
  match M with
  | ApMat m => if (mrows m =? mcols m)%nat then
      (if negb ((mrows m =? alen V) && (alen V =? alen W))%nat then Err AssertionError
       else
         let N := (alen V / 2)%nat in
         let v1 := slice V 0 N in let v2 := slice V N (alen V) in
         let w1 := slice W 0 N in let w2 := slice W N (alen W) in
         let A := blk11 m N in let B := blk12 m N in let D := blk22 m N in
         sum4 (prod3 v1 A w1) (prod3 v2 (transp B) w1) (prod3 v1 B w2) (prod3 v2 D w2))
      else Err AssertionError
  | ApVec v =>
      if negb ((alen v =? alen V) && (alen V =? alen W))%nat then Err AssertionError
      else
        let N := (alen V / 2)%nat in
        Ok (diagm (mkArr N (fun k => V k * v k * W k + V (N + k)%nat * v (N + k)%nat * W (N + k)%nat)))
  | ApDia d =>
      if negb ((2 * dia_half d =? alen V) && (alen V =? alen W))%nat then Err AssertionError
      else
        let N := (alen V / 2)%nat in
        Ok (diagm (mkArr N (fun k =>
              V k * dia_main d k * W k + V (N + k)%nat * dia_up d k * W k
              + V k * dia_up d k * W (N + k)%nat
              + V (N + k)%nat * dia_main d (N + k)%nat * W (N + k)%nat)))
  end.

(** ** propagate_DFT.py:923-1030 DFT_deconv.  len(UH) of a dia_matrix raises TypeError. *)
Definition DFT_deconv (H Y : vec) (UH UY : apunc) : res (vec * mat) :=
  if negb (alen H =? alen Y)%nat then Err ValueError
  else
    match UH with
    | ApDia _ => Err TypeError
    | _ =>
      if Nat.odd (ap_len UH) then Err ValueError
      else if negb match UY with
                   | ApVec v => (alen v =? alen Y)%nat
                   | ApMat m => (mrows m =? alen Y)%nat && (mcols m =? alen Y)%nat
                   | ApDia d => (2 * dia_half d =? alen Y)%nat
                   end then Err ValueError
      else if negb match UH with
                   | ApVec v => (alen v =? alen H)%nat
                   | ApMat m => (mrows m =? alen H)%nat && (mcols m =? alen H)%nat
                   | ApDia d => (2 * dia_half d =? alen H)%nat
                   end then Err ValueError
      else
        let h := (alen H / 2)%nat in
        let rH := slice H 0 h in let iH := slice H h (alen H) in
        let rY := slice Y 0 h in let iY := slice Y h (alen Y) in
        let norm := mkArr h (fun k => rH k ^ 2 + iH k ^ 2) in
        (* 993-995: complex quotient *)
        let X := cat (mkArr h (fun k => (rY k * rH k + iY k * iH k) / (rH k ^ 2 + iH k ^ 2)))
                     (mkArr h (fun k => (iY k * rH k - rY k * iH k) / (rH k ^ 2 + iH k ^ 2))) in
        let RY := cat (mkArr h (fun k => rH k / norm k)) (mkArr h (fun k => iH k / norm k)) in
        let IY := cat (mkArr h (fun k => - iH k / norm k)) (mkArr h (fun k => rH k / norm k)) in
        let RH := cat
          (mkArr h (fun k => (- rY k * rH k ^ 2 + rY k * iH k ^ 2 - 2 * iY k * iH k * rH k) / norm k ^ 2))
          (mkArr h (fun k => (iY k * rH k ^ 2 - iH k * iH k ^ 2 - 2 * rY k * rH k * iH k) / norm k ^ 2)) in
        let IH := cat
          (mkArr h (fun k => (- iY k * rH k ^ 2 + iY k * iH k ^ 2 + 2 * rY k * iH k * rH k) / norm k ^ 2))
          (mkArr h (fun k => (- rY k * rH k ^ 2 + rY k * iH k ^ 2 - 2 * iY k * rH k * iH k) / norm k ^ 2)) in
        do a <- matprod UY RY RY ;; do a' <- matprod UH RH RH ;; do URRX <- add2 a a' ;;
        do b <- matprod UY RY IY ;; do b' <- matprod UH RH IH ;; do URIX <- add2 b b' ;;
        do c <- matprod UY IY IY ;; do c' <- matprod UH IH IH ;; do UIIX <- add2 c c' ;;
        do UX <- stack4 URRX URIX (transp URIX) UIIX ;;
        Ok (X, UX)
    end.

(** DFT_transferfunction, lines 894-920. *)
Definition DFT_transferfunction (X Y : vec) (UX UY : apunc) := DFT_deconv X Y UX UY.

(** Blocks of _calcU: 1D or 2D arrays, and their sum (1D + 2D: the 1D array is added to
    every row). *)
Inductive blk := B1 (v : vec) | B2 (m : mat).
Definition blk_add (a b : blk) : res blk :=
  match a, b with
  | B1 u, B1 v => do n <- bdim (alen u) (alen v) ;;
      Ok (B1 (mkArr n (fun i => u (bidx n (alen u) i) + v (bidx n (alen v) i))))
  | B1 u, B2 m | B2 m, B1 u =>
      do s <- add2 (mkMat 1 (alen u) (fun _ j => u j)) m ;; Ok (B2 s)
  | B2 m, B2 m' => do s <- add2 m m' ;; Ok (B2 s)
  end.
(** np.vstack((np.hstack((a,b)), np.hstack((b.T,d)))) *)
Definition blk_stack (a b d : blk) : res mat :=
  match a, b, d with
  | B2 A, B2 B, B2 D => stack4 A B (transp B) D
  | B1 u, B1 v, B1 w =>
      (* hstack of 1D arrays concatenates; vstack makes two rows *)
      if (alen u + alen v =? alen v + alen w)%nat then
        Ok (mkMat 2 (alen u + alen v)
             (fun i j => if (i =? 0)%nat then cat u v j else cat v w j))
      else Err ValueError
  | _, _, _ => Err ValueError
  end.
(** Lines 1079-1088 of _calcU with broadcasting: r and i are the variances of the real and
    the imaginary parts of B. *)
Definition calcU_bc (RA IA r i : vec) : res (blk * blk * blk) :=
  do x1 <- bmul3 RA r RA ;; do x2 <- bmul3 IA i IA ;; do rr <- bvec Rplus x1 x2 ;;
  do y1 <- bmul3 RA r IA ;; do y2 <- bmul3 IA i RA ;; do ri <- bvec Rminus y1 y2 ;;
  do z1 <- bmul3 IA r IA ;; do z2 <- bmul3 RA i RA ;; do ii <- bvec Rplus z1 z2 ;;
  Ok (B1 rr, B1 ri, B1 ii).
(** _calcU(A, UB), lines 1075-1111: covariance blocks of A*B for uncertain B. *)
Definition calcU (A : vec) (UB : sunc) : res (blk * blk * blk) :=
  let h := (alen A / 2)%nat in
  let RA := slice A 0 h in
  let IA := slice A h (alen A) in
  match UB with
  | SuFloat u =>
      if negb (alen A =? 2 * h)%nat then calcU_bc RA IA (of_list [u]) (of_list [u])
      else
      Ok (B1 (mkArr h (fun k => RA k * u * RA k + IA k * u * IA k)),
          B1 (mkArr h (fun k => RA k * u * IA k - IA k * u * RA k)),
          B1 (mkArr h (fun k => IA k * u * IA k + RA k * u * RA k)))
  | SuVec v =>
      if negb (alen A =? 2 * h)%nat || negb (alen v =? 2 * h)%nat
      then calcU_bc RA IA (slice v 0 h) (slice v h (alen v))
      else
        let r := slice v 0 h in let i := slice v h (alen v) in
        Ok (B1 (mkArr h (fun k => RA k * r k * RA k + IA k * i k * IA k)),
            B1 (mkArr h (fun k => RA k * r k * IA k - IA k * i k * RA k)),
            B1 (mkArr h (fun k => IA k * r k * IA k + RA k * i k * RA k)))
  | SuMat M =>
      let UBRR := blk11 M h in let UBRI := blk12 M h in let UBII := blk22 M h in
      let neg (m : res mat) := do m' <- m ;; Ok (scale2 (-1) m') in
      do rr <- sum4 (prod3 RA UBRR RA) (neg (prod3 IA (transp UBRI) RA))
                    (neg (prod3 RA UBRI IA)) (prod3 IA UBII IA) ;;
      do ri <- sum4 (prod3 RA UBRR IA) (neg (prod3 IA (transp UBRI) IA))
                    (prod3 RA UBRI RA) (neg (prod3 IA UBII RA)) ;;
      do ii <- sum4 (prod3 IA UBRR IA) (prod3 RA (transp UBRI) IA)
                    (prod3 IA UBRI RA) (prod3 RA UBII RA) ;;
      Ok (B2 rr, B2 ri, B2 ii)
  end.

(** Line 1117: the product, with broadcasting for odd lengths. *)
Definition mul_est (Y F : vec) : res vec :=
  let h := (alen Y / 2)%nat in
  let RY := slice Y 0 h in let IY := slice Y h (alen Y) in
  let RF := slice F 0 h in let IF := slice F h (alen F) in
  if negb (alen Y =? 2 * h)%nat then
    do p1 <- bvec Rmult RY RF ;; do p2 <- bvec Rmult IY IF ;; do p <- bvec Rminus p1 p2 ;;
    do q1 <- bvec Rmult RY IF ;; do q2 <- bvec Rmult IY RF ;; do q <- bvec Rplus q1 q2 ;;
    Ok (cat p q)
  else
    Ok (cat (mkArr h (fun k => RY k * RF k - IY k * IF k))
            (mkArr h (fun k => RY k * IF k + IY k * RF k))).

(** ** propagate_DFT.py:1033-1130 DFT_multiply.  UF that is no ndarray (None, float,
    sparse) is treated as "exactly known". *)
Definition DFT_multiply (Y F : vec) (UY : sunc) (UF : option sunc) : res (vec * mat) :=
  if negb (alen Y =? alen F)%nat then Err ValueError
  else
      do YF <- mul_est Y F ;;
      match UF with
      | None | Some (SuFloat _) =>
          do (rr, ri, ii) <- calcU F UY ;;
          do U <- blk_stack rr ri ii ;; Ok (YF, U)
      | Some u =>
          do (rr, ri, ii) <- calcU F UY ;;
          do (rr', ri', ii') <- calcU Y u ;;
          do a <- blk_add rr rr' ;; do b <- blk_add ri ri' ;; do c <- blk_add ii ii' ;;
          do U <- blk_stack a b c ;; Ok (YF, U)
      end.
