(** Model of PyDynamic/misc/filterstuff.py and PyDynamic/misc/impinvar.py. *)
From Coq Require Import Reals String List Arith ZArith Bool.
From Verif Require Import Base Cplx M_DFT.
Import ListNotations.
Local Notation length := Datatypes.length.
Open Scope R_scope.

(** ** Polynomials (numpy.poly, numpy.convolve) *)

(** One step of numpy.poly: numpy.convolve(a, [1, -v]), i.e.
    out[n] = a[n] - v a[n-1] with a = 0 outside its range. *)
Definition poly_step (a : nat -> C) (v : C) : nat -> C :=
  fun n => match n with
           | O => a O
           | S m => csub (a (S m)) (cmul v (a m))
           end.
Definition poly_one : nat -> C := fun n => match n with O => C1 | S _ => C0 end.

(** numpy.poly(v) for a sequence of roots: a = [1]; for each root convolve with
    [1, -root]; coefficients of the highest power first.  The final
    "a.real if the roots are conjugate symmetric" does not change values in
    exact arithmetic and is left out (see theorem C63_real).  No root: numpy gives the
    number 1.0 instead of an array. *)
Definition np_poly (v : list C) : arr C :=
  mkArr (S (length v)) (fold_left poly_step v poly_one).

(** numpy.convolve(a, b) (mode "full"); ValueError for an empty operand. *)
Definition convolve_full (a b : vec) : res vec :=
  if ((alen a =? 0) || (alen b =? 0))%nat then Err ValueError
  else Ok (mkArr (alen a + alen b - 1)
             (fun n => rsum (alen a) (fun i => if (i <=? n)%nat then a i * vpad b (n - i) else 0))).

(** x[::-1] *)
Definition reversed_arr (x : vec) : vec := mkArr (alen x) (fun i => x (alen x - 1 - i)%nat).

(** Bin k of numpy.fft.fft(x, n): the input is cut to its first n samples or
    padded by zeros. *)
Definition fft_n (x : vec) (n k : nat) : C :=
  csum (Nat.min (alen x) n) (fun m => cscal (x m) (cis (- (2 * PI * INR k * INR m / INR n)))).

Definition rltb (x y : R) : bool := if Rlt_dec x y then true else false.

(** ** grpdelay: filterstuff.py 45-91.
    tol = 1e-12; [for p in polebins] runs once over the index array of the bins
    with |den| < tol.  Result: group delays, frequencies.  The frequencies are
    arange(0, 2 nfft - 1) / (2 nfft) * Fs, cut to nfft+1 values. *)
Definition gd_tol : R := / 10 ^ 12.
Definition gd_bin (c cr : vec) (Na n2 k : nat) : R :=
  let num := fft_n cr n2 k in
  let den := fft_n c n2 k in
  let pole := rltb (cabs den) gd_tol in
  let num' := if pole then C0 else num in
  let den' := if pole then C1 else den in
  Re (cdiv num' den') - INR Na.
Definition grpdelay (b a : vec) (Fs : R) (nfft : nat) : res (vec * vec) :=
  do c <- convolve_full b (reversed_arr a) ;;
  let Na := (alen a - 1)%nat in
  let cr := mkArr (alen c) (fun n => c n * INR n) in
  if (nfft =? 0)%nat then Err ValueError          (* fft of length 0 *)
  else
    let len := Nat.min (nfft + 1) (2 * nfft - 1) in
    Ok (mkArr len (gd_bin c cr Na (2 * nfft)),
        mkArr len (fun k => INR k / INR (2 * nfft) * Fs)).

(** ** mapinside: filterstuff.py 94-111.  [roots] is numpy.roots. *)
Definition map_root (v : C) : C := if rltb 1 (cabs v) then cinv (cconj v) else v.
Definition mapinside (roots : vec -> list C) (a : vec) : arr C :=
  np_poly (map map_root (roots a)).

(** ** kaiser_lowpass: filterstuff.py 114-145.
    [firwin L cutoff] is scipy.signal.firwin with the Kaiser window (the window
    parameter beta is part of it).  Fs = 0: ZeroDivisionError (of Python floats). *)
Definition kaiser_lowpass (firwin : nat -> R -> res vec) (L : nat) (fcut Fs : R) : res (vec * R) :=
  let L' := if Nat.even L then (L + 1)%nat else L in
  if Req_EM_T Fs 0 then Err ZeroDivisionError
  else
    do blow <- firwin L' (2 * fcut / Fs) ;;
    Ok (blow, INR L' / 2).

(** ** isstable: filterstuff.py 148-176. *)
Definition isstable (roots : vec -> list C) (b a : vec) (ftype : string) : res bool :=
  let v := roots a in
  if String.eqb ftype "digital" then Ok (negb (existsb (fun z => rltb 1 (cabs z)) v))
  else if String.eqb ftype "analog" then Ok (negb (existsb (fun z => rltb (Re z) 0) v))
  else Err ValueError.

(** ** savitzky_golay: filterstuff.py 179-251.
    [pinv] is numpy.linalg.pinv.  window_size and order are integers (their
    absolute value is taken, lines 231-232); [deriv] is a natural number.
    factorial is [fact]; delta ** deriv with delta = 0 and deriv > 0 gives a
    division of an array by zero (infinities), outside this model: the theorems
    have delta <> 0. *)
Definition sg_design (h order : nat) : mat :=
  mkMat (2 * h + 1) (order + 1) (fun k i => (INR k - INR h) ^ i).
Definition sg_weights (pinv : mat -> mat) (h order deriv : nat) (delta : R) : vec :=
  let P := pinv (sg_design h order) in
  mkArr (2 * h + 1) (fun j => P deriv j * INR (fact deriv) / delta ^ deriv).
(** lines 247-250: y[1:h+1][::-1], y[-h-1:-1][::-1] and the concatenation *)
Definition sg_pad (h : nat) (y : vec) : vec :=
  let n := alen y in
  let e := Nat.min h (n - 1) in
  mkArr (e + n + e)
    (fun i => if (i <? e)%nat then y 0%nat - Rabs (y (e - i)%nat - y 0%nat)
              else if (i <? e + n)%nat then y (i - e)%nat
              else y (n - 1)%nat + Rabs (y (n - 2 - (i - e - n))%nat - y (n - 1)%nat)).
Definition savitzky_golay (pinv : mat -> mat) (y : vec) (window_size order : Z)
           (deriv : nat) (delta : R) : res vec :=
  let w := Z.abs_nat window_size in
  let o := Z.abs_nat order in
  if (negb (w mod 2 =? 1) || (w <? 1))%nat then Err TypeError
  else if (w <? o + 2)%nat then Err TypeError
  else
    let h := ((w - 1) / 2)%nat in
    if (o <? deriv)%nat then Err IndexError          (* pinv(b).A[deriv] *)
    else if (alen y =? 0)%nat then Err IndexError    (* y[0] *)
    else
      let m := sg_weights pinv h o deriv delta in
      Ok (conv1_valid (reversed_arr m) (sg_pad h y)).

(** ** ua: filterstuff.py 40-42: numpy.unwrap(numpy.angle(vals)). *)
(** numpy.mod(x, 2 pi) *)
Definition mod2pi (x : R) : R := x - 2 * PI * IZR (Int_part (x / (2 * PI))).
(** numpy.unwrap: dd = diff(p); ddmod = mod(dd+pi, 2pi) - pi;
    ddmod = pi where ddmod = -pi and dd > 0; ph_correct = ddmod - dd, set to 0
    where |dd| < pi; up[1:] = p[1:] + cumsum(ph_correct). *)
Definition ph_correct (dd : R) : R :=
  let d := mod2pi (dd + PI) - PI in
  let ddmod := if Req_EM_T d (- PI) then (if Rlt_dec 0 dd then PI else d) else d in
  if rltb (Rabs dd) PI then 0 else ddmod - dd.
Definition unwrap (p : vec) : vec :=
  mkArr (alen p) (fun n => p n + rsum n (fun i => ph_correct (p (S i) - p i))).
Definition ua (vals : arr C) : vec :=
  unwrap (mkArr (alen vals) (fun i => arctan2 (Im (vals i)) (Re (vals i)))).

(** ** impinvar.py *)

(** to_real, 107-134: |p| sign(Re p). *)
Definition rsign (x : R) : R := if Rlt_dec 0 x then 1 else if Rlt_dec x 0 then -1 else 0.
Definition to_real (p : C) : R := cabs p * rsign (Re p).

(** exp of a complex number *)
Definition cexp (z : C) : C := cscal (exp (Re z)) (cis (Im z)).

(** The poles are an array of complex numbers (numpy.roots: if one of them is not real). *)
Definition complex_dtype (p : list C) : bool :=
  existsb (fun z => if Req_EM_T (Im z) 0 then false else true) p.

(** z_res, 93-105, for the residues of one (multiple) pole.  More than one residue
    fails at i = 1: for poles of complex type in h1_z_deriv(1, ...), which multiplies a
    float array in place by complex numbers (line 71, TypeError), else at the in-place
    addition r_out[:i] += (array of length i+1) of line 103, which cannot be broadcast
    (ValueError).  An empty list does not occur. *)
Definition z_res (cplx : bool) (r_in : list C) (sm : C) (ts : R) : res (list C * C * R) :=
  let p_out := cexp (cscal ts sm) in
  match r_in with
  | [] => Err IndexError
  | [r] => Ok ([cmul (cscal ts r) p_out], p_out, to_real (cscal ts r))
  | _ :: _ :: _ => Err (if cplx then TypeError else ValueError)
  end.

(** Lines 178-180: poles following [first] closer than tol to it. *)
Fixpoint same_pole (tol : R) (first : C) (ps : list C) : nat :=
  match ps with
  | [] => 0
  | p :: r => if rltb (cabs (csub first p)) tol then S (same_pole tol first r) else 0
  end.

(** Lines 174-186: the loop over groups of poles; [fuel] bounds the number of
    iterations (the number of poles suffices). *)
Fixpoint imp_loop (fuel : nat) (cplx : bool) (tol ts : R) (rs ps : list C) (kacc : R) : res (list C * list C * R) :=
  match fuel with
  | O => Ok ([], [], kacc)
  | S fuel =>
      match ps with
      | [] => Ok ([], [], kacc)
      | p :: pr =>
          let m := same_pole tol p pr in
          do z <- z_res cplx (firstn (S m) rs) p ts ;;
          let '(r, pz, k) := z in
          do rest <- imp_loop fuel cplx tol ts (skipn (S m) rs) (skipn m pr) (kacc + k) ;;
          let '(ro, po, ko) := rest in
          Ok (r ++ ro, repeat pz (S m) ++ po, ko)%list
      end
  end.

(** impinvar, 138-195.  [residue b a] is scipy.signal.residue: residues, poles,
    direct polynomial; [invres r p k] is scipy.signal.invres: numerator and
    denominator, highest power first. *)
Definition impinvar (residue : vec -> vec -> list C * list C * list C)
           (invres : list C -> list C -> R -> arr C * arr C)
           (b_in a_in : vec) (fs tol : R) : res (vec * vec) :=
  if Req_EM_T fs 0 then Err ZeroDivisionError
  else
    let ts := 1 / fs in
    let '(r_in, p_in, k_in) := residue b_in a_in in
    let bad := match k_in with
               | [] => false
               | [k] => rltb 0 (cabs k)
               | _ => true                    (* truth value of an array: ValueError as well *)
               end in
    if bad then Err ValueError
    else
      do out <- imp_loop (length p_in) (complex_dtype p_in) tol ts r_in p_in 0 ;;
      let '(r_out, p_out, k_out) := out in
      let '(b_out, a_out) := invres r_out p_out k_out in
      let a' := mkArr (alen a_out) (fun i => to_real (a_out i)) in
      let b' := mkArr (alen b_out - 1) (fun i => to_real (b_out i)) in
      Ok (b', a').

(** impinvar_causal, 197-207: bz - (bz[0]/az[0]) az, coefficients aligned at
    the first one (polysub works lowest order first; removing trailing zero
    coefficients is left out: it does not change the filter). *)
Definition make_causal (bz az : vec) : res (vec * vec) :=
  if ((alen bz =? 0) || (alen az =? 0))%nat then Err IndexError
  else
    let h0 := bz 0%nat / az 0%nat in
    Ok (mkArr (Nat.max (alen bz) (alen az)) (fun i => vpad bz i - h0 * vpad az i), az).
Definition impinvar_causal residue invres (b_in a_in : vec) (fs tol : R) : res (vec * vec) :=
  do z <- impinvar residue invres b_in a_in fs tol ;;
  let '(bz, az) := z in
  make_causal bz az.
