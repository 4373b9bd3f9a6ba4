(** Arguments documented as array_like handed over as lists:
    - PyDynamic/uncertainty/interpolate.py interp1d_unc, t_new (lines 49-51): for the linear
      kind line 249 (and 268-269, 303-304) indexes t_new by an array of booleans, which a
      list does not support (TypeError); lines 204-205 compare with a numpy number and
      work for a list;
    - PyDynamic/misc/tools.py:257 FreqResp2RealImag reads Unc.shape, 197
      make_semiposdef reads matrix.shape, 151-157 print_mat reads matrix.T, matrix.shape
      (AttributeError).
    [listed] tells that the argument is a list (of lists). *)
From Coq Require Import Reals List Arith ZArith Bool String.
From Verif Require Import Base M_Interp M_MC M_Tools M_More.
Import ListNotations.
Open Scope R_scope.

(** interpolate.py:20-313.  Everything that may raise an exception for an array precedes
    line 249. *)
Definition interp1d_unc_seq (listed : bool) (t_new t y uy : vec) (k : kind) (bounds_error : option bool)
           (fill_value fill_unc : fill) (assume_sorted returnC : bool) : res interp_out :=
  do r <- interp1d_unc t_new t y uy k bounds_error fill_value fill_unc assume_sorted returnC ;;
  let inside := fun i => negb (rltb (t_new i) (np_min t) || rltb (np_max t) (t_new i)) in
  match k with
  | KLinear => if listed && existsb inside (seq 0 (alen t_new)) then Err TypeError else Ok r
  | _ => Ok r
  end.

(** tools.py:227-275; the lengths are compared before. *)
Definition FreqResp2RealImag_seq (listed : bool) (mvn : vec -> mat -> nat -> nat -> vec) (Abs Phase : vec)
           (Unc : frunc) (runs : nat) : res (option R * option R * mc_cov) :=
  if negb (alen Abs =? alen Phase)%nat || negb (2 * alen Abs =? fr_len Unc)%nat then Err ValueError
  else if listed then Err AttributeError
  else FreqResp2RealImag mvn Abs Phase Unc runs.

(** tools.py:167-224, line 197 *)
Definition make_semiposdef_seq (listed : bool) (eigmin : mat -> R) (fuel : nat) (M : mat) (maxiter : Z) (tol : R)
  : option (res (mat * nat)) :=
  if listed then Some (Err AttributeError) else make_semiposdef eigmin fuel false M maxiter tol.

(** tools.py:132-164, lines 151-157 *)
Definition print_mat_seq (listed : bool) (fmt : Z -> R -> string) (M : mat) (prec : Z) (vertical retS : bool)
  : res text_out :=
  if listed then Err AttributeError else Ok (print_mat fmt M prec vertical retS).
