(** Model of PyDynamic/signals.py: construction of a Signal and Signal.apply_filter.

    plot and plot_uncertainty (lines 75-97) only draw and are not modelled; the labels
    (lines 60-73) are strings without influence on the numbers.  An attribute that
    __init__ does not assign is [Unset]: reading it raises AttributeError. *)
From Coq Require Import String.
From Coq Require Import Reals List Arith ZArith Bool.
From Verif Require Import Base M_Filter M_MC.
Import ListNotations.
Open Scope R_scope.

(** Value of the attributes Ts, Fs; NonFinite: NaN or infinity. *)
Inductive attr := Unset | Num (r : R) | NonFinite.

(** Argument [values]: an array without axis, a 1D array, or one with more axes. *)
Inductive nvalues := Val0 (r : R) | Val1 (v : vec) | ValN.
(** Argument Ts: None, a float (np.float64 included), or an object that is no float
    (int, np.float32, ...). *)
Inductive tsarg := TsNone | TsFloat (r : R) | TsOther.
(** Argument uncertainty: a float, an array with 1 or 2 axes, an array with more axes of
    which at least three have a length other than one ([d0], [d1]: the first two of these
    lengths), or another object (None, int, list, ...). *)
Inductive uarg := UaFloat (u : R) | UaVec (v : vec) | UaMat (m : mat) | UaCube (d0 d1 : nat) | UaOther.

(** The attribute uncertainty; SuScalar: an array without axes; SuNaN: array of NaN. *)
Inductive sunc := SuScalar (r : R) | SuVec (v : vec) | SuMat (m : mat) | SuCube | SuNaN.
Record signal := mkSig {
  sg_time : vec; sg_values : option vec;   (* None: array of NaN *)
  sg_Ts : attr; sg_Fs : attr; sg_unc : sunc
}.

(** np.unique(np.diff(time)).mean(): every difference counts once (the order does not
    matter for the mean); NaN for fewer than two points. *)
Definition diffs (time : vec) : list R :=
  map (fun i => time (S i) - time i) (seq 0 (alen time - 1)).
Definition unique_mean (l : list R) : attr :=
  let u := nodup Req_EM_T l in
  match u with [] => NonFinite | _ => Num (lsum u / INR (List.length u)) end.
(** 1 / x with numpy's float64: no exception for zero. *)
Definition np_inv (x : attr) : attr :=
  match x with
  | Num r => if Req_EM_T r 0 then NonFinite else Num (1 / r)
  | o => o
  end.

(** signals.py:35-46: sampling interval and frequency.  Fs: None or a number.  A float Ts
    is a Python float here: 1/0.0 raises ZeroDivisionError. *)
Definition time_base (time : vec) (Ts : tsarg) (Fs : option R) : res (attr * attr) :=
  match Ts, Fs with
  | TsNone, None => let t := unique_mean (diffs time) in Ok (t, np_inv t)
  | TsFloat t, None => if Req_EM_T t 0 then Err ZeroDivisionError else Ok (Num t, Num (1 / t))
  | TsFloat t, Some f => if Rlt_dec (Rabs (f * t - 1)) (1 / 100000) then Ok (Num t, Unset)
                         else Err AssertionError
  | TsNone, Some _ | TsOther, _ => Ok (Unset, Unset)
  end.

(** uncertainty.squeeze() followed by lines 51-55. *)
Definition squeeze_unc (n : nat) (u : uarg) : res sunc :=
  let vec_case := fun v : vec =>
    if (alen v =? 1)%nat then Err IndexError       (* squeezed to no axis: shape[0] *)
    else if (alen v =? n)%nat then Ok (SuVec v) else Err AssertionError in
  match u with
  | UaVec v => vec_case v
  | UaMat m =>
      if (mrows m =? 1)%nat then vec_case (mkArr (mcols m) (fun j => m 0%nat j))
      else if (mcols m =? 1)%nat then vec_case (mkArr (mrows m) (fun i => m i 0%nat))
      else if (mrows m =? mcols m)%nat then Ok (SuMat m) else Err AssertionError
  | UaCube d0 d1 => if (d0 =? d1)%nat then Ok SuCube else Err AssertionError
  | UaFloat _ | UaOther => Err TypeError           (* not used: no array *)
  end.

(** signals.py:47-57: initial uncertainty. *)
Definition initial_unc (v : vec) (u : uarg) (n : nat) : res sunc :=
  match u with
  | UaFloat s => Ok (SuVec (mkArr (alen v) (fun _ => 1 * s)))
  | UaOther => Ok (SuVec (mkArr (alen v) (fun _ => 0)))
  | _ => squeeze_unc n u
  end.

(** signals.py:26-58 Signal.__init__.  len() of an array without axis: TypeError. *)
Definition Signal (time : vec) (values : nvalues) (Ts : tsarg) (Fs : option R) (u : uarg)
  : res signal :=
  match values with
  | ValN => Err NotImplementedError
  | Val0 _ => Err TypeError
  | Val1 v =>
      if negb (alen time =? alen v)%nat then Err AssertionError
      else
        do tb <- time_base time Ts Fs ;;
        do su <- initial_unc v u (alen time) ;;
        Ok (mkSig time (Some v) (fst tb) (snd tb) su)
  end.

(** Argument a of apply_filter: a list or an array, or another object such as 1. *)
Inductive denom := DenNum | DenArr (v : vec).
(** Argument MonteCarloRuns: an int (not negative here) or another object (None). *)
Inductive runsarg := RunsInt (n : nat) | RunsOther.

(** The uncertainty as MC sees it; a covariance with more than two axes makes
    multivariate_normal raise ValueError (line 156 of propagate_MonteCarlo.py), which a
    matrix of a wrong shape does as well, and which NaN entries do, too; an array without
    axes is multiplied by the identity matrix there. *)
Definition su_mc (n : nat) (u : sunc) : mcunc :=
  match u with
  | SuScalar r => McMat (mkMat n n (fun i j => if (i =? j)%nat then r else 0))
  | SuVec v => McVec v
  | SuMat m => McMat m
  | SuCube | SuNaN => McMat (mkMat (S n) n (fun _ _ => 0))
  end.

Section Apply.
Variable stable : vec -> vec -> bool.      (* verdict of isstable *)
Variable min_eig : mat -> R.               (* smallest eigenvalue, see M_MC.MC *)
Variable theta z : nat -> vec.             (* draws, see M_MC.MC *)
Variable bdt : dtype.                      (* element type of b *)
(** Number of Monte Carlo runs when none is given: 10000 in the code, a parameter here. *)
Variable default_runs : nat.

(** A call of MC with its default arguments; [a] without len(): TypeError in line 144 of
    propagate_MonteCarlo.py.  filter_uncertainty has to be a matrix, see M_MC.MC. *)
Definition sig_mc (x : vec) (u : sunc) (b : vec) (a : denom) (fu : cunc) (runs : nat)
  : res (option vec * sunc) :=
  match a with
  | DenNum => Err TypeError
  | DenArr av =>
      match fu with
      | UtMat Uab =>
          do r <- MC stable min_eig x (su_mc (alen x) u) b av Uab runs None None false 0 theta z ;;
          match r with
          | McMoments y U => Ok (y, match U with CovMat m => SuMat m | CovScalar r => SuScalar r | CovNaN => SuNaN end)
          | McSamples _ => Err TypeError           (* not reached *)
          end
      | _ => Err ValueError
      end
  end.

(** signals.py:99-159 Signal.apply_filter for a signal with finite values (after NaN values
    nothing is modelled).  Result: the signal after the call. *)
Definition apply_filter (s : signal) (b : vec) (a : denom) (fu : cunc) (runs : runsarg)
  : res signal :=
  match sg_values s with
  | None => Ok s                                  (* values NaN: not modelled *)
  | Some x =>
      let upd := fun r : option vec * sunc => mkSig (sg_time s) (fst r) (sg_Ts s) (sg_Fs s) (snd r) in
      match a with
      | DenNum =>                                  (* FIR type filter *)
          match sg_unc s, runs with
          | SuVec u, RunsOther =>
              do r <- FIRuncFilter DFloat bdt x (NsVec u) b fu 0 None "corr" false ;;
              Ok (upd (Some (fst r), match snd r with PointU v => SuVec v | FullU m => SuMat m end))
          | u, RunsInt n => do r <- sig_mc x u b a fu n ;; Ok (upd r)
          | u, RunsOther => do r <- sig_mc x u b a fu default_runs ;; Ok (upd r)
          end
      | DenArr _ =>                                (* IIR type filter *)
          match runs with
          | RunsOther => do r <- sig_mc x (sg_unc s) b a fu default_runs ;; Ok (upd r)
          | RunsInt _ => Ok s
          end
      end
  end.
End Apply.
