(** Model of PyDynamic/uncertainty/interpolate.py and of the parts of
    scipy.interpolate.interp1d (scipy 1.6) it relies on.

    Numbers in results are [option R]: [None] stands for NaN or an infinite value (fill
    values, division by zero).  searchsorted and np.interp are modelled by counting, which
    is what they compute for a sorted axis (their result for an unsorted axis is
    undefined). *)
From Coq Require Import Reals List Arith ZArith Bool.
From Verif Require Import Base.
Import ListNotations.
Open Scope R_scope.

Definition rltb (a b : R) : bool := if Rlt_dec a b then true else false.
Definition rleb (a b : R) : bool := if Rle_dec a b then true else false.

(** Number of indices below [n] where [p] holds. *)
Fixpoint count (n : nat) (p : nat -> bool) : nat :=
  match n with O => O | S m => (count m p + (if p m then 1 else 0))%nat end.

(** np.searchsorted(t, v, side="left") / side="right" *)
Definition search_left (t : vec) (v : R) : nat := count (alen t) (fun i => rltb (t i) v).
Definition search_right (t : vec) (v : R) : nat := count (alen t) (fun i => rleb (t i) v).

(** x.clip(lo, hi): numpy evaluates minimum(maximum(x, lo), hi). *)
Definition clip (x lo hi : nat) : nat := Nat.min (Nat.max x lo) hi.

(** interpolate.py:25 kind; [KOther]: a name scipy does not know (the spline kinds of
    scipy, which interp1d_unc refuses in lines 305-308, are not modelled). *)
Inductive kind := KPrevious | KNext | KNearest | KLinear | KOther.

(** fill_value / fill_unc: a float, an int, a pair, or "extrapolate". *)
Inductive fill := FFloat (v : option R) | FInt (v : Z) | FPair (b a : option R) | FExtrapolate.
Definition fill_below (f : fill) : option R :=
  match f with FFloat v => v | FInt z => Some (IZR z) | FPair b _ => b | FExtrapolate => None end.
Definition fill_above (f : fill) : option R :=
  match f with FFloat v => v | FInt z => Some (IZR z) | FPair _ a => a | FExtrapolate => None end.

(** scipy interp1d._call_previousnext, _call_nearest: index of the node taken.  The axis is
    shifted by one float to the left (right), which turns < into <= (>= into >). *)
Definition node_index (k : kind) (t : vec) (v : R) : nat :=
  match k with
  | KPrevious => (clip (search_right t v) 1 (alen t) + 0 - 1)%nat
  | KNext => (clip (search_left t v) 0 (alen t - 1) + 1 - 1)%nat
  | _ => (* nearest: midpoints t[i]/2 + t[i+1]/2 *)
      let bds := mkArr (alen t - 1) (fun i => t (S i) / 2 + t i / 2) in
      clip (search_left bds v) 0 (alen t - 1)
  end.

(** np.interp(v, t, y) (scipy interp1d._call_linear_np).  Integer axes use _call_linear,
    which computes the same number. *)
Definition np_interp (t y : vec) (v : R) : R :=
  if rltb v (t 0%nat) then y 0%nat
  else if rltb (t (alen t - 1)%nat) v then y (alen t - 1)%nat
  else
    let j := (search_right t v - 1)%nat in
    if (j =? alen t - 1)%nat then y j
    else if Req_EM_T (t j) v then y j
    else (y (S j) - y j) / (t (S j) - t j) * (v - t j) + y j.

(** scipy.interpolate.interp1d(t, y, kind, bounds_error, fill_value)(t_new), sorted axis:
    - different lengths: ValueError;
    - unknown kind: NotImplementedError;
    - fill_value "extrapolate" and bounds_error=True: ValueError;
    - otherwise bounds_error None becomes True;
    - no entries: ValueError;
    - out of range values raise ValueError if bounds_error, else the fill values are set. *)
Definition scipy_interp1d (t y : vec) (k : kind) (bounds_error : option bool) (f : fill)
           (t_new : vec) : res (arr (option R)) :=
  if negb (alen y =? alen t)%nat then Err ValueError
  else match k with KOther => Err NotImplementedError | _ =>
    do extrap <- match f with
                 | FExtrapolate => match bounds_error with
                                   | Some true => Err ValueError
                                   | _ => Ok true
                                   end
                 | _ => Ok false
                 end ;;
    if (alen t =? 0)%nat then Err ValueError
    else
      let raw := fun v => match k with
                          | KLinear => np_interp t y v
                          | _ => y (node_index k t v)
                          end in
      if extrap then
        (* never reached from interp1d_unc: "extrapolate" is replaced unless bounds_error *)
        Err NotImplementedError
      else
        let below := fun v => rltb v (t 0%nat) in
        let above := fun v => rltb (t (alen t - 1)%nat) v in
        let be := match bounds_error with Some b => b | None => true end in
        if be && existsb (fun i => below (t_new i) || above (t_new i)) (seq 0 (alen t_new))
        then Err ValueError
        else Ok (mkArr (alen t_new) (fun i =>
               let v := t_new i in
               if above v then fill_above f
               else if below v then fill_below f
               else Some (raw v)))
  end.

(** np.argsort (numpy's order of equal elements is unspecified; here: insertion sort). *)
Fixpoint ins (t : nat -> R) (i : nat) (l : list nat) : list nat :=
  match l with
  | [] => [i]
  | j :: r => if Rle_dec (t i) (t j) then i :: l else j :: ins t i r
  end.
Fixpoint isort (t : nat -> R) (l : list nat) : list nat :=
  match l with [] => [] | i :: r => ins t i (isort t r) end.
Definition argsort (t : vec) : list nat := isort t (seq 0 (alen t)).
(** np.take(v, ind): IndexError for an index outside. *)
Definition np_take (v : vec) (ind : list nat) : res vec :=
  if forallb (fun i => (i <? alen v)%nat) ind then Ok (of_list (map v ind))
  else Err IndexError.

(** np.min, np.max of a non-empty array. *)
Fixpoint fold_min (n : nat) (t : nat -> R) : R :=
  match n with O => t 0%nat | S m => Rmin (fold_min m t) (t (S m)) end.
Fixpoint fold_max (n : nat) (t : nat -> R) : R :=
  match n with O => t 0%nat | S m => Rmax (fold_max m t) (t (S m)) end.
Definition np_min (t : vec) : R := fold_min (alen t - 1) t.
Definition np_max (t : vec) : R := fold_max (alen t - 1) t.

Record interp_out := mkInterp {
  io_t : vec; io_y : arr (option R); io_u : arr (option R); io_C : option mat
}.

(** Last entry x[-1], first entry x[0]: IndexError for an empty array. *)
Definition first_last (v : vec) : res (option R * option R) :=
  if (alen v =? 0)%nat then Err IndexError
  else Ok (Some (v 0%nat), Some (v (alen v - 1)%nat)).

(** Lines 226-304, the linear kind: uncertainties and sensitivities. *)
Definition linear_unc (t_new t uy : vec) (y_new : arr (option R)) (fill_unc : fill)
           (returnC : bool) : res interp_out :=
  let n := alen t in
  let M := alen t_new in
  let below := fun k => rltb (t_new k) (np_min t) in
  let above := fun k => rltb (np_max t) (t_new k) in
  let outside := fun k => below k || above k in
  let any_out := existsb outside (seq 0 M) in
  (* 245-264 *)
  do fu <- (if any_out then
              match fill_unc with
              | FFloat v => Ok (fun k => v)
              | FPair b a => Ok (fun k => if above k then a else b)
              | FInt _ => Err TypeError
              | FExtrapolate => Err ValueError          (* unpacking a string *)
              end
            else Ok (fun _ => None)) ;;
  (* 275-287 *)
  let hi := fun k => clip (search_left t (t_new k)) 1 (n - 1) in
  let lo := fun k => if (hi k =? 0)%nat then (n - 1)%nat else (hi k - 1)%nat in
  let t_lo := fun k => t (lo k) in
  let t_hi := fun k => t (hi k) in
  (* 294-315: rows of C *)
  let L1 := fun k => (t_new k - t_hi k) / (t_lo k - t_hi k) in
  let L2 := fun k => (t_new k - t_lo k) / (t_hi k - t_lo k) in
  let C := mkMat M (alen uy) (fun k j =>
    if outside k then
      (if (j =? alen uy - 1)%nat then (if above k then 1 else 0)
       else if (j =? 0)%nat then (if below k then 1 else 0) else 0)
    else if (j =? hi k)%nat then L2 k else if (j =? lo k)%nat then L1 k else 0) in
  let degenerate := fun k => if Req_EM_T (t_lo k) (t_hi k) then true else false in
  let u := fun k =>
    if outside k then fu k
    else if degenerate k then None
    else if returnC then Some (sqrt (rsum (alen uy) (fun j => C k j ^ 2 * uy j ^ 2)))
    else Some (sqrt ((t_new k - t_hi k) ^ 2 * uy (lo k) ^ 2
                     + (t_new k - t_lo k) ^ 2 * uy (hi k) ^ 2) / (t_hi k - t_lo k)) in
  Ok (mkInterp t_new y_new (mkArr M u) (if returnC then Some C else None)).

(** ** interpolate.py:20-313 interp1d_unc *)
Definition interp1d_unc (t_new t y uy : vec) (k : kind) (bounds_error : option bool)
           (fill_value fill_unc : fill) (assume_sorted returnC : bool) : res interp_out :=
  (* 142-146 *)
  do (t, y, uy) <- (if assume_sorted then Ok (t, y, uy)
                    else let ind := argsort t in
                         do t' <- np_take t ind ;; do y' <- np_take y ind ;;
                         do u' <- np_take uy ind ;; Ok (t', y', u')) ;;
  (* 149-153 *)
  if negb (alen y =? alen uy)%nat then Err ValueError
  else
    (* 166-194 *)
    do (fill_value, fill_unc) <-
      match bounds_error with
      | Some true => Ok (fill_value, fill_unc)
      | _ =>
          do fv <- match fill_value with
                   | FExtrapolate => do (a, b) <- first_last y ;; Ok (FPair a b)
                   | f => Ok f
                   end ;;
          match fill_unc with
          | FExtrapolate => do (a, b) <- first_last uy ;; Ok (fv, FPair a b)
          | f => match bounds_error with
                 | Some false => if returnC then Err NotImplementedError else Ok (fv, f)
                 | _ => Ok (fv, f)
                 end
          end
      end ;;
    (* 197-198 *)
    do y_new <- scipy_interp1d t y k bounds_error fill_value t_new ;;
    match k with
    | KLinear => linear_unc t_new t uy y_new fill_unc returnC
    | KOther => Err NotImplementedError
    | _ =>
        (* 200-209 *)
        if returnC then Err NotImplementedError
        else
          do u_new <- scipy_interp1d t uy k bounds_error fill_unc t_new ;;
          Ok (mkInterp t_new y_new u_new None)
    end.

(** np.arange(start, stop, dt) in exact arithmetic: ceil((stop-start)/dt) values. *)
Definition ceilz (r : R) : Z := (- Int_part (- r))%Z.
Definition arange (start stop dt : R) : vec :=
  mkArr (Z.to_nat (ceilz ((stop - start) / dt))) (fun i => start + INR i * dt).

(** x[x <= m] *)
Definition keep_le (x : vec) (m : R) : vec :=
  of_list (filter (fun v => rleb v m) (map x (seq 0 (alen x)))).

(** ** interpolate.py:316-360 make_equidistant.  [grid] is the result of np.arange(min, max,
    dt) (in floating point arithmetic not exactly [arange]). *)
Definition make_equidistant_on (grid : vec) (t y uy : vec) (k : kind) : res interp_out :=
  if (alen grid =? 0)%nat then Err IndexError
  else
    let t_max := np_max t in
    let t_new := if rltb t_max (grid (alen grid - 1)%nat) then keep_le grid t_max else grid in
    interp1d_unc t_new t y uy k None (FFloat None) (FFloat None) true false.
Definition make_equidistant (t y uy : vec) (dt : R) (k : kind) : res interp_out :=
  if (alen t =? 0)%nat then Err ValueError                  (* np.max of an empty array *)
  else if Req_EM_T dt 0 then Err ValueError                (* "Maximum allowed size exceeded" *)
  else make_equidistant_on (arange (np_min t) (np_max t) dt) t y uy k.
