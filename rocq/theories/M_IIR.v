(** Model of propagate_filter.py:410-485 IIRuncFilter.

    The name tf2ss (line 450) is looked up in the module when the function runs: argument
    [tf2ss], [None] meaning that the module neither defines nor imports it.  In the pinned
    source it is [None] ([IIRuncFilter] below); the rest of the body is modelled to see what
    the function would do if the import were added. *)
From Coq Require Import Reals List Arith Bool.
From Verif Require Import Base M_Filter.
Import ListNotations.
Open Scope R_scope.

(** noise: float or ndarray (line 440); Uab: ndarray or its subclass numpy.matrix. *)
Inductive iirnoise := NzFloat (s : R) | NzArr (v : vec).
Inductive uab := UabArr (U : mat) | UabMatrix (U : mat).

(** State space form: A, B, C (2D arrays) and the entry of the 1 x 1 array D. *)
Definition ssform := (mat * mat * mat * R)%type.

(** scipy.signal.tf2ss for numerator and denominator of the same length K (controller
    canonical form of the coefficients divided by a[0]; scipy strips leading zeros of the
    denominator, i.e. a[0] = 0 is outside the model).  K = 1: A = [[0]]. *)
Definition scipy_tf2ss (b a : vec) : res ssform :=
  let K := alen a in
  let nb := fun i => vpad b i / vpad a 0 in
  let na := fun i => vpad a i / vpad a 0 in
  if (K =? 0)%nat then Err ValueError
  else if (K =? 1)%nat
  then Ok (mkMat 1 1 (fun _ _ => 0), mkMat 1 1 (fun _ _ => 0), mkMat 1 1 (fun _ _ => 0), nb 0%nat)
  else Ok (mkMat (K - 1) (K - 1) (fun i j => match i with
                                             | O => - na (S j)
                                             | S m => if (m =? j)%nat then 1 else 0
                                             end),
           mkMat (K - 1) 1 (fun i _ => match i with O => 1 | S _ => 0 end),
           mkMat 1 (K - 1) (fun _ j => nb (S j) - nb 0%nat * na (S j)),
           nb 0%nat).

(** Lines 470-483 for p = 1: z, dz and P before sample n (1 x 1 matrices; Aabl[0,0,0] = -1). *)
Fixpoint iir1_state (al be : R) (x nz : vec) (n : nat) : R * R * R :=
  match n with
  | O => (0, 0, 0)
  | S m => let '(z, dz, P) := iir1_state al be x nz m in
           (al * z + be * x m, al * dz + - (1) * z, al * P * al + nz m ^ 2 * (be * be))
  end.
(** Line 479. *)
Definition iir1_y (al be ga d : R) (x nz : vec) (n : nat) : R :=
  let '(z, _, _) := iir1_state al be x nz n in ga * z + d * x n.
(** Lines 471-477: phi has 2p+1 = 3 entries; entry 1 is never written, the derivative with
    respect to b_0 goes to entry p+1 = 2, range(p+2, 2p+1) is empty.  Line 482 (dz = dz1)
    makes both names denote one array, so that from the second sample on line 473 already
    sees the new value of dz. *)
Definition iir1_phi (al be ga d a1 : R) (x nz : vec) (n i : nat) : R :=
  let '(z, dz, _) := iir1_state al be x nz n in
  match i with
  | O => ga * (match n with O => dz | S _ => al * dz + - (1) * z end) - d * z
  | 1%nat => 0
  | _ => - a1 * z + x n
  end.
(** Lines 478, 480: P is updated before it is used. *)
Definition iir1_var (al be ga d b0 a1 : R) (U : mat) (x nz : vec) (n : nat) : R :=
  let phi := iir1_phi al be ga d a1 x nz n in
  let '(_, _, P) := iir1_state al be x nz (S n) in
  rsum 3 (fun i => rsum 3 (fun j => phi i * U i j * phi j)) + ga * P * ga + b0 ^ 2 * nz n ^ 2.

(** Lines 439-485.  With a nonempty signal:
    - p = 0: phi[1] does not exist (IndexError);
    - p >= 2: A * dz[:, k] multiplies a p x p matrix by a row (ValueError);
    - p = 1: phi.T * Uab * phi is a product of entries for an ndarray, a 3 x 3 result that
      does not fit into Uy[n]; for a numpy.matrix it is the matrix product. *)
Definition IIR_with (tf2ss : option (vec -> vec -> res ssform))
           (x : vec) (noise : iirnoise) (b a : vec) (Uab : uab) : res (vec * vec) :=
  let nz := match noise with NzFloat s => mkArr (alen x) (fun _ => s) | NzArr v => v end in
  let p := (alen a - 1)%nat in
  do b' <- (if (alen b =? alen a)%nat then Ok b
            else if (alen a <? alen b)%nat then Err ValueError
            else Ok (mkArr (alen a) (fun i => vpad b i))) ;;
  match tf2ss with
  | None => Err NameError
  | Some tf =>
      do ss <- tf b' a ;;
      let '(A, bs, c, d) := ss in
      if (alen x =? 0)%nat then Ok (mkArr 0 (fun _ => 0), mkArr 0 (fun _ => 0))
      else match p with
           | O => Err IndexError
           | S (S _) => Err ValueError
           | 1%nat =>
               if (alen nz =? 0)%nat then Err IndexError
               else match Uab with
                    | UabArr _ => Err ValueError
                    | UabMatrix U =>
                        if ((mrows U =? 3) && (mcols U =? 3))%nat then
                          if (alen nz <? alen x)%nat then Err IndexError
                          else
                            let al := A 0%nat 0%nat in
                            let be := bs 0%nat 0%nat in
                            let ga := c 0%nat 0%nat in
                            Ok (mkArr (alen x) (iir1_y al be ga d x nz),
                                mkArr (alen x) (fun n => sqrt (Rabs
                                  (iir1_var al be ga d (b' 0%nat) (a 1%nat) U x nz n))))
                        else Err ValueError
                    end
           end
  end.

(** The module as it is. *)
Definition IIRuncFilter := IIR_with None.
