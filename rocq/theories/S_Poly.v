(** Spec vocabulary for polynomials, filters and group delays; independent of the
    models. *)
From Coq Require Import Reals List Arith Permutation.
From Verif Require Import Base Cplx.
Import ListNotations.
Open Scope R_scope.

Fixpoint cpow (z : C) (n : nat) : C := match n with O => C1 | S m => cmul z (cpow z m) end.

(** Value at z of the polynomial with coefficients p, highest power first. *)
Definition ceval (p : arr C) (z : C) : C :=
  csum (alen p) (fun i => cmul (p i) (cpow z (alen p - 1 - i))).
Definition real_poly (a : vec) : arr C := mkArr (alen a) (fun i => RtoC (a i)).

(** The product of the z - v over the list. *)
Definition lin_prod (v : list C) (z : C) : C := cprod (map (fun u => csub z u) v).

(** [v] lists the roots of the real polynomial a, with multiplicity. *)
Definition exact_roots (a : vec) (v : list C) : Prop :=
  exists lead, lead <> 0 /\ forall z, ceval (real_poly a) z = cscal lead (lin_prod v z).

(** u' is u if u lies in the closed unit disc, and the mirror image of u at the
    unit circle (same direction, reciprocal absolute value) otherwise. *)
Definition mirrored (u u' : C) : Prop :=
  (cabs u <= 1 /\ u' = u) \/ (1 < cabs u /\ cmul u' (cconj u) = C1).

(** Frequency response of the coefficients c at the angular frequency w
    (rad/sample): sum_n c_n exp(-i w n). *)
Definition freq_resp (c : vec) (w : R) : C :=
  csum (alen c) (fun n => cscal (c n) (cis (- (w * INR n)))).

(** phi is a phase of the filter (b, a) around w, differentiable there with
    derivative l:  B(w) = rho(w) exp(i phi(w)) A(w). *)
Definition has_phase_slope (b a : vec) (w l : R) : Prop :=
  exists rho phi rho',
    (exists d, 0 < d /\ forall u, Rabs (u - w) < d ->
       freq_resp b u = cmul (cscal (rho u) (cis (phi u))) (freq_resp a u)) /\
    derivable_pt_lim phi w l /\ derivable_pt_lim rho w rho'.

(** A FIR filter with the delay D: its response is a real amplitude times
    exp(-i w D). *)
Definition has_delay (h : vec) (D : R) : Prop :=
  forall w, exists A, freq_resp h w = cscal A (cis (- (w * D))).

(** Real polynomials, lowest power first, and their derivative. *)
Fixpoint peval (c : list R) (t : R) : R :=
  match c with [] => 0 | x :: r => x + t * peval r t end.
Fixpoint pderiv_aux (k : nat) (c : list R) : list R :=
  match c with [] => [] | x :: r => INR k * x :: pderiv_aux (S k) r end.
Definition pderiv (c : list R) : list R := pderiv_aux 1 (tl c).

(** Impulse response: h is the response of the filter (b, a) at rest to 1,0,0,... *)
Definition impulse_resp (b a : vec) (h : nat -> R) : Prop :=
  forall n, rsum (alen a) (fun j => if (j <=? n)%nat then a j * h (n - j)%nat else 0) = vpad b n.

(** Partial fractions: the numerator sum_l r_l prod_(j<>l) (z - p_j). *)
Fixpoint pf_num (r p : list C) (z : C) : C :=
  match r, p with
  | r0 :: rs, p0 :: ps => cadd (cmul r0 (lin_prod ps z)) (cmul (csub z p0) (pf_num rs ps z))
  | _, _ => C0
  end.

(** b(s)/a(s) = sum_l r_l / (s - p_l) *)
Definition partial_fractions (b a : vec) (r p : list C) : Prop :=
  length r = length p /\
  exists lead, lead <> 0 /\ (forall s, ceval (real_poly a) s = cscal lead (lin_prod p s)) /\
    (forall s, ceval (real_poly b) s = cscal lead (pf_num r p s)).

(** What scipy.signal.invres returns for simple poles: k + sum_l r_l/(z - p_l) over the
    common denominator prod (z - p_l); the numerator has one coefficient more than
    there are poles, and one less if the constant k vanishes. *)
Definition invres_exact (invres : list C -> list C -> R -> arr C * arr C)
           (r p : list C) (k : R) : Prop :=
  let (b, a) := invres r p k in
  alen a = S (length p) /\ (forall z, ceval a z = lin_prod p z) /\
  alen b = (if Req_EM_T k 0 then length p else S (length p)) /\
  (forall z, ceval b z = cadd (cscal k (lin_prod p z)) (pf_num r p z)).

(** sum_l r_l exp(p_l t): the impulse response of sum_l r_l/(s - p_l). *)
Fixpoint modes (r p : list C) (t : R) : C :=
  match r, p with
  | r0 :: rs, p0 :: ps =>
      cadd (cmul r0 (cscal (exp (t * Re p0)) (cis (t * Im p0)))) (modes rs ps t)
  | _, _ => C0
  end.

(** Consecutive poles are at least tol apart. *)
Fixpoint apart (tol : R) (p : list C) : Prop :=
  match p with
  | a :: (b :: _) as r => tol <= cabs (csub a b) /\ apart tol r
  | _ => True
  end.

(** Residues of conjugate poles are conjugate (true of every real filter). *)
Definition conj_closed (r p : list C) : Prop :=
  Permutation.Permutation (combine r p) (map (fun rp => (cconj (fst rp), cconj (snd rp))) (combine r p)).
