(** Model of PyDynamic/uncertainty/propagate_MonteCarlo.py.

    Random numbers are oracles: the draws handed out by numpy are arguments of the
    functions.  Progress output is dropped.  runs, blocksize, ... are natural numbers (a
    negative value is outside the model).  [None] stands for NaN. *)
From Coq Require Import Reals List Arith ZArith Bool.
From Verif Require Import Base M_Filter M_Interp.
Import ListNotations.
Open Scope R_scope.

(** lfilter(b, a, x) without initial state: registers start with zero. *)
Definition lfilter0 (b a x : vec) : vec := lfilter b a x (mkArr 0 (fun _ => 0)).
Definition vplus (a b : vec) : vec := mkArr (alen a) (fun i => a i + b i).

(** Sum of a list of numbers. *)
Definition lsum (l : list R) : R := fold_right Rplus 0 l.

(** ** propagate_MonteCarlo.py:39-92 Normal_ZeroCorr: arguments are arrays or numbers. *)
Inductive numarg := NArr (v : vec) | NNum (x : R).
Definition np_size1 (a : numarg) : vec :=
  match a with NArr v => v | NNum x => mkArr 1 (fun _ => x) end.
Definition normal_zerocorr (loc scale : numarg) : res (vec * vec) :=
  match loc, scale with
  | NNum _, NNum _ => Err TypeError
  | _, _ =>
      let l := np_size1 loc in
      let s := np_size1 scale in
      if (alen l =? alen s)%nat then Ok (l, s)
      else if (alen l =? 1)%nat && negb (alen s =? 1)%nat
           then Ok (mkArr (alen s) (fun _ => l 0%nat), s)
      else if (alen s =? 1)%nat && negb (alen l =? 1)%nat
           then Ok (l, mkArr (alen l) (fun _ => s 0%nat))
      else Err ValueError
  end.
(** rvs, lines 88-92: [z] is the array of standard normal draws, one row per sample. *)
Definition nzc_rvs (d : vec * vec) (size : nat) (z : nat -> nat -> R) : mat :=
  mkMat size (alen (fst d)) (fun r i => fst d i + z r i * snd d i).

(** ** propagate_MonteCarlo.py:95-196 MC

    [theta k]: the k-th draw of the coefficients, [z k]: the k-th draw for the signal
    (standard normal numbers, or the draw from N(x, Ux) for a matrix Ux), [stable]: the
    verdict of isstable.  Uab has to be a square matrix that fits the coefficients,
    otherwise np.random.multivariate_normal raises ValueError.

    stats.multivariate_normal(x, Ux), line 156, examines a covariance matrix when the
    distribution is created (allow_singular=False): ValueError if an eigenvalue is negative,
    LinAlgError if one is zero.  [min_eig]: the smallest eigenvalue it computes (its
    tolerance, about 2e-10 times the largest eigenvalue, is taken as zero). *)
Inductive mcunc := McFloat (u : R) | McVec (v : vec) | McMat (m : mat) | McOther.
(** np.cov in line 195: NaN in every entry, an array without axes, a matrix *)
Inductive mc_cov := CovNaN | CovScalar (r : R) | CovMat (m : mat).
Inductive mc_result :=
| McSamples (Y : list vec)                  (* return_samples=True *)
| McMoments (y : option vec) (U : mc_cov).  (* None: NaN everywhere *)

Definition mc_inputs (min_eig : mat -> R) (x : vec) (Ux : mcunc) (z : nat -> vec) (k : nat) : res vec :=
  match Ux with
  | McFloat u => do d <- normal_zerocorr (NArr x) (NNum u) ;;
                 Ok (mkArr (alen (fst d)) (fun i => nzc_rvs d 1 (fun _ j => z k j) 0%nat i))
  | McVec v => do d <- normal_zerocorr (NArr x) (NArr v) ;;
               Ok (mkArr (alen (fst d)) (fun i => nzc_rvs d 1 (fun _ j => z k j) 0%nat i))
  | McMat m => if negb ((mrows m =? mcols m)%nat && (mrows m =? alen x)%nat) then Err ValueError
               else if rltb (min_eig m) 0 then Err ValueError
               else if rltb 0 (min_eig m) then Ok (z k)
               else Err LinAlgError
  | McOther => Err NotImplementedError
  end.

(** One pass of the loop, lines 158-172: None for an unstable filter. *)
Definition mc_run (stable : vec -> vec -> bool) (Na : nat) (blow alow : option vec) (th xn : vec)
  : option vec :=
  let xn := match blow with
            | None => xn
            | Some bl => lfilter0 bl (match alow with Some al => al | None => one_vec end) xn
            end in
  let bb := slice th (Na - 1) (alen th) in
  let aa := mkArr Na (fun i => if (i =? 0)%nat then 1 else th (i - 1)%nat) in
  if stable bb aa then Some (lfilter0 bb aa xn) else None.

(** multivariate_normal.rvs() squeezes its result: for a signal with one sample xn has no
    axis, and lfilter raises ValueError. *)
Definition mc_scalar (x : vec) (Ux : mcunc) : bool :=
  match Ux with McMat _ => (alen x =? 1)%nat | _ => false end.

Fixpoint mc_loop (stable : vec -> vec -> bool) (min_eig : mat -> R) (x : vec) (Ux : mcunc) (Na : nat)
         (blow alow : option vec) (theta z : nat -> vec) (todo k : nat)
  : res (list (option vec)) :=
  match todo with
  | O => Ok []
  | S t =>
      do xn <- mc_inputs min_eig x Ux z k ;;
      let r := mc_run stable Na blow alow (theta k) xn in
      if mc_scalar x Ux && match blow, r with None, None => false | _, _ => true end
      then Err ValueError
      (* Y[k,:] = ... *)
      else if match r with Some y => negb (alen y =? alen x)%nat | None => false end
      then Err ValueError
      else do rest <- mc_loop stable min_eig x Ux Na blow alow theta z t (S k) ;; Ok (r :: rest)
  end.

Definition somes {A} (l : list (option A)) : list A :=
  flat_map (fun o => match o with Some a => [a] | None => [] end) l.

(** np.mean(Y, axis=0) and np.cov(Y, rowvar=False) of a list of rows *)
Definition rows_mean (n : nat) (Y : list vec) : vec :=
  mkArr n (fun i => lsum (map (fun r : vec => r i) Y) / INR (length Y)).
Definition rows_cov (n : nat) (Y : list vec) : mat :=
  mkMat n n (fun i j =>
    lsum (map (fun r : vec => (r i - rows_mean n Y i) * (r j - rows_mean n Y j)) Y)
    / INR (length Y - 1)).
(** np.cov(Y, rowvar=False) with its special cases: a single row is not transposed, it
    counts as the observations of one variable (the variance over the n entries, NaN for
    fewer than two), and the result is squeezed. *)
Definition var_of (v : vec) : R :=
  let m := rsum (alen v) (fun i => v i) / INR (alen v) in
  rsum (alen v) (fun i => (v i - m) * (v i - m)) / INR (alen v - 1).
Definition np_cov_rows (n : nat) (Y : list vec) : mc_cov :=
  match Y with
  | [] => CovNaN
  | [r] => if (n <=? 1)%nat then CovNaN else CovScalar (var_of (mkArr n (fun i => r i)))
  | _ => if (n =? 1)%nat then CovScalar (rows_cov n Y 0%nat 0%nat) else CovMat (rows_cov n Y)
  end.

Definition MC (stable : vec -> vec -> bool) (min_eig : mat -> R) (x : vec) (Ux : mcunc) (b a : vec) (Uab : mat)
           (runs : nat) (blow alow : option vec) (return_samples : bool) (shift : Z)
           (theta z : nat -> vec) : res mc_result :=
  let Na := alen a in
  let p := (Na - 1 + alen b)%nat in
  if negb ((mrows Uab =? p) && (mcols Uab =? p))%nat then Err ValueError
  else
    (* lines 145-153 happen before the loop, even if runs = 0 *)
    do _ <- mc_inputs min_eig x Ux z 0 ;;
    do rs <- mc_loop stable min_eig x Ux Na blow alow theta z runs 0 ;;
    let n := alen x in
    if return_samples then
      (* Y starts as zeros; rows of unstable filters stay zero *)
      Ok (McSamples (map (fun r => roll (match r with Some y => y | None => mkArr n (fun _ => 0) end)
                                        shift) rs))
    else
      let st := map (fun y => roll y shift) (somes rs) in
      Ok (McMoments (if (length st =? 0)%nat then None else Some (rows_mean n st))
                    (np_cov_rows n st)).

(** ** propagate_MonteCarlo.py:199-401 SMC

    Only the shapes of the set-up (lines 251-335) matter: the loop "for index in
    np.ndenumerate(x)" binds index to a pair ((i,), x[i]), and the first use of x[index]
    (lines 359-368) raises IndexError (a pair is one index too many for a 1D array); before
    that, lines 347-353 stack a 1D and a 2D array, ValueError, when phi is an array and
    (for theta an array) W.dot(theta) and W[:-1].  y[index] is never reached.

    Na, Nb: orders of the denominator and numerator.  Line 325 multiplies arrays with Nb
    and max(Na, Nb) columns and subtracts from one with Nb columns (Na = 0: all Nb); a
    single column is repeated (Nb = 1, or Na = 1 with Nb = 0). *)
Inductive smc_noise := SmWhite | SmArray | SmFloat.
Definition smc_setup (Na Nb : nat) : res unit :=
  if (Nb <? Na)%nat && negb (Nb =? 1)%nat && negb (Na =? 1)%nat then Err ValueError else Ok tt.
(** First pass through the loop up to the first access x[index]. *)
Definition smc_first_pass (phi theta : smc_noise) : res unit :=
  match phi, theta with
  | SmWhite, SmWhite => Err IndexError          (* x[index] *)
  | _, _ => Err ValueError                      (* hstack of a 1D and a 2D array *)
  end.
Definition SMC (x : vec) (Na Nb : nat) (phi theta : smc_noise) (shift : Z) : res (vec * vec) :=
  do _ <- smc_setup Na Nb ;;
  if (alen x =? 0)%nat then Ok (roll x shift, roll x shift)
  else do _ <- smc_first_pass phi theta ;; Ok (x, x).

(** ** propagate_MonteCarlo.py:569-745 UMC_generic

    [draw c n]: what the c-th call of draw_samples returns for n samples (call 0: the
    initial samples); [evaluate]: the raveled result of a sample; [order c l]: the results l
    in the order in which map_func delivers them: the identity for n_cpu=1 (map), some
    permutation for imap_unordered.  Results of different sizes: ValueError (numpy would
    broadcast results of size 1). *)
(** np.linspace(a, b, num=n+1)[i] *)
Definition linspace (a b : R) (n i : nat) : R :=
  if (i =? n)%nat && (0 <? n)%nat then b else a + INR i * ((b - a) / INR n).
Definition lmin (l : list R) : R := match l with [] => 0 | a :: r => fold_left Rmin r a end.
Definition lmax (l : list R) : R := match l with [] => 0 | a :: r => fold_left Rmax r a end.

(** np.histogram(col, bins=e)[0][i] for the n+1 edges e: differences of
    searchsorted(col, e[:-1], "left"), searchsorted(col, e[-1], "right"). *)
Definition cnt (p : R -> bool) (l : list R) : nat := length (filter p l).
Definition histogram (col : list R) (e : nat -> R) (n i : nat) : nat :=
  let cum := fun j => if (j =? n)%nat then cnt (fun v => rleb v (e n)) col
                      else cnt (fun v => rltb v (e j)) col in
  (cum (S i) - cum i)%nat.

(** happr: bin edges (n+1 x d) and bin counts (n x d) for a number n of bins. *)
Record hist := mkHist { h_bins : nat; h_edges : nat -> nat -> R; h_counts : nat -> nat -> R }.
Definition hist_add (Y : list vec) (h : hist) : hist :=
  mkHist (h_bins h) (h_edges h)
    (fun i k => h_counts h i k
                + INR (histogram (map (fun r : vec => r k) Y) (fun j => h_edges h j k) (h_bins h) i)).
(** Lines 737-740: np.min is used for the last edge, too. *)
Definition hist_close (ymin ymax : nat -> R) (h : hist) : hist :=
  let e1 := fun i k => if (i =? 0)%nat then Rmin (ymin k) (h_edges h 0%nat k) else h_edges h i k in
  let e2 := fun i k => if (i =? h_bins h)%nat then Rmin (ymax k) (e1 (h_bins h) k) else e1 i k in
  mkHist (h_bins h) e2 (h_counts h).

Section UMC_generic.
Context {A : Type}.
Variable draw : nat -> nat -> list A.
Variable evaluate : A -> vec.
Variable order : nat -> list vec -> list vec.

Record umc_state := mkSt {
  s_y : nat -> R; s_U : nat -> nat -> R; s_h : list hist;
  s_min : nat -> R; s_max : nat -> R; s_sims : list A * list vec
}.
Record umc_out := mkUmc {
  u_y : vec; u_U : mat; u_h : list hist; u_len : nat; u_sims : option (list A * list vec)
}.

(** One pass of the loop in lines 681-733 with the index m. *)
Definition umc_block (runs bs nblocks d : nat) (return_samples : bool) (m : nat) (s : umc_state)
  : res umc_state :=
  let cb := if (m =? nblocks)%nat then (runs mod bs)%nat else bs in
  let samples := draw (S m) cb in
  let Y := order (S m) (map evaluate samples) in
  if negb (forallb (fun r : vec => alen r =? d)%nat Y) then Err ValueError
  else
    let (y, U) :=
      if (m =? 0)%nat then
        let y := fun k => lsum (map (fun r : vec => r k) Y) / INR (length Y) in
        (y, fun i j => lsum (map (fun r : vec => (r i - y i) * (r j - y j)) Y))
      else
        let K0 := (m * bs)%nat in
        let y0 := s_y s in
        let y := fun k => y0 k + lsum (map (fun r : vec => r k - y0 k) Y) / INR (K0 + cb) in
        (y, fun i j => ((INR K0 - 1) * s_U s i j + INR K0 * ((y i - y0 i) * (y j - y0 j))
                        + lsum (map (fun r : vec => (r i - y i) * (r j - y j)) Y))
                       / (INR (K0 + cb) - 1)) in
    let h := map (hist_add Y) (s_h s) in
    let mn := fun k => fold_left Rmin (map (fun r : vec => r k) Y) (s_min s k) in
    let mx := fun k => fold_left Rmax (map (fun r : vec => r k) Y) (s_max s k) in
    if return_samples && (runs <? m * bs + cb)%nat then Err ValueError   (* shapes differ *)
    else
      let (ss, rr) := s_sims s in
      Ok (mkSt y U h mn mx (ss ++ samples, rr ++ Y)%list).

Fixpoint umc_blocks (runs bs nblocks d : nat) (return_samples : bool) (todo m : nat)
         (s : umc_state) : res umc_state :=
  match todo with
  | O => Ok s
  | S t => do s' <- umc_block runs bs nblocks d return_samples m s ;;
           umc_blocks runs bs nblocks d return_samples t (S m) s'
  end.

Definition UMC_generic (runs bs runs_init : nat) (nbins : list nat) (return_samples : bool)
  : res umc_out :=
  let init := order 0 (map evaluate (draw 0 runs_init)) in
  match init with
  | [] => Err IndexError                                   (* samples[0], line 651 *)
  | r0 :: _ =>
      let d := alen r0 in
      if negb (forallb (fun r : vec => alen r =? d)%nat init) then Err ValueError
      else
        let ymin := fun k => lmin (map (fun r : vec => r k) init) in
        let ymax := fun k => lmax (map (fun r : vec => r k) init) in
        let h := map (fun n => mkHist n (fun i k => linspace (ymin k) (ymax k) n i) (fun _ _ => 0))
                     (nodup Nat.eq_dec nbins) in
        if (bs =? 0)%nat then Err ZeroDivisionError
        else
          let nblocks := ((runs + bs - 1) / bs)%nat in
          do s <- umc_blocks runs bs nblocks d return_samples nblocks 0
                    (mkSt (fun _ => 0) (fun _ _ => 0) h ymin ymax ([], [])) ;;
          (* no block: y is not bound *)
          if (nblocks =? 0)%nat then Err UnboundLocalError
          else Ok (mkUmc (mkArr d (s_y s)) (mkMat d d (s_U s))
                         (map (hist_close (s_min s) (s_max s)) (s_h s)) d
                         (if return_samples then Some (s_sims s) else None))
  end.
End UMC_generic.

(** ** propagate_MonteCarlo.py:525-566 _UMCevaluate.  [e]: the ARMA noise, [u]: uniform
    draws from [0,1). *)
Definition UMCevaluate (nbb : nat) (x : vec) (Delta : R) (blow alow : vec)
           (smp : vec * vec * vec) : vec :=
  let '(th, e, u) := smp in
  let naa := (alen th - nbb + 1)%nat in
  let aa := mkArr naa (fun i => if (i =? 0)%nat then 1 else th (i - 1)%nat) in
  let bb := slice th (naa - 1) (alen th) in
  let xlow := lfilter0 blow alow (vplus x e) in
  vplus (lfilter0 bb aa xlow) (mkArr (alen x) (fun i => Delta * (2 * u i - 1))).

(** ** propagate_MonteCarlo.py:404-522 UMC.  [draw]: coefficients together with the noise
    used by the evaluation.  Lines 510-520: cumulated relative bin counts, interpolated. *)
Definition cum_rel (h : hist) (k : nat) : option vec :=
  let total := rsum (h_bins h) (fun i => h_counts h i k) in
  if Req_EM_T total 0 then None
  else Some (mkArr (h_bins h + 1) (fun j => rsum j (fun i => h_counts h i k) / total)).
Definition cred_bound (h : hist) (k : nat) (q : R) : res (option R) :=
  match cum_rel h k with
  | None => Ok None
  | Some G =>
      do r <- scipy_interp1d G (mkArr (h_bins h + 1) (fun j => h_edges h j k)) KLinear None
                (FFloat None) (mkArr 1 (fun _ => q)) ;;
      Ok (r 0%nat)
  end.
Fixpoint cred_row (h : hist) (q : R) (ks : list nat) : res (list (option R)) :=
  match ks with
  | [] => Ok []
  | k :: r => do v <- cred_bound h k q ;; do l <- cred_row h q r ;; Ok (v :: l)
  end.
Record umc_filter_out := mkUF {
  uf_y : vec; uf_U : mat; uf_h : list hist;
  uf_low : list (list (option R)); uf_high : list (list (option R))
}.
(** rows of y_cred_low/high: one per entry of nbins, initialised with zeros *)
Fixpoint cred_rows (hs : list hist) (q : R) (n rows : nat) : res (list (list (option R))) :=
  match hs, rows with
  | [], _ => Ok (repeat (repeat (Some 0) n) rows)
  | _ :: _, O => if (n =? 0)%nat then Ok [] else Err IndexError
  | h :: hs', S r => do v <- cred_row h q (seq 0 n) ;; do l <- cred_rows hs' q n r ;; Ok (v :: l)
  end.
Definition UMC (draw : nat -> nat -> list (vec * vec * vec))
           (order : nat -> list vec -> list vec) (x b a : vec) (runs bs : nat)
           (blow alow : vec) (Delta : R) (runs_init : nat) (nbins : list nat) (cred : R)
  : res umc_filter_out :=
  if (alen alow =? 0)%nat then Err IndexError
  else
    let a0 := alow 0%nat in
    let '(bl, al) := if Req_EM_T a0 1 then (blow, alow)
                     else (vmap (fun v => v / a0) blow, vmap (fun v => v / a0) alow) in
    (* line 503: nbins is not passed on, UMC_generic uses its default 100 *)
    do g <- UMC_generic draw (UMCevaluate (alen b) x Delta bl al) order runs bs runs_init [100%nat] false ;;
    do lo <- cred_rows (u_h g) ((1 - cred) / 2) (alen x) (length nbins) ;;
    do hi <- cred_rows (u_h g) ((1 + cred) / 2) (alen x) (length nbins) ;;
    Ok (mkUF (u_y g) (u_U g) (u_h g) lo hi).
