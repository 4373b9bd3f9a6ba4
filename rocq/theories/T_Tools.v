(** Theorems about misc/tools.py: make_semiposdef (C19, C20, C89), FreqResp2RealImag (C21),
    progress_bar (C88). *)
From Coq Require Import Reals List Arith ZArith Bool String Ascii Lra Lia.
From Verif Require Import Base M_MC Sums Stats StatsFacts M_Tools S_Tools P_Tools.
Import ListNotations.
Open Scope R_scope.

(** The eigenvalue routine is exact on symmetric n x n matrices. *)
Definition exact_eig (n : nat) (eigmin : mat -> R) : Prop :=
  forall M : mat, mrows M = n -> mcols M = n -> symm n M -> is_min_eig n M (eigmin M).

(** ** C19 *)
(** For every square matrix (sparse: at least 8 x 8, see C89), tol >= 0, maxiter >= 1 the
    call terminates (after two passes through the loop at most); the result is the
    symmetrised input plus c >= 0 times the identity, its quadratic form is bounded below by
    tol; c = 0 if this was already the case. *)
Theorem C19_semiposdef : forall eigmin n sparse (M : mat) maxiter tol fuel,
  exact_eig n eigmin ->
  mrows M = n -> mcols M = n -> (sparse = true -> (8 <= n)%nat) ->
  0 <= tol -> (1 <= maxiter)%Z -> (2 <= fuel)%nat ->
  exists M' it c, make_semiposdef eigmin fuel sparse M maxiter tol = Some (Ok (M', it)) /\
    mrows M' = n /\ mcols M' = n /\ 0 <= c /\
    (forall i j, (i < n)%nat -> (j < n)%nat ->
       M' i j = (M i j + M j i) / 2 + (if (i =? j)%nat then c else 0)) /\
    (forall v, tol * sqnorm n v <= quad n M' v) /\
    ((forall v, tol * sqnorm n v <= quad n M v) -> c = 0).
Proof.
  intros eigmin n sparse M maxiter tol fuel Hex Hr Hc Hsp Ht Hm Hf.
  set (S_ := symmetrised M). set (e := eigmin S_).
  assert (HS : is_min_eig n S_ e) by (apply Hex; auto; apply symm_symmetrised).
  assert (Hq : forall v, quad n M v = quad n S_ v).
  { intros v. unfold quad. unfold S_. cbn [mget symmetrised].
    rewrite (rsum_ext n (fun i => rsum n (fun j => v i * (1 / 2 * (M i j + M j i)) * v j))
               (fun i => 1/2 * rsum n (fun j => v i * M i j * v j)
                         + 1/2 * rsum n (fun j => v j * M j i * v i))).
    - rewrite rsum_plus, !rsum_scal, (rsum_swap n n (fun i j => v j * M j i * v i)). lra.
    - intros i Hi. rewrite <- !rsum_scal, <- rsum_plus. apply rsum_ext; intros; field. }
  assert (Hc0 : (forall v, tol * sqnorm n v <= quad n M v) -> tol <= e).
  { intros H. destruct HS as [[v [[i [Hi Hv]] Hev]] _]. specialize (H v).
    rewrite Hq, (quad_eigvec _ _ _ _ Hev) in H.
    apply Rmult_le_reg_r with (sqnorm n v); auto. apply sqnorm_pos with i; auto. }
  unfold make_semiposdef. rewrite Hr, Hc, Nat.eqb_refl. cbn [negb]. fold S_.
  destruct sparse.
  - destruct (Nat.leb_spec (n - 1) 6) as [Hn|Hn]; [specialize (Hsp eq_refl); lia|].
    rewrite (sparse_loop_run eigmin n Hex S_ tol maxiter fuel)
      by (first [exact Hr | exact Hc | apply symm_symmetrised | assumption | lia]). fold e.
    destruct (Rlt_dec e tol) as [Hl|Hl].
    + exists (add_eye S_ (Rabs e + tol)), 1%nat, (Rabs e + tol).
      repeat split; auto; try (pose proof (Rabs_pos e); lra).
      * intros i j Hi Hj. cbn [mget add_eye S_ symmetrised].
        unfold S_; cbn [mget symmetrised]. destruct (i =? j)%nat; field.
      * intros v. rewrite quad_add_eye. destruct HS as [_ HS]. specialize (HS v).
        pose proof (sqnorm_nonneg n v). pose proof (Rle_abs (- e)). rewrite Rabs_Ropp in H0.
        nra.
      * intros H. apply Hc0 in H. lra.
    + exists S_, 0%nat, 0. repeat split; auto; try lra.
      * intros i j Hi Hj. unfold S_; cbn [mget symmetrised]. destruct (i =? j)%nat; field.
      * intros v. destruct HS as [_ HS]. specialize (HS v). pose proof (sqnorm_nonneg n v). nra.
  - rewrite (dense_loop_run eigmin n Hex S_ tol maxiter fuel)
      by (first [exact Hr | exact Hc | apply symm_symmetrised | assumption | lia]). fold e.
    destruct (Rlt_dec e tol) as [Hl|Hl].
    + exists (add_eye (add_eye S_ (Rabs e + tol)) (Rabs (e + (Rabs e + tol)) + tol)), 2%nat,
        ((Rabs e + tol) + (Rabs (e + (Rabs e + tol)) + tol)).
      pose proof (Rabs_pos e). pose proof (Rabs_pos (e + (Rabs e + tol))).
      repeat split; auto; try lra.
      * intros i j Hi Hj. unfold S_; cbn [mget add_eye symmetrised].
        destruct (i =? j)%nat; field.
      * intros v. rewrite !quad_add_eye. destruct HS as [_ HS]. specialize (HS v).
        pose proof (sqnorm_nonneg n v). pose proof (Rle_abs (- e)) as A. rewrite Rabs_Ropp in A.
        nra.
      * intros H1. apply Hc0 in H1. lra.
    + exists S_, 0%nat, 0. repeat split; auto; try lra.
      * intros i j Hi Hj. unfold S_; cbn [mget symmetrised]. destruct (i =? j)%nat; field.
      * intros v. destruct HS as [_ HS]. specialize (HS v). pose proof (sqnorm_nonneg n v). nra.
Qed.

Theorem C19_not_square : forall eigmin fuel sparse M maxiter tol,
  mrows M <> mcols M ->
  make_semiposdef eigmin fuel sparse M maxiter tol = Some (Err ValueError).
Proof.
  intros. unfold make_semiposdef. apply Nat.eqb_neq in H. rewrite H. reflexivity.
Qed.

(** Exact value reached in the dense branch: a negative smallest eigenvalue ends at 3 tol. *)
Theorem C19_dense_smallest_eigenvalue : forall eigmin n (M : mat) maxiter tol fuel,
  exact_eig n eigmin -> mrows M = n -> mcols M = n ->
  0 <= tol -> (1 <= maxiter)%Z -> (2 <= fuel)%nat ->
  (exists v, quad n M v < 0) ->
  exists M' it, make_semiposdef eigmin fuel false M maxiter tol = Some (Ok (M', it)) /\
    is_min_eig n M' (3 * tol).
Proof.
  intros eigmin n M maxiter tol fuel Hex Hr Hc Ht Hm Hf [w Hw].
  assert (Hneg : eigmin (symmetrised M) < 0).
  { destruct (Hex (symmetrised M) Hr Hc (symm_symmetrised n M)) as [_ Q]. specialize (Q w).
    rewrite quad_symmetrised in Q. assert (0 <= sqnorm n w) by (apply rsum_nonneg; intros; apply pow2_ge_0). nra. }
  unfold make_semiposdef. rewrite Hr, Hc, Nat.eqb_refl. cbn [negb].
  rewrite (dense_loop_run eigmin n Hex (symmetrised M) tol maxiter fuel)
    by (first [exact Hr | exact Hc | apply symm_symmetrised | assumption | lia]).
  destruct (Rlt_dec (eigmin (symmetrised M)) tol); [|lra].
  eexists. exists 2%nat. split; [reflexivity|].
  assert (HS : is_min_eig n (symmetrised M) (eigmin (symmetrised M)))
    by (apply Hex; auto using symm_symmetrised).
  set (e := eigmin (symmetrised M)) in *.
  replace (3 * tol) with (e + (Rabs e + tol) + (Rabs (e + (Rabs e + tol)) + tol)).
  - apply min_eig_add_eye, min_eig_add_eye, HS.
  - rewrite (Rabs_left e) by lra. rewrite (Rabs_pos_eq (e + (- e + tol))) by lra. ring.
Qed.

(** An exact routine for 2 x 2 matrices exists; an indefinite matrix. *)
Definition eig2 (M : mat) : R :=
  (M 0%nat 0%nat + M 1%nat 1%nat
   - sqrt ((M 0%nat 0%nat - M 1%nat 1%nat) ^ 2 + 4 * M 0%nat 1%nat ^ 2)) / 2.

Lemma eig2_exact : exact_eig 2 eig2.
Proof.
  intros M _ _ Hs. unfold eig2.
  set (a := M 0%nat 0%nat). set (d := M 1%nat 1%nat). set (b := M 0%nat 1%nat).
  assert (Hb : M 1%nat 0%nat = b) by (symmetry; apply Hs; lia).
  set (D := (a - d) ^ 2 + 4 * b ^ 2).
  assert (HD : 0 <= D) by (unfold D; pose proof (pow2_ge_0 (a - d)); pose proof (pow2_ge_0 b); lra).
  set (s := sqrt D). assert (Hs2 : s * s = D) by (apply sqrt_sqrt; auto).
  assert (Hs0 : 0 <= s) by apply sqrt_pos.
  set (e := (a + d - s) / 2).
  assert (Hdet : (a - e) * (d - e) = b * b).
  { replace ((a - e) * (d - e)) with ((s * s - (a - d) ^ 2) / 4) by (unfold e; field).
    rewrite Hs2. unfold D. field. }
  assert (Ha : 0 <= a - e).
  { unfold e. assert (Rabs (a - d) <= s).
    { unfold s. rewrite <- sqrt_Rsqr_abs. apply sqrt_le_1_alt. unfold D, Rsqr. pose proof (pow2_ge_0 b).
      replace ((a - d) * (a - d)) with ((a - d) ^ 2) by ring. lra. }
    unfold Rabs in H. destruct (Rcase_abs (a - d)); lra. }
  assert (Hd : 0 <= d - e).
  { unfold e. assert (Rabs (a - d) <= s).
    { unfold s. rewrite <- sqrt_Rsqr_abs. apply sqrt_le_1_alt. unfold D, Rsqr. pose proof (pow2_ge_0 b).
      replace ((a - d) * (a - d)) with ((a - d) ^ 2) by ring. lra. }
    unfold Rabs in H. destruct (Rcase_abs (a - d)); lra. }
  split.
  - destruct (Req_dec b 0) as [B|B].
    + destruct (Req_dec (a - e) 0) as [A|A].
      * exists (fun i => if (i =? 0)%nat then 1 else 0). split.
        -- exists 0%nat. split; [lia|simpl; lra].
        -- intros [|[|i]] Hi; [| |lia]; cbn; fold a b d; rewrite ?Hb, ?B; lra.
      * exists (fun i => if (i =? 0)%nat then 0 else 1). split.
        -- exists 1%nat. split; [lia|simpl; lra].
        -- assert (d - e = 0) by (rewrite B in Hdet; nra).
           intros [|[|i]] Hi; [| |lia]; cbn; fold a b d; rewrite ?Hb, ?B; lra.
    + exists (fun i => if (i =? 0)%nat then - b else a - e). split.
      * exists 0%nat. split; [lia|simpl; lra].
      * intros [|[|i]] Hi; [| |lia]; cbn; fold a b d; rewrite ?Hb; nra.
  - intros v. unfold quad, sqnorm. cbn. fold a b d. rewrite Hb.
    set (x := v 0%nat). set (y := v 1%nat).
    enough (0 <= (a - e) * x ^ 2 + 2 * b * x * y + (d - e) * y ^ 2) by nra.
    destruct (Req_dec (a - e) 0) as [A|A].
    + assert (b = 0) by (rewrite A in Hdet; nra). rewrite A, H. nra.
    + assert (0 < a - e) by lra.
      apply Rmult_le_reg_l with (a - e); auto. rewrite Rmult_0_r.
      replace ((a - e) * ((a - e) * x ^ 2 + 2 * b * x * y + (d - e) * y ^ 2))
        with (((a - e) * x + b * y) ^ 2) by (ring_simplify; nra).
      apply pow2_ge_0.
Qed.

Definition indef : mat := of_rows [[1; 2]; [2; 1]].
Lemma eig2_indef : eig2 indef = -1.
Proof.
  unfold eig2. cbn. replace ((1 - 1) * ((1 - 1) * 1) + 4 * (2 * (2 * 1))) with (4 * 4) by ring.
  rewrite sqrt_square by lra. lra.
Qed.
Lemma symmetrised_indef_eig : eig2 (symmetrised indef) = -1.
Proof.
  rewrite <- eig2_indef. unfold eig2. cbn.
  replace (1 / 2 * (1 + 1)) with 1 by lra. replace (1 / 2 * (2 + 2)) with 2 by lra.
  reflexivity.
Qed.

Example C19_case : exists M' it c,
  make_semiposdef eig2 2 false indef 10 (1 / 1000) = Some (Ok (M', it)) /\
  mrows M' = 2%nat /\ mcols M' = 2%nat /\ 0 <= c /\
    (forall i j, (i < 2)%nat -> (j < 2)%nat ->
       M' i j = (indef i j + indef j i) / 2 + (if (i =? j)%nat then c else 0)) /\
    (forall v, 1 / 1000 * sqnorm 2 v <= quad 2 M' v) /\
    ((forall v, 1 / 1000 * sqnorm 2 v <= quad 2 indef v) -> c = 0).
Proof.
  apply C19_semiposdef; auto using eig2_exact; try lia; try lra.
Qed.

(** ** C20 *)
(** Dense branch: with maxiter = 1 the loop body is executed twice, and if the eigenvalue
    routine keeps returning a value below tol the loop never ends (the sparse branch stops). *)
Theorem C20_maxiter_refuted : exists eigmin n (M : mat) tol M', exact_eig n eigmin /\ mrows M = n /\ mcols M = n /\ 0 < tol /\
  make_semiposdef eigmin 2 false M 1 tol = Some (Ok (M', 2%nat)).
Proof.
  - exists eig2, 2%nat, indef, 1. eexists.
    split; [exact eig2_exact|split; [reflexivity|split; [reflexivity|split; [lra|]]]].
    unfold make_semiposdef. change (mrows indef =? mcols indef)%nat with true. cbn [negb]. cbv zeta.
    rewrite (dense_loop_run eig2 2 eig2_exact (symmetrised indef) 1 1 2);
      auto using symm_symmetrised; try lra; try lia.
    destruct (Rlt_dec (eig2 (symmetrised indef)) 1) as [H|H].
    + reflexivity.
    + rewrite symmetrised_indef_eig in H. lra.
Qed.
Theorem C20_endless_refuted : exists eigmin (M : mat) tol, mrows M = mcols M /\ 0 < tol /\
  forall fuel maxiter, (1 <= maxiter)%Z -> make_semiposdef eigmin fuel false M maxiter tol = None.
Proof.
  - exists (fun _ => 0), indef, 1. repeat split; auto; try lra.
    intros fuel maxiter Hm. unfold make_semiposdef.
    change (mrows indef =? mcols indef)%nat with true. cbn [negb]. cbv zeta.
    rewrite dense_loop_runs_on; [reflexivity|intros; exact Rlt_0_1|exact Hm|exact Rlt_0_1].
Qed.

(** What holds: the sparse branch obeys the bound for every behaviour of the eigenvalue
    routine and always stops; with an exact routine the dense branch makes two passes at
    most.  Missing for the full claim: the bound maxiter in the dense branch. *)
Theorem C20_maxiter_partial :
  (forall eigmin fuel M maxiter tol M' it,
     make_semiposdef eigmin fuel true M maxiter tol = Some (Ok (M', it)) ->
     (Z.of_nat it <= Z.max 0 maxiter)%Z) /\
  (forall eigmin fuel M maxiter tol, (maxiter <= Z.of_nat fuel)%Z ->
     make_semiposdef eigmin fuel true M maxiter tol <> None) /\
  (forall eigmin n fuel (M : mat) maxiter tol, exact_eig n eigmin ->
     mrows M = n -> mcols M = n -> 0 <= tol -> (1 <= maxiter)%Z -> (2 <= fuel)%nat ->
     exists M' it, make_semiposdef eigmin fuel false M maxiter tol = Some (Ok (M', it)) /\
       (it <= 2)%nat).
Proof.
  repeat split.
  - intros eigmin fuel M maxiter tol M' it H. unfold make_semiposdef in H.
    destruct (negb (mrows M =? mcols M)%nat); [discriminate|].
    destruct (mrows M - 1 <=? 6)%nat; [discriminate|].
    destruct (sparse_loop _ _ _ _ _ _ _ _) as [r|] eqn:E; [|discriminate].
    injection H as ->. apply sparse_loop_count in E. cbn [snd] in E. lia.
  - intros eigmin fuel M maxiter tol H. unfold make_semiposdef.
    destruct (negb (mrows M =? mcols M)%nat); [discriminate|].
    destruct (mrows M - 1 <=? 6)%nat; [discriminate|].
    pose proof (sparse_loop_stops eigmin fuel tol maxiter 0 (eigmin (symmetrised M))
                  (symmetrised M) 0) as K.
    destruct (sparse_loop _ _ _ _ _ _ _ _); [discriminate|]. exfalso. apply K; auto. lia.
  - intros eigmin n fuel M maxiter tol Hex Hr Hc Ht Hm Hf.
    unfold make_semiposdef. rewrite Hr, Hc, Nat.eqb_refl. cbn [negb].
    rewrite (dense_loop_run eigmin n Hex (symmetrised M) tol maxiter fuel)
      by (first [exact Hr | exact Hc | apply symm_symmetrised | assumption | lia]).
    destruct (Rlt_dec _ tol); eexists; eexists; (split; [reflexivity|lia]).
Qed.

(** A sparse call that makes exactly maxiter passes (the routine never sees progress). *)
Example C20_case : exists M',
  make_semiposdef (fun _ => -1) 5 true (diagm (mkArr 9 (fun _ => -1))) 3 1 = Some (Ok (M', 3%nat)).
Proof.
  unfold make_semiposdef. cbn [negb mrows mcols diagm alen Nat.eqb Nat.sub Nat.leb].
  cbn [sparse_loop].
  destruct (Rlt_dec (-1) 1); [|lra].
  cbn [Z.ltb Z.add Z.compare Pos.compare Pos.compare_cont Pos.add Pos.succ].
  eexists. reflexivity.
Qed.

(** ** C89 Sparse storage is accepted for every size *)
Theorem C89_sparse_any_size_refuted : exists (M : mat) n, mrows M = n /\ mcols M = n /\ (1 <= n)%nat /\
  forall eigmin fuel maxiter tol,
    make_semiposdef eigmin fuel true M maxiter tol = Some (Err TypeError).
Proof.
  exists (diagm (mkArr 7 (fun _ => -1))), 7%nat. repeat split; auto; lia.
Qed.
Theorem C89_small_sparse_always_fails : forall eigmin fuel (M : mat) maxiter tol n,
  mrows M = n -> mcols M = n -> (n <= 7)%nat ->
  make_semiposdef eigmin fuel true M maxiter tol = Some (Err TypeError).
Proof.
  intros eigmin fuel M maxiter tol n Hr Hc Hn. unfold make_semiposdef.
  rewrite Hr, Hc, Nat.eqb_refl. cbn [negb].
  destruct (Nat.leb_spec (n - 1) 6); [reflexivity|lia].
Qed.
(** From 8 x 8 on sparse and dense storage both return, and the results differ by a
    multiple of the identity only. *)
Theorem C89_large_sparse_partial : forall eigmin n (M : mat) maxiter tol fuel,
  exact_eig n eigmin -> mrows M = n -> mcols M = n -> (8 <= n)%nat ->
  0 <= tol -> (1 <= maxiter)%Z -> (2 <= fuel)%nat ->
  exists Ms its Md itd c,
    make_semiposdef eigmin fuel true M maxiter tol = Some (Ok (Ms, its)) /\
    make_semiposdef eigmin fuel false M maxiter tol = Some (Ok (Md, itd)) /\
    (forall i j, (i < n)%nat -> (j < n)%nat -> Md i j = Ms i j + (if (i =? j)%nat then c else 0)).
Proof.
  intros eigmin n M maxiter tol fuel Hex Hr Hc Hn Ht Hm Hf.
  destruct (C19_semiposdef eigmin n true M maxiter tol fuel) as (Ms & its & c & E & _ & _ & _ & P & _);
    auto.
  destruct (C19_semiposdef eigmin n false M maxiter tol fuel) as (Md & itd & c' & E' & _ & _ & _ & P' & _);
    auto.
  exists Ms, its, Md, itd, (c' - c). split; [auto|split; [auto|]].
  intros i j Hi Hj. rewrite P, P' by auto. destruct (i =? j)%nat; lra.
Qed.

(** ** C21 *)
(** The real and imaginary parts of the draws: column c of 2n. *)
Definition fr_part (draws : nat -> nat -> R) (n c r : nat) : R :=
  if (c <? n)%nat then draws r c * cos (draws r (n + c)%nat) else draws r (c - n)%nat * sin (draws r c).
(** What the normal distribution is asked for. *)
Definition fr_mean (Abs Phase mean : vec) : Prop :=
  alen mean = (alen Abs + alen Abs)%nat /\
  forall k, (k < alen Abs)%nat -> mean k = Abs k /\ mean (alen Abs + k)%nat = Phase k.
Definition unc_dim (u : frunc) : nat := match u with FrVec v => alen v | FrMat m => mrows m end.
Definition unc_cov (u : frunc) (U : mat) : Prop :=
  match u with
  | FrMat m => U = m
  | FrVec v => mrows U = alen v /\ mcols U = alen v /\ forall i j, U i j = if (i =? j)%nat then v i else 0
  end.

(** Two frequencies, two draws: the "real part" is one number, the average over both
    frequencies, and no vector; it is the mean of neither frequency. *)
Theorem C21_means_refuted : exists (mvn : vec -> mat -> nat -> nat -> vec) (Abs Phase : vec) Unc Re Im URI,
  alen Abs = 2%nat /\
  FreqResp2RealImag mvn Abs Phase Unc 2 = Ok (Some Re, Im, URI) /\
  forall k mean U, (k < 2)%nat -> fr_mean Abs Phase mean -> unc_cov Unc U ->
    Re <> smean 2 (fr_part (fun r => mvn mean U 2%nat r) 2 k).
Proof.
  exists (fun _ _ _ _ => of_list [1; 3; 0; 0]), (of_list [1; 3]), (of_list [0; 0]), (FrVec (of_list [1; 1; 1; 1])).
  eexists. eexists. eexists. split; [reflexivity|]. split; [reflexivity|].
  intros [|[|k]] mean U Hk _ _; [| |lia]; unfold smean, fr_part; cbn; rewrite ?cos_0; lra.
Qed.

(** What holds: the draws are requested with the amplitudes and phases as mean and the given
    matrix, or the matrix with the given vector as diagonal (a vector is taken as variances,
    not as standard uncertainties), as covariance; the returned covariance is the unbiased
    sample covariance of the real and imaginary parts of the draws, symmetric, of size 2N;
    the two numbers are the averages over the frequencies of the mean real and imaginary
    parts; inconsistent lengths raise ValueError.  Missing: the mean per frequency. *)
Theorem C21_means_partial : forall (mvn : vec -> mat -> nat -> nat -> vec) (Abs Phase : vec) Unc n runs,
  alen Abs = n -> (1 <= n)%nat -> (2 <= runs)%nat ->
  alen Phase = n -> unc_dim Unc = (2 * n)%nat ->
  (forall m, Unc = FrMat m -> mcols m = (2 * n)%nat) ->
  exists (mean : vec) (U : mat) Re Im (URI : mat),
    fr_mean Abs Phase mean /\ unc_cov Unc U /\
    let q := fr_part (fun r => mvn mean U runs r) n in
    FreqResp2RealImag mvn Abs Phase Unc runs = Ok (Some Re, Some Im, CovMat URI) /\
    mrows URI = (2 * n)%nat /\ mcols URI = (2 * n)%nat /\
    (forall i j, (i < 2 * n)%nat -> (j < 2 * n)%nat -> URI i j = scov runs (q i) (q j)) /\
    symm (2 * n) URI /\
    Re = smean n (fun k => smean runs (q k)) /\
    Im = smean n (fun k => smean runs (q (n + k)%nat)).
Proof.
  intros mvn Abs Phase Unc n runs HA Hn Hr HP HU HM. change (fr_len Unc = (2 * n)%nat) in HU.
  unfold FreqResp2RealImag. rewrite HA, HP, HU, !Nat.eqb_refl. cbn [negb orb].
  assert (Hsq : (mrows (fr_mat Unc) =? mcols (fr_mat Unc))%nat = true).
  { destruct Unc as [v|m]; cbn [fr_mat fr_len] in *; [apply Nat.eqb_refl|].
    rewrite HU, (HM m eq_refl). apply Nat.eqb_refl. }
  rewrite Hsq. cbn [negb].
  set (mean := mkArr (2 * n) (fun i => if (i <? n)%nat then Abs i else Phase (i - n)%nat)).
  set (U := fr_mat Unc). set (q := fr_part (fun r => mvn mean U runs r) n).
  match goal with |- context [np_mean_all ?m 0 n] => set (RI := m) end.
  assert (M : np_cov_any RI = CovMat (np_cov RI)).
  { unfold np_cov_any. cbn [mrows RI]. destruct runs as [|[|r]]; [lia|lia|reflexivity]. }
  assert (A : forall c0 c1, (c0 < c1)%nat -> np_mean_all RI c0 c1 =
     Some (rsum runs (fun r => rsum (c1 - c0) (fun c => RI r (c0 + c)%nat)) / INR (runs * (c1 - c0)))).
  { intros c0 c1 L. unfold np_mean_all. cbn [mrows RI].
    replace (runs * (c1 - c0) =? 0)%nat with false; [reflexivity|]. symmetry. apply Nat.eqb_neq. nia. }
  rewrite M, !A by lia.
  exists mean, U. eexists. eexists. eexists. split; [|split; [|split; [reflexivity|]]].
  - split; [cbn; lia|]. rewrite HA. intros k Hk. cbn [mean aget].
    replace (k <? n)%nat with true by (symmetry; apply Nat.ltb_lt; lia).
    replace (n + k <? n)%nat with false by (symmetry; apply Nat.ltb_ge; lia).
    split; [auto|]. f_equal. lia.
  - unfold U. destruct Unc as [v|m]; cbn [unc_cov fr_mat]; [|reflexivity]. cbn. auto.
  - cbn [mrows mcols np_cov]. split; [reflexivity|split; [reflexivity|]].
    assert (HRI : forall i j, np_cov RI i j = scov runs (q i) (q j)).
    { intros i j. rewrite np_cov_scov by (cbn [mrows RI]; lia). reflexivity. }
    split; [intros; apply HRI|].
    split; [intros i j Hi Hj; rewrite !HRI; apply scov_sym|].
    assert (Hn0 : INR n <> 0) by (apply not_0_INR; lia).
    assert (Hr0 : INR runs <> 0) by (apply not_0_INR; lia).
    unfold smean.
    split.
    + replace (n - 0)%nat with n by lia. rewrite mult_INR, rsum_swap.
      rewrite rsum_scal. unfold q, fr_part, RI. cbn [Nat.add mget]. field. auto.
    + replace (2 * n - n)%nat with n by lia. rewrite mult_INR, rsum_swap.
      rewrite rsum_scal. unfold q, fr_part, RI. cbn [mget]. field. auto.
Qed.
Theorem C21_lengths_checked : forall mvn Abs Phase Unc runs,
  (alen Abs <> alen Phase \/ unc_dim Unc <> (2 * alen Abs)%nat \/
   exists m, Unc = FrMat m /\ mrows m <> mcols m) ->
  FreqResp2RealImag mvn Abs Phase Unc runs = Err ValueError.
Proof.
  intros mvn Abs Phase Unc runs H. unfold FreqResp2RealImag.
  change (alen Abs <> alen Phase \/ fr_len Unc <> (2 * alen Abs)%nat \/
   exists m, Unc = FrMat m /\ mrows m <> mcols m) in H.
  destruct (Nat.eqb_spec (alen Abs) (alen Phase)); cbn [negb orb]; [|reflexivity].
  destruct (Nat.eqb_spec (2 * alen Abs) (fr_len Unc)); cbn [negb]; [|reflexivity].
  destruct H as [H|[H|[m [-> H]]]]; [lia|lia|]. cbn [fr_mat].
  destruct (Nat.eqb_spec (mrows m) (mcols m)); [contradiction|reflexivity].
Qed.
Example C21_case : exists Re Im URI,
  FreqResp2RealImag (fun _ _ _ r => of_list [1 + 2 * INR r; 3 + 2 * INR r; 0; 0])
    (of_list [1; 3]) (of_list [0; 0]) (FrVec (of_list [1; 1; 1; 1])) 2
    = Ok (Re, Im, CovMat URI) /\ URI 0%nat 1%nat = 2.
Proof.
  eexists. eexists. eexists. split; [reflexivity|].
  unfold np_cov, np_mean_col. cbn. rewrite !cos_0. lra.
Qed.

(** ** C88 *)
(** The bar consists of exactly [width] indicators, the number of "done" ones being
    the completed fraction rounded down; it is full exactly when the last iteration is
    reported. *)
Definition times (n : nat) (s : string) : string := String.concat "" (List.repeat s n).
Definition carriage_return : string := String "013" "".
Lemma str_rep_times s n : str_rep s n = times n s.
Proof.
  induction n as [|n IH]; [reflexivity|]. cbn [str_rep]. rewrite IH. unfold times. cbn [List.repeat].
  destruct n as [|n]; [cbn; induction s as [|c s IHs]; cbn; [reflexivity|now rewrite IHs]|]. reflexivity.
Qed.
Theorem C88_progress_bar : forall dec count count_max width prefix d t,
  (0 <= count < count_max)%Z -> (0 <= width)%Z ->
  exists x y : nat,
    progress_bar dec count count_max width prefix d t =
      Ok (prefix ++ "[" ++ times x d ++ times y t ++ "] "
          ++ dec (count + 1)%Z ++ "/" ++ dec count_max ++ carriage_return)%string /\
    Z.of_nat (x + y) = width /\
    (Z.of_nat x * count_max <= width * (count + 1) < (Z.of_nat x + 1) * count_max)%Z /\
    ((0 < width)%Z -> (y = 0%nat <-> (count + 1 = count_max)%Z)).
Proof.
  intros dec count count_max width prefix d t Hc Hw.
  unfold progress_bar. destruct (Z.eqb_spec count_max 0); [lia|].
  rewrite Z.quot_div_nonneg by nia.
  set (q := (width * (count + 1) / count_max)%Z).
  assert (Hq : (q * count_max <= width * (count + 1) < (q + 1) * count_max)%Z).
  { unfold q. pose proof (Z.div_mod (width * (count + 1)) count_max).
    pose proof (Z.mod_pos_bound (width * (count + 1)) count_max). nia. }
  assert (Hq0 : (0 <= q <= width)%Z) by nia.
  exists (Z.to_nat q), (Z.to_nat (width - q)). split; [rewrite !str_rep_times; reflexivity|].
  split; [lia|]. rewrite Z2Nat.id by lia. split; [auto|].
  intros Hw'. split; intros H.
  - assert (q = width) by lia. nia.
  - assert (q = width) by nia. lia.
Qed.
Theorem C88_no_iterations : forall dec count width prefix d t,
  progress_bar dec count 0 width prefix d t = Err ZeroDivisionError.
Proof. reflexivity. Qed.
Example C88_case : progress_bar (fun _ => "n"%string) 1 4 6 "P" "#" "." =
  Ok ("P[###...] n/n" ++ carriage_return)%string.
Proof. reflexivity. Qed.

Print Assumptions C19_semiposdef.
Print Assumptions C19_not_square.
Print Assumptions C19_dense_smallest_eigenvalue.
Print Assumptions C20_maxiter_refuted.
Print Assumptions C20_endless_refuted.
Print Assumptions C20_maxiter_partial.
Print Assumptions C89_sparse_any_size_refuted.
Print Assumptions C89_small_sparse_always_fails.
Print Assumptions C89_large_sparse_partial.
Print Assumptions C21_means_refuted.
Print Assumptions C21_means_partial.
Print Assumptions C21_lengths_checked.
Print Assumptions C88_progress_bar.
Print Assumptions C88_no_iterations.
