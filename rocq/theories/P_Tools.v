(** Lemmas for T_Tools.v. *)
From Coq Require Import Reals List Arith ZArith Bool String Ascii Lra Lia.
From Verif Require Import Base Sums Stats StatsFacts M_Tools S_Tools.
Import ListNotations.
Open Scope R_scope.

Lemma sqnorm_nonneg n v : 0 <= sqnorm n v.
Proof. apply rsum_nonneg; intros; apply pow2_ge_0. Qed.

Lemma sqnorm_pos n v i : (i < n)%nat -> v i <> 0 -> 0 < sqnorm n v.
Proof.
  intros Hi Hv. apply rsum_pos with (k := i); auto.
  - replace (v i ^ 2) with (Rsqr (v i)) by (unfold Rsqr; ring). apply Rsqr_pos_lt; auto.
  - intros; apply pow2_ge_0.
Qed.

Lemma quad_eigvec n (M : nat -> nat -> R) v e :
  (forall i, (i < n)%nat -> rsum n (fun j => M i j * v j) = e * v i) ->
  quad n M v = e * sqnorm n v.
Proof.
  intros H. unfold quad, sqnorm. rewrite <- rsum_scal. apply rsum_ext; intros i Hi.
  rewrite (rsum_ext _ _ (fun j => v i * (M i j * v j))) by (intros; ring).
  rewrite rsum_scal, H by auto. ring.
Qed.

Lemma min_eig_unique n M e e' : is_min_eig n M e -> is_min_eig n M e' -> e = e'.
Proof.
  assert (K : forall e e', is_min_eig n M e -> is_min_eig n M e' -> e' <= e).
  { intros a b [[v [[i [Hi Hv]] Hev]] _] [_ Hb].
    specialize (Hb v). rewrite (quad_eigvec _ _ _ _ Hev) in Hb.
    pose proof (sqnorm_pos n v i Hi Hv). apply Rmult_le_reg_r with (sqnorm n v); auto. }
  intros H H'. apply Rle_antisym; eauto.
Qed.

Lemma quad_add_eye n (M : mat) c v :
  quad n (add_eye M c) v = quad n M v + c * sqnorm n v.
Proof.
  unfold quad, sqnorm. rewrite <- rsum_scal, <- rsum_plus. apply rsum_ext; intros i Hi.
  cbn [mget add_eye].
  rewrite (rsum_ext _ _ (fun j => v i * M i j * v j + (if (j =? i)%nat then c * v i * v j else 0))).
  - rewrite rsum_plus, (rsum_delta n i (fun j => c * v i * v j)) by auto. ring.
  - intros j Hj. rewrite (Nat.eqb_sym j i). destruct (i =? j)%nat; ring.
Qed.

Lemma min_eig_add_eye n (M : mat) c e :
  is_min_eig n M e -> is_min_eig n (add_eye M c) (e + c).
Proof.
  intros [[v [Hv Hev]] Hq]. split.
  - exists v. split; auto. intros i Hi. cbn [mget add_eye].
    rewrite (rsum_ext _ _ (fun j => M i j * v j + (if (j =? i)%nat then c * v j else 0))).
    + rewrite rsum_plus, (rsum_delta n i (fun j => c * v j)), Hev by auto. ring.
    + intros j Hj. rewrite (Nat.eqb_sym j i). destruct (i =? j)%nat; ring.
  - intros w. rewrite quad_add_eye. specialize (Hq w). lra.
Qed.

Lemma symm_add_eye n (M : mat) c : symm n M -> symm n (add_eye M c).
Proof.
  intros H i j Hi Hj. cbn [mget add_eye]. rewrite (H i j) by auto.
  rewrite (Nat.eqb_sym i j). reflexivity.
Qed.

Lemma symm_symmetrised n (M : mat) : symm n (symmetrised M).
Proof. intros i j _ _. cbn [mget symmetrised]. ring. Qed.
Lemma quad_symmetrised n (M : mat) v : quad n (symmetrised M) v = quad n M v.
Proof.
  unfold quad.
  assert (E : rsum n (fun i => rsum n (fun j => v i * M j i * v j)) = rsum n (fun i => rsum n (fun j => v i * M i j * v j))).
  { rewrite rsum_swap. apply rsum_ext. intros i _. apply rsum_ext. intros j _. ring. }
  transitivity (/ 2 * (rsum n (fun i => rsum n (fun j => v i * M i j * v j)) + rsum n (fun i => rsum n (fun j => v i * M j i * v j)))).
  - rewrite <- rsum_plus, <- rsum_scal. apply rsum_ext. intros i _. rewrite <- rsum_plus, <- rsum_scal.
    apply rsum_ext. intros j _. cbn [mget symmetrised]. field.
  - rewrite E. field.
Qed.

Section Loops.
Variable eigmin : mat -> R.
Variable n : nat.
Hypothesis exact : forall M : mat, mrows M = n -> mcols M = n -> symm n M ->
  is_min_eig n M (eigmin M).

Lemma eigmin_add_eye (M : mat) c : mrows M = n -> mcols M = n -> symm n M ->
  eigmin (add_eye M c) = eigmin M + c.
Proof.
  intros Hr Hc Hs. apply min_eig_unique with (n := n) (M := add_eye M c).
  - apply exact; auto. apply symm_add_eye; auto.
  - apply min_eig_add_eye; auto.
Qed.

Lemma dense_loop_run (S_ : mat) tol maxiter fuel : mrows S_ = n -> mcols S_ = n ->
  symm n S_ -> 0 <= tol -> (1 <= maxiter)%Z -> (2 <= fuel)%nat ->
  dense_loop eigmin fuel tol maxiter 0 (eigmin S_) S_ 0 =
  if Rlt_dec (eigmin S_) tol
  then Some (add_eye (add_eye S_ (Rabs (eigmin S_) + tol))
               (Rabs (eigmin S_ + (Rabs (eigmin S_) + tol)) + tol), 2%nat)
  else Some (S_, 0%nat).
Proof.
  intros Hr Hc Hs Ht Hm Hf. destruct fuel as [|[|f]]; try lia.
  assert (E : (0 <? maxiter)%Z = true) by (apply Z.ltb_lt; lia).
  pose proof (eigmin_add_eye S_ (Rabs (eigmin S_) + tol) Hr Hc Hs) as E1.
  cbn [dense_loop]. rewrite E.
  destruct (Rlt_dec (eigmin S_) tol) as [Hl|Hl]; [|reflexivity].
  rewrite E1.
  destruct f; cbn [dense_loop];
    (destruct (Rlt_dec (eigmin S_ + (Rabs (eigmin S_) + tol)) tol) as [H2|H2];
     [exfalso; unfold Rabs in H2; destruct (Rcase_abs (eigmin S_)); lra|reflexivity]).
Qed.

Lemma sparse_loop_run (S_ : mat) tol maxiter fuel : mrows S_ = n -> mcols S_ = n ->
  symm n S_ -> 0 <= tol -> (1 <= maxiter)%Z -> (1 <= fuel)%nat ->
  sparse_loop eigmin fuel tol maxiter 0 (eigmin S_) S_ 0 =
  if Rlt_dec (eigmin S_) tol
  then Some (add_eye S_ (Rabs (eigmin S_) + tol), 1%nat)
  else Some (S_, 0%nat).
Proof.
  intros Hr Hc Hs Ht Hm Hf. destruct fuel as [|f]; try lia.
  assert (E : (0 <? maxiter)%Z = true) by (apply Z.ltb_lt; lia).
  pose proof (eigmin_add_eye S_ (Rabs (eigmin S_) + tol) Hr Hc Hs) as E1.
  cbn [sparse_loop]. rewrite E.
  destruct (Rlt_dec (eigmin S_) tol) as [Hl|Hl]; [|reflexivity].
  rewrite E1.
  destruct f; cbn [sparse_loop];
    (destruct (Rlt_dec (eigmin S_ + (Rabs (eigmin S_) + tol)) tol) as [H2|H2];
     [exfalso; unfold Rabs in H2; destruct (Rcase_abs (eigmin S_)); lra|reflexivity]).
Qed.
End Loops.

(** Number of passes of the sparse loop, whatever the eigenvalue routine returns. *)
Lemma sparse_loop_count eigmin : forall fuel tol maxiter count e M it r,
  sparse_loop eigmin fuel tol maxiter count e M it = Some r ->
  (it <= snd r)%nat /\ (Z.of_nat (snd r - it) <= Z.max 0 (maxiter - count))%Z.
Proof.
  induction fuel as [|f IH]; intros tol maxiter count e M it r H; cbn [sparse_loop] in H.
  - destruct (Rlt_dec e tol); [destruct (count <? maxiter)%Z|];
      try discriminate; injection H as <-; cbn [snd]; lia.
  - destruct (Rlt_dec e tol); [destruct (Z.ltb_spec count maxiter)|];
      try (injection H as <-; cbn [snd]; lia).
    apply IH in H. lia.
Qed.

Lemma sparse_loop_stops eigmin : forall fuel tol maxiter count e M it,
  (maxiter - count <= Z.of_nat fuel)%Z ->
  sparse_loop eigmin fuel tol maxiter count e M it <> None.
Proof.
  induction fuel as [|f IH]; intros tol maxiter count e M it H; cbn [sparse_loop].
  - destruct (Rlt_dec e tol); [destruct (Z.ltb_spec count maxiter)|]; try lia; discriminate.
  - destruct (Rlt_dec e tol); [destruct (Z.ltb_spec count maxiter)|]; try discriminate.
    apply IH. lia.
Qed.

(** The dense loop does not stop if the routine keeps returning a value below tol. *)
Lemma dense_loop_runs_on eigmin tol maxiter : (forall M, eigmin M < tol) -> (1 <= maxiter)%Z ->
  forall fuel e M it, e < tol -> dense_loop eigmin fuel tol maxiter 0 e M it = None.
Proof.
  intros H Hm. assert (E : (0 <? maxiter)%Z = true) by (apply Z.ltb_lt; lia).
  induction fuel as [|f IH]; intros e M it He; cbn [dense_loop];
    destruct (Rlt_dec e tol); try lra; rewrite E; auto.
Qed.

(** Sample covariance. *)
Lemma np_cov_scov X i j : (2 <= mrows X)%nat ->
  np_cov X i j = scov (mrows X) (fun r => X r i) (fun r => X r j).
Proof.
  intros H. cbn [mget np_cov]. unfold scov, smean, np_mean_col.
  assert (Hn : INR (mrows X) <> 0) by (apply not_0_INR; lia).
  assert (Hp : 1 < INR (mrows X)) by (apply lt_1_INR; lia).
  rewrite minus_INR by lia. cbn [INR].
  set (r := mrows X) in *. set (a := rsum r (fun k => X k i)). set (b := rsum r (fun k => X k j)).
  rewrite (rsum_ext r _ (fun k => X k i * X k j - (a / INR r) * X k j
                                  - (b / INR r) * X k i + (a / INR r) * (b / INR r)))
    by (intros; ring).
  rewrite rsum_plus, rsum_const, !rsum_minus, !rsum_scal.
  fold a b. field; repeat split; lra.
Qed.

Lemma scov_sym r a b : scov r a b = scov r b a.
Proof.
  unfold scov. f_equal. rewrite (rsum_ext r (fun k => a k * b k) (fun k => b k * a k)) by (intros; ring). ring.
Qed.

(** Text *)
Lemma occurs_app c s t : occurs c (s ++ t)%string = (occurs c s + occurs c t)%nat.
Proof. induction s; simpl; auto. rewrite IHs. lia. Qed.
Lemma occurs_rep c s n : occurs c (str_rep s n) = (n * occurs c s)%nat.
Proof. induction n; simpl; auto. rewrite occurs_app, IHn. lia. Qed.
