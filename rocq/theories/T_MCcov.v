(** Theorems about the covariance matrices that MC takes and returns (C124, C125). *)
From Coq Require Import Reals List Arith ZArith Bool Lra Lia.
From Verif Require Import Base Sums Stats M_Filter M_Interp M_MC S_MC S_MC2 P_MC P_MC4 T_MC3.
Import ListNotations.
Open Scope R_scope.
Local Notation length := Datatypes.length.

(** ** C124: which covariance matrices of the signal are accepted
    The full statement: every covariance matrix (symmetric, positive semidefinite) of the
    signal is accepted.  It holds for the definite ones of at least two samples, *)
Theorem C124_definite_partial : forall stable min_eig x m b a Uab runs blow alow rs shift theta z,
  mrows m = alen x -> mcols m = alen x -> alen x <> 1%nat -> least_sign (min_eig m) m -> pos_def m ->
  mrows Uab = (alen a - 1 + alen b)%nat -> mcols Uab = (alen a - 1 + alen b)%nat ->
  (forall k, alen (theta k) = (alen a - 1 + alen b)%nat) -> (forall k, alen (z k) = alen x) ->
  exists r, MC stable min_eig x (McMat m) b a Uab runs blow alow rs shift theta z = Ok r.
Proof.
  intros stable me x m b a Uab runs blow alow rs shift theta z R1 R2 Hn Hs Hd U1 U2 Ht Hz.
  eexists. apply MC_eq; auto; repeat split; auto; apply Hs; auto.
Qed.
(** but every singular one is refused, whatever the filter and the number of runs. *)
Theorem C124_singular_partial : forall stable min_eig x m b a Uab runs blow alow rs shift theta z,
  mrows m = alen x -> mcols m = alen x -> least_sign (min_eig m) m ->
  psd (alen x) m -> ~ pos_def m ->
  mrows Uab = (alen a - 1 + alen b)%nat -> mcols Uab = (alen a - 1 + alen b)%nat ->
  MC stable min_eig x (McMat m) b a Uab runs blow alow rs shift theta z = Err LinAlgError.
Proof.
  intros stable me x m b a Uab runs blow alow rs shift theta z R1 R2 (_ & _ & H & _) Hp Hd U1 U2.
  rewrite <- R1 in Hp. specialize (H Hp Hd).
  unfold MC, mc_inputs. rewrite U1, U2, R1, R2, !Nat.eqb_refl. cbn [andb negb].
  unfold rltb. rewrite H. destruct (Rlt_dec 0 0); [lra|]. reflexivity.
Qed.
(** A matrix that is no covariance matrix is recognised. *)
Theorem C124_indefinite_partial : forall stable min_eig x m b a Uab runs blow alow rs shift theta z,
  mrows m = alen x -> mcols m = alen x -> least_sign (min_eig m) m -> ~ psd (alen x) m ->
  MC stable min_eig x (McMat m) b a Uab runs blow alow rs shift theta z = Err ValueError.
Proof.
  intros stable me x m b a Uab runs blow alow rs shift theta z R1 R2 (_ & _ & _ & H) Hp.
  rewrite <- R1 in Hp. specialize (H Hp).
  unfold MC, mc_inputs. destruct (negb _); [reflexivity|].
  rewrite R1, R2, !Nat.eqb_refl. cbn [andb negb].
  unfold rltb. destruct (Rlt_dec (me m) 0); [reflexivity|lra].
Qed.
(** One sample with a covariance matrix: an error as soon as a filter is applied. *)
Theorem C124_one_sample_partial : forall stable min_eig x m b a Uab runs blow alow rs shift theta z,
  alen x = 1%nat -> mrows m = 1%nat -> mcols m = 1%nat -> least_sign (min_eig m) m -> pos_def m ->
  mrows Uab = (alen a - 1 + alen b)%nat -> mcols Uab = (alen a - 1 + alen b)%nat ->
  (forall k, alen (theta k) = (alen a - 1 + alen b)%nat) ->
  (1 <= runs)%nat -> blow <> None \/ passes stable a b theta 0 = true ->
  MC stable min_eig x (McMat m) b a Uab runs blow alow rs shift theta z = Err ValueError.
Proof.
  intros stable me x m b a Uab runs blow alow rs shift theta z Hx R1 R2 (_ & H & _) Hd U1 U2 Ht Hr Hb.
  specialize (H Hd). unfold MC. rewrite U1, U2, !Nat.eqb_refl. cbn [andb negb].
  assert (E : forall k, mc_inputs me x (McMat m) z k = Ok (z k)).
  { intros k. unfold mc_inputs. rewrite R1, R2, Hx. cbn [Nat.eqb andb negb]. unfold rltb.
    destruct (Rlt_dec (me m) 0), (Rlt_dec 0 (me m)); try lra. reflexivity. }
  rewrite E. cbn [bind]. destruct runs as [|runs]; [lia|]. cbn [mc_loop]. rewrite E. cbn [bind mc_scalar].
  rewrite Hx. cbn [Nat.eqb andb]. rewrite (mc_run_eq stable (alen a) (alen b)) by apply Ht. fold (passes stable a b theta 0).
  destruct blow; [reflexivity|]. destruct Hb as [Hb|Hb]; [contradiction|].
  change (stable (drawn_b (alen a) (alen b) (theta 0%nat)) (drawn_a (alen a) (theta 0%nat))) with (passes stable a b theta 0).
  rewrite Hb. reflexivity.
Qed.
(** The second sample is known exactly: refused as a covariance matrix, accepted as a vector
    of standard uncertainties. *)
Definition one_known : mat := of_rows [[1; 0]; [0; 0]].
Lemma one_known_psd : psd 2 one_known.
Proof.
  split.
  - intros i j Hi Hj. destruct i as [|[|i]], j as [|[|j]]; try lia; reflexivity.
  - intros v. unfold quad. cbn. pose proof (Rle_0_sqr (v 0%nat)). unfold Rsqr in *. lra.
Qed.
Lemma one_known_not_def : ~ pos_def one_known.
Proof.
  intros H. specialize (H (fun i => match i with 1%nat => 1 | _ => 0 end)).
  assert (E : exists i, (i < mrows one_known)%nat /\ (fun i => match i with 1%nat => 1 | _ => 0 end) i <> 0).
  { exists 1%nat. split; [cbn; lia|lra]. }
  specialize (H E). cbn in H. lra.
Qed.
Lemma one_known_sign : least_sign 0 one_known.
Proof.
  split; [apply one_known_psd|]. split; [intros H; exfalso; apply one_known_not_def, H|].
  split; [reflexivity|]. intros H. exfalso. apply H, one_known_psd.
Qed.
Theorem C124_accepted_refuted : exists (min_eig : mat -> R) (x : vec) (m : mat) (b a : vec) (Uab : mat),
  psd (alen x) m /\ mrows m = alen x /\ mcols m = alen x /\ least_sign (min_eig m) m /\
  psd (alen b) Uab /\ mrows Uab = alen b /\ mcols Uab = alen b /\ a = of_list [1] /\
  (forall stable runs theta z, MC stable min_eig x (McMat m) b a Uab runs None None false 0 theta z = Err LinAlgError) /\
  (* the same knowledge as standard uncertainties *)
  exists u : vec, (forall i, (i < alen x)%nat -> m i i = u i * u i) /\ (forall i j, i <> j -> (i < 2)%nat -> (j < 2)%nat -> m i j = 0) /\
    forall stable runs theta z, (forall k, alen (theta k) = alen b) -> (forall k, alen (z k) = alen x) ->
      exists r, MC stable min_eig x (McVec u) b a Uab runs None None false 0 theta z = Ok r.
Proof.
  exists (fun _ => 0), (of_list [3; 4]), one_known, (of_list [1]), (of_list [1]), (of_rows [[0]]).
  split; [exact one_known_psd|]. split; [reflexivity|]. split; [reflexivity|]. split; [exact one_known_sign|].
  split.
  { split; [intros i j Hi Hj; cbn in Hi, Hj; destruct i, j; try lia; reflexivity|intros v; unfold quad; cbn; lra]. }
  split; [reflexivity|]. split; [reflexivity|]. split; [reflexivity|]. split.
  - intros stable runs theta z. apply C124_singular_partial; try reflexivity;
      [exact one_known_sign|exact one_known_psd|exact one_known_not_def].
  - exists (of_list [1; 0]). split; [intros [|[|i]] Hi; cbn in *; try lia; lra|].
    split; [intros [|[|i]] [|[|j]] Hij Hi Hj; cbn; try lia; reflexivity|].
    intros stable runs theta z Ht Hz. eexists. apply MC_eq; try reflexivity; auto.
Qed.
(** A definite matrix: both samples uncertain with correlation 1/2. *)
Definition half_corr : mat := of_rows [[1; 1 / 2]; [1 / 2; 1]].
Lemma half_corr_def : pos_def half_corr.
Proof.
  intros v (i & Hi & Hv). cbn in Hi. cbn.
  assert (P : 0 < v 0%nat * v 0%nat \/ 0 < v 1%nat * v 1%nat).
  { destruct i as [|[|i]]; [left|right|lia]; nra. }
  pose proof (Rle_0_sqr (v 0%nat + v 1%nat)) as A. unfold Rsqr in A.
  pose proof (Rle_0_sqr (v 0%nat)) as B. pose proof (Rle_0_sqr (v 1%nat)) as C. unfold Rsqr in B, C. nra.
Qed.
Lemma half_corr_sign : least_sign (1 / 2) half_corr.
Proof.
  split; [|split; [|split]].
  - intros i j Hi Hj. cbn in Hi, Hj. destruct i as [|[|i]], j as [|[|j]]; try lia; reflexivity.
  - intros _. lra.
  - intros _ H. exfalso. apply H, half_corr_def.
  - intros H. exfalso. apply H. split.
    + intros i j Hi Hj. cbn in Hi, Hj. destruct i as [|[|i]], j as [|[|j]]; try lia; reflexivity.
    + intros v. unfold quad. cbn. pose proof (Rle_0_sqr (v 0%nat + v 1%nat)) as A. unfold Rsqr in A.
      pose proof (Rle_0_sqr (v 0%nat)) as B. pose proof (Rle_0_sqr (v 1%nat)) as C. unfold Rsqr in B, C. nra.
Qed.
Example C124_example :
  (exists r, MC (fun _ _ => true) (fun _ => 1 / 2) (of_list [3; 4]) (McMat half_corr) (of_list [1]) (of_list [1]) (of_rows [[0]])
     5 None None false 0 (fun _ => of_list [1]) (fun _ => of_list [3; 5]) = Ok r) /\
  MC (fun _ _ => true) (fun _ => -1) (of_list [3; 4]) (McMat (of_rows [[1; 2]; [2; 1]])) (of_list [1]) (of_list [1]) (of_rows [[0]])
     5 None None false 0 (fun _ => of_list [1]) (fun _ => of_list [3; 5]) = Err ValueError.
Proof.
  split.
  - apply C124_definite_partial; try reflexivity; [cbn; lia|exact half_corr_sign|exact half_corr_def].
  - assert (N : ~ psd 2 (of_rows [[1; 2]; [2; 1]])).
    { intros [_ H]. specialize (H (fun i => match i with O => 1 | _ => -1 end)). unfold quad in H. cbn in H. lra. }
    apply C124_indefinite_partial; try reflexivity; [|exact N]. split; [|split; [|split]].
    + intros i j Hi Hj. cbn in Hi, Hj. destruct i as [|[|i]], j as [|[|j]]; try lia; reflexivity.
    + intros H. exfalso. specialize (H (fun i => match i with O => 1 | _ => -1 end)).
      assert (E : exists i, (i < 2)%nat /\ (fun i => match i with O => 1 | _ => -1 end) i <> 0).
      { exists 0%nat. split; [cbn; lia|lra]. }
      specialize (H E). cbn in H. lra.
    + intros H. exfalso. exact (N H).
    + intros _. lra.
Qed.
Example C124_one_ex :
  MC (fun _ _ => true) (fun _ => 4) (of_list [3]) (McMat (of_rows [[4]])) (of_list [1]) (of_list [1]) (of_rows [[0]])
     5 None None false 0 (fun _ => of_list [1]) (fun _ => of_list [3]) = Err ValueError.
Proof.
  assert (D : pos_def (of_rows [[4]])).
  { intros v (i & Hi & Hv). cbn in Hi. assert (i = 0%nat) by lia. subst i. cbn. nra. }
  apply C124_one_sample_partial; try reflexivity; try lia; [|exact D|right; reflexivity].
  split; [|split; [|split]].
  - intros i j Hi Hj. cbn in Hi, Hj. destruct i, j; try lia; reflexivity.
  - intros _. lra.
  - intros _ H. exfalso. exact (H D).
  - intros H. exfalso. apply H. split.
    + intros i j Hi Hj. cbn in Hi, Hj. destruct i, j; try lia; reflexivity.
    + intros v. unfold quad. cbn. pose proof (Rle_0_sqr (v 0%nat)) as B. unfold Rsqr in B. nra.
Qed.
Print Assumptions C124_definite_partial.
Print Assumptions C124_singular_partial.
Print Assumptions C124_indefinite_partial.
Print Assumptions C124_one_sample_partial.
Print Assumptions C124_accepted_refuted.

Lemma sample_cov_quad n (st : list nat) (w : nat -> nat -> R) (v : nat -> R) : 0 < INR (length st) - 1 ->
  0 <= rsum n (fun i => rsum n (fun j => v i * sample_cov (w i) (w j) st * v j)).
Proof.
  intros L. unfold sample_cov, scatter. set (d := INR (length st) - 1) in *.
  set (c := fun i k => w i k - avg (w i) st).
  assert (G : forall l, rsum n (fun i => rsum n (fun j => v i * (tot (map (fun k => c i k * c j k) l) / d) * v j)) =
    tot (map (fun k => rsum n (fun i => v i * c i k) * rsum n (fun i => v i * c i k)) l) / d).
  { induction l as [|k l IH]; cbn [map tot].
    - rewrite rsum_zero; [unfold Rdiv; ring|]. intros i _. apply rsum_zero. intros j _. unfold Rdiv. ring.
    - rewrite Rdiv_plus_distr, <- IH, rsum_mult. unfold Rdiv at 2. rewrite <- rsum_scal_r, <- rsum_plus.
      apply rsum_ext. intros i _. rewrite <- rsum_scal_r, <- rsum_plus. apply rsum_ext. intros j _. unfold Rdiv. ring. }
  change (0 <= rsum n (fun i => rsum n (fun j => v i * (tot (map (fun k => c i k * c j k) st) / d) * v j))).
  rewrite G. apply Rmult_le_pos; [|left; apply Rinv_0_lt_compat, L]. clearbody c. clear.
  induction st as [|k l IH]; cbn [map tot]; [lra|].
  pose proof (Rle_0_sqr (rsum n (fun i => v i * c i k))) as B. unfold Rsqr in B. lra.
Qed.

(** ** C125: the uncertainty that MC returns
    The full statement: a covariance matrix with one row and column per sample.  It holds
    for at least two stable draws and two samples, *)
Theorem C125_matrix_partial : forall stable min_eig x Ux b a Uab runs blow alow shift theta z,
  fits (alen x) Ux -> proper min_eig (alen x) Ux -> (1 <= alen a)%nat -> lowpass_ok alow ->
  mrows Uab = (alen a - 1 + alen b)%nat -> mcols Uab = (alen a - 1 + alen b)%nat ->
  (forall k, alen (theta k) = (alen a - 1 + alen b)%nat) -> (forall k, alen (z k) = alen x) ->
  (2 <= length (filter (passes stable a b theta) (seq 0 runs)))%nat -> alen x <> 1%nat ->
  exists m M, MC stable min_eig x Ux b a Uab runs blow alow false shift theta z = Ok (McMoments (Some m) (CovMat M)) /\
    mrows M = alen x /\ mcols M = alen x /\ psd (alen x) M.
Proof.
  intros stable me x Ux b a Uab runs blow alow shift theta z HU Hp Ha Hl U1 U2 Ht Hz Hst Hn.
  destruct (C55_stable_draws stable me x Ux b a Uab runs blow alow shift theta z HU Hp Ha Hl U1 U2 Ht Hz)
    as (ys & _ & (y & U & E & Hm & HM) & _).
  destruct y as [m|]; [|rewrite Hm in Hst; cbn in Hst; lia].
  destruct U as [|r|M]; [lia|exfalso; destruct HM as [(_ & X & _)|(k & X & _)]; [exact (Hn X)|rewrite X in Hst; cbn in Hst; lia]|].
  destruct HM as (_ & _ & R1 & R2 & HM). exists m, M. split; [exact E|]. split; [exact R1|]. split; [exact R2|].
  set (st := filter (passes stable a b theta) (seq 0 runs)) in *. set (n := alen x) in *.
  set (w := fun i k => ys k (shifted_from n shift i)) in *.
  assert (HM' : forall i j, (i < n)%nat -> (j < n)%nat -> M i j = sample_cov (w i) (w j) st) by exact HM.
  assert (L : 0 < INR (length st) - 1).
  { apply (Rlt_le_trans _ (INR 2 - 1)); [cbn; lra|]. apply Rplus_le_compat_r, le_INR, Hst. }
  split.
  - intros i j Hi Hj. rewrite !HM' by assumption. unfold sample_cov, scatter. f_equal. f_equal. apply map_ext.
    intros k. ring.
  - intros v. unfold quad.
    rewrite (rsum_ext n _ (fun i => rsum n (fun j => v i * sample_cov (w i) (w j) st * v j))).
    2:{ intros i Hi. apply rsum_ext. intros j Hj. rewrite HM' by assumption. reflexivity. }
    apply (sample_cov_quad n st w v L).
Qed.
(** but for one stable draw the result is a single number: the variance over time of that
    one simulated output, which is no measure of its uncertainty. *)
Theorem C125_single_partial : forall stable min_eig x Ux b a Uab runs blow alow shift theta z k,
  fits (alen x) Ux -> proper min_eig (alen x) Ux -> (1 <= alen a)%nat -> lowpass_ok alow ->
  mrows Uab = (alen a - 1 + alen b)%nat -> mcols Uab = (alen a - 1 + alen b)%nat ->
  (forall k, alen (theta k) = (alen a - 1 + alen b)%nat) -> (forall k, alen (z k) = alen x) ->
  filter (passes stable a b theta) (seq 0 runs) = [k] -> (2 <= alen x)%nat ->
  exists m r, MC stable min_eig x Ux b a Uab runs blow alow false shift theta z = Ok (McMoments (Some m) (CovScalar r)) /\
    r = sample_cov (fun i => m i) (fun i => m i) (seq 0 (alen x)).
Proof.
  intros stable me x Ux b a Uab runs blow alow shift theta z k HU Hp Ha Hl U1 U2 Ht Hz Hst Hn.
  destruct (C55_stable_draws stable me x Ux b a Uab runs blow alow shift theta z HU Hp Ha Hl U1 U2 Ht Hz)
    as (ys & _ & (y & U & E & Hm & HM) & _).
  rewrite Hst in Hm, HM. destruct y as [m|]; [|discriminate]. destruct Hm as (_ & _ & Hm).
  destruct U as [|r|M]; [cbn in HM; lia| |cbn in HM; lia].
  destruct HM as [(X & _)|(k' & X & _ & HM)]; [cbn in X; lia|]. injection X as <-.
  exists m, r. split; [exact E|]. rewrite HM. apply sample_cov_ext. intros i Hi. apply in_seq in Hi.
  rewrite Hm by lia. unfold avg. cbn. field.
Qed.
(** Nothing is uncertain, the signal (1, 0) passes unchanged: the uncertainty is reported as
    1/2 for a single run, and as the zero matrix for two. *)
Theorem C125_single_refuted : exists (x b : vec),
  (exists m r, MC_certain x b 1 0 = Ok (McMoments (Some m) (CovScalar r)) /\ r = 1 / 2) /\
  (exists m M, MC_certain x b 2 0 = Ok (McMoments (Some m) (CovMat M)) /\
     forall i j, (i < alen x)%nat -> (j < alen x)%nat -> M i j = 0).
Proof.
  exists (of_list [1; 0]), (of_list [1]). split.
  - destruct (C125_single_partial (fun _ _ => true) (fun _ => 0) (of_list [1; 0]) (McFloat 0) (of_list [1])
      (mkArr 1 (fun _ => 1)) (no_mat 1) 1 None None 0 (fun _ => of_list [1]) (fun _ => mkArr 2 (fun _ => 0)) 0)
      as (m & r & E & Er); try exact I; try reflexivity; try (cbn; lia).
    exists m, r. split; [exact E|]. unfold MC_certain in E.
    destruct (C55_stable_draws (fun _ _ => true) (fun _ => 0) (of_list [1; 0]) (McFloat 0) (of_list [1])
      (mkArr 1 (fun _ => 1)) (no_mat 1) 1 None None 0 (fun _ => of_list [1]) (fun _ => mkArr 2 (fun _ => 0)))
      as (ys & Hy & (y & U & E' & Hm & _) & _); try exact I; try reflexivity.
    rewrite E in E'. injection E' as <- <-. destruct Hm as (_ & _ & Hm). cbn [alen of_list length] in Hm.
    destruct (Hy 0%nat) as (xk & w & (Lx & Dx) & Lw & (_ & R)). cbn in Lw. subst w. cbn [alen of_list length] in Lx, Dx.
    pose proof (Dx 0%nat ltac:(lia)) as D0. pose proof (Dx 1%nat ltac:(lia)) as D1. cbn in D0, D1.
    pose proof (R 0%nat ltac:(lia)) as R0. pose proof (R 1%nat ltac:(lia)) as R1. cbn in R0, R1.
    rewrite Er. unfold sample_cov, scatter, avg. cbn [alen of_list length seq map tot].
    change (m 0%nat) with (aget m 0%nat). change (m 1%nat) with (aget m 1%nat). rewrite (Hm 0%nat), (Hm 1%nat) by lia.
    change (filter _ _) with [0%nat]. unfold avg. cbn [map tot length].
    change (shifted_from 2 0 0) with 0%nat. change (shifted_from 2 0 1) with 1%nat.
    replace (ys 0%nat 0%nat) with 1 by lra. replace (ys 0%nat 1%nat) with 0 by lra. cbn [INR]. field.
  - destruct (C55_stable_draws (fun _ _ => true) (fun _ => 0) (of_list [1; 0]) (McFloat 0) (of_list [1])
      (mkArr 1 (fun _ => 1)) (no_mat 1) 2 None None 0 (fun _ => of_list [1]) (fun _ => mkArr 2 (fun _ => 0)))
      as (ys & Hy & (y & U & E & Hm & HU) & _); try exact I; try reflexivity.
    change (filter _ _) with [0%nat; 1%nat] in Hm, HU.
    destruct y as [m|]; [|discriminate].
    destruct U as [|r|M]; [cbn in HU; lia|cbn in HU; destruct HU as [(_ & X & _)|(k & X & _)]; discriminate|].
    destruct HU as (_ & _ & _ & _ & HM). exists m, M. split; [exact E|]. intros i j Hi Hj. rewrite HM by assumption.
    assert (V : forall i, (i < 2)%nat -> ys 1%nat (shifted_from 2 0 i) = ys 0%nat (shifted_from 2 0 i)).
    { intros i' Hi'. assert (Hs : shifted_from 2 0 i' = i') by (destruct i' as [|[|i']]; [reflexivity|reflexivity|lia]).
      rewrite Hs. destruct (Hy 0%nat) as (xk & w & (Lx & Dx) & Lw & R). destruct (Hy 1%nat) as (xk' & w' & (Lx' & Dx') & Lw' & R').
      cbn in Lw, Lw'. subst w w'. cbn [alen of_list length] in Lx, Lx', Dx, Dx'.
      pose proof (Dx 0%nat ltac:(lia)) as D0. pose proof (Dx 1%nat ltac:(lia)) as D1. cbn in D0, D1.
      pose proof (Dx' 0%nat ltac:(lia)) as D0'. pose proof (Dx' 1%nat ltac:(lia)) as D1'. cbn in D0', D1'.
      destruct R as [_ R]. destruct R' as [_ R'].
      pose proof (R 0%nat ltac:(lia)) as R0. pose proof (R 1%nat ltac:(lia)) as R1. cbn in R0, R1.
      pose proof (R' 0%nat ltac:(lia)) as R0'. pose proof (R' 1%nat ltac:(lia)) as R1'. cbn in R0', R1'.
      destruct i' as [|[|i']]; [lra|lra|lia]. }
    cbn [alen of_list length] in *. unfold sample_cov, scatter, avg. cbn [map tot length]. rewrite !V by assumption. cbn [INR]. field.
Qed.
Example C125_example : exists m M,
  MC stable55 (fun _ => 1) (of_list [1; 0]) (McFloat 0) (of_list [2]) (of_list [1]) (of_rows [[1]]) 3 None None false 1
     theta55 (fun _ => of_list [0; 0]) = Ok (McMoments (Some m) (CovMat M)) /\ mrows M = 2%nat /\ psd 2 M.
Proof.
  destruct (C125_matrix_partial stable55 (fun _ => 1) (of_list [1; 0]) (McFloat 0) (of_list [2]) (of_list [1]) (of_rows [[1]]) 3 None None 1
     theta55 (fun _ => of_list [0; 0])) as (m & M & E & R1 & _ & P); try exact I; try reflexivity; try (cbn; lia).
  { replace (filter (passes stable55 (of_list [1]) (of_list [2]) theta55) (seq 0 3)) with [0%nat; 2%nat]; [cbn; lia|].
    cbn [seq filter]. unfold passes, stable55, drawn_b, theta55. cbn [aget alen].
    unfold rltb. destruct (Rlt_dec 1 4), (Rlt_dec 5 4), (Rlt_dec 3 4); try reflexivity; lra. }
  exists m, M. auto.
Qed.
Print Assumptions C125_matrix_partial.
Print Assumptions C125_single_partial.
Print Assumptions C125_single_refuted.
