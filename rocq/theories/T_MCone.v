(** Theorems on a single Monte Carlo run in fit_som and FreqResp2RealImag: C125. *)
From Coq Require Import Reals String List Arith Lra Lia.
From Verif Require Import Base Sums Cplx M_DFT M_FilterStuff M_MC M_Fit M_Tools S_Fit S_MC S_Som S_Tools P_MC P_Fit2 P_Som
  T_MC3 T_Tools T_Som.
Import ListNotations.
Local Notation length := Datatypes.length.
Open Scope R_scope.

Lemma som_one solve inv mvn z runs0 (f H : vec) UH wgt v scaling d :
  exact_solve solve -> alen H = (alen f + alen f)%nat -> two_frequencies f -> scaling <> 0 ->
  som_drawn mvn z (alen f) H UH 1 d -> plain_weights (alen f) wgt v ->
  (forall r, (r < alen f + alen f)%nat -> 0 < v r) ->
  exists (p : vec) r (mu : vec),
    fit_som solve inv mvn z runs0 f H UH wgt (Some 1%nat) scaling = Ok (SomFit p (Some (CovScalar r))) /\
    alen p = 3%nat /\ (forall i, p i = som_pars (som_rescale scaling mu) i) /\
    (exists d' : vec, (forall r, (r < alen f + alen f)%nat -> d' r = d 0%nat r) /\
       wnormal (alen f + alen f) v (som_design f scaling) (som_irow (alen f) d') mu) /\
    r = sample_cov (fun i => p i) (fun i => p i) (seq 0 3).
Proof.
  intros S L F Hs D PW P. set (n := alen f) in *.
  destruct (drawn_draws mvn z n H UH 1 d D) as [g [Eg [Gv Hg]]].
  unfold fit_som. fold n. rewrite L, Nat.eqb_refl. cbn [negb]. rewrite Eg. cbn [bind].
  rewrite Gv, (plain_W n _ wgt v PW). cbn [bind].
  destruct (mc_fits solve f scaling v S Hs F P g) as [mus [Em Hm]]. fold n in Em, Hm. rewrite Em. cbn [bind].
  cbn [seq map Nat.eqb np_cov_rows Nat.leb].
  destruct (Hm 0%nat) as [Lm N].
  set (q := som_pars (som_rescale scaling (mus 0%nat))).
  exists (rows_mean 3 [q]). eexists. exists (mus 0%nat). split; [reflexivity|].
  assert (E : forall i, rows_mean 3 [q] i = q i).
  { intros i. unfold rows_mean. cbn. field. }
  split; [reflexivity|]. split; [exact E|]. split.
  - exists (g 0%nat). split; [intros r Hr; apply Hg; exact Hr|exact N].
  - rewrite var_of_sample_cov by (cbn; lia). apply T_MC3.sample_cov_ext. intros i _. rewrite E. reflexivity.
Qed.

(** ** fit_som with MCruns = 1
    The full statement: UMCpars is the covariance matrix of the three parameters.  Two runs
    or more: C109_monte_carlo.  One run: one number, the variance over the three values
    S0, delta, f0 of that run. *)
Theorem C125_som_partial : forall solve inv mvn z runs0 (f H : vec) UH wgt v scaling d,
  exact_solve solve -> alen H = (alen f + alen f)%nat -> two_frequencies f -> scaling <> 0 ->
  som_drawn mvn z (alen f) H UH 1 d -> plain_weights (alen f) wgt v ->
  (forall r, (r < alen f + alen f)%nat -> 0 < v r) ->
  exists p r mu,
    fit_som solve inv mvn z runs0 f H UH wgt (Some 1%nat) scaling = Ok (SomFit p (Some (CovScalar r))) /\
    alen p = 3%nat /\ fits_recip f v (d 0%nat) mu /\
    (0 < mu 0%nat * mu 2%nat -> forall i, (i < 3)%nat -> p i = som_params mu i) /\
    r = sample_cov (fun i => p i) (fun i => p i) (seq 0 3).
Proof.
  intros solve inv mvn z runs0 f H UH wgt v scaling d S L F Hs D PW P.
  destruct (som_one solve inv mvn z runs0 f H UH wgt v scaling d S L F Hs D PW P) as (p & r & mu & E & Lp & Hp & (d' & Ed & N) & Hr).
  exists p, r, (rescaled scaling mu). split; [exact E|]. split; [exact Lp|]. split; [|split; [|exact Hr]].
  - apply (wnormal_recip f scaling v v (d 0%nat) d' (som_irow (alen f) d')); auto.
  - intros P3 i Hi. rewrite Hp. apply pars_params; auto. intros. apply rescale_eq.
Qed.
Print Assumptions C125_som_partial.

(** A response without any uncertainty: S0 = 2, delta = 1, f0 = 1/(2 pi).  Two runs give the
    zero matrix, one run the variance of (2, 1, 1/(2 pi)), more than 1/2. *)
Theorem C125_som_refuted : exists (f H : vec) UH, forall solve inv mvn z runs0, exact_solve solve ->
  (exists p r, fit_som solve inv mvn z runs0 f H UH SwNone (Some 1%nat) 1 = Ok (SomFit p (Some (CovScalar r))) /\
     1 / 2 < r) /\
  (exists p U, fit_som solve inv mvn z runs0 f H UH SwNone (Some 2%nat) 1 = Ok (SomFit p (Some (CovMat U))) /\
     forall i j, (i < 3)%nat -> (j < 3)%nat -> U i j = 0).
Proof.
  exists f12, (H12 2), (SuStd (mkArr 4 (fun _ => 0))). intros solve inv mvn z runs0 S. assert (Pi := PI_RGT_0).
  assert (F0 : 0 < / (2 * PI)) by (apply Rinv_0_lt_compat; lra).
  assert (D : forall k, som_drawn mvn z (alen f12) (H12 2) (SuStd (mkArr 4 (fun _ => 0))) k (fun _ => H12 2)).
  { intros k. split; [reflexivity|]. intros. cbn [aget]. ring. }
  assert (PW : plain_weights (alen f12) SwNone (fun _ => 1)) by (intros r; reflexivity).
  assert (PP : forall r, (r < alen f12 + alen f12)%nat -> 0 < (fun _ : nat => 1) r) by (intros; lra).
  split.
  - destruct (som_one solve inv mvn z runs0 f12 (H12 2) (SuStd (mkArr 4 (fun _ => 0))) SwNone (fun _ => 1) 1
      (fun _ => H12 2) S eq_refl f12_two ltac:(lra) (D 1%nat) PW PP) as (p & r & mu & E & _ & Hp & (d' & Ed & N) & Hr).
    exists p, r. split; [exact E|].
    assert (T : forall j, (j < 3)%nat -> rescaled 1 mu j = true_mu 2 1 (/ (2 * PI)) j).
    { apply (wnormal_true f12 1 (fun _ => 1) (fun _ => 1) (H12 2) d' mu 2 1 (/ (2 * PI))); auto; try lra.
      - apply f12_two.
      - intros; apply H12_response; auto; lra. }
    assert (T3 : is_triple (som_pars (som_rescale 1 mu)) 2 (if Rlt_dec 0 2 then 1 else - (1)) (/ (2 * PI))).
    { apply pars_triple; [lra|exact F0|]. intros j Hj. rewrite rescale_eq. apply T. exact Hj. }
    destruct T3 as (_ & T0 & T1 & T2). destruct (Rlt_dec 0 2) as [_|X]; [|exfalso; lra].
    rewrite Hr. unfold sample_cov, scatter, avg. cbn [seq map tot length]. rewrite !Hp, T0, T1, T2.
    assert (C : / (2 * PI) < / 2).
    { apply Rinv_lt_contravar; [|pose proof PI2_3_2; lra]. lra. }
    set (c := / (2 * PI)) in *. cbn [INR].
    match goal with |- _ < ?x => replace x with (1 - c + c * c / 3) by field end. pose proof (Rle_0_sqr c). unfold Rsqr in *. lra.
  - destruct (C76_monte_carlo solve inv mvn z runs0 2 f12 (H12 2) (SuStd (mkArr 4 (fun _ => 0))) SwNone (fun _ => 1) 1
     (fun _ => H12 2) 2 1 (/ (2 * PI))) as [p [U [E [T HU]]]]; auto; try lra.
    { apply f12_two. }
    { intros; apply H12_response; auto; lra. }
    exists p, U. auto.
Qed.
Print Assumptions C125_som_refuted.
Example C125_som_ex solve inv mvn z : exact_solve solve ->
  exists p r, fit_som solve inv mvn z 0 f12 (H12 1) (SuStd ones4) SwNone (Some 1%nat) (/ 10) = Ok (SomFit p (Some (CovScalar r))).
Proof.
  intros S.
  destruct (C125_som_partial solve inv mvn z 0 f12 (H12 1) (SuStd ones4) SwNone (fun _ => 1) (/ 10)
    (fun k => mkArr 4 (fun r => H12 1 r + z k r * ones4 r)) S eq_refl f12_two) as (p & r & _ & E & _); try lra.
  - split; [reflexivity|]. reflexivity.
  - intros r. reflexivity.
  - intros; lra.
  - exists p, r. exact E.
Qed.

(** ** FreqResp2RealImag with MCruns = 1
    Two runs or more: C21_means_partial.  One run: one number, the variance over the
    real and imaginary parts at all frequencies; no run: NaN. *)
Theorem C125_freqresp_partial : forall (mvn : vec -> mat -> nat -> nat -> vec) (Abs Phase : vec) Unc n,
  alen Abs = n -> (1 <= n)%nat -> alen Phase = n -> unc_dim Unc = (2 * n)%nat ->
  (forall m, Unc = FrMat m -> mcols m = (2 * n)%nat) ->
  (exists (mean : vec) (U : mat) Re Im r,
    fr_mean Abs Phase mean /\ unc_cov Unc U /\
    let q := fr_part (fun r => mvn mean U 1%nat r) n in
    FreqResp2RealImag mvn Abs Phase Unc 1 = Ok (Some Re, Some Im, CovScalar r) /\
    r = scov (2 * n) (fun c => q c 0%nat) (fun c => q c 0%nat)) /\
  FreqResp2RealImag mvn Abs Phase Unc 0 = Ok (None, None, CovNaN).
Proof.
  intros mvn Abs Phase Unc n HA Hn HP HU HM. change (fr_len Unc = (2 * n)%nat) in HU.
  unfold FreqResp2RealImag. rewrite HA, HP, HU, !Nat.eqb_refl. cbn [negb orb].
  assert (Hsq : (mrows (fr_mat Unc) =? mcols (fr_mat Unc))%nat = true).
  { destruct Unc as [v|m]; cbn [fr_mat fr_len] in *; [apply Nat.eqb_refl|].
    rewrite HU, (HM m eq_refl). apply Nat.eqb_refl. }
  rewrite Hsq. cbn [negb]. split; [|reflexivity].
  set (mean := mkArr (2 * n) (fun i => if (i <? n)%nat then Abs i else Phase (i - n)%nat)).
  set (U := fr_mat Unc).
  match goal with |- context [np_mean_all ?m 0 n] => set (RI := m) end.
  assert (M : np_cov_any RI = CovScalar (var_of (mkArr (2 * n) (fun j => RI 0%nat j)))).
  { unfold np_cov_any. cbn [mrows mcols RI]. replace (2 * n <=? 1)%nat with false; [reflexivity|].
    symmetry. apply Nat.leb_gt. lia. }
  assert (A : forall c0 c1, (c0 < c1)%nat -> exists a, np_mean_all RI c0 c1 = Some a).
  { intros c0 c1 L. unfold np_mean_all. cbn [mrows RI].
    replace (1 * (c1 - c0) =? 0)%nat with false; [eexists; reflexivity|]. symmetry. apply Nat.eqb_neq. lia. }
  destruct (A 0%nat n ltac:(lia)) as [Re ->]. destruct (A n (2 * n)%nat ltac:(lia)) as [Im ->]. rewrite M.
  exists mean, U, Re, Im. eexists. split; [|split; [|split; [reflexivity|]]].
  - split; [cbn; lia|]. rewrite HA. intros k Hk. cbn [mean aget].
    replace (k <? n)%nat with true by (symmetry; apply Nat.ltb_lt; lia).
    replace (n + k <? n)%nat with false by (symmetry; apply Nat.ltb_ge; lia).
    split; [auto|]. f_equal. lia.
  - unfold U. destruct Unc as [v|m]; cbn [unc_cov fr_mat]; [|reflexivity]. cbn. auto.
  - set (w := fun c => fr_part (fun r => mvn mean U 1%nat r) n c 0%nat).
    change (var_of (mkArr (2 * n) (fun j => w j)) = scov (2 * n) w w).
    unfold var_of, scov, smean. cbn [alen aget]. set (N := (2 * n)%nat).
    assert (Hn0 : INR N <> 0) by (apply not_0_INR; unfold N; lia).
    assert (Hn1 : INR N - 1 <> 0).
    { change 1 with (INR 1). rewrite <- minus_INR by (unfold N; lia).
      apply not_0_INR. unfold N. lia. }
    rewrite minus_INR by (unfold N; lia). cbn [INR].
    set (m := rsum N w / INR N). f_equal.
    rewrite (rsum_ext N _ (fun i => w i * w i - (2 * m * w i - m * m))) by (intros; ring).
    rewrite rsum_minus. f_equal. rewrite rsum_minus, rsum_scal, rsum_const. unfold m. field. exact Hn0.
Qed.
Print Assumptions C125_freqresp_partial.
(** A response of amplitude 1 and phase 0 known without uncertainty: the reported number
    is 1/2 for one run; two runs give the zero matrix. *)
Theorem C125_freqresp_refuted : exists (mvn : vec -> mat -> nat -> nat -> vec) (Abs Phase v : vec),
  (forall i, (i < alen v)%nat -> v i = 0) /\ (forall mean U runs r, mvn mean U runs r = mean) /\
  (exists Re Im r, FreqResp2RealImag mvn Abs Phase (FrVec v) 1 = Ok (Re, Im, CovScalar r) /\ r = 1 / 2) /\
  (exists Re Im M, FreqResp2RealImag mvn Abs Phase (FrVec v) 2 = Ok (Re, Im, CovMat M) /\
     forall i j, (i < 2)%nat -> (j < 2)%nat -> M i j = 0).
Proof.
  exists (fun mean _ _ _ => mean), (of_list [1]), (of_list [0]), (of_list [0; 0]).
  split; [|split; [reflexivity|split]].
  - intros [|[|i]] Hi; cbn in *; try reflexivity; lia.
  - eexists. eexists. eexists. split; [reflexivity|]. unfold var_of. cbn. rewrite cos_0, sin_0. field.
  - eexists. eexists. eexists. split; [reflexivity|].
    intros [|[|i]] [|[|j]] Hi Hj; try lia; unfold np_cov, np_mean_col; cbn; rewrite ?cos_0, ?sin_0; field.
Qed.
Print Assumptions C125_freqresp_refuted.
Example C125_freqresp_ex : exists Re Im r,
  FreqResp2RealImag (fun mean _ _ _ => mean) (of_list [1; 3]) (of_list [0; 1]) (FrVec (of_list [1; 1; 1; 1])) 1
  = Ok (Some Re, Some Im, CovScalar r).
Proof.
  destruct (C125_freqresp_partial (fun mean _ _ _ => mean) (of_list [1; 3]) (of_list [0; 1]) (FrVec (of_list [1; 1; 1; 1])) 2)
    as [(mean & U & Re & Im & r & _ & _ & E & _) _]; try reflexivity; try lia; [discriminate|].
  exists Re, Im, r. exact E.
Qed.
