(** The unit of frequency: filter fits (C139) and second order systems (C140). *)
From Coq Require Import Reals String List Arith Lra Lia FunctionalExtensionality.
From Verif Require Import Base Sums Cplx M_DFT M_FilterStuff M_MC M_Fit S_Poly S_Fit S_MC S_Jac S_Som P_Poly P_MC P_Deriv
  P_LinAlg P_Fit P_Fit2 P_Som T_Som.
Import ListNotations.
Local Notation length := Datatypes.length.
Open Scope R_scope.

(** All entries multiplied by c: the same frequencies in another unit. *)
Definition in_units (c : R) (f : vec) : vec := mkArr (alen f) (fun i => c * f i).

(** ** C139: the fits of digital filters use frequencies relative to the sampling rate *)
Lemma omega_units c (f : vec) Fs i : c <> 0 -> Fs <> 0 -> 2 * PI * (c * f i) / (c * Fs) = 2 * PI * f i / Fs.
Proof. intros. field. auto. Qed.
Lemma Eexp_units c f Fs : c <> 0 -> Fs <> 0 -> Eexp (in_units c f) (c * Fs) = Eexp f Fs.
Proof.
  intros. extensionality i. extensionality n. unfold Eexp, in_units. cbn [aget]. rewrite omega_units by auto. reflexivity.
Qed.
Lemma design_units c N f Fs Wt : c <> 0 -> Fs <> 0 -> fir_design N (in_units c f) (c * Fs) Wt = fir_design N f Fs Wt.
Proof. intros. unfold fir_design. rewrite Eexp_units by auto. reflexivity. Qed.
Lemma delayed_units c H f Fs tau : c <> 0 -> Fs <> 0 -> delayed H (in_units c f) (c * Fs) tau = delayed H f Fs tau.
Proof.
  intros. unfold delayed.
  assert (E : (fun i => cis (2 * PI * in_units c f i / (c * Fs) * tau)) = (fun i => cis (2 * PI * f i / Fs * tau))).
  { extensionality i. cbn [in_units aget]. rewrite omega_units by auto. reflexivity. }
  cbv zeta.
  pose proof (f_equal (fun g => g 0%nat) E) as E0. cbv beta in E0. rewrite E0.
  replace (fun i => cmul (H i) (cis (2 * PI * in_units c f i / (c * Fs) * tau)))
    with (fun i => cmul (H i) (cis (2 * PI * f i / Fs * tau)))
    by (extensionality i; rewrite <- (f_equal (fun g => g i) E); reflexivity).
  replace (fun i => cmul (H 0%nat) (cis (2 * PI * in_units c f i / (c * Fs) * tau)))
    with (fun i => cmul (H 0%nat) (cis (2 * PI * f i / Fs * tau)))
    by (extensionality i; rewrite <- (f_equal (fun g => g i) E); reflexivity).
  reflexivity.
Qed.
Lemma cis_units c f Fs tau i : c <> 0 -> Fs <> 0 ->
  cis (2 * PI * in_units c f i / (c * Fs) * tau) = cis (2 * PI * f i / Fs * tau).
Proof. intros. cbn [in_units aget]. rewrite omega_units by auto. reflexivity. Qed.

Theorem C139_fir : forall lstsq mvn svd H UH N tau f Fs Wt wt tol runs c, c <> 0 -> Fs <> 0 ->
  LSFIR lstsq H N tau (in_units c f) (c * Fs) Wt = LSFIR lstsq H N tau f Fs Wt /\
  invLSFIR lstsq H N tau (in_units c f) (c * Fs) Wt = invLSFIR lstsq H N tau f Fs Wt /\
  invLSFIR_unc mvn svd H UH N tau (in_units c f) (c * Fs) wt tol runs
    = invLSFIR_unc mvn svd H UH N tau f Fs wt tol runs /\
  invLSFIR_uncMC mvn lstsq H UH N tau (in_units c f) (c * Fs) runs
    = invLSFIR_uncMC mvn lstsq H UH N tau f Fs runs.
Proof.
  intros lstsq mvn svd H UH N tau f Fs Wt wt tol runs c Hc HF. split; [|split; [|split]].
  - unfold LSFIR. rewrite design_units, delayed_units by auto. reflexivity.
  - unfold invLSFIR. rewrite design_units, delayed_units by auto. reflexivity.
  - unfold invLSFIR_unc. rewrite Eexp_units by auto. change (alen (in_units c f)) with (alen f).
    replace (himc_row (in_units c f) (c * Fs) tau) with (himc_row f Fs tau).
    2:{ extensionality d. unfold himc_row. change (alen (in_units c f)) with (alen f). f_equal.
        extensionality r. cbn [in_units aget]. rewrite !omega_units by auto. reflexivity. }
    assert (K : forall h : arr C, stack1 (alen f) (fun i => cinv (cmul (h i) (cis (2 * PI * in_units c f i / (c * Fs) * tau))))
      = stack1 (alen f) (fun i => cinv (cmul (h i) (cis (2 * PI * f i / Fs * tau))))).
    { intros h. f_equal. extensionality i. rewrite cis_units by auto. reflexivity. }
    cbv zeta. rewrite K.
    reflexivity.
  - unfold invLSFIR_uncMC. rewrite Eexp_units by auto. change (alen (in_units c f)) with (alen f).
    replace (uncmc_target (in_units c f) (c * Fs) tau) with (uncmc_target f Fs tau); [reflexivity|].
    extensionality d. unfold uncmc_target. change (alen (in_units c f)) with (alen f). f_equal.
    extensionality i. rewrite cis_units by auto. reflexivity.
Qed.

(** The group delay is given in samples: the sampling rate only scales the frequencies. *)
Lemma next_tau_units b a s Fs Fs' tau : next_tau b a s Fs tau = next_tau b a s Fs' tau.
Proof.
  unfold next_tau, grpdelay. destruct (convolve_full b (reversed_arr a)); [|reflexivity].
  destruct (convolve_full b (reversed_arr s)); reflexivity.
Qed.
Lemma fitIIR_units lstsq Hv tau f Fs Na Nb inv c : c <> 0 -> Fs <> 0 ->
  fitIIR lstsq Hv tau (in_units c f) (c * Fs) Na Nb inv = fitIIR lstsq Hv tau f Fs Na Nb inv.
Proof.
  intros Hc HF. unfold fitIIR.
  replace (iir_htau Hv (in_units c f) (c * Fs) tau inv) with (iir_htau Hv f Fs tau inv).
  2:{ extensionality i. unfold iir_htau. cbn [in_units aget]. rewrite omega_units by auto. reflexivity. }
  replace (iir_D Hv (in_units c f) (c * Fs) tau Na inv) with (iir_D Hv f Fs tau Na inv).
  2:{ extensionality i. extensionality j. unfold iir_D. rewrite Eexp_units by auto. unfold iir_htau.
      cbn [in_units aget]. rewrite omega_units by auto. reflexivity. }
  reflexivity.
Qed.
Lemma iir_loop_units fit fit' roots Fs Fs' maxiter fuel : (forall t, fit t = fit' t) -> forall run stable tau b a s,
  iir_loop fit roots Fs maxiter fuel run stable tau b a s = iir_loop fit' roots Fs' maxiter fuel run stable tau b a s.
Proof.
  intros E. induction fuel as [|n IH]; intros run stable tau b a s; cbn [iir_loop]; [reflexivity|].
  rewrite (next_tau_units b a s Fs Fs'). destruct (negb stable && (run <? maxiter)%nat)%bool; [|reflexivity].
  destruct (next_tau b a s Fs' tau) as [t|]; [|reflexivity]. rewrite E. destruct (fit' t) as [b' a'].
  destruct (has_outside_root roots a'); apply IH.
Qed.
Lemma iir_stabilise_units lstsq roots fuel Hv Nb Na f Fs tau inv c : c <> 0 -> Fs <> 0 ->
  iir_stabilise lstsq roots fuel Hv Nb Na (in_units c f) (c * Fs) tau inv = iir_stabilise lstsq roots fuel Hv Nb Na f Fs tau inv.
Proof.
  intros Hc HF. unfold iir_stabilise. rewrite fitIIR_units by auto.
  destruct (fitIIR lstsq Hv tau f Fs Na Nb inv) as [b a].
  apply iir_loop_units. intros t. apply fitIIR_units; auto.
Qed.
Theorem C139_iir : forall lstsq roots mvn fuel Hv (H : arr C) UH Nb Na f Fs tau justFit runs c, c <> 0 -> Fs <> 0 ->
  LSIIR lstsq roots fuel Hv Nb Na (in_units c f) (c * Fs) tau justFit = LSIIR lstsq roots fuel Hv Nb Na f Fs tau justFit /\
  invLSIIR lstsq roots fuel Hv Nb Na (in_units c f) (c * Fs) tau justFit = invLSIIR lstsq roots fuel Hv Nb Na f Fs tau justFit /\
  invLSIIR_unc mvn lstsq roots H UH Nb Na (in_units c f) (c * Fs) tau runs
    = invLSIIR_unc mvn lstsq roots H UH Nb Na f Fs tau runs.
Proof.
  intros lstsq roots mvn fuel Hv H UH Nb Na f Fs tau justFit runs c Hc HF.
  assert (I : forall fuel Hv tau justFit, invLSIIR lstsq roots fuel Hv Nb Na (in_units c f) (c * Fs) tau justFit
    = invLSIIR lstsq roots fuel Hv Nb Na f Fs tau justFit).
  { intros. unfold invLSIIR. change (alen (in_units c f)) with (alen f). destruct (iir_values _ _); [|reflexivity].
    rewrite fitIIR_units, iir_stabilise_units by auto. reflexivity. }
  split; [|split].
  - unfold LSIIR. change (alen (in_units c f)) with (alen f). destruct (iir_values _ _); [|reflexivity].
    rewrite fitIIR_units, iir_stabilise_units by auto. reflexivity.
  - apply I.
  - unfold invLSIIR_unc. change (alen (in_units c f)) with (alen f).
    destruct (draw_mvn _ _ _ _); [|reflexivity]. cbn [bind]. destruct (negb (alen H =? alen f)%nat); [reflexivity|].
    replace (fun d => invLSIIR lstsq roots 50 (mkArr (alen f) (unstack (alen f) d)) Nb Na (in_units c f) (c * Fs) tau false)
      with (fun d => invLSIIR lstsq roots 50 (mkArr (alen f) (unstack (alen f) d)) Nb Na f Fs tau false); [reflexivity|].
    extensionality d. symmetry. apply I.
Qed.
(** Hz and kHz. *)
Example C139_example : forall lstsq,
  LSFIR lstsq (mkArr 2 (fun _ => C1)) 1 0 (of_list [10; 20]) 100 WtNone
  = LSFIR lstsq (mkArr 2 (fun _ => C1)) 1 0 (of_list [/ 100; / 50]) (/ 10) WtNone.
Proof.
  intros lstsq.
  destruct (C139_fir lstsq (fun _ _ _ _ => of_list []) (fun m => (m, of_list [], m)) (mkArr 2 (fun _ => C1)) (mkMat 0 0 (fun _ _ => 0)) 1 0
    (of_list [10; 20]) 100 WtNone None None 0 (/ 1000) ltac:(lra) ltac:(lra)) as [E _].
  rewrite <- E. f_equal; [|field]. unfold in_units. cbn [alen of_list length]. unfold of_list. cbn [length]. f_equal.
  extensionality i. cbn [aget]. destruct i as [|[|[|i]]]; cbn; field.
Qed.
Print Assumptions C139_fir.
Print Assumptions C139_iir.

(** ** C140: fit_som *)
(** Auxiliary parameters for the frequencies f that describe the same response as mu does
    for c f. *)
Definition som_conv (c : R) (mu : nat -> R) (i : nat) : R :=
  match i with O => mu 0%nat | S O => c * mu 1%nat | _ => c ^ 2 * mu i end.
Lemma recip_units c mu x : som_recip mu (c * x) = som_recip (som_conv c mu) x.
Proof. unfold som_recip, som_conv. f_equal; ring. Qed.
Lemma misfit_units c f v t mu : som_misfit (in_units c f) v t mu = som_misfit f v t (som_conv c mu).
Proof. unfold som_misfit. cbn [in_units alen aget]. apply rsum_ext. intros i _. rewrite !recip_units. reflexivity. Qed.
Lemma misfit_pt f v t mu mu' : (forall j, (j < 3)%nat -> mu j = mu' j) -> som_misfit f v t mu = som_misfit f v t mu'.
Proof.
  intros E. unfold som_misfit, som_recip. apply rsum_ext. intros i _. rewrite !E by lia. reflexivity.
Qed.
Lemma fits_units c f v d mu : c <> 0 -> fits_recip (in_units c f) v d mu -> fits_recip f v d (som_conv c mu).
Proof.
  intros Hc F t Ht nu. rewrite <- misfit_units.
  rewrite (misfit_pt f v t nu (som_conv c (som_conv (/ c) nu))).
  - rewrite <- misfit_units. apply F. exact Ht.
  - intros [|[|[|j]]] Hj; cbn [som_conv]; try lia; field; auto.
Qed.
Lemma two_units c f : c <> 0 -> two_frequencies f -> two_frequencies (in_units c f).
Proof.
  intros Hc (i & j & Hi & Hj & N). exists i, j. split; [exact Hi|]. split; [exact Hj|]. cbn [in_units aget].
  intros E. apply N. apply Rmult_eq_reg_l with (c ^ 2); [|apply pow_nonzero; exact Hc]. rewrite <- !Rpow_mult_distr. exact E.
Qed.
Lemma recips (f d : vec) : (forall i, (i < alen f)%nat -> resp (alen f) d i <> C0) ->
  forall i, (i < alen f)%nat -> cmul (resp (alen f) d i) (cinv (resp (alen f) d i)) = C1.
Proof.
  intros NZ i Hi. specialize (NZ i Hi). destruct (resp (alen f) d i) as [x y].
  assert (N : x * x + y * y <> 0).
  { intros Z. apply NZ. assert (x = 0) by nra. assert (y = 0) by nra. subst. reflexivity. }
  unfold cmul, cinv, C1, cnorm2. cbn [fst snd Re Im]. apply C_eq; cbn [fst snd]; field; auto.
Qed.
(** The unit of each parameter: gain and damping have none. *)
Definition som_unit (c : R) (i : nat) : R := if (i =? 2)%nat then c else 1.
Lemma params_units c (mu nu : nat -> R) : 0 < c -> 0 < mu 0%nat * mu 2%nat ->
  (forall j, (j < 3)%nat -> som_conv c nu j = mu j) ->
  0 < nu 0%nat * nu 2%nat /\ forall i, (i < 3)%nat -> som_params nu i = som_unit c i * som_params mu i.
Proof.
  intros Hc P E.
  assert (E0 : nu 0%nat = mu 0%nat) by (apply (E 0%nat); lia).
  assert (E1 : c * nu 1%nat = mu 1%nat) by (apply (E 1%nat); lia).
  assert (E2 : c ^ 2 * nu 2%nat = mu 2%nat) by (apply (E 2%nat); lia).
  assert (Hc2 : 0 < c ^ 2) by (apply pow_lt; exact Hc).
  assert (Q : 0 < nu 0%nat * nu 2%nat).
  { apply Rmult_lt_reg_l with (c ^ 2); [exact Hc2|]. rewrite Rmult_0_r.
    replace (c ^ 2 * (nu 0%nat * nu 2%nat)) with (nu 0%nat * (c ^ 2 * nu 2%nat)) by ring. rewrite E2, E0. exact P. }
  assert (N0 : nu 0%nat <> 0) by (intros Z; rewrite Z in Q; lra).
  assert (N2 : nu 2%nat <> 0) by (intros Z; rewrite Z in Q; lra).
  assert (Pi := PI_RGT_0).
  split; [exact Q|]. intros [|[|[|i]]] Hi; [| | |lia]; cbn [som_params som_unit Nat.eqb].
  - rewrite E0. ring.
  - rewrite <- E1, <- E2, <- E0. replace (nu 0%nat * (c ^ 2 * nu 2%nat)) with (c ^ 2 * (nu 0%nat * nu 2%nat)) by ring.
    rewrite (sqrt_mult (c ^ 2)) by lra. rewrite sqrt_pow2 by lra. field.
    split; [apply Rgt_not_eq, sqrt_lt_R0; exact Q|lra].
  - rewrite <- E2, <- E0. replace (nu 0%nat / (c ^ 2 * nu 2%nat)) with ((/ c) ^ 2 * (nu 0%nat / nu 2%nat)) by (field; lra).
    pose proof (quot_pos _ _ Q) as Q'.
    assert (Ic : 0 < / c) by (apply Rinv_0_lt_compat; exact Hc).
    rewrite (sqrt_mult ((/ c) ^ 2)) by (try lra; apply Rlt_le, pow_lt; exact Ic). rewrite sqrt_pow2 by lra. field. lra.
Qed.

(** The estimate without uncertainties: gain and damping are the same, the resonance
    frequency is given in the new unit; the parameter scaling is of no importance. *)
Theorem C140_estimate_partial : forall solve inv mvn z runs0 (f H : vec) wgt v MCruns s s' c,
  exact_solve solve -> alen H = (alen f + alen f)%nat -> two_frequencies f -> s <> 0 -> s' <> 0 -> 0 < c ->
  plain_weights (alen f) wgt v -> (forall r, (r < alen f + alen f)%nat -> 0 < v r) ->
  (forall i, (i < alen f)%nat -> resp (alen f) H i <> C0) ->
  exists p p' (mu : nat -> R),
    fit_som solve inv mvn z runs0 f H SuNone wgt MCruns s = Ok (SomFit p None) /\
    fit_som solve inv mvn z runs0 (in_units c f) H SuNone wgt MCruns s' = Ok (SomFit p' None) /\
    fits_recip f v H mu /\ p' 0%nat = p 0%nat /\
    (0 < mu 0%nat * mu 2%nat -> forall i, (i < 3)%nat -> p' i = som_unit c i * p i).
Proof.
  intros solve inv mvn z runs0 f H wgt v MCruns s s' c S L F Hs Hs' Hc PW P NZ.
  destruct (C109_least_squares solve inv mvn z runs0 f H wgt v MCruns s S L F Hs PW P NZ) as (p & mu & E & _ & Fm & P0 & Pm).
  destruct (C109_least_squares solve inv mvn z runs0 (in_units c f) H wgt v MCruns s' S L
    (two_units c f ltac:(lra) F) Hs' PW P NZ) as (p' & nu & E' & _ & Fn & P0' & Pn).
  assert (U : forall j, (j < 3)%nat -> som_conv c nu j = mu j).
  { apply (fits_unique f v (fun i => cinv (resp (alen f) H i)) (som_conv c nu) mu F P).
    - apply (fits_units c f v H nu); [lra|exact Fn|]. apply recips, NZ.
    - apply Fm. apply recips, NZ. }
  exists p, p', mu. split; [exact E|]. split; [exact E'|]. split; [exact Fm|]. split.
  - rewrite P0, P0'. rewrite <- (U 0%nat) by lia. reflexivity.
  - intros Pos i Hi. destruct (params_units c mu nu Hc Pos U) as [Pos' K].
    rewrite Pm, Pn by auto. apply K. exact Hi.
Qed.
(** Monte Carlo: mean and covariance of the three parameters, if every draw is the response
    of a system with a resonance. *)
Theorem C140_monte_carlo_partial : forall solve inv mvn z runs0 runs (f H : vec) UH wgt v s s' d c,
  exact_solve solve -> alen H = (alen f + alen f)%nat -> two_frequencies f -> (2 <= runs)%nat -> s <> 0 -> s' <> 0 -> 0 < c ->
  som_drawn mvn z (alen f) H UH runs d -> weights_used (alen f) wgt d runs v ->
  (forall r, (r < alen f + alen f)%nat -> 0 < v r) ->
  (forall k i, (i < alen f)%nat -> resp (alen f) (d k) i <> C0) ->
  (forall k mu, fits_recip f v (d k) mu -> 0 < mu 0%nat * mu 2%nat) ->
  exists p U p' U',
    fit_som solve inv mvn z runs0 f H UH wgt (Some runs) s = Ok (SomFit p (Some (CovMat U))) /\
    fit_som solve inv mvn z runs0 (in_units c f) H UH wgt (Some runs) s' = Ok (SomFit p' (Some (CovMat U'))) /\
    forall i, (i < 3)%nat -> p' i = som_unit c i * p i /\
      forall j, (j < 3)%nat -> U' i j = som_unit c i * som_unit c j * U i j.
Proof.
  intros solve inv mvn z runs0 runs f H UH wgt v s s' d c S L F Hr Hs Hs' Hc D WU P NZ Pos.
  destruct (C109_monte_carlo solve inv mvn z runs0 runs f H UH wgt v s d S L F Hr Hs D WU P)
    as (p & U & mu & ps & E & _ & _ & _ & Ep & EU & K).
  destruct (C109_monte_carlo solve inv mvn z runs0 runs (in_units c f) H UH wgt v s' d S L
    (two_units c f ltac:(lra) F) Hr Hs' D WU P) as (p' & U' & nu & ps' & E' & _ & _ & _ & Ep' & EU' & K').
  assert (R : forall k i, (i < 3)%nat -> ps' k i = som_unit c i * ps k i).
  { intros k i Hi. destruct (K k) as (Fm & _ & Km). destruct (K' k) as (Fn & _ & Kn).
    assert (U1 : forall j, (j < 3)%nat -> som_conv c (nu k) j = mu k j).
    { apply (fits_unique f v (fun i => cinv (resp (alen f) (d k) i)) (som_conv c (nu k)) (mu k) F P).
      - apply (fits_units c f v (d k) (nu k)); [lra|exact Fn|]. apply recips, NZ.
      - apply Fm. apply recips, NZ. }
    destruct (params_units c (mu k) (nu k) Hc (Pos k _ Fm) U1) as [Pos' Q].
    pose proof (Pos k _ Fm) as Pk. rewrite Km, Kn by auto. apply Q. exact Hi. }
  assert (N : INR (length (seq 0 runs)) <> 0) by (rewrite seq_length; apply not_0_INR; lia).
  assert (A : forall i, (i < 3)%nat -> avg (fun k => ps' k i) (seq 0 runs) = som_unit c i * avg (fun k => ps k i) (seq 0 runs)).
  { intros i Hi. unfold avg. rewrite (tot_ext _ (fun k => som_unit c i * ps k i)) by (intros; apply R; exact Hi).
    rewrite tot_scal. field. exact N. }
  exists p, U, p', U'. split; [exact E|]. split; [exact E'|]. intros i Hi. split.
  - rewrite Ep, Ep'. apply A. exact Hi.
  - intros j Hj. rewrite EU, EU'. unfold sample_cov, scatter. rewrite !A by auto.
    rewrite (tot_ext _ (fun k => som_unit c i * som_unit c j
      * ((ps k i - avg (fun k => ps k i) (seq 0 runs)) * (ps k j - avg (fun k => ps k j) (seq 0 runs))))).
    + rewrite tot_scal. unfold Rdiv. ring.
    + intros k _. rewrite !R by auto. ring.
Qed.
(** Linear propagation: the covariance of gain and resonance frequency follows the unit. *)
Theorem C140_linear_partial : forall solve inv mvn z runs0 (f H : vec) UH wgt v s s' d c,
  exact_solve solve -> exact_inv inv -> alen H = (alen f + alen f)%nat -> two_frequencies f -> (2 <= runs0)%nat -> 0 < c ->
  (forall i, (i < alen f)%nat -> resp (alen f) H i <> C0) ->
  som_drawn mvn z (alen f) H UH runs0 d -> weights_used (alen f) wgt d runs0 v ->
  (forall r, (r < alen f + alen f)%nat -> 0 < v r) ->
  (forall k i, (i < alen f)%nat -> resp (alen f) (d k) i <> C0) ->
  (forall mu, fits_recip f v H mu -> 0 < mu 0%nat * mu 2%nat) ->
  exists p U p' U',
    fit_som solve inv mvn z runs0 f H UH wgt None s = Ok (SomFit p (Some (CovMat U))) /\
    fit_som solve inv mvn z runs0 (in_units c f) H UH wgt None s' = Ok (SomFit p' (Some (CovMat U'))) /\
    (forall i, (i < 3)%nat -> p' i = som_unit c i * p i) /\
    forall i j, (i = 0 \/ i = 2)%nat -> (j = 0 \/ j = 2)%nat -> U' i j = som_unit c i * som_unit c j * U i j.
Proof.
  intros solve inv mvn z runs0 f H UH wgt v s s' d c S V L F Hr Hc NZ D WU P NZd Pos.
  destruct (linear_path solve inv mvn z runs0 f H UH wgt v s d S V L F Hr NZ D WU P)
    as (mu & U & fits & Lm & E & _ & Fm & Fk & _ & _ & EU).
  destruct (linear_path solve inv mvn z runs0 (in_units c f) H UH wgt v s' d S V L (two_units c f ltac:(lra) F) Hr NZ D WU P)
    as (nu & U' & fits' & Ln & E' & _ & Fn & Fk' & _ & _ & EU').
  assert (Un : forall (q : vec) m n, (forall i, (i < alen f)%nat -> resp (alen f) q i <> C0) ->
      fits_recip f v q m -> fits_recip (in_units c f) v q n -> forall j, (j < 3)%nat -> som_conv c n j = m j).
  { intros q m n Hq Fm' Fn'. apply (fits_unique f v (fun i => cinv (resp (alen f) q i)) (som_conv c n) m F P).
    - apply (fits_units c f v q n); [lra|exact Fn'|]. apply recips, Hq.
    - apply Fm'. apply recips, Hq. }
  pose proof (Un H mu nu NZ Fm Fn) as U0.
  destruct (params_units c mu nu Hc (Pos _ Fm) U0) as [Pos' Q].
  exists (som_pars mu), U, (som_pars nu), U'. split; [exact E|]. split; [exact E'|]. split.
  - intros i Hi. pose proof (Pos _ Fm) as Pm. rewrite (pars_params mu mu), (pars_params nu nu) by auto. apply Q. exact Hi.
  - set (g := fun a : nat => match a with O => 1 | S O => c | _ => c ^ 2 end).
    assert (G : forall a, (a < 3)%nat -> forall k, fits k a = g a * fits' k a).
    { intros a Ha k. rewrite <- (Un (d k) (fits k) (fits' k) (NZd k) (Fk k) (Fk' k) a Ha).
      destruct a as [|[|[|a]]]; cbn [som_conv g]; try lia; ring. }
    assert (SC : forall a b, (a < 3)%nat -> (b < 3)%nat ->
      sample_cov (fun k => fits k a) (fun k => fits k b) (seq 0 runs0)
      = g a * g b * sample_cov (fun k => fits' k a) (fun k => fits' k b) (seq 0 runs0)).
    { intros a b Ha Hb. assert (N : INR (length (seq 0 runs0)) <> 0) by (rewrite seq_length; apply not_0_INR; lia).
      assert (A : forall a, (a < 3)%nat -> avg (fun k => fits k a) (seq 0 runs0) = g a * avg (fun k => fits' k a) (seq 0 runs0)).
      { intros a' Ha'. unfold avg. rewrite (tot_ext _ (fun k => g a' * fits' k a')) by (intros; apply G; exact Ha').
        rewrite tot_scal. field. exact N. }
      unfold sample_cov, scatter. rewrite !A by auto.
      rewrite (tot_ext _ (fun k => g a * g b
        * ((fits' k a - avg (fun k => fits' k a) (seq 0 runs0)) * (fits' k b - avg (fun k => fits' k b) (seq 0 runs0))))).
      - rewrite tot_scal. unfold Rdiv. ring.
      - intros k _. rewrite !G by auto. ring. }
    assert (CM : forall i a, (i = 0 \/ i = 2)%nat -> (a < 3)%nat -> som_C nu i a = som_unit c i * som_C mu i a * g a).
    { intros i a Hi Ha. rewrite !C_rows by auto.
      assert (E0 : nu 0%nat = mu 0%nat) by (apply (U0 0%nat); lia).
      assert (E2 : c ^ 2 * nu 2%nat = mu 2%nat) by (apply (U0 2%nat); lia).
      assert (N0 : nu 0%nat <> 0) by (intros Z; rewrite Z in Pos'; lra).
      assert (N2 : nu 2%nat <> 0) by (intros Z; rewrite Z in Pos'; lra).
      pose proof (quot_pos _ _ Pos') as Q'. assert (Pi := PI_RGT_0).
      assert (Ic : 0 < / c) by (apply Rinv_0_lt_compat; exact Hc).
      assert (SQ : sqrt (mu 0%nat / mu 2%nat) = / c * sqrt (nu 0%nat / nu 2%nat)).
      { rewrite <- E2, <- E0. replace (nu 0%nat / (c ^ 2 * nu 2%nat)) with ((/ c) ^ 2 * (nu 0%nat / nu 2%nat)) by (field; lra).
        rewrite (sqrt_mult ((/ c) ^ 2)) by (try lra; apply Rlt_le, pow_lt; exact Ic). rewrite sqrt_pow2 by lra. reflexivity. }
      assert (NS : sqrt (nu 0%nat / nu 2%nat) <> 0) by (apply Rgt_not_eq, sqrt_lt_R0; exact Q').
      destruct Hi as [-> | ->]; destruct a as [|[|[|a]]]; try lia; cbn [true_J som_unit Nat.eqb g];
        rewrite ?SQ, <- ?E2, <- ?E0; field; repeat split; auto; lra. }
    intros i j Hi Hj. rewrite EU, EU' by lia.
    rewrite <- !rsum_scal. apply rsum_ext. intros a Ha. rewrite <- rsum_scal. apply rsum_ext. intros b Hb.
    rewrite SC by auto. rewrite !CM by auto. ring.
Qed.

(** Partial: the full statement has U' i j = som_unit c i * som_unit c j * U i j for all i, j < 3.
    It fails for the damping, which has no unit: doubling all frequencies changes its
    variance from 1/4 to 1/10. *)
Theorem C140_damping_refuted :
  exists z (f H : vec) UH d, alen H = (alen f + alen f)%nat /\ two_frequencies f /\
    (forall mvn, som_drawn mvn z (alen f) H UH 2 d) /\
    forall solve inv mvn, exact_solve solve -> exact_inv inv ->
    exists p U p' U',
      fit_som solve inv mvn z 2 f H UH SwNone None 1 = Ok (SomFit p (Some (CovMat U))) /\
      fit_som solve inv mvn z 2 (in_units 2 f) H UH SwNone None 1 = Ok (SomFit p' (Some (CovMat U'))) /\
      p' 1%nat = p 1%nat /\ U 1%nat 1%nat = / 4 /\ U' 1%nat 1%nat = / 10.
Proof.
  exists z77, f12, (H12 1), (SuStd ones4), d77.
  split; [reflexivity|]. split; [apply f12_two|]. split; [intros; apply drawn77|].
  intros solve inv mvn S V.
  assert (P : forall r, (r < alen f12 + alen f12)%nat -> 0 < 1) by (intros; lra).
  assert (NZ : forall i, (i < alen f12)%nat -> resp (alen f12) (H12 1) i <> C0).
  { intros i Hi. eapply response_nonzero; [|apply (H12_response 1 i); auto]; lra. }
  assert (W : weights_used (alen f12) SwNone d77 2 (fun _ => 1)) by (left; cbn; auto).
  destruct (linear_path solve inv mvn z77 2 f12 (H12 1) (SuStd ones4) SwNone (fun _ => 1) 1 d77 S V eq_refl f12_two ltac:(lia) NZ (drawn77 mvn 2) W P)
    as (mu & U & fits & _ & E & _ & Fm & Fk & _ & _ & EU).
  destruct (linear_path solve inv mvn z77 2 (in_units 2 f12) (H12 1) (SuStd ones4) SwNone (fun _ => 1) 1 d77 S V eq_refl
    (two_units 2 f12 ltac:(lra) f12_two) ltac:(lia) NZ (drawn77 mvn 2) W P)
    as (nu & U' & fits' & _ & E' & _ & Fn & Fk' & _ & _ & EU').
  assert (Hm : forall j, (j < 3)%nat -> mu j = 1).
  { rewrite <- d12_H in Fm. intros j Hj. rewrite (d12_fit 1 (fun _ => 1) mu ltac:(lra) P Fm j Hj). destruct (j =? 1)%nat; auto. }
  assert (Hn : forall j, (j < 3)%nat -> som_conv 2 nu j = 1).
  { apply (fits_units 2) in Fn; [|lra]. rewrite <- d12_H in Fn. intros j Hj.
    rewrite (d12_fit 1 (fun _ => 1) _ ltac:(lra) P Fn j Hj). destruct (j =? 1)%nat; auto. }
  assert (n0 : nu 0%nat = 1) by (apply (Hn 0%nat); lia).
  assert (n1 : nu 1%nat = / 2) by (pose proof (Hn 1%nat ltac:(lia)) as X; cbn in X; lra).
  assert (n2 : nu 2%nat = / 4) by (pose proof (Hn 2%nat ltac:(lia)) as X; cbn in X; lra).
  set (t := fun k : nat => match k with O => 3/2 | _ => /2 end).
  assert (Hf : forall k j, (j < 3)%nat -> fits k j = if (j =? 1)%nat then t k else 1).
  { intros k. apply (d12_fit (t k) (fun _ => 1)); [unfold t; destruct k; lra|auto|apply Fk]. }
  assert (Hf' : forall k j, (j < 3)%nat -> fits' k j = if (j =? 1)%nat then t k / 2 else if (j =? 0)%nat then 1 else / 4).
  { intros k. pose proof (fits_units 2 f12 _ _ _ ltac:(lra) (Fk' k)) as X.
    assert (Y : forall j, (j < 3)%nat -> som_conv 2 (fits' k) j = if (j =? 1)%nat then t k else 1).
    { apply (d12_fit (t k) (fun _ => 1)); [unfold t; destruct k; lra|auto|exact X]. }
    intros [|[|[|j]]] Hj; [| | |lia]; cbn [Nat.eqb];
      [pose proof (Y 0%nat ltac:(lia)) as Z|pose proof (Y 1%nat ltac:(lia)) as Z|pose proof (Y 2%nat ltac:(lia)) as Z]; cbn in Z; lra. }
  assert (Sc : forall a b, (a < 3)%nat -> (b < 3)%nat -> sample_cov (fun k => fits k a) (fun k => fits k b) (seq 0 2) =
    if ((a =? 1)%nat && (b =? 1)%nat)%bool then / 2 else 0).
  { intros a b Ha Hb.
    rewrite (sample_cov_ext _ (fun k => if (a =? 1)%nat then t k else 1) _ (fun k => if (b =? 1)%nat then t k else 1)) by (intros; auto).
    unfold sample_cov, scatter, avg. cbn [seq tot length INR].
    destruct (a =? 1)%nat; destruct (b =? 1)%nat; cbn; field; lra. }
  assert (Sc' : forall a b, (a < 3)%nat -> (b < 3)%nat -> sample_cov (fun k => fits' k a) (fun k => fits' k b) (seq 0 2) =
    if ((a =? 1)%nat && (b =? 1)%nat)%bool then / 8 else 0).
  { intros a b Ha Hb.
    rewrite (sample_cov_ext _ (fun k => if (a =? 1)%nat then t k / 2 else if (a =? 0)%nat then 1 else / 4)
       _ (fun k => if (b =? 1)%nat then t k / 2 else if (b =? 0)%nat then 1 else / 4)) by (intros; auto).
    unfold sample_cov, scatter, avg. cbn [seq tot length INR].
    destruct (a =? 1)%nat, (b =? 1)%nat, (a =? 0)%nat, (b =? 0)%nat; cbn; field; lra. }
  exists (som_pars mu), U, (som_pars nu), U'. split; [exact E|]. split; [exact E'|]. split; [|split].
  - cbn [som_pars of_list aget nth]. rewrite n0, n1, n2, !Hm by lia.
    rewrite !Rmult_1_l, Rabs_R1, sqrt_1, (Rabs_pos_eq (/ 4)) by lra.
    replace (/ 4) with ((/ 2) ^ 2) by field. rewrite sqrt_pow2 by lra. field.
  - rewrite EU by lia. cbn [rsum]. rewrite !Sc by lia. cbn -[sqrt Rabs PI]. rewrite !Hm by lia.
    replace (1 + 1) with 2 by ring. rewrite (Rabs_pos_eq 2) by lra.
    assert (Q : / sqrt 2 * / sqrt 2 = / 2) by (rewrite <- Rinv_mult, sqrt_sqrt by lra; auto).
    transitivity (/ 2 * (/ sqrt 2 * / sqrt 2)); [unfold Rdiv; ring|rewrite Q; field].
  - rewrite EU' by lia. cbn [rsum]. rewrite !Sc' by lia. cbn -[sqrt Rabs PI]. rewrite n0, n2.
    replace (1 + / 4) with (5 / 4) by field. rewrite (Rabs_pos_eq (5 / 4)) by lra.
    assert (Q : / sqrt (5 / 4) * / sqrt (5 / 4) = 4 / 5) by (rewrite <- Rinv_mult, sqrt_sqrt by lra; field).
    transitivity (/ 8 * (/ sqrt (5 / 4) * / sqrt (5 / 4))); [unfold Rdiv; ring|rewrite Q; field].
Qed.
(** Draws with the damping 3/2 and 1/2 (see C77), frequencies in another unit. *)
Lemma d77_nonzero k i : (i < alen f12)%nat -> resp (alen f12) (d77 k) i <> C0.
Proof.
  intros Hi Z. assert (Ha : 0 < (match k with O => 3/2 | _ => /2 end)) by (destruct k; lra).
  pose proof (d12_recip _ i Ha Hi) as E. fold (d77 k) in E. rewrite Z in E.
  apply (f_equal fst) in E. unfold C0, C1, cmul in E. cbn in E. lra.
Qed.
Example C140_example solve inv mvn : exact_solve solve -> exact_inv inv ->
  (exists p p', fit_som solve inv mvn z77 2 f12 (H12 1) SuNone SwNone None 1 = Ok (SomFit p None) /\
     fit_som solve inv mvn z77 2 (in_units 2 f12) (H12 1) SuNone SwNone None (/ 10) = Ok (SomFit p' None) /\
     p' 0%nat = p 0%nat) /\
  (exists p U p' U',
    fit_som solve inv mvn z77 2 f12 (H12 1) (SuStd ones4) SwNone (Some 2%nat) 1 = Ok (SomFit p (Some (CovMat U))) /\
    fit_som solve inv mvn z77 2 (in_units 2 f12) (H12 1) (SuStd ones4) SwNone (Some 2%nat) (/ 10) = Ok (SomFit p' (Some (CovMat U'))) /\
    p' 1%nat = p 1%nat /\ p' 2%nat = 2 * p 2%nat /\ U' 1%nat 1%nat = U 1%nat 1%nat /\ U' 2%nat 1%nat = 2 * U 2%nat 1%nat) /\
  (exists p U p' U',
    fit_som solve inv mvn z77 2 f12 (H12 1) (SuStd ones4) SwNone None 1 = Ok (SomFit p (Some (CovMat U))) /\
    fit_som solve inv mvn z77 2 (in_units 2 f12) (H12 1) (SuStd ones4) SwNone None 1 = Ok (SomFit p' (Some (CovMat U'))) /\
    p' 2%nat = 2 * p 2%nat /\ U' 2%nat 2%nat = 2 * 2 * U 2%nat 2%nat).
Proof.
  intros S V.
  assert (P : forall r, (r < alen f12 + alen f12)%nat -> 0 < 1) by (intros; lra).
  assert (NZ : forall i, (i < alen f12)%nat -> resp (alen f12) (H12 1) i <> C0).
  { intros i Hi. eapply response_nonzero; [|apply (H12_response 1 i); auto]; lra. }
  assert (W : weights_used (alen f12) SwNone d77 2 (fun _ => 1)) by (left; cbn; auto).
  assert (Pk : forall k mu, fits_recip f12 (fun _ => 1) (d77 k) mu -> 0 < mu 0%nat * mu 2%nat).
  { intros k mu Fm.
    assert (Hf : forall j, (j < 3)%nat -> mu j = if (j =? 1)%nat then match k with O => 3/2 | _ => /2 end else 1).
    { apply (d12_fit (match k with O => 3/2 | _ => /2 end) (fun _ => 1)); [destruct k; lra|auto|exact Fm]. }
    rewrite !Hf by lia. cbn. lra. }
  assert (P0 : forall mu, fits_recip f12 (fun _ => 1) (H12 1) mu -> 0 < mu 0%nat * mu 2%nat).
  { intros mu Fm. rewrite <- d12_H in Fm.
    pose proof (d12_fit 1 (fun _ => 1) mu ltac:(lra) P Fm) as Hf. rewrite !Hf by lia. cbn. lra. }
  assert (PW : plain_weights (alen f12) SwNone (fun _ => 1)) by (cbn; auto).
  split; [|split].
  - destruct (C140_estimate_partial solve inv mvn z77 2 f12 (H12 1) SwNone (fun _ => 1) None 1 (/ 10) 2
      S eq_refl f12_two ltac:(lra) ltac:(lra) ltac:(lra) PW P NZ) as (p & p' & mu & E & E' & _ & Q & _).
    exists p, p'. auto.
  - destruct (C140_monte_carlo_partial solve inv mvn z77 2 2 f12 (H12 1) (SuStd ones4) SwNone (fun _ => 1) 1 (/ 10) d77 2
      S eq_refl f12_two ltac:(lia) ltac:(lra) ltac:(lra) ltac:(lra) (drawn77 mvn 2) W P d77_nonzero Pk)
      as (p & U & p' & U' & E & E' & K).
    exists p, U, p', U'. split; [exact E|]. split; [exact E'|].
    destruct (K 1%nat ltac:(lia)) as [-> K1]. destruct (K 2%nat ltac:(lia)) as [-> K2].
    rewrite K1, K2 by lia. cbn [som_unit Nat.eqb]. repeat split; ring.
  - destruct (C140_linear_partial solve inv mvn z77 2 f12 (H12 1) (SuStd ones4) SwNone (fun _ => 1) 1 1 d77 2
      S V eq_refl f12_two ltac:(lia) ltac:(lra) NZ (drawn77 mvn 2) W P d77_nonzero P0)
      as (p & U & p' & U' & E & E' & Kp & KU).
    exists p, U, p', U'. split; [exact E|]. split; [exact E'|]. rewrite Kp, KU by lia. split; reflexivity.
Qed.
Print Assumptions C140_estimate_partial.
Print Assumptions C140_monte_carlo_partial.
Print Assumptions C140_linear_partial.
Print Assumptions C140_damping_refuted.
