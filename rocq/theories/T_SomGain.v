(** C160: fit_som and the unit of the response. *)
From Coq Require Import Reals List Arith Bool String Lra Lia Psatz.
From Verif Require Import Base Sums Cplx M_DFT M_FilterStuff M_MC M_Fit S_Poly S_Fit S_MC S_Jac S_Som P_Poly P_MC P_Deriv
  P_LinAlg P_Fit P_Fit2 P_Som T_Som T_Units.
Import ListNotations.
Open Scope R_scope.
Local Notation length := Datatypes.length.

(** The uncertainty of the response in the new unit. *)
Definition unc_units (c : R) (UH : som_unc) : som_unc :=
  match UH with
  | SuNone => SuNone
  | SuStd s => SuStd (in_units c s)
  | SuCov U => SuCov (mkMat (mrows U) (mcols U) (fun i j => c * c * U i j))
  end.
(** Only the gain has the unit of the response. *)
Definition gain_unit (c : R) (i : nat) : R := if (i =? 0)%nat then c else 1.

Lemma sq_gt c : c <> 0 -> 0 < c ^ 2.
Proof. intros H. replace (c ^ 2) with (Rsqr c) by (unfold Rsqr; ring). apply Rlt_0_sqr. exact H. Qed.
Lemma resp_gain n c (d : vec) i : resp n (in_units c d) i = cscal c (resp n d i).
Proof. reflexivity. Qed.
Lemma misfit_gain f v v' t mu c k : c <> 0 -> 0 < k ->
  (forall r, (r < alen f + alen f)%nat -> 0 < v r) ->
  (forall r, (r < alen f + alen f)%nat -> v' r = k * v r) ->
  som_misfit f v' t (fun j => mu j / c) = / (k * c ^ 2) * som_misfit f v (fun i => cscal c (t i)) mu.
Proof.
  intros Hc Hk P E. unfold som_misfit. rewrite <- rsum_scal. apply rsum_ext. intros i Hi.
  rewrite !E by lia. unfold som_recip, cscal. cbn [fst snd].
  pose proof (P i ltac:(lia)). pose proof (P (alen f + i)%nat ltac:(lia)). field. repeat split; lra.
Qed.
Lemma fits_gain f v v' d mu c k : c <> 0 -> 0 < k ->
  (forall r, (r < alen f + alen f)%nat -> 0 < v r) ->
  (forall r, (r < alen f + alen f)%nat -> v' r = k * v r) ->
  fits_recip f v d mu -> fits_recip f v' (in_units c d) (fun j => mu j / c).
Proof.
  intros Hc Hk P E F t Ht nu.
  rewrite (misfit_gain f v v' t mu c k) by auto.
  rewrite (misfit_pt f v' t nu (fun j => (c * nu j) / c)) by (intros; field; auto).
  rewrite (misfit_gain f v v' t (fun j => c * nu j) c k) by auto.
  apply Rmult_le_compat_l.
  - apply Rlt_le, Rinv_0_lt_compat, Rmult_lt_0_compat; auto. apply sq_gt. exact Hc.
  - apply F. intros i Hi. specialize (Ht i Hi). rewrite resp_gain in Ht. rewrite <- Ht. cfield.
Qed.
Lemma cinv_gain c z : c <> 0 -> z <> C0 -> cinv (cscal c z) = cscal (/ c) (cinv z).
Proof.
  intros Hc Hz. destruct z as [x y].
  assert (N : x * x + y * y <> 0).
  { intros Z. apply Hz. assert (x = 0) by nra. assert (y = 0) by nra. subst. reflexivity. }
  unfold cinv, cscal, cnorm2. cbn [fst snd Re Im]. 
  assert (M : c * x * (c * x) + c * y * (c * y) <> 0).
  { replace (c * x * (c * x) + c * y * (c * y)) with (c * c * (x * x + y * y)) by ring. repeat apply Rmult_integral_contrapositive_currified; auto. }
  apply C_eq; cbn [fst snd]; field; auto.
Qed.
Lemma cov_gain (f g : nat -> R) c runs : (1 <= runs)%nat ->
  sample_cov (fun k => c * f k) (fun k => c * g k) (seq 0 runs) = c ^ 2 * sample_cov f g (seq 0 runs).
Proof.
  intros Hr. assert (N : INR (length (seq 0 runs)) <> 0) by (rewrite seq_length; apply not_0_INR; lia).
  assert (A : forall h : nat -> R, avg (fun k => c * h k) (seq 0 runs) = c * avg h (seq 0 runs)).
  { intros h. unfold avg. rewrite tot_scal. field. exact N. }
  unfold sample_cov, scatter. rewrite !A.
  rewrite (tot_ext _ (fun k => c ^ 2 * ((f k - avg f (seq 0 runs)) * (g k - avg g (seq 0 runs))))) by (intros; ring).
  rewrite tot_scal. unfold Rdiv. ring.
Qed.
Lemma weights_gain n wgt (d : nat -> vec) runs v c : c <> 0 -> (1 <= runs)%nat ->
  (forall k i, (i < n)%nat -> resp n (d k) i <> C0) -> weights_used n wgt d runs v ->
  exists v' k, 0 < k /\ weights_used n wgt (fun k => in_units c (d k)) runs v' /\ (forall r, v' r = k * v r).
Proof.
  intros Hc Hr NZ [PW|[-> Hv]].
  - exists v, 1. split; [lra|]. split; [left; exact PW|]. intros; ring.
  - exists (fun r => (/ c) ^ 2 * v r), ((/ c) ^ 2). split; [apply sq_gt, Rinv_neq_0_compat; exact Hc|].
    split; [|reflexivity]. right. split; [reflexivity|]. intros i Hi. destruct (Hv i Hi) as [-> ->].
    split; rewrite <- cov_gain by exact Hr; apply sample_cov_ext; intros k _; rewrite resp_gain, cinv_gain by auto; reflexivity.
Qed.
(** Given standard uncertainties the draws follow the unit. *)
Lemma drawn_gain mvn z n H s runs d c : alen H = (n + n)%nat ->
  som_drawn mvn z n H (SuStd s) runs d -> som_drawn mvn z n (in_units c H) (unc_units c (SuStd s)) runs (fun k => in_units c (d k)).
Proof.
  intros L [Ls E]. split; [exact Ls|]. intros k r Hr. cbn [in_units aget]. rewrite E by exact Hr. ring.
Qed.
Lemma nonzero_gain n c (d : vec) i : c <> 0 -> resp n d i <> C0 -> resp n (in_units c d) i <> C0.
Proof.
  intros Hc H Z. apply H. rewrite resp_gain in Z. apply C_eq.
  - apply (f_equal fst) in Z. cbn in Z |- *. apply Rmult_integral in Z. tauto.
  - apply (f_equal snd) in Z. cbn in Z |- *. apply Rmult_integral in Z. tauto.
Qed.
Lemma params_gain c (mu nu : nat -> R) : 0 < c -> 0 < mu 0%nat * mu 2%nat ->
  (forall j, (j < 3)%nat -> nu j = mu j / c) ->
  0 < nu 0%nat * nu 2%nat /\ forall i, (i < 3)%nat -> som_params nu i = gain_unit c i * som_params mu i.
Proof.
  intros Hc P E.
  assert (Ic : 0 < / c) by (apply Rinv_0_lt_compat; exact Hc).
  assert (N0 : mu 0%nat <> 0) by (intros Z; rewrite Z in P; lra).
  assert (N2 : mu 2%nat <> 0) by (intros Z; rewrite Z in P; lra).
  assert (X : nu 0%nat * nu 2%nat = (/ c) ^ 2 * (mu 0%nat * mu 2%nat)) by (rewrite !E by lia; field; lra).
  assert (Q : 0 < nu 0%nat * nu 2%nat) by (rewrite X; apply Rmult_lt_0_compat; auto; apply pow_lt; exact Ic).
  split; [exact Q|]. intros [|[|[|i]]] Hi; [| | |lia]; cbn [som_params gain_unit Nat.eqb].
  - rewrite E by lia. field. split; auto; lra.
  - rewrite X, (sqrt_mult ((/ c) ^ 2)), sqrt_pow2 by (try lra; apply Rlt_le, pow_lt; exact Ic).
    rewrite E by lia. field. split; [apply Rgt_not_eq, sqrt_lt_R0; exact P|lra].
  - replace (nu 0%nat / nu 2%nat) with (mu 0%nat / mu 2%nat) by (rewrite !E by lia; field; split; auto; lra). ring.
Qed.
Lemma unique_gain f v v' k c (q : vec) (m n : nat -> R) : two_frequencies f -> 0 < c -> 0 < k ->
  (forall r, (r < alen f + alen f)%nat -> 0 < v r) -> (forall r, (r < alen f + alen f)%nat -> v' r = k * v r) ->
  (forall i, (i < alen f)%nat -> resp (alen f) q i <> C0) ->
  fits_recip f v q m -> fits_recip f v' (in_units c q) n -> forall j, (j < 3)%nat -> n j = m j / c.
Proof.
  intros F Hc Hk P E NZ Fm Fn.
  assert (NZ' : forall i, (i < alen f)%nat -> resp (alen f) (in_units c q) i <> C0) by (intros; apply nonzero_gain; auto; lra).
  apply (fits_unique f v' (fun i => cinv (resp (alen f) (in_units c q) i)) n (fun j => m j / c) F).
  - intros r Hr. rewrite E by exact Hr. apply Rmult_lt_0_compat; auto.
  - apply Fn. apply recips. exact NZ'.
  - apply (fits_gain f v v' q m c k); auto; try lra. apply recips. exact NZ'.
Qed.

(** Estimate without uncertainties. *)
Theorem C160_estimate_partial : forall solve inv mvn z runs0 (f H : vec) wgt v MCruns s s' c,
  exact_solve solve -> alen H = (alen f + alen f)%nat -> two_frequencies f -> s <> 0 -> s' <> 0 -> 0 < c ->
  plain_weights (alen f) wgt v -> (forall r, (r < alen f + alen f)%nat -> 0 < v r) ->
  (forall i, (i < alen f)%nat -> resp (alen f) H i <> C0) ->
  exists p p' (mu : nat -> R),
    fit_som solve inv mvn z runs0 f H SuNone wgt MCruns s = Ok (SomFit p None) /\
    fit_som solve inv mvn z runs0 f (in_units c H) SuNone wgt MCruns s' = Ok (SomFit p' None) /\
    fits_recip f v H mu /\
    (0 < mu 0%nat * mu 2%nat -> forall i, (i < 3)%nat -> p' i = gain_unit c i * p i).
Proof.
  intros solve inv mvn z runs0 f H wgt v MCruns s s' c S L F Hs Hs' Hc PW P NZ.
  destruct (C109_least_squares solve inv mvn z runs0 f H wgt v MCruns s S L F Hs PW P NZ) as (p & mu & E & _ & Fm & P0 & Pm).
  assert (NZ' : forall i, (i < alen f)%nat -> resp (alen f) (in_units c H) i <> C0) by (intros; apply nonzero_gain; auto; lra).
  destruct (C109_least_squares solve inv mvn z runs0 f (in_units c H) wgt v MCruns s' S L F Hs' PW P NZ')
    as (p' & nu & E' & _ & Fn & P0' & Pn).
  assert (U : forall j, (j < 3)%nat -> nu j = mu j / c).
  { apply (unique_gain f v v 1 c H mu nu); auto; try lra. intros; ring. }
  exists p, p', mu. split; [exact E|]. split; [exact E'|]. split; [exact Fm|].
  intros Pos i Hi. destruct (params_gain c mu nu Hc Pos U) as [Pos' K].
  rewrite Pm, Pn by auto. apply K. exact Hi.
Qed.
(** Monte Carlo: mean and covariance of the three parameters. *)
Theorem C160_monte_carlo_partial : forall solve inv mvn z runs0 runs (f H : vec) UH wgt v s s' d c,
  exact_solve solve -> alen H = (alen f + alen f)%nat -> two_frequencies f -> (2 <= runs)%nat -> s <> 0 -> s' <> 0 -> 0 < c ->
  som_drawn mvn z (alen f) H UH runs d ->
  som_drawn mvn z (alen f) (in_units c H) (unc_units c UH) runs (fun k => in_units c (d k)) ->
  weights_used (alen f) wgt d runs v -> (forall r, (r < alen f + alen f)%nat -> 0 < v r) ->
  (forall k i, (i < alen f)%nat -> resp (alen f) (d k) i <> C0) ->
  (forall k mu, fits_recip f v (d k) mu -> 0 < mu 0%nat * mu 2%nat) ->
  exists p U p' U',
    fit_som solve inv mvn z runs0 f H UH wgt (Some runs) s = Ok (SomFit p (Some (CovMat U))) /\
    fit_som solve inv mvn z runs0 f (in_units c H) (unc_units c UH) wgt (Some runs) s' = Ok (SomFit p' (Some (CovMat U'))) /\
    forall i, (i < 3)%nat -> p' i = gain_unit c i * p i /\
      forall j, (j < 3)%nat -> U' i j = gain_unit c i * gain_unit c j * U i j.
Proof.
  intros solve inv mvn z runs0 runs f H UH wgt v s s' d c S L F Hr Hs Hs' Hc D D' WU P NZ Pos.
  destruct (weights_gain (alen f) wgt d runs v c) as (v' & k & Hk & WU' & Ev); auto; try lra; try lia.
  assert (P' : forall r, (r < alen f + alen f)%nat -> 0 < v' r) by (intros; rewrite Ev; apply Rmult_lt_0_compat; auto).
  destruct (C109_monte_carlo solve inv mvn z runs0 runs f H UH wgt v s d S L F Hr Hs D WU P)
    as (p & U & mu & ps & E & _ & _ & _ & Ep & EU & K).
  destruct (C109_monte_carlo solve inv mvn z runs0 runs f (in_units c H) (unc_units c UH) wgt v' s' _ S L F Hr Hs' D' WU' P')
    as (p' & U' & nu & ps' & E' & _ & _ & _ & Ep' & EU' & K').
  assert (R : forall k i, (i < 3)%nat -> ps' k i = gain_unit c i * ps k i).
  { intros q i Hi. destruct (K q) as (Fm & _ & Km). destruct (K' q) as (Fn & _ & Kn).
    assert (U1 : forall j, (j < 3)%nat -> nu q j = mu q j / c) by (apply (unique_gain f v v' k c (d q)); auto).
    destruct (params_gain c (mu q) (nu q) Hc (Pos q _ Fm) U1) as [Pos' Q].
    pose proof (Pos q _ Fm) as Pk. rewrite Km, Kn by auto. apply Q. exact Hi. }
  assert (N : INR (length (seq 0 runs)) <> 0) by (rewrite seq_length; apply not_0_INR; lia).
  assert (A : forall i, (i < 3)%nat -> avg (fun k => ps' k i) (seq 0 runs) = gain_unit c i * avg (fun k => ps k i) (seq 0 runs)).
  { intros i Hi. unfold avg. rewrite (tot_ext _ (fun k => gain_unit c i * ps k i)) by (intros; apply R; exact Hi).
    rewrite tot_scal. field. exact N. }
  exists p, U, p', U'. split; [exact E|]. split; [exact E'|]. intros i Hi. split.
  - rewrite Ep, Ep'. apply A. exact Hi.
  - intros j Hj. rewrite EU, EU'. unfold sample_cov, scatter. rewrite !A by auto.
    rewrite (tot_ext _ (fun k => gain_unit c i * gain_unit c j
      * ((ps k i - avg (fun k => ps k i) (seq 0 runs)) * (ps k j - avg (fun k => ps k j) (seq 0 runs))))).
    + rewrite tot_scal. unfold Rdiv. ring.
    + intros q _. rewrite !R by auto. ring.
Qed.
(** Linear propagation: gain and resonance frequency. *)
Theorem C160_linear_partial : forall solve inv mvn z runs0 (f H : vec) UH wgt v s s' d c,
  exact_solve solve -> exact_inv inv -> alen H = (alen f + alen f)%nat -> two_frequencies f -> (2 <= runs0)%nat -> 0 < c ->
  (forall i, (i < alen f)%nat -> resp (alen f) H i <> C0) ->
  som_drawn mvn z (alen f) H UH runs0 d ->
  som_drawn mvn z (alen f) (in_units c H) (unc_units c UH) runs0 (fun k => in_units c (d k)) ->
  weights_used (alen f) wgt d runs0 v -> (forall r, (r < alen f + alen f)%nat -> 0 < v r) ->
  (forall k i, (i < alen f)%nat -> resp (alen f) (d k) i <> C0) ->
  (forall mu, fits_recip f v H mu -> 0 < mu 0%nat * mu 2%nat) ->
  exists p U p' U',
    fit_som solve inv mvn z runs0 f H UH wgt None s = Ok (SomFit p (Some (CovMat U))) /\
    fit_som solve inv mvn z runs0 f (in_units c H) (unc_units c UH) wgt None s' = Ok (SomFit p' (Some (CovMat U'))) /\
    (forall i, (i < 3)%nat -> p' i = gain_unit c i * p i) /\
    (forall i j, (i = 0 \/ i = 2)%nat -> (j = 0 \/ j = 2)%nat -> U' i j = gain_unit c i * gain_unit c j * U i j) /\
    c * U' 1%nat 1%nat = U 1%nat 1%nat.
Proof.
  intros solve inv mvn z runs0 f H UH wgt v s s' d c S V L F Hr Hc NZ D D' WU P NZd Pos.
  destruct (weights_gain (alen f) wgt d runs0 v c) as (v' & k & Hk & WU' & Ev); auto; try lra; try lia.
  assert (P' : forall r, (r < alen f + alen f)%nat -> 0 < v' r) by (intros; rewrite Ev; apply Rmult_lt_0_compat; auto).
  assert (NZ' : forall i, (i < alen f)%nat -> resp (alen f) (in_units c H) i <> C0) by (intros; apply nonzero_gain; auto; lra).
  destruct (linear_path solve inv mvn z runs0 f H UH wgt v s d S V L F Hr NZ D WU P)
    as (mu & U & fits & Lm & E & _ & Fm & Fk & _ & _ & EU).
  destruct (linear_path solve inv mvn z runs0 f (in_units c H) (unc_units c UH) wgt v' s' _ S V L F Hr NZ' D' WU' P')
    as (nu & U' & fits' & Ln & E' & _ & Fn & Fk' & _ & _ & EU').
  assert (U0 : forall j, (j < 3)%nat -> nu j = mu j / c) by (apply (unique_gain f v v' k c H); auto).
  pose proof (Pos _ Fm) as Pm.
  destruct (params_gain c mu nu Hc Pm U0) as [Pos' Q].
  assert (G : forall a, (a < 3)%nat -> forall q, fits' q a = / c * fits q a).
  { intros a Ha q. rewrite (unique_gain f v v' k c (d q) (fits q) (fits' q) F Hc Hk P (fun r _ => Ev r) (NZd q) (Fk q) (Fk' q) a Ha).
    unfold Rdiv. ring. }
  assert (SC : forall a b, (a < 3)%nat -> (b < 3)%nat ->
    sample_cov (fun k => fits' k a) (fun k => fits' k b) (seq 0 runs0)
    = (/ c) ^ 2 * sample_cov (fun k => fits k a) (fun k => fits k b) (seq 0 runs0)).
  { intros a b Ha Hb. rewrite <- cov_gain by lia. apply sample_cov_ext; intros; apply G; auto. }
  assert (N0 : mu 0%nat <> 0) by (intros Z; rewrite Z in Pm; lra).
  assert (N2 : mu 2%nat <> 0) by (intros Z; rewrite Z in Pm; lra).
  assert (Ic : 0 < / c) by (apply Rinv_0_lt_compat; exact Hc).
  exists (som_pars mu), U, (som_pars nu), U'. split; [exact E|]. split; [exact E'|]. split; [|split].
  - intros i Hi. rewrite (pars_params mu mu), (pars_params nu nu) by auto. apply Q. exact Hi.
  - assert (CM : forall i a, (i = 0 \/ i = 2)%nat -> (a < 3)%nat -> som_C nu i a = c * gain_unit c i * som_C mu i a).
    { intros i a Hi Ha. rewrite !C_rows by auto.
      assert (SQ : nu 0%nat / nu 2%nat = mu 0%nat / mu 2%nat) by (rewrite !U0 by lia; field; split; auto; lra).
      pose proof (quot_pos _ _ Pm) as Q'. assert (Pi := PI_RGT_0).
      assert (NS : sqrt (mu 0%nat / mu 2%nat) <> 0) by (apply Rgt_not_eq, sqrt_lt_R0; exact Q').
      destruct Hi as [-> | ->]; destruct a as [|[|[|a]]]; try lia; cbn [true_J gain_unit Nat.eqb];
        rewrite ?SQ, ?U0 by lia; field; repeat split; auto; lra. }
    intros i j Hi Hj. rewrite EU, EU' by lia.
    rewrite <- !rsum_scal. apply rsum_ext. intros a Ha. rewrite <- rsum_scal. apply rsum_ext. intros b Hb.
    rewrite SC by auto. rewrite !CM by auto. field. lra.
  - assert (CD : forall a, (a < 3)%nat -> som_C nu 1%nat a = sqrt c * som_C mu 1%nat a).
    { intros a Ha. assert (SM : 0 < Rabs (mu 0%nat + mu 2%nat)) by (apply Rabs_pos_lt; intros Z; nra).
      assert (X : Rabs (nu 0%nat + nu 2%nat) = / c * Rabs (mu 0%nat + mu 2%nat)).
      { rewrite !U0 by lia. replace (mu 0%nat / c + mu 2%nat / c) with (/ c * (mu 0%nat + mu 2%nat)) by (field; lra).
        rewrite Rabs_mult, (Rabs_pos_eq (/ c)) by lra. reflexivity. }
      assert (Sc : sqrt c * sqrt c = c) by (apply sqrt_sqrt; lra).
      assert (Sp : 0 < sqrt c) by (apply sqrt_lt_R0; exact Hc).
      assert (Y : sqrt (/ c * Rabs (mu 0%nat + mu 2%nat)) = sqrt (Rabs (mu 0%nat + mu 2%nat)) / sqrt c).
      { rewrite sqrt_mult by lra. rewrite sqrt_inv. unfold Rdiv. ring. }
      assert (NS : 0 < sqrt (Rabs (mu 0%nat + mu 2%nat))) by (apply sqrt_lt_R0; exact SM).
      destruct a as [|[|[|a]]]; try lia; unfold som_C; cbn [of_rows mget nth Nat.add]; rewrite X, Y, ?U0 by lia;
        set (r := sqrt c) in *; try rewrite <- Sc; field; repeat split; lra. }
    rewrite EU, EU' by lia. rewrite <- !rsum_scal. apply rsum_ext. intros a Ha. rewrite <- !rsum_scal. apply rsum_ext. intros b Hb.
    rewrite SC by auto. rewrite !CD by auto.
    replace (sqrt c * som_C mu 1%nat a * ((/ c) ^ 2 * sample_cov (fun k => fits k a) (fun k => fits k b) (seq 0 runs0)) * (sqrt c * som_C mu 1%nat b))
      with ((sqrt c * sqrt c) * (/ c) ^ 2 * (som_C mu 1%nat a * sample_cov (fun k => fits k a) (fun k => fits k b) (seq 0 runs0) * som_C mu 1%nat b)) by ring.
    rewrite sqrt_sqrt by lra. field. lra.
Qed.

(** Partial: the full statement has U' i j = gain_unit c i * gain_unit c j * U i j for all i, j < 3.
    Missing: the damping, whose variance is divided by c; given in another unit of the response
    (c = 2) the same data give half of it. *)
Lemma case77_nonzero i : (i < alen f12)%nat -> resp (alen f12) (H12 1) i <> C0.
Proof. intros Hi. eapply response_nonzero; [|apply (H12_response 1 i); auto]; lra. Qed.
Lemma case77_P : forall r, (r < alen f12 + alen f12)%nat -> 0 < (fun _ : nat => 1) r.
Proof. intros; lra. Qed.
Lemma case77_W : weights_used (alen f12) SwNone d77 2 (fun _ => 1).
Proof. left; cbn; auto. Qed.
Lemma case77_pos mu : fits_recip f12 (fun _ => 1) (H12 1) mu -> 0 < mu 0%nat * mu 2%nat.
Proof.
  intros Fm. rewrite <- d12_H in Fm.
  pose proof (d12_fit 1 (fun _ => 1) mu ltac:(lra) case77_P Fm) as Hf. rewrite !Hf by lia. cbn. lra.
Qed.
Lemma case77_posk k mu : fits_recip f12 (fun _ => 1) (d77 k) mu -> 0 < mu 0%nat * mu 2%nat.
Proof.
  intros Fm.
  assert (Hf : forall j, (j < 3)%nat -> mu j = if (j =? 1)%nat then match k with O => 3/2 | _ => /2 end else 1).
  { apply (d12_fit (match k with O => 3/2 | _ => /2 end) (fun _ => 1)); [destruct k; lra|apply case77_P|exact Fm]. }
  rewrite !Hf by lia. cbn. lra.
Qed.
Lemma case77_var solve inv mvn : exact_solve solve -> exact_inv inv ->
  exists p U, fit_som solve inv mvn z77 2 f12 (H12 1) (SuStd ones4) SwNone None 1 = Ok (SomFit p (Some (CovMat U))) /\ U 1%nat 1%nat = / 4.
Proof.
  intros S V.
  destruct (linear_path solve inv mvn z77 2 f12 (H12 1) (SuStd ones4) SwNone (fun _ => 1) 1 d77 S V eq_refl f12_two ltac:(lia)
    case77_nonzero (drawn77 mvn 2) case77_W case77_P) as (mu & U & fits & _ & E & _ & Fm & Fk & _ & _ & EU).
  assert (Hm : forall j, (j < 3)%nat -> mu j = 1).
  { rewrite <- d12_H in Fm. intros j Hj. rewrite (d12_fit 1 (fun _ => 1) mu ltac:(lra) case77_P Fm j Hj). destruct (j =? 1)%nat; auto. }
  set (t := fun k : nat => match k with O => 3/2 | _ => /2 end).
  assert (Hf : forall k j, (j < 3)%nat -> fits k j = if (j =? 1)%nat then t k else 1).
  { intros k. apply (d12_fit (t k) (fun _ => 1)); [unfold t; destruct k; lra|apply case77_P|apply Fk]. }
  assert (Sc : forall a b, (a < 3)%nat -> (b < 3)%nat -> sample_cov (fun k => fits k a) (fun k => fits k b) (seq 0 2) =
    if ((a =? 1)%nat && (b =? 1)%nat)%bool then / 2 else 0).
  { intros a b Ha Hb.
    rewrite (sample_cov_ext _ (fun k => if (a =? 1)%nat then t k else 1) _ (fun k => if (b =? 1)%nat then t k else 1)) by (intros; auto).
    unfold sample_cov, scatter, avg. cbn [seq tot length INR].
    destruct (a =? 1)%nat; destruct (b =? 1)%nat; cbn; field; lra. }
  exists (som_pars mu), U. split; [exact E|].
  rewrite EU by lia. cbn [rsum]. rewrite !Sc by lia. cbn -[sqrt Rabs PI]. rewrite !Hm by lia.
  replace (1 + 1) with 2 by ring. rewrite (Rabs_pos_eq 2) by lra.
  assert (Q : / sqrt 2 * / sqrt 2 = / 2) by (rewrite <- Rinv_mult, sqrt_sqrt by lra; auto).
  transitivity (/ 2 * (/ sqrt 2 * / sqrt 2)); [unfold Rdiv; ring|rewrite Q; field].
Qed.
Theorem C160_damping_refuted : exists z (f H : vec) s d, alen H = (alen f + alen f)%nat /\ two_frequencies f /\
  (forall mvn, som_drawn mvn z (alen f) H (SuStd s) 2 d) /\
  forall solve inv mvn, exact_solve solve -> exact_inv inv ->
  exists p U p' U',
    fit_som solve inv mvn z 2 f H (SuStd s) SwNone None 1 = Ok (SomFit p (Some (CovMat U))) /\
    fit_som solve inv mvn z 2 f (in_units 2 H) (SuStd (in_units 2 s)) SwNone None 1 = Ok (SomFit p' (Some (CovMat U'))) /\
    p' 1%nat = p 1%nat /\ U 1%nat 1%nat = / 4 /\ U' 1%nat 1%nat = / 8.
Proof.
  exists z77, f12, (H12 1), ones4, d77.
  split; [reflexivity|]. split; [apply f12_two|]. split; [intros; apply drawn77|].
  intros solve inv mvn S V.
  destruct (case77_var solve inv mvn S V) as (p0 & U0 & E0 & V0).
  destruct (C160_linear_partial solve inv mvn z77 2 f12 (H12 1) (SuStd ones4) SwNone (fun _ => 1) 1 1 d77 2
    S V eq_refl f12_two ltac:(lia) ltac:(lra) case77_nonzero (drawn77 mvn 2)
    (drawn_gain mvn z77 (alen f12) (H12 1) ones4 2 d77 2 eq_refl (drawn77 mvn 2)) case77_W case77_P d77_nonzero case77_pos)
    as (p & U & p' & U' & E & E' & Kp & _ & KU).
  exists p, U, p', U'. split; [exact E|]. split; [exact E'|].
  rewrite E in E0. injection E0 as -> ->.
  split; [rewrite Kp by lia; cbn [gain_unit Nat.eqb]; ring|]. split; [exact V0|]. lra.
Qed.
(** The same data with a response in another unit (factor 2). *)
Example C160_example solve inv mvn : exact_solve solve -> exact_inv inv ->
  (exists p p', fit_som solve inv mvn z77 2 f12 (H12 1) SuNone SwNone None 1 = Ok (SomFit p None) /\
     fit_som solve inv mvn z77 2 f12 (in_units 2 (H12 1)) SuNone SwNone None (/ 10) = Ok (SomFit p' None) /\
     p' 0%nat = 2 * p 0%nat /\ p' 1%nat = p 1%nat /\ p' 2%nat = p 2%nat) /\
  (exists p U p' U',
    fit_som solve inv mvn z77 2 f12 (H12 1) (SuStd ones4) SwNone (Some 2%nat) 1 = Ok (SomFit p (Some (CovMat U))) /\
    fit_som solve inv mvn z77 2 f12 (in_units 2 (H12 1)) (SuStd (in_units 2 ones4)) SwNone (Some 2%nat) (/ 10) = Ok (SomFit p' (Some (CovMat U'))) /\
    p' 1%nat = p 1%nat /\ U' 1%nat 1%nat = U 1%nat 1%nat /\ U' 0%nat 1%nat = 2 * U 0%nat 1%nat).
Proof.
  intros S V. split.
  - destruct (C160_estimate_partial solve inv mvn z77 2 f12 (H12 1) SwNone (fun _ => 1) None 1 (/ 10) 2
      S eq_refl f12_two ltac:(lra) ltac:(lra) ltac:(lra) (fun r => eq_refl) case77_P case77_nonzero) as (p & p' & mu & E & E' & Fm & K).
    exists p, p'. split; [exact E|]. split; [exact E'|]. pose proof (case77_pos mu Fm) as Pm.
    rewrite !K by (auto; lia). cbn [gain_unit Nat.eqb]. repeat split; ring.
  - destruct (C160_monte_carlo_partial solve inv mvn z77 2 2 f12 (H12 1) (SuStd ones4) SwNone (fun _ => 1) 1 (/ 10) d77 2
      S eq_refl f12_two ltac:(lia) ltac:(lra) ltac:(lra) ltac:(lra) (drawn77 mvn 2)
      (drawn_gain mvn z77 (alen f12) (H12 1) ones4 2 d77 2 eq_refl (drawn77 mvn 2)) case77_W case77_P d77_nonzero case77_posk)
      as (p & U & p' & U' & E & E' & K).
    exists p, U, p', U'. split; [exact E|]. split; [exact E'|].
    destruct (K 0%nat ltac:(lia)) as [_ K0]. destruct (K 1%nat ltac:(lia)) as [-> K1].
    rewrite K0, K1 by lia. cbn [gain_unit Nat.eqb]. repeat split; ring.
Qed.
Print Assumptions C160_estimate_partial.
Print Assumptions C160_monte_carlo_partial.
Print Assumptions C160_linear_partial.
Print Assumptions C160_damping_refuted.
