(** Theorems on fit_som (fit_transfer.py) when the fitted mu_0 and mu_2 have opposite
    signs: C193. *)
From Coq Require Import Reals String List Arith Lra Lia.
From Verif Require Import Base Sums Cplx M_DFT M_FilterStuff M_MC M_Fit S_Poly S_Fit S_MC S_Jac S_Som P_Poly P_MC P_Deriv
  P_LinAlg P_Fit P_Fit2 P_Som T_Som.
Import ListNotations.
Local Notation length := Datatypes.length.
Open Scope R_scope.

(** Static gain, damping and resonance frequency from the magnitudes of mu_0 mu_2 and
    mu_0/mu_2, whatever their signs. *)
Definition mag_params (mu : nat -> R) (i : nat) : R :=
  match i with
  | O => / mu 0%nat
  | S O => mu 1%nat / sqrt (Rabs (mu 0%nat * mu 2%nat))
  | _ => sqrt (Rabs (mu 0%nat / mu 2%nat)) / (2 * PI)
  end.

Lemma pars_mag (mu : vec) i : (i < 3)%nat -> som_pars mu i = mag_params mu i.
Proof.
  intros Hi. assert (Pi := PI_RGT_0). destruct i as [|[|[|i]]]; [| | |lia]; cbn [som_pars of_list aget nth mag_params]; auto.
  - unfold Rdiv. ring.
  - field. lra.
Qed.
Lemma rescale_mag s (mu : vec) i : (i < 3)%nat -> som_pars (som_rescale s mu) i = mag_params (rescaled s mu) i.
Proof. intros Hi. rewrite pars_mag by auto. unfold mag_params. rewrite !rescale_eq. auto. Qed.

Definition mag_J (mu : nat -> R) (i p : nat) : R :=
  let m0 := mu 0%nat in let m1 := mu 1%nat in let m2 := mu 2%nat in
  match i, p with
  | 0%nat, 0%nat => - 1 / m0 ^ 2
  | 1%nat, 0%nat => - m1 / (2 * m0 * sqrt (Rabs (m0 * m2)))
  | 1%nat, 1%nat => 1 / sqrt (Rabs (m0 * m2))
  | 1%nat, 2%nat => - m1 / (2 * m2 * sqrt (Rabs (m0 * m2)))
  | 2%nat, 0%nat => sqrt (Rabs (m0 / m2)) / (4 * PI * m0)
  | 2%nat, 2%nat => - sqrt (Rabs (m0 / m2)) / (4 * PI * m2)
  | _, _ => 0
  end.
(** d sqrt|g| = sqrt|g| g'/(2 g) *)
Lemma dl_sqrt_abs g x a : g x <> 0 -> derivable_pt_lim g x a ->
  derivable_pt_lim (fun t => sqrt (Rabs (g t))) x (sqrt (Rabs (g x)) * a / (2 * g x)).
Proof.
  intros N D. apply (dl_ext (fun t => sqrt (sqrt (g t * g t)))).
  { intros t. f_equal. rewrite <- sqrt_Rsqr_abs. reflexivity. }
  assert (P : 0 < g x * g x) by nra.
  assert (E : sqrt (g x * g x) = Rabs (g x)) by (rewrite <- sqrt_Rsqr_abs; reflexivity).
  assert (A : 0 < Rabs (g x)) by (apply Rabs_pos_lt; auto).
  assert (A2 : Rabs (g x) * Rabs (g x) = g x * g x) by (rewrite <- Rabs_mult; apply Rabs_pos_eq; lra).
  assert (S : 0 < sqrt (Rabs (g x))) by (apply sqrt_lt_R0; auto).
  assert (S2 : sqrt (Rabs (g x)) * sqrt (Rabs (g x)) = Rabs (g x)) by (apply sqrt_sqrt; lra).
  eapply dl_eq.
  - apply dl_sqrt; [rewrite E; auto|]. apply dl_sqrt; [auto|]. apply dl_mult; eauto.
  - cbv beta. rewrite E. set (r := Rabs (g x)) in *. set (q := sqrt r) in *.
    transitivity (a * g x / (2 * (q * r))); [field; lra|].
    apply (Rmult_eq_reg_r (2 * (q * r) * g x)); [|assert (0 < q * r) by nra; nra].
    transitivity (a * (g x * g x)); [field; split; lra|].
    transitivity (a * (q * q) * r); [rewrite S2, <- A2; ring|field; auto].
Qed.
Lemma mag_jac (mu : nat -> R) : mu 0%nat <> 0 -> mu 2%nat <> 0 -> is_jac 3 3 mag_params mu (mag_J mu).
Proof.
  intros N0 N2 i p Hi Hp. assert (Pi := PI_RGT_0).
  assert (Nm : mu 0%nat * mu 2%nat <> 0) by (apply Rmult_integral_contrapositive; auto).
  assert (Nq : mu 0%nat / mu 2%nat <> 0) by (apply Rmult_integral_contrapositive; split; auto; apply Rinv_neq_0_compat; auto).
  assert (Sp : sqrt (Rabs (mu 0%nat * mu 2%nat)) <> 0) by (apply Rgt_not_eq, sqrt_lt_R0, Rabs_pos_lt; auto).
  assert (Sq : sqrt (Rabs (mu 0%nat / mu 2%nat)) <> 0) by (apply Rgt_not_eq, sqrt_lt_R0, Rabs_pos_lt; auto).
  destruct i as [|[|[|i]]]; [| | |lia]; (destruct p as [|[|[|p]]]; [| | |lia]); cbn [mag_params upd Nat.eqb mag_J];
    try (apply dl_const).
  - apply (dl_ext (fun t => 1 / t)); [intros; unfold Rdiv; ring|].
    eapply dl_eq; [apply dl_div; [auto|apply dl_const|apply dl_id]|]. cbv beta. field. auto.
  - eapply dl_eq; [apply dl_div; [auto|apply dl_const|apply (dl_sqrt_abs (fun t => t * mu 2%nat)); [auto|eapply dl_mult; [apply dl_id|apply dl_const]]]|].
    cbv beta. field. repeat split; auto.
  - eapply dl_eq; [apply dl_div; [auto|apply dl_id|apply dl_const]|]. cbv beta. field. auto.
  - eapply dl_eq; [apply dl_div; [auto|apply dl_const|apply (dl_sqrt_abs (fun t => mu 0%nat * t)); [auto|eapply dl_mult; [apply dl_const|apply dl_id]]]|].
    cbv beta. field. repeat split; auto.
  - eapply dl_eq; [apply dl_div; [|apply (dl_sqrt_abs (fun t => t / mu 2%nat)); [auto|apply dl_div; [auto|apply dl_id|apply dl_const]]|apply dl_const]|]; cbv beta; [lra|].
    field. repeat split; auto; lra.
  - eapply dl_eq; [apply dl_div; [|apply (dl_sqrt_abs (fun t => mu 0%nat / t)); [auto|apply dl_div; [auto|apply dl_const|apply dl_id]]|apply dl_const]|]; cbv beta; [lra|].
    field. repeat split; auto; lra.
Qed.
Lemma mag_unique (mu : nat -> R) J : mu 0%nat <> 0 -> mu 2%nat <> 0 -> is_jac 3 3 mag_params mu J ->
  forall i p, (i < 3)%nat -> (p < 3)%nat -> J i p = mag_J mu i p.
Proof.
  intros N0 N2 HJ i p Hi Hp.
  apply (uniqueness_limite (fun t => mag_params (upd mu p t) i) (mu p)); [apply HJ; lia|apply mag_jac; auto].
Qed.
(** Same sign (s = 1) or opposite signs (s = -1). *)
Lemma C_mag (mu : vec) s i p : mu 0%nat <> 0 -> mu 2%nat <> 0 -> Rabs (mu 0%nat / mu 2%nat) = s * (mu 0%nat / mu 2%nat) -> s * s = 1 ->
  (i = 0 \/ i = 2)%nat -> (p < 3)%nat ->
  som_C mu i p = (if (i =? 0)%nat then 1 else s) * mag_J mu i p.
Proof.
  intros N0 N2 Es S2 Hi Hp. assert (Pi := PI_RGT_0).
  assert (Nq : mu 0%nat / mu 2%nat <> 0) by (apply Rmult_integral_contrapositive; split; auto; apply Rinv_neq_0_compat; auto).
  assert (Q : 0 < sqrt (Rabs (mu 0%nat / mu 2%nat))) by (apply sqrt_lt_R0, Rabs_pos_lt; auto).
  assert (QQ : sqrt (Rabs (mu 0%nat / mu 2%nat)) * sqrt (Rabs (mu 0%nat / mu 2%nat)) = s * (mu 0%nat / mu 2%nat)).
  { rewrite sqrt_sqrt; [auto|apply Rabs_pos]. }
  destruct Hi as [-> | ->]; (destruct p as [|[|[|p]]]; [| | |lia]); cbn -[sqrt Rabs PI pow]; try ring;
    set (q := sqrt (Rabs (mu 0%nat / mu 2%nat))) in *.
  - apply (Rmult_eq_reg_r (q * (4 * PI * mu 0%nat))); [|apply Rmult_integral_contrapositive; split; [lra|apply Rmult_integral_contrapositive; split; [lra|auto]]].
    transitivity (mu 0%nat / mu 2%nat); [field; repeat split; auto; lra|].
    transitivity (s * (q * q)); [rewrite QQ, <- Rmult_assoc, S2; ring|field; repeat split; auto; lra].
  - apply (Rmult_eq_reg_r (q * (4 * PI * mu 2%nat))); [|apply Rmult_integral_contrapositive; split; [lra|apply Rmult_integral_contrapositive; split; [lra|auto]]].
    transitivity (- (mu 0%nat / mu 2%nat)); [field; repeat split; auto; lra|].
    transitivity (- (s * (q * q))); [rewrite QQ, <- Rmult_assoc, S2; ring|field; repeat split; auto; lra].
Qed.

(** The parameters are those of the magnitudes, and for S0 and f0 the variances are
    those of the linear propagation also when mu_0 and mu_2 have opposite signs.
    Partial: the full statement is U i j = linear propagation for i, j in {0, 2}.  Missing:
    the covariance of S0 and f0, which has the opposite sign (C193_sign_refuted). *)
Theorem C193_opposite_signs_partial solve inv mvn z runs0 (f H : vec) UH wgt v scaling d :
  exact_solve solve -> exact_inv inv -> alen H = (alen f + alen f)%nat -> two_frequencies f -> (2 <= runs0)%nat ->
  (forall i, (i < alen f)%nat -> resp (alen f) H i <> C0) ->
  som_drawn mvn z (alen f) H UH runs0 d -> weights_used (alen f) wgt d runs0 v ->
  (forall r, (r < alen f + alen f)%nat -> 0 < v r) ->
  exists p U (mu : nat -> R) (fits : nat -> nat -> R),
    fit_som solve inv mvn z runs0 f H UH wgt None scaling = Ok (SomFit p (Some (CovMat U))) /\ mrows U = 3%nat /\ mcols U = 3%nat /\
    fits_recip f v H mu /\ (forall k, fits_recip f v (d k) (fits k)) /\
    (forall i, (i < 3)%nat -> p i = mag_params mu i) /\
    (mu 0%nat * mu 2%nat < 0 -> forall J, is_jac 3 3 mag_params mu J ->
     let prop i j := rsum 3 (fun a => rsum 3 (fun b =>
        J i a * sample_cov (fun k => fits k a) (fun k => fits k b) (seq 0 runs0) * J j b)) in
     U 0%nat 0%nat = prop 0%nat 0%nat /\ U 2%nat 2%nat = prop 2%nat 2%nat /\
     U 0%nat 2%nat = - prop 0%nat 2%nat /\ U 2%nat 0%nat = - prop 2%nat 0%nat).
Proof.
  intros S V L F Hr NZ D WU P.
  destruct (linear_path solve inv mvn z runs0 f H UH wgt v scaling d S V L F Hr NZ D WU P)
    as [mu [U [fits [Lm [E1 [_ [Fm [Fk [R1 [R2 HU]]]]]]]]]].
  exists (som_pars mu), U, mu, fits. do 5 (split; auto). split; [intros; apply pars_mag; auto|]. intros P3 J HJ prop.
  assert (N0 : mu 0%nat <> 0) by (intros Z; rewrite Z in P3; lra).
  assert (N2 : mu 2%nat <> 0) by (intros Z; rewrite Z in P3; lra).
  assert (Qn : 0 < - mu 0%nat / mu 2%nat) by (apply quot_pos; lra).
  assert (Es : Rabs (mu 0%nat / mu 2%nat) = (-1) * (mu 0%nat / mu 2%nat)).
  { replace (- mu 0%nat / mu 2%nat) with (- (mu 0%nat / mu 2%nat)) in Qn by (field; auto).
    rewrite Rabs_left by lra. ring. }
  assert (G : forall i j, (i = 0 \/ i = 2)%nat -> (j = 0 \/ j = 2)%nat ->
    U i j = ((if (i =? 0)%nat then 1 else -1) * (if (j =? 0)%nat then 1 else -1)) * prop i j).
  { intros i j Hi Hj. rewrite HU by lia. unfold prop. rewrite <- rsum_scal. apply rsum_ext. intros a Ha.
    rewrite <- rsum_scal. apply rsum_ext. intros b Hb.
    rewrite (C_mag mu (-1) i a), (C_mag mu (-1) j b), !(mag_unique mu J N0 N2 HJ) by (auto; try lia; lra).
    destruct (i =? 0)%nat; destruct (j =? 0)%nat; ring. }
  repeat split; rewrite G by auto; cbn [Nat.eqb]; ring.
Qed.
Print Assumptions C193_opposite_signs_partial.

(** Draws with 1/H = a + w^2 + 2 i w at w = 1, 2: mu = (a, 1, -1). *)
Definition dneg (a : R) : vec :=
  of_list [(a + 1) / ((a + 1) ^ 2 + 4); (a + 4) / ((a + 4) ^ 2 + 16); -2 / ((a + 1) ^ 2 + 4); -4 / ((a + 4) ^ 2 + 16)].
Definition tneg (a : R) (i : nat) : C := match i with O => (a + 1, 2) | _ => (a + 4, 4) end.
Definition muneg (a : R) (j : nat) : R := match j with 0%nat => a | 1%nat => 1 | _ => -1 end.
Lemma dneg_recip a i : (i < alen f12)%nat -> cmul (resp (alen f12) (dneg a) i) (tneg a i) = C1.
Proof.
  intros Hi. assert (0 < (a + 1) ^ 2 + 4) by nra. assert (0 < (a + 4) ^ 2 + 16) by nra.
  destruct i as [|[|i]]; [| |cbn in Hi; lia]; unfold resp, C1; apply C_eq; cbn -[pow]; field; lra.
Qed.
Lemma tneg_exact a i : (i < alen f12)%nat -> tneg a i = som_recip (muneg a) (f12 i).
Proof.
  intros Hi. assert (Pi := PI_RGT_0).
  destruct i as [|[|i]]; [| |cbn in Hi; lia]; unfold som_recip; cbn [tneg f12 of_list aget nth muneg]; apply C_eq; cbn [fst snd]; field; lra.
Qed.
Lemma dneg_fit a v mu : (forall r, (r < alen f12 + alen f12)%nat -> 0 < v r) -> fits_recip f12 v (dneg a) mu ->
  forall j, (j < 3)%nat -> mu j = muneg a j.
Proof.
  intros P Fm. apply (recip_fits_unique f12 v (dneg a) (tneg a)); auto.
  - apply f12_two.
  - intros. apply dneg_recip; auto.
  - apply exact_fits; auto. apply tneg_exact.
Qed.
Lemma dneg_nonzero a i : (i < alen f12)%nat -> resp (alen f12) (dneg a) i <> C0.
Proof.
  intros Hi E. pose proof (dneg_recip a i Hi) as R1. rewrite E in R1.
  assert (K : fst (cmul C0 (tneg a i)) = 1) by (rewrite R1; auto). cbn in K. lra.
Qed.
Definition aneg (k : nat) : R := match k with O => 25 / 4 | _ => 9 / 4 end.
Definition zneg (k : nat) : vec := mkArr 4 (fun r => dneg (aneg k) r - dneg 4 r).
Lemma drawn_neg mvn runs : som_drawn mvn zneg (alen f12) (dneg 4) (SuStd ones4) runs (fun k => dneg (aneg k)).
Proof. split; [reflexivity|]. intros k r Hr. unfold zneg, ones4. cbn [aget]. ring. Qed.

(** Two draws around mu = (4, 1, -1): S0 falls and f0 rises with mu_0, their covariance
    is negative, and Monte Carlo on the same draws says so; the linear propagation
    returns the positive number. *)
Theorem C193_sign_refuted :
  exists z (f H : vec) UH (v : nat -> R) d, alen H = (alen f + alen f)%nat /\ two_frequencies f /\
    (forall mvn, som_drawn mvn z (alen f) H UH 2 d) /\ (forall r, v r = 1) /\
    forall solve inv mvn, exact_solve solve -> exact_inv inv ->
    exists p U p' U' (mu : nat -> R) (fits : nat -> nat -> R),
      fit_som solve inv mvn z 2 f H UH SwNone None 1 = Ok (SomFit p (Some (CovMat U))) /\
      fits_recip f v H mu /\ (forall k, fits_recip f v (d k) (fits k)) /\ mu 0%nat * mu 2%nat < 0 /\
      p 0%nat = / 4 /\ p 2%nat = / PI /\
      (exists J, is_jac 3 3 mag_params mu J /\
        rsum 3 (fun a => rsum 3 (fun b =>
          J 0%nat a * sample_cov (fun k => fits k a) (fun k => fits k b) (seq 0 2) * J 2%nat b)) = - / (16 * PI)) /\
      U 0%nat 2%nat = / (16 * PI) /\
      fit_som solve inv mvn z 2 f H UH SwNone (Some 2%nat) 1 = Ok (SomFit p' (Some (CovMat U'))) /\
      U' 0%nat 2%nat = - (16 / 225) / PI.
Proof.
  exists zneg, f12, (dneg 4), (SuStd ones4), (fun _ => 1), (fun k => dneg (aneg k)).
  split; [reflexivity|]. split; [apply f12_two|]. split; [intros; apply drawn_neg|]. split; [auto|].
  intros solve inv mvn S V. assert (Pi := PI_RGT_0).
  assert (P : forall r, (r < alen f12 + alen f12)%nat -> 0 < 1) by (intros; lra).
  assert (W : weights_used (alen f12) SwNone (fun k => dneg (aneg k)) 2 (fun _ => 1)) by (left; cbn; auto).
  destruct (C193_opposite_signs_partial solve inv mvn zneg 2 f12 (dneg 4) (SuStd ones4) SwNone (fun _ => 1) 1
    (fun k => dneg (aneg k)) S V eq_refl f12_two ltac:(lia) (dneg_nonzero 4) (drawn_neg mvn 2) W P)
    as [p [U [mu [fits [E1 [_ [_ [Fm [Fk [Hp HU]]]]]]]]]].
  destruct (mc_path solve inv mvn zneg 2 2 f12 (dneg 4) (SuStd ones4) SwNone (fun _ => 1) 1 (fun k => dneg (aneg k)) S eq_refl f12_two ltac:(lia) ltac:(lra) (drawn_neg mvn 2) W P)
    as [p' [U' [mus [E2 [_ [_ [_ [_ [HU' Hk]]]]]]]]].
  assert (Hm := dneg_fit 4 (fun _ => 1) mu P Fm).
  assert (Hf : forall k j, (j < 3)%nat -> fits k j = muneg (aneg k) j).
  { intros k. apply (dneg_fit (aneg k) (fun _ => 1)); [auto|apply Fk]. }
  assert (Hfm : forall k j, (j < 3)%nat -> rescaled 1 (mus k) j = muneg (aneg k) j).
  { intros k. destruct (Hk k) as [F1 _]. apply (dneg_fit (aneg k) (fun _ => 1)); [auto|apply F1]. }
  assert (Sc : forall a b, (a < 3)%nat -> (b < 3)%nat -> sample_cov (fun k => fits k a) (fun k => fits k b) (seq 0 2) =
    if ((a =? 0)%nat && (b =? 0)%nat)%bool then 8 else 0).
  { intros a b Ha Hb.
    rewrite (sample_cov_ext _ (fun k => muneg (aneg k) a) _ (fun k => muneg (aneg k) b)) by (intros; auto).
    unfold sample_cov, scatter, avg. cbn [seq tot length INR].
    destruct a as [|[|a]]; destruct b as [|[|b]]; cbn; field. }
  assert (P3 : mu 0%nat * mu 2%nat < 0) by (rewrite !Hm by lia; cbn; lra).
  assert (M1 : sqrt (Rabs (4 / -1)) = 2) by (replace (Rabs (4 / -1)) with (2 * 2) by (rewrite Rabs_left; lra); apply sqrt_square; lra).
  assert (J1 : is_jac 3 3 mag_params mu (mag_J mu)) by (apply mag_jac; rewrite Hm by lia; cbn; lra).
  assert (Pr : rsum 3 (fun a => rsum 3 (fun b =>
          mag_J mu 0%nat a * sample_cov (fun k => fits k a) (fun k => fits k b) (seq 0 2) * mag_J mu 2%nat b)) = - / (16 * PI)).
  { cbn [rsum]. rewrite !Sc by lia. cbn [Nat.eqb andb mag_J]. rewrite !Hm by lia. cbn [muneg].
    rewrite M1. field. lra. }
  exists p, U, p', U', mu, fits. do 4 (split; auto).
  split; [rewrite Hp by lia; cbn [mag_params]; rewrite Hm by lia; cbn; field|].
  split; [rewrite Hp by lia; cbn [mag_params]; rewrite !Hm by lia; cbn [muneg]; rewrite M1; field; lra|].
  split; [exists (mag_J mu); auto|]. split; [|split; auto].
  - destruct (HU P3 (mag_J mu) J1) as [_ [_ [U02 _]]]. rewrite U02, Pr. ring.
  - rewrite HU'.
    rewrite (sample_cov_ext _ (fun k => match k with O => 4 / 25 | _ => 4 / 9 end) _ (fun k => match k with O => 5 / 2 / (2 * PI) | _ => 3 / 2 / (2 * PI) end)).
    + unfold sample_cov, scatter, avg. cbn. field. lra.
    + intros k _. rewrite rescale_mag by lia. cbn [mag_params]. rewrite Hfm by lia. destruct k; cbn; field.
    + intros k _. rewrite rescale_mag by lia. cbn [mag_params]. rewrite !Hfm by lia. destruct k; cbn [muneg aneg].
      * replace (Rabs (25 / 4 / -1)) with (5 / 2 * (5 / 2)) by (rewrite Rabs_left; lra). rewrite sqrt_square by lra. auto.
      * replace (Rabs (9 / 4 / -1)) with (3 / 2 * (3 / 2)) by (rewrite Rabs_left; lra). rewrite sqrt_square by lra. auto.
Qed.
Print Assumptions C193_sign_refuted.
