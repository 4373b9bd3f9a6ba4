(** Theorems C118 (DFT_transferfunction), C119 (the argument noise of the test signals)
    and the width of GaussianPulse (C65).  Models: M_DFT.v, M_Noise.v. *)
From Coq Require Import Reals List Arith ZArith Bool Lia Lra.
From Verif Require Import Base Sums Stats StatsFacts Cplx M_DFT S_Jac S_DFT P_Jac P_DFT P_Deconv T_AmpPhase.
From Verif Require M_Interp M_Noise S_Noise P_Interp P_Signals.
Import ListNotations.
Open Scope R_scope.

(** ** C118.  An input spectrum X (without vanishing lines) passed through the system H
    gives Y = X H; the transfer function estimated from X and Y is H.  When X is exactly
    known, the covariance of H comes back as well. *)
Theorem C118_recovers_system : forall (X H : vec) UX UH h,
  alen X = (2 * h)%nat -> alen H = (2 * h)%nat ->
  mrows UH = (2 * h)%nat -> mcols UH = (2 * h)%nat -> symm (2 * h) (fun i j => UH i j) ->
  matrix_or_vector UX -> ap_fits (2 * h) UX -> symm (2 * h) (ap_U UX) ->
  (forall k, (k < h)%nat -> X k ^ 2 + X (h + k)%nat ^ 2 <> 0) ->
  exists Y UY H' UH', DFT_multiply H X (SuMat UH) None = Ok (Y, UY) /\
    DFT_transferfunction X Y UX (ApMat UY) = Ok (H', UH') /\ alen H' = (2 * h)%nat /\
    (forall i, (i < 2 * h)%nat -> H' i = H i) /\
    ((forall i j, (i < 2 * h)%nat -> (j < 2 * h)%nat -> ap_U UX i j = 0) ->
     forall i j, (i < 2 * h)%nat -> (j < 2 * h)%nat -> UH' i j = UH i j).
Proof. intros. apply C36_deconv_inverts_multiply; assumption. Qed.
(** For arbitrary spectra: the quotient Y/X, and, when X is exactly known, the covariance
    of Y propagated through the division by X. *)
Theorem C118_quotient : forall (X Y : vec) UX UY h,
  alen X = (2 * h)%nat -> alen Y = (2 * h)%nat -> matrix_or_vector UX ->
  ap_fits (2 * h) UX -> ap_fits (2 * h) UY -> symm (2 * h) (ap_U UX) -> symm (2 * h) (ap_U UY) ->
  (forall k, (k < h)%nat -> X k ^ 2 + X (h + k)%nat ^ 2 <> 0) ->
  exists H UH, DFT_transferfunction X Y UX UY = Ok (H, UH) /\ alen H = (2 * h)%nat /\
    mrows UH = (2 * h)%nat /\ mcols UH = (2 * h)%nat /\ is_quot h Y X H /\
    ((forall i j, (i < 2 * h)%nat -> (j < 2 * h)%nat -> ap_U UX i j = 0) ->
     exists J, is_jac (2 * h) (2 * h) (fun s => cdiv_map h s X) Y J /\
     forall i j, (i < 2 * h)%nat -> (j < 2 * h)%nat ->
       UH i j = sandwich (2 * h) J (ap_U UY) J i j).
Proof.
  intros X Y UX UY h HX HY Hm F1 F2 S1 S2 Hz.
  destruct (C37_deconv_partial X Y UX UY h HX HY Hm F1 F2 S1 S2 Hz)
    as (H & UH & E & L & R1 & C1 & _ & Q & (JY & JH & HJY & HJH) & _ & V).
  exists H, UH. repeat (split; [assumption|]). intros H0. exists JY. split; [exact HJY|].
  intros i j Hi Hj. rewrite (V JY JH HJY HJH i j Hi Hj) by (right; right; exact H0).
  replace (sandwich (2 * h) JH (ap_U UX) JH i j) with 0; [ring|]. symmetry. unfold sandwich.
  transitivity (rsum (2 * h) (fun _ => 0)); [|apply rsum_zero; reflexivity].
  apply rsum_ext. intros a Ha. transitivity (rsum (2 * h) (fun _ => 0)); [|apply rsum_zero; reflexivity].
  apply rsum_ext. intros b Hb. rewrite (H0 a b Ha Hb). ring.
Qed.
(** Spectra or covariances of other sizes are rejected, a sparse UX is a TypeError. *)
Theorem C118_errors : forall X Y UX UY,
  (matrix_or_vector UX -> alen X <> alen Y \/ ~ ap_fits (alen X) UX \/ ~ ap_fits (alen Y) UY ->
   DFT_transferfunction X Y UX UY = Err ValueError) /\
  (forall d, alen X = alen Y -> DFT_transferfunction X Y (ApDia d) UY = Err TypeError).
Proof.
  intros. split; [intros; apply C37_deconv_shape_errors; assumption|].
  intros. apply C37_deconv_sparse_UH_fails; assumption.
Qed.
(** X = 1 + 2i, H = 3 + 4i. *)
Example C118_example : exists Y UY H' UH',
  DFT_multiply (of_list [3; 4]) (of_list [1; 2]) (SuMat (of_rows [[1; 0]; [0; 2]])) None = Ok (Y, UY) /\
  DFT_transferfunction (of_list [1; 2]) Y (ap_zero 2) (ApMat UY) = Ok (H', UH') /\
  H' 0%nat = 3 /\ H' 1%nat = 4 /\ UH' 1%nat 1%nat = 2.
Proof.
  destruct (C118_recovers_system (of_list [1; 2]) (of_list [3; 4]) (ap_zero 2) (of_rows [[1; 0]; [0; 2]]) 1)
    as (Y & UY & H' & UH' & E1 & E2 & _ & HX & HU); simpl; auto.
  { intros [|[|i]] [|[|j]] Hi Hj; try lia; reflexivity. }
  { intros i j _ _. reflexivity. }
  { intros [|k] Hk; [|lia]. simpl. lra. }
  exists Y, UY, H', UH'. split; [exact E1|]. split; [exact E2|]. rewrite !HX, HU by (lia || reflexivity). repeat split; reflexivity.
Qed.

Import M_Interp M_Noise S_Noise P_Interp P_Signals.

(** ** C65, width: at a distance of sigma from t0 the pulse has the height m0/sqrt(e),
    and only there. *)
Theorem C65_width : forall (time : vec) t0 m0 sigma noise z, noise <= 0 -> 0 < m0 -> sigma <> 0 ->
  forall i, GaussianPulse time t0 m0 sigma noise z i = m0 / sqrt (exp 1) <-> Rabs (time i - t0) = Rabs sigma.
Proof.
  intros time t0 m0 sigma noise z Hn Hm Hs i. cbn [GaussianPulse aget].
  destruct (rltb 0 noise) eqn:E; [apply rltb_true in E; lra|]. rewrite Rplus_0_r. unfold pulse_at.
  assert (S2 : 0 < sigma ^ 2) by (assert (K := Rsqr_pos_lt sigma Hs); unfold Rsqr in K; lra).
  assert (Q : m0 / sqrt (exp 1) = m0 * exp (- (1 / 2))).
  { unfold Rdiv at 1. f_equal. rewrite exp_Ropp. f_equal.
    assert (G : exp 1 = exp (1 / 2) * exp (1 / 2)) by (rewrite <- exp_plus; f_equal; lra).
    rewrite G. apply sqrt_square, Rlt_le, exp_pos. }
  rewrite Q. assert (I : Rabs (time i - t0) = Rabs sigma <-> (time i - t0) ^ 2 = sigma ^ 2).
  { rewrite <- (pow2_abs (time i - t0)), <- (pow2_abs sigma).
    pose proof (Rabs_pos (time i - t0)). pose proof (Rabs_pos sigma). split; intros K; [now rewrite K|nra]. }
  rewrite I. split.
  - intros H. apply Rmult_eq_reg_l in H; [|lra]. apply exp_inv in H.
    assert (K : (time i - t0) ^ 2 / (2 * sigma ^ 2) * (2 * sigma ^ 2) = (time i - t0) ^ 2) by (field; auto).
    assert (K2 : (time i - t0) ^ 2 / (2 * sigma ^ 2) = 1 / 2).
    { replace (- (time i - t0) ^ 2 / (2 * sigma ^ 2)) with (- ((time i - t0) ^ 2 / (2 * sigma ^ 2))) in H by (field; auto). lra. }
    rewrite K2 in K. lra.
  - intros ->. f_equal. f_equal. field. auto.
Qed.
Example C65_width_example :
  GaussianPulse (of_list [0; 1]) 2 3 2 0 (of_list []) 0%nat = 3 / sqrt (exp 1) /\
  GaussianPulse (of_list [0; 1]) 2 3 2 0 (of_list []) 1%nat <> 3 / sqrt (exp 1).
Proof.
  split.
  - apply C65_width; try lra. cbn. rewrite (Rabs_left (0 - 2)), (Rabs_pos_eq 2) by lra. ring.
  - intros K. apply C65_width in K; try lra. cbn in K. rewrite (Rabs_left (1 - 2)), (Rabs_pos_eq 2) in K by lra. lra.
Qed.

(** ** C119.  Full statement: noise is the standard deviation of the simulated noise
    ("std of simulated signal noise"): for white z with mean zero and unit variance
    the signal has the noise-free signal as mean and the covariance noise^2 I. *)
Definition std_white (n : nat) (d : dist (nat -> R)) : Prop :=
  is_prob d /\ has_mean n d (fun _ => 0) /\ has_cov n d delta.
Definition noise_std (n : nat) (s : R) (clean : vec) (x : (nat -> R) -> vec) : Prop :=
  (forall z, alen (x z) = n) /\
  forall d, std_white n d -> forall i j, (i < n)%nat -> (j < n)%nat ->
    Ex d (fun z => x z i) = clean i /\
    Cov d (fun z => x z i) (fun z => x z j) = if (i =? j)%nat then s ^ 2 else 0.

Lemma additive_noise n s c (clean : vec) (x : (nat -> R) -> vec) : (forall z, alen (x z) = n) ->
  (forall z i, (i < n)%nat -> x z i = clean i + z i * c) -> c ^ 2 = s ^ 2 -> noise_std n s clean x.
Proof.
  intros L H E. split; [exact L|]. intros d (Hp & Hm & Hc) i j Hi Hj.
  assert (M : forall k, (k < n)%nat -> Ex d (fun z => x z k) = clean k).
  { intros k Hk. rewrite (Ex_ext d _ (fun z => clean k + z k * c)) by (intros z; apply H; auto).
    rewrite Ex_plus, (Ex_const d _ Hp), Ex_scal_r, (Hm k Hk). ring. }
  split; [apply M; auto|].
  transitivity (c ^ 2 * Cov d (fun z => z i) (fun z => z j)).
  - unfold Cov. rewrite !M by auto. rewrite <- Ex_scal. apply Ex_ext. intros z.
    rewrite !H by auto. rewrite (Hm i Hi), (Hm j Hj). ring.
  - rewrite (Hc i j Hi Hj), E. unfold delta. destruct (i =? j)%nat; ring.
Qed.

(** z = +-1 with probability 1/2 each. *)
Definition coin : dist (nat -> R) := [(1 / 2, fun _ => 1); (1 / 2, fun _ => -1)].
Lemma coin_white : std_white 1 coin.
Proof.
  split; [split|split].
  - intros p a [K|[K|[]]]; injection K as <- _; lra.
  - cbn. lra.
  - intros i _. cbn. lra.
  - intros [|i] [|j] Hi Hj; try lia. unfold Cov, delta. cbn. lra.
Qed.
(** multi_sine scales the noise by noise^2: its standard deviation is noise^2. *)
Theorem C119_multi_sine_refuted : exists (time : vec) amps freqs noise, 0 < noise /\
  ~ noise_std (alen time) noise (multi_sine time amps freqs 0 (mkArr (alen time) (fun _ => 0)))
      (fun z => multi_sine time amps freqs noise (mkArr (alen time) z)).
Proof.
  exists (of_list [0]), [1], [1], 2. split; [lra|]. intros [_ H].
  destruct (H coin coin_white 0%nat 0%nat) as [_ K]; [cbn; lia|cbn; lia|]. unfold Cov in K. cbn in K. lra.
Qed.
Theorem C119_multi_sine_partial : forall (time : vec) amps freqs noise,
  noise_std (alen time) (noise ^ 2) (multi_sine time amps freqs 0 (mkArr (alen time) (fun _ => 0)))
    (fun z => multi_sine time amps freqs noise (mkArr (alen time) z)).
Proof.
  intros. apply (additive_noise _ _ (noise ^ 2)); [reflexivity| |reflexivity].
  intros z i Hi. cbn [multi_sine aget]. ring.
Qed.
(** All the other signals do what is documented. *)
Theorem C119_std_partial : forall (time : vec) noise, 0 < noise ->
  let n := alen time in let clean := mkArr n (fun _ => 0) in
  (forall t0 m0 sigma, noise_std n noise (GaussianPulse time t0 m0 sigma 0 clean)
     (fun z => GaussianPulse time t0 m0 sigma noise (mkArr n z))) /\
  (forall t0 m0 sigma, noise_std n noise (shocklikeGaussian time t0 m0 sigma 0 clean)
     (fun z => shocklikeGaussian time t0 m0 sigma noise (mkArr n z))) /\
  (forall t0 t1 height, exists x0 x, rect time t0 t1 height (RnFloat 0) clean = Ok x0 /\
     (forall z, rect time t0 t1 height (RnFloat noise) (mkArr n z) = Ok (x z)) /\ noise_std n noise x0 x) /\
  (forall height numpulse, n <> 0%nat -> exists x0 x, squarepulse time height numpulse 0 clean = Ok x0 /\
     (forall z, squarepulse time height numpulse noise (mkArr n z) = Ok (x z)) /\ noise_std n noise x0 x) /\
  (forall amp freq, freq <> 0 -> exists x0 x, sine time amp freq 0 clean = Ok x0 /\
     (forall z, sine time amp freq noise (mkArr n z) = Ok (x z)) /\ noise_std n noise x0 x).
Proof.
  intros time noise Hn n clean.
  assert (T : rltb 0 noise = true) by (destruct (rltb 0 noise) eqn:E; [reflexivity|apply rltb_false in E; lra]).
  assert (F : rltb 0 0 = false) by (destruct (rltb 0 0) eqn:E; [apply rltb_true in E; lra|reflexivity]).
  split; [|split; [|split; [|split]]].
  - intros. apply (additive_noise _ _ noise); [reflexivity| |reflexivity].
    intros z i Hi. cbn [GaussianPulse aget]. rewrite T, F. ring.
  - intros. apply (additive_noise _ _ noise); [reflexivity| |reflexivity].
    intros z i Hi. cbn [shocklikeGaussian aget]. rewrite T, F. ring.
  - intros. unfold rect. rewrite T, F. eexists. eexists. split; [reflexivity|]. split; [intros z; reflexivity|].
    apply (additive_noise _ _ noise); [reflexivity| |reflexivity]. intros z i Hi. cbn [aget]. ring.
  - intros height numpulse H0. unfold squarepulse. fold n.
    destruct (Nat.eqb_spec n 0) as [K|_]; [contradiction|]. rewrite T, F.
    set (w := (time (n - 1)%nat - time 0%nat) / (2 * INR numpulse + 1)).
    assert (Q : forall k, exists x, square_loop time height w k = Ok x /\ alen x = n).
    { induction k as [|k (x & E & L)]; [eexists; split; reflexivity|].
      cbn [square_loop]. rewrite E. cbn [bind]. unfold rect. rewrite F. cbn [bind]. eexists. split; reflexivity. }
    destruct (Q numpulse) as (x & E & L). rewrite E. cbn [bind]. eexists. eexists.
    split; [reflexivity|]. split; [intros z; reflexivity|].
    apply (additive_noise _ _ noise); [reflexivity| |reflexivity]. intros z i Hi. cbn [aget]. ring.
  - intros amp freq Hf. unfold sine. destruct (Req_EM_T freq 0) as [K|_]; [contradiction|]. rewrite T, F.
    eexists. eexists. split; [reflexivity|]. split; [intros z; reflexivity|].
    apply (additive_noise _ _ noise); [reflexivity| |reflexivity]. intros z i Hi. cbn [aget]. ring.
Qed.
(** The sign of the noise: a negative value counts as no noise (except for multi_sine). *)
Theorem C119_negative_partial : forall (time z : vec) noise, noise <= 0 ->
  (forall t0 m0 sigma, GaussianPulse time t0 m0 sigma noise z = GaussianPulse time t0 m0 sigma 0 z) /\
  (forall t0 m0 sigma, shocklikeGaussian time t0 m0 sigma noise z = shocklikeGaussian time t0 m0 sigma 0 z) /\
  (forall t0 t1 height, rect time t0 t1 height (RnFloat noise) z = rect time t0 t1 height (RnFloat 0) z) /\
  (forall height k, squarepulse time height k noise z = squarepulse time height k 0 z) /\
  (forall amp freq, sine time amp freq noise z = sine time amp freq 0 z).
Proof.
  intros time z noise Hn.
  assert (T : rltb 0 noise = false) by (destruct (rltb 0 noise) eqn:E; [apply rltb_true in E; lra|reflexivity]).
  assert (F : rltb 0 0 = false) by (destruct (rltb 0 0) eqn:E; [apply rltb_true in E; lra|reflexivity]).
  unfold GaussianPulse, shocklikeGaussian, rect, squarepulse, sine. rewrite T, F. repeat split; reflexivity.
Qed.
Example C119_example : let x := fun z => GaussianPulse (of_list [0]) 0 3 1 2 (mkArr 1 z) in
  Ex coin (fun z => x z 0%nat) = 3 /\ Cov coin (fun z => x z 0%nat) (fun z => x z 0%nat) = 4.
Proof.
  intros x. destruct (C119_std_partial (of_list [0]) 2 ltac:(lra)) as [H _].
  destruct (proj2 (H 0 3 1) coin coin_white 0%nat 0%nat ltac:(cbn; lia) ltac:(cbn; lia)) as [A B].
  split.
  - unfold x. cbn [alen of_list length] in A. rewrite A. cbn [GaussianPulse aget].
    destruct (rltb 0 0) eqn:E; [apply rltb_true in E; lra|]. unfold pulse_at. cbn.
    replace (- ((0 - 0) * ((0 - 0) * 1)) / (2 * (1 * (1 * 1)))) with 0 by field. rewrite exp_0. ring.
  - unfold x. cbn [alen of_list length] in B. rewrite B. cbn. ring.
Qed.
Print Assumptions C118_recovers_system.
Print Assumptions C118_quotient.
Print Assumptions C118_errors.
Print Assumptions C65_width.
Print Assumptions C119_multi_sine_refuted.
Print Assumptions C119_multi_sine_partial.
Print Assumptions C119_std_partial.
Print Assumptions C119_negative_partial.
