(** Theorems about testsignals.py and SecondOrderSystem.py (C64-C70, C100, C101). *)
From Coq Require Import Reals List Arith ZArith Bool Lra Lia.
From Verif Require Import Base Sums Stats StatsFacts M_Interp P_Interp Cplx M_Noise S_Noise S_MC P_MC P_Signals.
Import ListNotations.
Open Scope R_scope.

(** ** C64 *)
Theorem C64_rect : forall (time : vec) t0 t1 h s z, s <= 0 ->
  exists x, rect time t0 t1 h (RnFloat s) z = Ok x /\ alen x = alen time /\
    forall i, (i < alen time)%nat -> is_rect t0 t1 h (time i) (x i).
Proof.
  intros time t0 t1 h s z Hs. unfold rect. destruct (rltb 0 s) eqn:E; [apply rltb_true in E; lra|].
  eexists. split; [reflexivity|]. split; [reflexivity|]. intros i _. apply rect_is.
Qed.
(** With noise: the rectangle plus the noise; sizes and types of the noise are checked. *)
Theorem C64_noise : forall (time : vec) t0 t1 h z,
  (forall s, 0 < s -> exists x, rect time t0 t1 h (RnFloat s) z = Ok x /\ alen x = alen time /\
     forall i, (i < alen time)%nat -> is_rect t0 t1 h (time i) (x i - s * z i)) /\
  (forall v, alen v = alen time -> exists x, rect time t0 t1 h (RnVec v) z = Ok x /\ alen x = alen time /\
     forall i, (i < alen time)%nat -> is_rect t0 t1 h (time i) (x i - v i)) /\
  (forall v, alen v <> alen time -> rect time t0 t1 h (RnVec v) z = Err ValueError) /\
  rect time t0 t1 h RnOther z = Err NotImplementedError.
Proof.
  intros time t0 t1 h z. split; [|split; [|split; [|reflexivity]]].
  - intros s Hs. unfold rect. destruct (rltb 0 s) eqn:E; [|apply rltb_false in E; lra].
    eexists. split; [reflexivity|]. split; [reflexivity|]. intros i _. cbn [aget].
    match goal with |- is_rect _ _ _ _ (?a + _ - _) => replace (a + z i * s - s * z i) with a by ring end. apply rect_is.
  - intros v Hv. unfold rect. rewrite Hv, Nat.eqb_refl.
    eexists. split; [reflexivity|]. split; [reflexivity|]. intros i _. cbn [aget].
    match goal with |- is_rect _ _ _ _ (?a + _ - _) => replace (a + v i - v i) with a by ring end. apply rect_is.
  - intros v Hv. unfold rect. destruct (Nat.eqb_spec (alen time) (alen v)); [congruence|reflexivity].
Qed.
Example C64_example : exists x, rect (of_list [0; 1; 2; 3]) 0 2 5 (RnFloat 0) (of_list []) = Ok x /\
  x 0%nat = 0 /\ x 1%nat = 5 /\ x 2%nat = 5 /\ x 3%nat = 0.
Proof.
  destruct (C64_rect (of_list [0; 1; 2; 3]) 0 2 5 0 (of_list []) ltac:(lra)) as (x & E & L & H).
  exists x. split; [exact E|].
  pose proof (H 0%nat ltac:(cbn; lia)) as [_ H0]. pose proof (H 1%nat ltac:(cbn; lia)) as [H1 _].
  pose proof (H 2%nat ltac:(cbn; lia)) as [H2 _]. pose proof (H 3%nat ltac:(cbn; lia)) as [_ H3].
  cbn in H0, H1, H2, H3. repeat split; [apply H0|apply H1|apply H2|apply H3]; lra.
Qed.

(** ** C65 *)
Theorem C65_pulse : forall (time : vec) t0 m0 sigma noise z, noise <= 0 -> 0 < m0 -> sigma <> 0 ->
  let x := GaussianPulse time t0 m0 sigma noise z in
  alen x = alen time /\
  forall i, 0 < x i <= m0 /\ (x i = m0 <-> time i = t0) /\
  (* symmetric about t0, smaller farther away *)
  forall j, (Rabs (time i - t0) < Rabs (time j - t0) <-> x j < x i).
Proof.
  intros time t0 m0 sigma noise z Hn Hm Hs x. split; [reflexivity|].
  assert (E : forall i, x i = m0 * exp (- ((time i - t0) ^ 2 / (2 * sigma ^ 2)))).
  { intros i. cbn [x GaussianPulse aget]. destruct (rltb 0 noise) eqn:E; [apply rltb_true in E; lra|].
    unfold pulse_at. rewrite Rplus_0_r. f_equal. f_equal. field. auto. }
  assert (S2 : 0 < sigma ^ 2) by (assert (K := Rsqr_pos_lt sigma Hs); unfold Rsqr in K; lra).
  assert (P : forall i, 0 <= (time i - t0) ^ 2 / (2 * sigma ^ 2)).
  { intros i. apply Rmult_le_pos; [apply pow2_ge_0|apply Rlt_le, Rinv_0_lt_compat; lra]. }
  intros i. rewrite !E. split; [|split].
  - split; [apply Rmult_lt_0_compat; [auto|apply exp_pos]|].
    rewrite <- (Rmult_1_r m0) at 2. apply Rmult_le_compat_l; [lra|]. apply exp_le_1. specialize (P i). lra.
  - split.
    + intros H. assert (K : exp (- ((time i - t0) ^ 2 / (2 * sigma ^ 2))) = 1) by (apply Rmult_eq_reg_l with m0; lra).
      apply exp_eq_1 in K. assert (Z : (time i - t0) ^ 2 = 0).
      { apply Rmult_eq_reg_r with (/ (2 * sigma ^ 2)); [lra|apply Rinv_neq_0_compat; lra]. }
      nra.
    + intros ->. replace (- ((t0 - t0) ^ 2 / (2 * sigma ^ 2))) with 0 by (field; auto). rewrite exp_0. ring.
  - intros j. rewrite E.
    assert (I : forall a b : R, Rabs a < Rabs b <-> a ^ 2 < b ^ 2).
    { intros a b. rewrite <- (pow2_abs a), <- (pow2_abs b).
      pose proof (Rabs_pos a). pose proof (Rabs_pos b). split; intros; nra. }
    rewrite I. assert (D : 0 < / (2 * sigma ^ 2)) by (apply Rinv_0_lt_compat; lra).
    split.
    + intros H. apply Rmult_lt_compat_l; [auto|]. apply exp_increasing. unfold Rdiv.
      apply Ropp_lt_contravar, Rmult_lt_compat_r; auto.
    + intros H. apply Rmult_lt_reg_l in H; [|auto]. apply exp_lt_inv in H. unfold Rdiv in H.
      apply Ropp_lt_cancel in H. apply Rmult_lt_reg_r in H; auto.
Qed.
Example C65_example : let x := GaussianPulse (of_list [0; 1]) 1 3 2 0 (of_list []) in x 1%nat = 3 /\ x 0%nat < 3.
Proof.
  intros x. destruct (C65_pulse (of_list [0; 1]) 1 3 2 0 (of_list []) ltac:(lra) ltac:(lra) ltac:(lra)) as [_ H].
  destruct (H 1%nat) as (_ & [_ A] & _). destruct (H 0%nat) as ([_ B] & [C _] & _). fold x in A, B, C.
  split; [apply A; reflexivity|]. destruct (Req_dec (x 0%nat) 3) as [Z|Z]; [|lra]. apply C in Z. cbn in Z. lra.
Qed.

(** ** C66.  Full statement: x <= m0 everywhere and x = m0 at t0. *)
Theorem C66_location_refuted : exists (time : vec) t0 m0 sigma z i, 0 < m0 /\ 0 < sigma /\
  time i = t0 /\ shocklikeGaussian time t0 m0 sigma 0 z i <> m0.
Proof.
  exists (of_list [0%R]), 0, 1, 1, (of_list []), 0%nat. split; [lra|]. split; [lra|]. split; [reflexivity|].
  cbn [shocklikeGaussian aget]. destruct (rltb 0 0) eqn:E; [apply rltb_true in E; lra|].
  unfold shock_at. cbn [of_list aget nth]. replace (-1 * (0 - 0) / 1) with 0 by field. lra.
Qed.
(** The bound holds; the maximum m0 is at t0 - sigma, the minimum -m0 at t0 + sigma, and
    the value at t0 is 0. *)
Theorem C66_extrema_partial : forall (time : vec) t0 m0 sigma noise z, noise <= 0 -> 0 < m0 -> 0 < sigma ->
  let x := shocklikeGaussian time t0 m0 sigma noise z in
  alen x = alen time /\
  forall i, - m0 <= x i <= m0 /\ (x i = m0 <-> time i = t0 - sigma) /\ (x i = - m0 <-> time i = t0 + sigma) /\
            (x i = 0 <-> time i = t0).
Proof.
  intros time t0 m0 sigma noise z Hn Hm Hs x. split; [reflexivity|]. intros i.
  assert (E : x i = shock_at t0 m0 sigma (time i)).
  { cbn [x shocklikeGaussian aget]. destruct (rltb 0 noise) eqn:E; [apply rltb_true in E; lra|]. ring. }
  rewrite E, shock_at_u by lra. set (u := (t0 - time i) / sigma).
  assert (Hu : time i = t0 - u * sigma) by (unfold u; field; lra).
  destruct (shock_bound u) as [B1 B2]. destruct (shock_bound (- u)) as [B3 B4].
  replace (- u * exp (1 / 2) * exp (- (- u) ^ 2 / 2)) with (- (u * exp (1 / 2) * exp (- u ^ 2 / 2))) in B3, B4.
  2:{ replace ((- u) ^ 2) with (u ^ 2) by ring. ring. }
  set (v := u * exp (1 / 2) * exp (- u ^ 2 / 2)) in *.
  assert (Z : v = 0 <-> u = 0).
  { unfold v. split; [|intros ->; ring]. intros H. apply Rmult_integral in H. destruct H as [H|H].
    - apply Rmult_integral in H. destruct H as [H|H]; auto. pose proof (exp_pos (1 / 2)); lra.
    - pose proof (exp_pos (- u ^ 2 / 2)); lra. }
  split; [nra|]. split; [|split].
  - split; intros H.
    + assert (v = 1) by (apply Rmult_eq_reg_l with m0; lra). apply B2 in H0. rewrite H0 in Hu. lra.
    + assert (u = 1) by (apply Rmult_eq_reg_r with sigma; lra). apply B2 in H0. rewrite H0. ring.
  - split; intros H.
    + assert (- v = 1) by (apply Rmult_eq_reg_l with m0; lra). apply B4 in H0. rewrite Hu.
      replace (u * sigma) with (- (- u * sigma)) by ring. rewrite H0. ring.
    + assert (- u = 1) by (apply Rmult_eq_reg_r with sigma; lra). apply B4 in H0.
      replace v with (- - v) by ring. rewrite H0. ring.
  - split; intros H.
    + apply Rmult_integral in H. destruct H as [H|H]; [lra|]. apply Z in H. rewrite H in Hu. lra.
    + assert (u = 0) by (apply Rmult_eq_reg_r with sigma; lra). apply Z in H0. rewrite H0. ring.
Qed.
Example C66_example : let x := shocklikeGaussian (of_list [0; 1]) 1 3 1 0 (of_list []) in x 0%nat = 3 /\ x 1%nat = 0.
Proof.
  intros x. destruct (C66_extrema_partial (of_list [0; 1]) 1 3 1 0 (of_list []) ltac:(lra) ltac:(lra) ltac:(lra)) as [_ H].
  destruct (H 0%nat) as (_ & [_ A] & _). destruct (H 1%nat) as (_ & _ & _ & [_ B]). fold x in A, B.
  split; [apply A|apply B]; cbn; lra.
Qed.

(** ** C67.  Full statement: x_i = amp sin(2 pi freq t_i), freq in Hz. *)
Theorem C67_sine_refuted : exists (time z x : vec) amp freq i, (i < alen time)%nat /\
  sine time amp freq 0 z = Ok x /\ x i <> amp * sin (2 * PI * freq * time i).
Proof.
  exists (of_list [1/4]), (of_list []). eexists. exists 1, 2, 0%nat. split; [cbn; lia|]. unfold sine.
  destruct (Req_EM_T 2 0) as [E|_]; [lra|]. split; [reflexivity|]. cbn [aget of_list nth].
  destruct (rltb 0 0) eqn:E; [apply rltb_true in E; lra|].
  replace (2 * PI / 2 * (1 / 4)) with (PI / 4) by field. replace (2 * PI * 2 * (1 / 4)) with PI by field.
  rewrite sin_PI. pose proof (sin_gt_0 (PI / 4) ltac:(pose proof PI_RGT_0; lra) ltac:(pose proof PI_RGT_0; lra)). lra.
Qed.
Theorem C67_multi_sine_refuted : exists (time z : vec) amps freqs i, (i < alen time)%nat /\
  amps = [1] /\ freqs = [1] /\
  multi_sine time amps freqs 0 z i <> 1 * sin (2 * PI * 1 * time i).
Proof.
  exists (of_list [1/2]), (of_list []), [1], [1], 0%nat. split; [cbn; lia|]. split; [reflexivity|]. split; [reflexivity|].
  cbn. replace (2 * PI * 1 * (1 / 2)) with PI by field. rewrite sin_PI.
  pose proof (sin_gt_0 (1 / 2) ltac:(lra) ltac:(pose proof PI2_3_2; unfold PI2 in *; lra)).
  replace (1 * (1 / 2)) with (1 / 2) by ring. lra.
Qed.
(** What holds: freq is the period of sine (the documented frequency only if freq^2 = 1),
    the angular frequencies of multi_sine; freq = 0 raises. *)
Theorem C67_period_partial : forall (time : vec) amp freq noise z, noise <= 0 ->
  (freq <> 0 -> exists x, sine time amp freq noise z = Ok x /\ alen x = alen time /\
    forall i, x i = amp * sin (2 * PI * (1 / freq) * time i) /\
      (forall j, time j = time i + freq -> x j = x i) /\
      (freq ^ 2 = 1 -> x i = amp * sin (2 * PI * freq * time i))) /\
  sine time amp 0 noise z = Err ZeroDivisionError.
Proof.
  intros time amp freq noise z Hn. split.
  - intros Hf. unfold sine. destruct (Req_EM_T freq 0) as [E|_]; [contradiction|].
    destruct (rltb 0 noise) eqn:E; [apply rltb_true in E; lra|].
    eexists. split; [reflexivity|]. split; [reflexivity|]. intros i. cbn [aget]. split; [|split].
    + replace (2 * PI / freq * time i) with (2 * PI * (1 / freq) * time i) by (field; auto). ring.
    + intros j Hj. rewrite Hj. replace (2 * PI / freq * (time i + freq)) with (2 * PI / freq * time i + 2 * INR 1 * PI).
      * rewrite sin_period. reflexivity.
      * change (INR 1) with 1. field. auto.
    + intros H. assert (1 / freq = freq) by (apply Rmult_eq_reg_r with freq; auto; field_simplify; lra).
      replace (2 * PI / freq) with (2 * PI * (1 / freq)) by (field; auto). rewrite H0. ring.
  - unfold sine. destruct (Req_EM_T 0 0); [reflexivity|lra].
Qed.
Theorem C67_multi_sine_angular_partial : forall (time : vec) amps freqs z i, length amps = length freqs ->
  multi_sine time amps freqs 0 z i = rsum (length amps) (fun k => nth k amps 0 * sin (nth k freqs 0 * time i)).
Proof.
  intros time amps freqs z i H. cbn [multi_sine aget]. replace (0 ^ 2) with 0 by ring. rewrite Rmult_0_r, Rplus_0_r.
  assert (K : forall l acc, fold_left (fun acc (af : R * R) => acc + fst af * sin (snd af * time i)) l acc
     = acc + rsum (length l) (fun k => fst (nth k l (0, 0)) * sin (snd (nth k l (0, 0)) * time i))).
  { induction l as [|p l IH]; intros acc; [cbn; ring|]. cbn [fold_left length]. rewrite IH, rsum_S_l. cbn [nth]. ring. }
  rewrite K, Rplus_0_l, combine_length, <- H, Nat.min_id. apply rsum_ext. intros k Hk.
  rewrite combine_nth by auto. reflexivity.
Qed.
Example C67_example : exists x, sine (of_list [0; 2]) 1 2 0 (of_list []) = Ok x /\ x 1%nat = x 0%nat.
Proof.
  destruct (C67_period_partial (of_list [0; 2]) 1 2 0 (of_list []) ltac:(lra)) as [H _].
  destruct (H ltac:(lra)) as (x & E & _ & K). exists x. split; [exact E|]. apply (proj1 (proj2 (K 0%nat))). cbn. lra.
Qed.

(** ** C68.  Full statement: for z white (unit covariance) the covariance of
    calc_noise(N) is calc_cov(). *)
Definition white (n : nat) (d : dist (nat -> R)) : Prop := is_prob d /\ has_cov n d delta.
Theorem C68_covariance_refuted : exists w sigma N d U, white (N + 4) d /\
  (forall z, calc_cov w sigma (Some (calc_noise w sigma N z)) = Ok U) /\
  exists i j, (i < N)%nat /\ (j < N)%nat /\
    Cov d (fun z => calc_noise w sigma N z i) (fun z => calc_noise w sigma N z j) <> U i j.
Proof.
  destruct (psd_realised 5 (fun _ => 0) delta (psd_delta 5)) as (d & Hp & _ & Hc).
  set (U := mkMat 1 1 (fun i j =>
     (if (i <=? j)%nat then 1 ^ 2 * cw 1 (j - i) else 0) + (if (j <=? i)%nat then 1 ^ 2 * cw 1 (i - j) else 0)
     - (if (i =? j)%nat then (if (i <=? i)%nat then 1 ^ 2 * cw 1 (i - i) else 0) else 0))).
  exists 1, 1, 1%nat, d, U. split; [split; auto|]. split; [intros z; reflexivity|].
  exists 0%nat, 0%nat. split; [lia|]. split; [lia|].
  rewrite (calc_cov_val 1 1 (calc_noise 1 1 1 (fun _ => 0)) U 0 0) by reflexivity.
  rewrite (Cov_ext d _ _ (fun z => rsum 1 (fun _ => 1 / sqrt (Cw2 1) * moving_average (fun l => binom4 l * ((1 - 1) ^ l * 1 ^ (4 - l))) z 0))
                         (fun z => rsum 1 (fun _ => 1 / sqrt (Cw2 1) * moving_average (fun l => binom4 l * ((1 - 1) ^ l * 1 ^ (4 - l))) z 0)))
    by (intros z; rewrite calc_noise_ma; cbn [rsum]; ring).
  rewrite (Cov_linear d 1 1 (fun _ => 1 / sqrt (Cw2 1)) (fun _ => 1 / sqrt (Cw2 1))
            (fun _ z => moving_average (fun l => binom4 l * ((1 - 1) ^ l * 1 ^ (4 - l))) z 0)
            (fun _ z => moving_average (fun l => binom4 l * ((1 - 1) ^ l * 1 ^ (4 - l))) z 0)).
  cbn [rsum]. rewrite (ma_Cov 1) by (auto; lia).
  assert (C : Cw2 1 = 70) by (unfold Cw2; cbn; ring).
  replace (0 + 1 / sqrt (Cw2 1) * ma_cov (fun l => binom4 l * ((1 - 1) ^ l * 1 ^ (4 - l))) 0 0 * (1 / sqrt (Cw2 1)))
    with (ma_cov (fun l => binom4 l * ((1 - 1) ^ l * 1 ^ (4 - l))) 0 0 / sqrt (Cw2 1) ^ 2)
    by (field; apply sqrt_Cw2_neq).
  rewrite sqrt_Cw2_sq, C. unfold ma_cov, delta, binom4. cbn. lra.
Qed.
(** What calc_cov is: the covariance of sigma/Cw times the moving average with the
    coefficients binom(4,l) w^l (hence symmetric, positive semi-definite, diagonal sigma^2). *)
Theorem C68_moving_average_partial : forall w sigma v U d, white (alen v + 4) d ->
  calc_cov w sigma (Some v) = Ok U ->
  mrows U = alen v /\ mcols U = alen v /\
  has_cov (alen v) (map (fun p => (fst p, fun i => sigma / sqrt (ma_energy w) * moving_average (fun l => binom4 l * w ^ l) (snd p) i)) d) U /\
  psd (alen v) U /\ (forall i, (i < alen v)%nat -> U i i = sigma ^ 2).
Proof.
  intros w sigma v U d [Hp Hc] HU. rewrite <- Cw2_energy.
  assert (V : forall i j, U i j = sigma ^ 2 / Cw2 w * ma_cov (fun l => binom4 l * w ^ l) i j)
    by (intros; apply (calc_cov_val w sigma v U i j HU)).
  assert (Cm : forall (f : (nat -> R) -> nat -> R) g h, 
     Cov (map (fun p : R * (nat -> R) => (fst p, f (snd p))) d) g h = Cov d (fun z => g (f z)) (fun z => h (f z))).
  { intros f g h.
    assert (Em : forall k, Ex (map (fun p : R * (nat -> R) => (fst p, f (snd p))) d) k = Ex d (fun z => k (f z))).
    { clear. intros k. induction d as [|[p a] d IH]; cbn; [reflexivity|]. rewrite IH. reflexivity. }
    unfold Cov. rewrite !Em. reflexivity. }
  assert (HC : forall i j, (i < alen v)%nat -> (j < alen v)%nat ->
     Cov d (fun z => sigma / sqrt (Cw2 w) * moving_average (fun l => binom4 l * w ^ l) z i)
           (fun z => sigma / sqrt (Cw2 w) * moving_average (fun l => binom4 l * w ^ l) z j) = U i j).
  { intros i j Hi Hj. rewrite V.
    rewrite (Cov_ext d _ _ (fun z => rsum 1 (fun _ => sigma / sqrt (Cw2 w) * moving_average (fun l => binom4 l * w ^ l) z i))
                           (fun z => rsum 1 (fun _ => sigma / sqrt (Cw2 w) * moving_average (fun l => binom4 l * w ^ l) z j)))
      by (intros z; cbn [rsum]; ring).
    rewrite (Cov_linear d 1 1 (fun _ => sigma / sqrt (Cw2 w)) (fun _ => sigma / sqrt (Cw2 w))
              (fun _ z => moving_average (fun l => binom4 l * w ^ l) z i) (fun _ z => moving_average (fun l => binom4 l * w ^ l) z j)).
    cbn [rsum]. rewrite (ma_Cov (alen v)) by auto. rewrite <- (sqrt_Cw2_sq w) at 3. field. apply sqrt_Cw2_neq. }
  split; [|split; [|split; [|split]]].
  - unfold calc_cov in HU. injection HU as <-. reflexivity.
  - unfold calc_cov in HU. injection HU as <-. reflexivity.
  - intros i j Hi Hj. rewrite (Cm (fun z i => sigma / sqrt (Cw2 w) * moving_average (fun l => binom4 l * w ^ l) z i)). apply HC; auto.
  - apply (cov_psd (alen v) d (fun i z => sigma / sqrt (Cw2 w) * moving_average (fun l => binom4 l * w ^ l) z i) U Hp HC).
  - intros i Hi. rewrite V.
    assert (E : ma_cov (fun l => binom4 l * w ^ l) i i = Cw2 w).
    { rewrite <- (Nat.add_0_r i) at 2. rewrite ma_cov_shift. unfold ma_cov, Cw2, delta, binom4. cbn. ring. }
    rewrite E. field. pose proof (Cw2_pos w). lra.
Qed.
(** The generated noise: moving average with the coefficients binom(4,l) (1-w)^l w^(4-l),
    so its variance is sigma^2 only for w = 0 among the "simple" cases. *)
Theorem C68_noise_partial : forall w sigma N d i j, white (N + 4) d -> (i < N)%nat -> (j < N)%nat ->
  (forall z, calc_noise w sigma N z i
     = sigma / sqrt (ma_energy w) * moving_average (fun l => binom4 l * ((1 - w) ^ l * w ^ (4 - l))) z i) /\
  (w = 0 -> forall v U, alen v = N -> calc_cov w sigma (Some v) = Ok U ->
    Cov d (fun z => calc_noise w sigma N z i) (fun z => calc_noise w sigma N z j) = U i j).
Proof.
  intros w sigma N d i j [Hp Hc] Hi Hj. rewrite <- Cw2_energy. split; [intros z; apply calc_noise_ma|].
  intros -> v U Hv HU. rewrite (calc_cov_val 0 sigma v U i j HU).
  assert (C : Cw2 0 = 1) by (unfold Cw2; cbn; ring).
  rewrite (Cov_ext d _ _ (fun z => rsum 1 (fun _ => sigma * z (i + 4)%nat)) (fun z => rsum 1 (fun _ => sigma * z (j + 4)%nat))).
  - rewrite (Cov_linear d 1 1 (fun _ => sigma) (fun _ => sigma) (fun _ z => z (i + 4)%nat) (fun _ z => z (j + 4)%nat)).
    cbn [rsum]. rewrite Hc by lia. rewrite C.
    assert (E : ma_cov (fun l => binom4 l * 0 ^ l) i j = delta i j).
    { unfold ma_cov. rewrite (rsum_single 5 0); [|lia|].
      - rewrite (rsum_single 5 0); [|lia|]; [rewrite !Nat.add_0_r; unfold binom4; cbn; ring|].
        intros l Hl Hn. unfold binom4. destruct l as [|l]; [lia|]. cbn [pow]. ring.
      - intros l Hl Hn. apply rsum_zero. intros m Hm. destruct l as [|l]; [lia|]. cbn [pow]. ring. }
    rewrite E. unfold delta.
    destruct (Nat.eqb_spec (i + 4) (j + 4)), (Nat.eqb_spec i j); try lia; field.
  - intros z. rewrite calc_noise_ma, C, sqrt_1. unfold moving_average, binom4. cbn. field.
  - intros z. rewrite calc_noise_ma, C, sqrt_1. unfold moving_average, binom4. cbn. field.
Qed.
Example C68_example : exists d U, white 6 d /\ calc_cov (1/2) 3 (Some (mkArr 2 (fun _ => 0))) = Ok U /\ U 1%nat 1%nat = 9.
Proof.
  destruct (psd_realised 6 (fun _ => 0) delta (psd_delta 6)) as (d & Hp & _ & Hc).
  exists d. eexists. split; [split; auto|]. split; [reflexivity|].
  eapply eq_trans; [apply (C68_moving_average_partial (1/2) 3 (mkArr 2 (fun _ => 0)) _ d); [split; auto|reflexivity|cbn; lia]|]. ring.
Qed.

(** ** C101: calc_noise2.  Full statement: calc_noise2(N) returns N values. *)
Theorem C101_calc_noise2_refuted : exists w sigma N, forall v, calc_noise2 w sigma N <> Ok v.
Proof. exists (1/2), 1, 100%nat. discriminate. Qed.
(** Every call fails; calc_cov before any noise was generated fails too. *)
Theorem C101_always_fails_partial : forall w sigma N,
  calc_noise2 w sigma N = Err TypeError /\ calc_cov w sigma None = Err AttributeError.
Proof. intros. split; reflexivity. Qed.

(** ** C69.  Full statement: for every time axis with time[0] <= time[-1],
    [is_pulse_train time[0] time[-1] numpulse height (time i) (x i)]. *)
Theorem C69_offset_refuted : exists (time z x : vec) height numpulse i, (i < alen time)%nat /\
  time 0%nat < time (alen time - 1)%nat /\ squarepulse time height numpulse 0 z = Ok x /\
  ~ is_pulse_train (time 0%nat) (time (alen time - 1)%nat) numpulse height (time i) (x i).
Proof.
  set (time := of_list [10; 23 / 2; 13]). set (z := of_list []).
  destruct (square_loop_ok time 1 1 1 ltac:(lra)) as (x & E & L & H).
  exists time, z, x, 1, 1%nat, 1%nat. split; [cbn; lia|]. split; [cbn; lra|]. split.
  - unfold squarepulse. change (alen time) with 3%nat. cbn [Nat.eqb Nat.sub].
    replace ((time 2%nat - time 0%nat) / (2 * INR 1 + 1)) with 1 by (cbn; lra).
    cbv zeta. rewrite E. cbn [bind]. destruct (rltb 0 0) eqn:R; [apply rltb_true in R; lra|reflexivity].
  - intros [K _]. destruct (H 1%nat ltac:(cbn; lia)) as [_ H1].
    assert (x 1%nat = 0). { apply H1. intros (k & Hk & Hin). assert (k = 0%nat) by lia. subst k. cbn in Hin. lra. }
    rewrite K in H0; [lra|]. exists 0%nat. split; [lia|]. cbn. lra.
Qed.
Theorem C69_from_zero_partial : forall (time z : vec) height numpulse noise, noise <= 0 -> (1 <= alen time)%nat ->
  time 0%nat <= time (alen time - 1)%nat ->
  exists x, squarepulse time height numpulse noise z = Ok x /\ alen x = alen time /\
    forall i, (i < alen time)%nat ->
      (x i = 0 \/ x i = height) /\
      (* pulses at the documented places, but measured from time 0 instead of time[0] *)
      is_pulse_train 0 (time (alen time - 1)%nat - time 0%nat) numpulse height (time i) (x i) /\
      (time 0%nat = 0 -> is_pulse_train (time 0%nat) (time (alen time - 1)%nat) numpulse height (time i) (x i)).
Proof.
  intros time z h n noise Hn Hl Ht. set (w := (time (alen time - 1)%nat - time 0%nat) / (2 * INR n + 1)).
  assert (P : 0 < 2 * INR n + 1) by (pose proof (pos_INR n); lra).
  assert (Hw : 0 <= w) by (apply Rmult_le_pos; [lra|apply Rlt_le, Rinv_0_lt_compat; auto]).
  destruct (square_loop_ok time h w n Hw) as (x & E & L & H).
  exists x. split; [|split; [exact L|]].
  - unfold squarepulse. destruct (Nat.eqb_spec (alen time) 0); [lia|]. cbv zeta. fold w. rewrite E. cbn [bind].
    destruct (rltb 0 noise) eqn:R; [apply rltb_true in R; lra|reflexivity].
  - intros i Hi. destruct (H i Hi) as [A B].
    assert (T : is_pulse_train 0 (time (alen time - 1)%nat - time 0%nat) n h (time i) (x i)).
    { unfold is_pulse_train, in_pulse. rewrite Rminus_0_r. cbv zeta. fold w. split.
      - intros (k & Hk & Hin). apply A. exists k. split; auto. lra.
      - intros Hno. apply B. intros (k & Hk & Hin). apply Hno. exists k. split; auto. lra. }
    split; [|split; [exact T|]].
    + assert (D : {(exists k, (k < n)%nat /\ (2 * INR k + 1) * w < time i <= (2 * INR k + 2) * w)}
               + {~ exists k, (k < n)%nat /\ (2 * INR k + 1) * w < time i <= (2 * INR k + 2) * w}).
      { clear - w. clearbody w. induction n as [|n IH]; [|destruct IH as [IH|IH]].
        - right. intros (k & Hk & _). lia.
        - left. destruct IH as (k & Hk & Hin). exists k. split; [lia|auto].
        - destruct (Rlt_dec ((2 * INR n + 1) * w) (time i)) as [L1|L1].
          + destruct (Rle_dec (time i) ((2 * INR n + 2) * w)) as [L2|L2].
            * left. exists n. split; [lia|auto].
            * right. intros (k & Hk & Hin). destruct (Nat.eq_dec k n) as [->|]; [tauto|]. apply IH. exists k. split; [lia|auto].
          + right. intros (k & Hk & Hin). destruct (Nat.eq_dec k n) as [->|]; [tauto|]. apply IH. exists k. split; [lia|auto]. }
      destruct D as [D|D]; [right; auto|left; auto].
    + intros H0. rewrite H0. rewrite H0, Rminus_0_r in T. exact T.
Qed.
Theorem C69_empty_partial : forall (time z : vec) h n noise, alen time = 0%nat -> squarepulse time h n noise z = Err IndexError.
Proof. intros time z h n noise H. unfold squarepulse. rewrite H. reflexivity. Qed.
Example C69_example : exists x, squarepulse (of_list [0; 3 / 2; 3]) 7 1 0 (of_list []) = Ok x /\ x 1%nat = 7 /\ x 2%nat = 0.
Proof.
  destruct (C69_from_zero_partial (of_list [0; 3/2; 3]) (of_list []) 7 1 0 ltac:(lra) ltac:(cbn; lia) ltac:(cbn; lra)) as (x & E & _ & H).
  exists x. split; [exact E|].
  destruct (H 1%nat ltac:(cbn; lia)) as (_ & [A _] & _). destruct (H 2%nat ltac:(cbn; lia)) as (_ & [_ B] & _).
  split; [apply A; exists 0%nat; split; [lia|cbn; lra]|]. apply B. intros (k & Hk & Hin).
  assert (k = 0%nat) by lia. subst k. cbn in Hin. lra.
Qed.

(** ** C70 *)
Lemma sos_entry_scalar S_ d f0 f : sos_entry S_ d f0 f = sos_scalar S_ d f0 f.
Proof.
  unfold sos_entry, sos_scalar. cbv zeta.
  assert (E : cadd (RtoC ((2 * PI * f0) ^ 2)) (csub (cmul (0, 2) (RtoC (d * (2 * PI * f0) * (2 * PI * f)))) (RtoC ((2 * PI * f) ^ 2)))
              = sos_den d (2 * PI * f0) (2 * PI * f)).
  { unfold sos_den. apply C_eq; unfold cadd, csub, cmul, RtoC; cbn [fst snd]; ring. }
  rewrite E. reflexivity.
Qed.
Theorem C70_same_system : forall S_ d f0 (freqs : vec) i,
  let '(b, a) := sos_phys2filter S_ d f0 in
  let s := (0, 2 * PI * freqs i) in
  alen (sos_FreqResp S_ d f0 freqs) = alen freqs /\
  (forall h, sos_FreqResp S_ d f0 freqs i = Some h <-> response_at b a s h) /\
  (sos_FreqResp S_ d f0 freqs i = None <-> horner s (map RtoC a) = C0).
Proof.
  intros S_ d f0 freqs i. cbn [sos_phys2filter]. cbv zeta. split; [reflexivity|].
  cbn [sos_FreqResp aget]. unfold response_at. cbn [map].
  set (s := (0, 2 * PI * freqs i)).
  assert (A : horner s [RtoC 1; RtoC (2 * d * 2 * PI * f0); RtoC ((2 * PI * f0) ^ 2)] = sos_den d (2 * PI * f0) (2 * PI * freqs i)).
  { unfold horner, sos_den, s. cbn [fold_left]. apply C_eq; unfold cadd, cmul, RtoC, C0; cbn [fst snd]; ring. }
  assert (B : horner s [RtoC (S_ * (2 * PI * f0) ^ 2)] = RtoC (S_ * (2 * PI * f0) ^ 2)).
  { unfold horner. cbn [fold_left]. apply C_eq; unfold cadd, cmul, RtoC, C0; cbn [fst snd]; ring. }
  rewrite A, B. unfold sos_scalar. cbv zeta. set (den := sos_den d (2 * PI * f0) (2 * PI * freqs i)).
  destruct (Req_EM_T (cnorm2 den) 0) as [Z|Z].
  - apply cnorm2_zero in Z. split.
    + intros h. split; [discriminate|]. intros [N _]. contradiction.
    + split; auto.
  - assert (N : den <> C0) by (intros N; apply Z, cnorm2_zero; auto). split.
    + intros h. split.
      * intros [= <-]. split; auto. apply cdiv_mul. auto.
      * intros [_ H]. f_equal. symmetry. apply cdiv_unique; auto.
    + split; [discriminate|contradiction].
Qed.
Theorem C70_columns : forall (S_ d f0 freqs : vec) i k,
  sos_FreqResp_arr S_ d f0 freqs i k = sos_FreqResp (S_ k) (d k) (f0 k) freqs i /\
  sos_phys2filter_arr S_ d f0 k = sos_phys2filter (S_ k) (d k) (f0 k).
Proof.
  intros. split; [unfold sos_FreqResp_arr; rewrite sos_entry_scalar; reflexivity|].
  unfold sos_phys2filter_arr, sos_phys2filter.
  replace (4 * d k * PI * f0 k) with (2 * d k * 2 * PI * f0 k) by ring. reflexivity.
Qed.
(** Static gain. *)
Theorem C70_gain : forall S_ d f0, f0 <> 0 ->
  sos_FreqResp S_ d f0 (of_list [0%R]) 0%nat = Some (RtoC S_).
Proof.
  intros S_ d f0 H0.
  pose proof (C70_same_system S_ d f0 (of_list [0%R]) 0%nat) as T. cbn [sos_phys2filter] in T. cbv zeta in T.
  destruct T as (_ & T & _). apply T. unfold response_at. cbn [map of_list aget nth].
  assert (P : (2 * PI * f0) ^ 2 <> 0) by (apply pow_nonzero; pose proof PI_RGT_0; apply Rmult_integral_contrapositive_currified; [lra|auto]).
  assert (A : horner (0, 2 * PI * 0) [RtoC 1; RtoC (2 * d * 2 * PI * f0); RtoC ((2 * PI * f0) ^ 2)] = RtoC ((2 * PI * f0) ^ 2)).
  { unfold horner. cbn [fold_left]. apply C_eq; unfold cadd, cmul, RtoC, C0; cbn [fst snd]; ring. }
  rewrite A. split.
  - intros E. apply (f_equal fst) in E. cbn [fst RtoC C0] in E. auto.
  - unfold horner. cbn [fold_left]. apply C_eq; unfold cadd, cmul, RtoC, C0; cbn [fst snd]; ring.
Qed.
Example C70_example : exists h, sos_FreqResp 2 (1/2) 1 (of_list [1]) 0%nat = Some h /\ Re h = 0 /\ Im h = -2.
Proof.
  exists (0, -2). split; [|split; reflexivity].
  pose proof (C70_same_system 2 (1/2) 1 (of_list [1]) 0%nat) as T. cbn [sos_phys2filter] in T. cbv zeta in T.
  destruct T as (_ & T & _). apply T. unfold response_at. cbn [map of_list aget nth]. unfold horner. cbn [fold_left].
  pose proof PI_RGT_0. split.
  - intros E. apply (f_equal snd) in E. unfold cadd, cmul, RtoC, C0 in E. cbn [fst snd] in E. nra.
  - apply C_eq; unfold cadd, cmul, RtoC, C0; cbn [fst snd]; field.
Qed.

(** The frequency response is that of the second order system. *)
Theorem C70_physical : forall S_ d f0 (freqs : vec) i h,
  sos_FreqResp S_ d f0 freqs i = Some h <-> second_order S_ d f0 (freqs i) h.
Proof.
  intros S_ d f0 freqs i h. cbn [sos_FreqResp aget]. unfold sos_scalar, second_order. cbv zeta.
  set (den := sos_den d (2 * PI * f0) (2 * PI * freqs i)).
  change (((2 * PI * f0) ^ 2 - (2 * PI * freqs i) ^ 2, 2 * d * (2 * PI * f0) * (2 * PI * freqs i))) with den.
  destruct (Req_EM_T (cnorm2 den) 0) as [Z|Z].
  - apply cnorm2_zero in Z. split; [discriminate|]. intros [N _]. contradiction.
  - assert (N : den <> C0) by (intros N; apply Z, cnorm2_zero; auto). split.
    + intros [= <-]. split; auto. apply cdiv_mul. auto.
    + intros [_ H]. f_equal. symmetry. apply cdiv_unique; auto.
Qed.

(** ** C100: sos_realimag returns average and sample covariance over the drawn systems *)
Definition drawn_response (S_ d f0 uS ud uf0 : R) (zS zd zf : vec) (f : R) (k : nat) (h : C) : Prop :=
  second_order (S_ + uS * zS k) (d + ud * zd k) (f0 + uf0 * zf k) f h.
Theorem C100_realimag : forall S_ d f0 uS ud uf0 f runs zS zd zf m U,
  sos_realimag S_ d f0 uS ud uf0 f runs zS zd zf = Some (m, U) ->
  exists H : nat -> nat -> C,
    (forall i k, (i < alen f)%nat -> (k < runs)%nat -> drawn_response S_ d f0 uS ud uf0 zS zd zf (f i) k (H i k)) /\
    let n := alen f in
    let part := fun i k => if (i <? n)%nat then Re (H i k) else Im (H (i - n)%nat k) in
    (2 <= runs)%nat /\ alen m = n /\ mrows U = (2 * n)%nat /\ mcols U = (2 * n)%nat /\
    (forall i, (i < n)%nat -> Re (m i) = avg (part i) (seq 0 runs) /\ Im (m i) = avg (part (n + i)%nat) (seq 0 runs)) /\
    (forall i j, U i j = sample_cov (part i) (part j) (seq 0 runs)).
Proof.
  intros S_ d f0 uS ud uf0 f runs zS zd zf m U E. unfold sos_realimag in E. cbv zeta in E.
  set (SMC := sos_draw S_ uS zS) in *. set (dMC := sos_draw d ud zd) in *. set (fMC := sos_draw f0 uf0 zf) in *.
  set (H := fun i k => match sos_entry (SMC k) (dMC k) (fMC k) (f i) with Some h => h | None => C0 end) in *.
  match type of E with (if (?b || _)%bool then _ else _) = _ => destruct b eqn:Bad end; [discriminate|].
  destruct (Nat.leb_spec runs 1) as [|Hr]; [discriminate|]. cbn [orb] in E. injection E as <- <-.
  exists H. split.
  - intros i k Hi Hk. unfold drawn_response.
    pose proof (C70_physical (SMC k) (dMC k) (fMC k) f i) as T.
    replace (S_ + uS * zS k) with (SMC k) by (cbn; ring). replace (d + ud * zd k) with (dMC k) by (cbn; ring).
    replace (f0 + uf0 * zf k) with (fMC k) by (cbn; ring).
    apply T. cbn [sos_FreqResp aget].
    rewrite <- sos_entry_scalar. unfold H.
    destruct (sos_entry (SMC k) (dMC k) (fMC k) (f i)) eqn:Es; [reflexivity|]. exfalso.
    assert (Q : existsb (fun i => existsb (fun k => match sos_entry (SMC k) (dMC k) (fMC k) (f i) with Some _ => false | None => true end) (seq 0 runs)) (seq 0 (alen f)) = true).
    { apply existsb_exists. exists i. split; [apply in_seq; lia|]. apply existsb_exists. exists k. split; [apply in_seq; lia|].
      rewrite Es. reflexivity. }
    congruence.
  - cbv zeta. split; [lia|]. cbn [alen mrows mcols mget aget]. split; [reflexivity|]. split; [reflexivity|]. split; [reflexivity|].
    split.
    + intros i Hi. rewrite !avg_seq. unfold Re, Im. cbn [fst snd].
      replace (i <? alen f)%nat with true by (symmetry; apply Nat.ltb_lt; auto).
      replace (alen f + i <? alen f)%nat with false by (symmetry; apply Nat.ltb_ge; lia).
      replace (alen f + i - alen f)%nat with i by lia. split; reflexivity.
    + intros i j. rewrite sample_cov_seq by lia. reflexivity.
Qed.
Theorem C100_returns : forall S_ d f0 uS ud uf0 f runs zS zd zf, (2 <= runs)%nat ->
  (forall i k, (i < alen f)%nat -> (k < runs)%nat -> exists h, drawn_response S_ d f0 uS ud uf0 zS zd zf (f i) k h) ->
  exists r, sos_realimag S_ d f0 uS ud uf0 f runs zS zd zf = Some r.
Proof.
  intros S_ d f0 uS ud uf0 f runs zS zd zf Hr Hd. unfold sos_realimag. cbv zeta.
  set (SMC := sos_draw S_ uS zS) in *. set (dMC := sos_draw d ud zd) in *. set (fMC := sos_draw f0 uf0 zf) in *.
  match goal with |- exists r, (if (?b || _)%bool then _ else _) = _ => destruct b eqn:Bad end.
  - exfalso. apply existsb_exists in Bad. destruct Bad as (i & Hi & Bad). apply existsb_exists in Bad.
    destruct Bad as (k & Hk & Bad). apply in_seq in Hi. apply in_seq in Hk.
    destruct (Hd i k ltac:(lia) ltac:(lia)) as [h Hh]. unfold drawn_response in Hh.
    pose proof (C70_physical (SMC k) (dMC k) (fMC k) f i) as T.
    replace (S_ + uS * zS k) with (SMC k) in Hh by (cbn; ring). replace (d + ud * zd k) with (dMC k) in Hh by (cbn; ring).
    replace (f0 + uf0 * zf k) with (fMC k) in Hh by (cbn; ring).
    apply T in Hh. cbn [sos_FreqResp aget] in Hh.
    rewrite sos_entry_scalar, Hh in Bad. discriminate.
  - destruct (Nat.leb_spec runs 1); [lia|]. cbn [orb]. eexists. reflexivity.
Qed.
Example C100_example : exists r, sos_realimag 1 1 1 1 0 0 (of_list [0%R]) 2 (of_list [1; -1]) (of_list [0%R; 0%R]) (of_list [0%R; 0%R]) = Some r.
Proof.
  apply C100_returns; [lia|]. intros i k Hi Hk. cbn in Hi. assert (i = 0%nat) by lia. subst i.
  exists (RtoC (1 + 1 * of_list [1; -1] k)). unfold drawn_response.
  pose proof (C70_gain (1 + 1 * of_list [1; -1] k) (1 + 0 * of_list [0%R; 0%R] k) (1 + 0 * of_list [0%R; 0%R] k)
    ltac:(lra)) as G.
  apply C70_physical in G. exact G.
Qed.

Print Assumptions C64_rect.
Print Assumptions C64_noise.
Print Assumptions C65_pulse.
Print Assumptions C66_location_refuted.
Print Assumptions C66_extrema_partial.
Print Assumptions C67_sine_refuted.
Print Assumptions C67_multi_sine_refuted.
Print Assumptions C67_period_partial.
Print Assumptions C67_multi_sine_angular_partial.
Print Assumptions C68_covariance_refuted.
Print Assumptions C68_moving_average_partial.
Print Assumptions C68_noise_partial.
Print Assumptions C101_calc_noise2_refuted.
Print Assumptions C101_always_fails_partial.
Print Assumptions C69_offset_refuted.
Print Assumptions C69_from_zero_partial.
Print Assumptions C69_empty_partial.
Print Assumptions C70_same_system.
Print Assumptions C70_columns.
Print Assumptions C70_gain.
Print Assumptions C70_physical.
Print Assumptions C100_realimag.
Print Assumptions C100_returns.
