(** Test signals on shifted, stretched and mirrored time axes (C177).  Model: M_Noise.v. *)
From Coq Require Import Reals List Arith ZArith Bool Lra Lia.
From Verif Require Import Base Sums Stats StatsFacts M_Interp P_Interp Cplx M_Noise S_Noise S_MC P_MC P_Signals T_Signals.
Import ListNotations.
Open Scope R_scope.

(** The time instants in another unit (factor a) and with another origin (offset s). *)
Definition retime (a s : R) (time : vec) : vec := mkArr (alen time) (fun i => a * time i + s).

Lemma rltb_scale a s x y : 0 < a -> rltb (a * x + s) (a * y + s) = rltb x y.
Proof.
  intros Ha. unfold rltb. destruct (Rlt_dec (a * x + s) (a * y + s)); destruct (Rlt_dec x y); auto; exfalso; nra.
Qed.

(** ** C177 *)
Theorem C177_pulses_partial : forall a s (time z : vec) t0 m0 sigma noise, 0 < a -> sigma <> 0 ->
  veq (shocklikeGaussian (retime a s time) (a * t0 + s) m0 (a * sigma) noise z)
      (shocklikeGaussian time t0 m0 sigma noise z) /\
  veq (GaussianPulse (retime a s time) (a * t0 + s) m0 (a * sigma) noise z) (GaussianPulse time t0 m0 sigma noise z).
Proof.
  intros a s time z t0 m0 sigma noise Ha Hs.
  assert (E : forall t, - (a * t + s - (a * t0 + s)) ^ 2 / (2 * (a * sigma) ^ 2) = - (t - t0) ^ 2 / (2 * sigma ^ 2))
    by (intros t; field; split; lra).
  split; (split; [reflexivity|]); intros i _; cbn [aget shocklikeGaussian GaussianPulse retime];
    unfold shock_at, pulse_at; f_equal; rewrite E.
  - f_equal. f_equal. field. split; lra.
  - reflexivity.
Qed.
Theorem C177_rect_partial : forall a s (time z : vec) t0 t1 height noise, 0 < a ->
  match rect (retime a s time) (a * t0 + s) (a * t1 + s) height noise z, rect time t0 t1 height noise z with
  | Ok x, Ok x' => veq x x'
  | Err e, Err e' => e = e'
  | _, _ => False
  end.
Proof.
  intros a s time z t0 t1 height noise Ha. unfold rect. destruct noise as [u|v|].
  - destruct (rltb 0 u); (split; [reflexivity|]); intros i _; cbn; now rewrite !rltb_scale.
  - cbn [alen retime]. destruct (alen time =? alen v)%nat; [|reflexivity].
    split; [reflexivity|]. intros i _; cbn; now rewrite !rltb_scale.
  - reflexivity.
Qed.
Lemma square_loop_scale a (time : vec) height w k : 0 < a ->
  exists x x', square_loop (retime a 0 time) height (a * w) k = Ok x /\ square_loop time height w k = Ok x' /\
    alen x = alen time /\ alen x' = alen time /\ forall i, (i < alen time)%nat -> x i = x' i.
Proof.
  intros Ha. induction k as [|k (x & x' & E & E' & L & L' & V)]; cbn [square_loop].
  - do 2 eexists. split; [reflexivity|]. split; [reflexivity|]. repeat split.
  - rewrite E, E'. cbn [bind]. unfold rect.
    destruct (rltb 0 0) eqn:R; [apply rltb_true in R; lra|]. cbn [bind].
    do 2 eexists. split; [reflexivity|]. split; [reflexivity|]. split; [reflexivity|]. split; [reflexivity|].
    intros i Hi. cbn [aget]. rewrite V by assumption. cbn [retime aget].
    replace ((2 * INR k + 1) * (a * w)) with (a * ((2 * INR k + 1) * w) + 0) by ring.
    replace ((2 * INR k + 2) * (a * w)) with (a * ((2 * INR k + 2) * w) + 0) by ring.
    now rewrite !rltb_scale.
Qed.
(** squarepulse follows a change of the unit of time ... *)
Theorem C177_squarepulse_partial : forall a (time z : vec) height numpulse noise, 0 < a -> (1 <= alen time)%nat ->
  exists x x', squarepulse (retime a 0 time) height numpulse noise z = Ok x /\
    squarepulse time height numpulse noise z = Ok x' /\ alen x = alen time /\ veq x x'.
Proof.
  intros a time z height numpulse noise Ha Hn. unfold squarepulse. change (alen (retime a 0 time)) with (alen time).
  destruct (Nat.eqb_spec (alen time) 0); [lia|]. cbv zeta.
  assert (P : 2 * INR numpulse + 1 <> 0) by (pose proof (pos_INR numpulse); lra).
  set (w := (time (alen time - 1)%nat - time 0%nat) / (2 * INR numpulse + 1)).
  replace ((retime a 0 time (alen time - 1)%nat - retime a 0 time 0%nat) / (2 * INR numpulse + 1)) with (a * w)
    by (unfold w; cbn [aget retime]; field; exact P).
  destruct (square_loop_scale a time height w numpulse Ha) as (x & x' & E & E' & L & L' & V).
  rewrite E, E'. cbn [bind]. destruct (rltb 0 noise).
  - do 2 eexists. split; [reflexivity|]. split; [reflexivity|]. split; [reflexivity|]. split; [reflexivity|].
    intros i Hi. cbn [aget alen] in *. now rewrite V.
  - do 2 eexists. split; [reflexivity|]. split; [reflexivity|]. split; [exact L|]. split; [congruence|].
    intros i Hi. apply V. congruence.
Qed.
(** ... but not of its origin: the pulses keep their distance to time 0. *)
Theorem C177_squarepulse_shift_refuted : exists s (time z x x' : vec) height numpulse i,
  time 0%nat < time (alen time - 1)%nat /\
  squarepulse (retime 1 s time) height numpulse 0 z = Ok x /\ squarepulse time height numpulse 0 z = Ok x' /\
  (i < alen time)%nat /\ x i = 0 /\ x' i = height /\ height <> 0.
Proof.
  set (time := of_list [0; 3 / 2; 3]). set (z := of_list []).
  destruct (square_loop_ok time 1 1 1 ltac:(lra)) as (x' & E' & L' & H').
  destruct (square_loop_ok (retime 1 10 time) 1 1 1 ltac:(lra)) as (x & E & L & H).
  exists 10, time, z, x, x', 1, 1%nat, 1%nat.
  assert (R : rltb 0 0 = false) by (destruct (rltb 0 0) eqn:R; [apply rltb_true in R; lra|reflexivity]).
  split; [cbn; lra|]. split; [|split; [|split; [cbn; lia|split; [|split; [|lra]]]]].
  - unfold squarepulse. change (alen (retime 1 10 time)) with 3%nat. cbn [Nat.eqb Nat.sub].
    replace ((retime 1 10 time 2%nat - retime 1 10 time 0%nat) / (2 * INR 1 + 1)) with 1 by (cbn; lra).
    cbv zeta. rewrite E. cbn [bind]. now rewrite R.
  - unfold squarepulse. change (alen time) with 3%nat. cbn [Nat.eqb Nat.sub].
    replace ((time 2%nat - time 0%nat) / (2 * INR 1 + 1)) with 1 by (cbn; lra).
    cbv zeta. rewrite E'. cbn [bind]. now rewrite R.
  - apply (H 1%nat); [cbn; lia|]. intros (k & Hk & Hin). assert (k = 0%nat) by lia. subst k. cbn in Hin. lra.
  - apply (H' 1%nat); [cbn; lia|]. exists 0%nat. split; [lia|]. cbn. lra.
Qed.
(** sine: the argument freq follows the unit of time like a period (C67) ... *)
Theorem C177_sine_partial : forall a (time z : vec) amp freq noise, 0 < a ->
  match sine (retime a 0 time) amp (a * freq) noise z, sine time amp freq noise z with
  | Ok x, Ok x' => veq x x'
  | Err e, Err e' => e = e'
  | _, _ => False
  end.
Proof.
  intros a time z amp freq noise Ha. unfold sine.
  destruct (Req_EM_T freq 0) as [->|N].
  - destruct (Req_EM_T (a * 0) 0); [reflexivity|lra].
  - destruct (Req_EM_T (a * freq) 0) as [Z|]; [exfalso; apply Rmult_integral in Z; lra|].
    split; [reflexivity|]. intros i _. cbn [aget retime]. f_equal. f_equal. f_equal. field. split; lra.
Qed.
(** ... and not like a frequency. *)
Theorem C177_sine_refuted : exists a (time z x x' : vec) amp freq i, 0 < a /\
  sine (retime a 0 time) amp (freq / a) 0 z = Ok x /\ sine time amp freq 0 z = Ok x' /\
  (i < alen time)%nat /\ x i = 0 /\ x' i = 1.
Proof.
  assert (R : rltb 0 0 = false) by (destruct (rltb 0 0) eqn:R; [apply rltb_true in R; lra|reflexivity]).
  set (time := of_list [1 / 4]). set (z := of_list []).
  exists 2, time, z. unfold sine. destruct (Req_EM_T (1 / 2) 0); [lra|]. destruct (Req_EM_T 1 0); [lra|].
  do 2 eexists. exists 1, 1, 0%nat. split; [lra|].
  destruct (Req_EM_T (1 / 2) 0); [lra|]. destruct (Req_EM_T 1 0); [lra|].
  split; [reflexivity|]. split; [reflexivity|]. split; [cbn; lia|]. rewrite !R. cbn [aget retime time of_list].
  change (nth 0 [1 / 4] 0) with (1 / 4). split.
  - replace (2 * PI / (1 / 2) * (2 * (1 / 4) + 0)) with (2 * PI) by field. rewrite sin_2PI. ring.
  - replace (2 * PI / 1 * (1 / 4)) with (PI / 2) by field. rewrite sin_PI2. ring.
Qed.
(** Mirrored at t0 the Gaussian pulse is the same, the shock-like one changes its sign. *)
Theorem C177_mirrored_partial : forall (time z : vec) t0 m0 sigma noise i, noise <= 0 -> (i < alen time)%nat ->
  GaussianPulse (retime (-1) (2 * t0) time) t0 m0 sigma noise z i = GaussianPulse time t0 m0 sigma noise z i /\
  shocklikeGaussian (retime (-1) (2 * t0) time) t0 m0 sigma noise z i = - shocklikeGaussian time t0 m0 sigma noise z i.
Proof.
  intros time z t0 m0 sigma noise i Hn Hi.
  assert (R : rltb 0 noise = false) by (destruct (rltb 0 noise) eqn:R; [apply rltb_true in R; lra|reflexivity]).
  cbn [aget shocklikeGaussian GaussianPulse retime]. rewrite !R. unfold shock_at, pulse_at.
  replace ((-1 * time i + 2 * t0 - t0) ^ 2) with ((time i - t0) ^ 2) by ring.
  split; [reflexivity|]. unfold Rdiv. ring.
Qed.
Example C177_example :
  veq (shocklikeGaussian (retime 2 10 (of_list [0; 1; 2])) (2 * 1 + 10) 3 (2 * 4) 0 (of_list []))
      (shocklikeGaussian (of_list [0; 1; 2]) 1 3 4 0 (of_list [])) /\
  retime 2 10 (of_list [0; 1; 2]) 2%nat = 14 /\
  (exists x x', rect (retime 2 10 (of_list [0; 1; 2])) (2 * 1 + 10) (2 * 2 + 10) 5 (RnFloat 0) (of_list []) = Ok x /\
     rect (of_list [0; 1; 2]) 1 2 5 (RnFloat 0) (of_list []) = Ok x' /\ veq x x') /\
  (exists x x', squarepulse (retime 2 0 (of_list [0; 1; 2])) 5 1 0 (of_list []) = Ok x /\
     squarepulse (of_list [0; 1; 2]) 5 1 0 (of_list []) = Ok x' /\ veq x x') /\
  GaussianPulse (retime (-1) (2 * 1) (of_list [0; 1; 2])) 1 3 4 0 (of_list []) 0%nat
  = GaussianPulse (of_list [0; 1; 2]) 1 3 4 0 (of_list []) 0%nat.
Proof.
  repeat apply conj.
  - reflexivity.
  - apply C177_pulses_partial; lra.
  - cbn. lra.
  - pose proof (C177_rect_partial 2 10 (of_list [0; 1; 2]) (of_list []) 1 2 5 (RnFloat 0) ltac:(lra)) as H.
    assert (R : rltb 0 0 = false) by (destruct (rltb 0 0) eqn:R; [apply rltb_true in R; lra|reflexivity]).
    unfold rect in *. rewrite R in *. do 2 eexists. split; [reflexivity|]. split; [reflexivity|]. exact H.
  - destruct (C177_squarepulse_partial 2 (of_list [0; 1; 2]) (of_list []) 5 1 0) as (x & x' & E & E' & _ & V); [lra|cbn; lia|].
    exists x, x'. auto.
  - apply C177_mirrored_partial; [lra|cbn; lia].
Qed.
Example C177_sine_example : exists x x', sine (retime 2 0 (of_list [0; 1])) 3 (2 * 5) 0 (of_list []) = Ok x /\
  sine (of_list [0; 1]) 3 5 0 (of_list []) = Ok x' /\ veq x x'.
Proof.
  pose proof (C177_sine_partial 2 (of_list [0; 1]) (of_list []) 3 5 0 ltac:(lra)) as H. unfold sine in *.
  destruct (Req_EM_T (2 * 5) 0); [lra|]. destruct (Req_EM_T 5 0); [lra|].
  do 2 eexists. split; [reflexivity|]. split; [reflexivity|]. exact H.
Qed.
Print Assumptions C177_pulses_partial.
Print Assumptions C177_rect_partial.
Print Assumptions C177_squarepulse_partial.
Print Assumptions C177_squarepulse_shift_refuted.
Print Assumptions C177_sine_partial.
Print Assumptions C177_sine_refuted.
Print Assumptions C177_mirrored_partial.
