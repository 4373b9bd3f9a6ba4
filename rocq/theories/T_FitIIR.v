(** Theorems on the IIR fits (fit_filter.py): C75, C106, C107. *)
From Coq Require Import Reals List Arith ZArith Lra Lia FunctionalExtensionality.
From Verif Require Import Base Sums Cplx M_DFT M_Filter M_FilterStuff M_MC M_Fit S_Poly S_Fit S_MC P_Poly P_MC
  P_LinAlg P_Fit P_Fit2 P_FitIIR T_Fit.
Import ListNotations.
Open Scope R_scope.

(** ** C106 the fit *)

(** Without stabilisation LSIIR and invLSIIR return a least squares solution of
    the equation error for the response H exp(-i w tau) and exp(-i w tau)/H. *)
Theorem C106_least_squares lstsq roots fuel (H : arr C) Nb Na f Fs tau t :
  exact_lstsq lstsq -> alen H = alen f -> iir_target false H f Fs tau t ->
  exists b a d, LSIIR lstsq roots fuel H Nb Na f Fs tau true = Some (Ok (b, a, d)) /\ iir_fits f Fs t Nb Na b a.
Proof.
  intros X L T. pose proof (fit_least lstsq H tau f Fs Na Nb false t X T) as F.
  unfold LSIIR, iir_values. rewrite L, Nat.eqb_refl.
  destruct (fitIIR lstsq H tau f Fs Na Nb false) as [b a]. exists b, a, 0. auto.
Qed.
Print Assumptions C106_least_squares.
Theorem C106_inverse_least_squares lstsq roots fuel (H : arr C) Nb Na f Fs tau t :
  exact_lstsq lstsq -> alen H = alen f -> iir_target true H f Fs tau t ->
  exists b a, invLSIIR lstsq roots fuel H Nb Na f Fs tau true = Some (Ok (b, a, None)) /\ iir_fits f Fs t Nb Na b a.
Proof.
  intros X L T. pose proof (fit_least lstsq H tau f Fs Na Nb true t X T) as F.
  unfold invLSIIR, iir_values. rewrite L, Nat.eqb_refl.
  destruct (fitIIR lstsq H tau f Fs Na Nb true) as [b a]. exists b, a. auto.
Qed.
Print Assumptions C106_inverse_least_squares.

(** If a filter (h, g) of the given orders has exactly these responses and is
    determined by them, it is returned. *)
Theorem C106_exact_recovery lstsq roots fuel (H : arr C) Nb Na f Fs tau t (h g : vec) :
  exact_lstsq lstsq -> alen H = alen f -> iir_target false H f Fs tau t ->
  iir_determines f Fs t Nb Na -> alen h = S Nb -> alen g = S Na -> g 0%nat = 1 ->
  (forall i, (i < alen f)%nat -> cmul (t i) (freq_resp g (radf f Fs i)) = freq_resp h (radf f Fs i)) ->
  exists b a d, LSIIR lstsq roots fuel H Nb Na f Fs tau true = Some (Ok (b, a, d)) /\ veq b h /\ veq a g.
Proof.
  intros X L T D Lh Lg G0 E.
  destruct (C106_least_squares lstsq roots fuel H Nb Na f Fs tau t X L T) as [b [a [d [R0 F]]]].
  exists b, a, d. split; auto. apply (fit_unique f Fs t Nb Na b a h g); auto.
Qed.
Print Assumptions C106_exact_recovery.
Theorem C106_inverse_exact_recovery lstsq roots fuel (H : arr C) Nb Na f Fs tau t (h g : vec) :
  exact_lstsq lstsq -> alen H = alen f -> iir_target true H f Fs tau t ->
  iir_determines f Fs t Nb Na -> alen h = S Nb -> alen g = S Na -> g 0%nat = 1 ->
  (forall i, (i < alen f)%nat -> cmul (t i) (freq_resp g (radf f Fs i)) = freq_resp h (radf f Fs i)) ->
  exists b a, invLSIIR lstsq roots fuel H Nb Na f Fs tau true = Some (Ok (b, a, None)) /\ veq b h /\ veq a g.
Proof.
  intros X L T D Lh Lg G0 E.
  destruct (C106_inverse_least_squares lstsq roots fuel H Nb Na f Fs tau t X L T) as [b [a [R0 F]]].
  exists b, a. split; auto. apply (fit_unique f Fs t Nb Na b a h g); auto.
Qed.
Print Assumptions C106_inverse_exact_recovery.

(** The filter 1 + z^-1/2 ... 1/(1 - z^-1/2): at a quarter of the sampling rate
    the response of 1/(1 - z^-1/2) is 1/(1 + i/2). *)
Lemma determines_ex : iir_determines (of_list [1]) 4 (fun _ => cinv (1, / 2)) 0 1.
Proof.
  intros b a Lb La A0 E. specialize (E 0%nat ltac:(cbn; lia)).
  assert (Fa : freq_resp a (radf (of_list [1]) 4 0) = (a 0%nat, - a 1%nat)).
  { rewrite <- freq_quarter. unfold freq_resp. rewrite La. reflexivity. }
  assert (Fb : freq_resp b (radf (of_list [1]) 4 0) = (b 0%nat, 0)).
  { unfold freq_resp. rewrite Lb. change (csum 1 ?g) with (cadd C0 (g 0%nat)). cbv beta. change (INR 0) with 0.
    rewrite Rmult_0_r, Ropp_0. unfold cis. rewrite cos_0, sin_0. apply C_eq; cbn; ring. }
  rewrite Fa, Fb, A0 in E. unfold cinv, cmul, cnorm2 in E. cbn [fst snd] in E.
  injection E as E1 E2. split; intros j Hj.
  - assert (j = 0%nat) by lia. subst. lra.
  - assert (j = 0%nat \/ j = 1%nat) as [-> | ->] by lia; lra.
Qed.
Example C106_ex roots fuel : exists b a d,
  LSIIR lstsq_ref roots fuel (mkArr 1 (fun _ => cinv (1, / 2))) 0 1 (of_list [1]) 4 0 true = Some (Ok (b, a, d)) /\
  veq b (of_list [1]) /\ veq a (of_list [1; - / 2]).
Proof.
  apply C106_exact_recovery with (t := fun _ => cinv (1, / 2)); auto.
  - apply lstsq_ref_exact.
  - intros i Hi. cbn [aget]. rewrite Rmult_0_r, Ropp_0. unfold cis. rewrite cos_0, sin_0. symmetry. apply cmul_1_r.
  - apply determines_ex.
  - intros i Hi. cbn in Hi. assert (i = 0%nat) by lia. subst. rewrite freq_quarter.
    unfold freq_resp. change (csum (alen (of_list [1])) ?g) with (cadd C0 (g 0%nat)). cbv beta. change (INR 0) with 0.
    rewrite Rmult_0_r, Ropp_0. unfold cis. rewrite cos_0, sin_0.
    unfold cinv, cnorm2. apply C_eq; cbn; field.
Qed.

(** ** C75 the stabilisation loop *)

(** The delay of the next pass: smallest integer not below the delay plus the
    median change of the group delay when the poles of (b, a) are mirrored into the
    unit circle. *)
Definition new_delay (roots : vec -> list C) (Fs : R) (b a : vec) (tau tau' : R) : Prop :=
  exists (astab g1 f1 g2 f2 : vec) m,
    alen astab = alen (mapinside roots a) /\ (forall i, astab i = Re (mapinside roots a i)) /\
    grpdelay b a Fs 512 = Ok (g1, f1) /\ grpdelay b astab Fs 512 = Ok (g2, f2) /\
    is_median (mkArr (alen g1) (fun k => g2 k - g1 k)) m /\ is_ceil (tau + m) tau'.

(** n+1 fits for the delays taus 0, ..., taus n; all but the last one unstable. *)
Definition fit_passes (inv : bool) (roots : vec -> list C) (H : arr C) (Nb Na : nat) (f : vec) (Fs tau : R)
  (n : nat) (taus : nat -> R) (fits : nat -> vec * vec) : Prop :=
  (n < 50)%nat /\ taus 0%nat = tau /\
  (forall k, (k <= n)%nat -> alen (fst (fits k)) = S Nb /\ alen (snd (fits k)) = S Na /\ snd (fits k) 0%nat = 1) /\
  (forall k t, (k <= n)%nat -> iir_target inv H f Fs (taus k) t ->
     iir_fits f Fs t Nb Na (fst (fits k)) (snd (fits k))) /\
  (forall k, (k < n)%nat -> (exists z, In z (roots (snd (fits k))) /\ 1 < cabs z) /\
     new_delay roots Fs (fst (fits k)) (snd (fits k)) (taus k) (taus (S k))) /\
  ((n < 49)%nat -> forall z, In z (roots (snd (fits n))) -> cabs z <= 1).

Lemma stabilise_trace lstsq roots fuel H Nb Na f Fs tau inv : exact_lstsq lstsq -> (49 <= fuel)%nat ->
  exists n taus fits, fit_passes inv roots H Nb Na f Fs tau n taus fits /\
    iir_stabilise lstsq roots fuel H Nb Na f Fs tau inv = Some (Ok (fst (fits n), snd (fits n), taus n)).
Proof.
  intros X Hf. set (fit := fun t => fitIIR lstsq H t f Fs Na Nb inv).
  assert (Lb : forall t, alen (fst (fit t)) = S Nb).
  { intros t. unfold fit, fitIIR. cbn [fst]. set (T1 := mkMat _ _ _). set (T2 := mkArr _ _).
    destruct (X T1 T2 eq_refl) as [L _]. cbn [slice alen]. rewrite L. cbn [T1 mcols]. lia. }
  assert (La : forall t, alen (snd (fit t)) = S Na) by reflexivity.
  assert (Nx : forall t, exists t', next_tau (fst (fit t)) (snd (fit t)) (mapped roots (snd (fit t))) Fs t = Ok t').
  { intros t. apply next_total; [rewrite Lb|rewrite La]; lia. }
  destruct (loop_trace fit roots Fs Nx 50 fuel 1 tau (mapped roots (snd (fit tau)))) as [n [taus [Hn [T0 [Hp [E St]]]]]];
    [lia|lia|auto|].
  exists n, taus, (fun k => fit (taus k)). split; [split; [lia|split; [auto|split; [|split; [|split]]]]|].
  - intros k Hk. split; [apply Lb|]. split; [apply La|]. reflexivity.
  - intros k t Hk T. exact (fit_least lstsq H (taus k) f Fs Na Nb inv t X T).
  - intros k Hk. destruct (Hp k Hk) as [O N]. split; [apply outside_root; auto|].
    unfold next_tau in N.
    destruct (grpdelay (fst (fit (taus k))) (snd (fit (taus k))) Fs 512) as [[g1 f1]|] eqn:G1; [|discriminate].
    cbn [bind] in N.
    destruct (grpdelay (fst (fit (taus k))) (mapped roots (snd (fit (taus k)))) Fs 512) as [[g2 f2]|] eqn:G2; [|discriminate].
    cbn [bind fst snd] in N.
    exists (mapped roots (snd (fit (taus k)))), g1, f1, g2, f2, (median (mkArr (alen g1) (fun k => g2 k - g1 k))).
    do 4 (split; auto). split; [apply median_ok|]. injection N as <-. apply ceil_ok.
  - intros Hl. apply no_outside_root. apply St. lia.
  - unfold iir_stabilise. fold fit. change (fitIIR lstsq H tau f Fs Na Nb inv) with (fit tau). destruct (fit tau) as [b a] eqn:Ef. cbn [fst snd] in E. exact E.
Qed.

(** Full statement: LSIIR and invLSIIR stop after at most 50 fits and the returned
    delay is the one of the last fit.  Proved: at most 50 fits whatever the bound
    on the number of passes ([fuel]); the result is the last fit; if fewer than 50
    were made it is stable; every new delay is an integer as computed from the
    group delays; the returned delay is the one of the last fit without its
    fractional part. *)
Theorem C75_LSIIR_loop_partial lstsq roots fuel (H : arr C) Nb Na f Fs tau :
  exact_lstsq lstsq -> alen H = alen f -> (49 <= fuel)%nat ->
  exists n taus fits d, fit_passes false roots H Nb Na f Fs tau n taus fits /\
    LSIIR lstsq roots fuel H Nb Na f Fs tau false = Some (Ok (fst (fits n), snd (fits n), d)) /\
    is_trunc (taus n) d.
Proof.
  intros X L Hf. destruct (stabilise_trace lstsq roots fuel H Nb Na f Fs tau false X Hf) as [n [taus [fits [P E]]]].
  exists n, taus, fits, (Rtrunc (taus n)). split; auto. split; [|apply trunc_ok].
  unfold LSIIR, iir_values. rewrite L, Nat.eqb_refl. rewrite E. auto.
Qed.
Print Assumptions C75_LSIIR_loop_partial.
Theorem C75_invLSIIR_loop_partial lstsq roots fuel (H : arr C) Nb Na f Fs tau :
  exact_lstsq lstsq -> alen H = alen f -> (49 <= fuel)%nat ->
  exists n taus fits d, fit_passes true roots H Nb Na f Fs tau n taus fits /\
    invLSIIR lstsq roots fuel H Nb Na f Fs tau false = Some (Ok (fst (fits n), snd (fits n), Some d)) /\
    is_trunc (taus n) d.
Proof.
  intros X L Hf. destruct (stabilise_trace lstsq roots fuel H Nb Na f Fs tau true X Hf) as [n [taus [fits [P E]]]].
  exists n, taus, fits, (Rtrunc (taus n)). split; auto. split; [|apply trunc_ok].
  unfold invLSIIR, iir_values. rewrite L, Nat.eqb_refl. rewrite E. auto.
Qed.
Print Assumptions C75_invLSIIR_loop_partial.

Lemma is_trunc_int x y : (exists z : Z, x = IZR z) -> is_trunc x y -> y = x.
Proof.
  intros [z ->] [[w ->] [S B]]. f_equal.
  rewrite <- !abs_IZR in B. rewrite <- mult_IZR in S. apply (le_IZR 0) in S.
  destruct B as [B1 B2]. apply le_IZR in B1. rewrite <- plus_IZR in B2. apply lt_IZR in B2. nia.
Qed.
(** For an integer initial delay (as documented for LSIIR) the returned delay is
    exactly the one of the last fit. *)
Theorem C75_integer_delay lstsq roots fuel (H : arr C) Nb Na f Fs (k : Z) :
  exact_lstsq lstsq -> alen H = alen f -> (49 <= fuel)%nat ->
  (exists n taus fits, fit_passes false roots H Nb Na f Fs (IZR k) n taus fits /\
    LSIIR lstsq roots fuel H Nb Na f Fs (IZR k) false = Some (Ok (fst (fits n), snd (fits n), taus n))) /\
  (exists n taus fits, fit_passes true roots H Nb Na f Fs (IZR k) n taus fits /\
    invLSIIR lstsq roots fuel H Nb Na f Fs (IZR k) false = Some (Ok (fst (fits n), snd (fits n), Some (taus n)))).
Proof.
  intros X L Hf.
  assert (I : forall inv n taus fits, fit_passes inv roots H Nb Na f Fs (IZR k) n taus fits -> exists z : Z, taus n = IZR z).
  { intros inv n taus fits [_ [T0 [_ [_ [P _]]]]]. destruct n as [|n]; [exists k; auto|].
    destruct (P n ltac:(lia)) as [_ [a0 [g1 [f1 [g2 [f2 [m [_ [_ [_ [_ [_ [Z _]]]]]]]]]]]]]. exact Z. }
  split.
  - destruct (C75_LSIIR_loop_partial lstsq roots fuel H Nb Na f Fs (IZR k) X L Hf) as [n [taus [fits [d [P [E T]]]]]].
    exists n, taus, fits. split; auto. rewrite E. apply is_trunc_int in T; [congruence|]. eapply I; eauto.
  - destruct (C75_invLSIIR_loop_partial lstsq roots fuel H Nb Na f Fs (IZR k) X L Hf) as [n [taus [fits [d [P [E T]]]]]].
    exists n, taus, fits. split; auto. rewrite E. apply is_trunc_int in T; [congruence|]. eapply I; eauto.
Qed.
Print Assumptions C75_integer_delay.
Example C75_ex roots : (forall a : vec, alen a = 2%nat -> a 0%nat <> 0 -> roots a = [RtoC (- a 1%nat / a 0%nat)]) ->
  exists b a, LSIIR lstsq_ref roots 49 (mkArr 1 (fun _ => cinv (1, / 2))) 0 1 (of_list [1]) 4 0 false = Some (Ok (b, a, 0)) /\
  veq b (of_list [1]) /\ veq a (of_list [1; - / 2]).
Proof.
  intros Hr.
  destruct (C75_integer_delay lstsq_ref roots 49 (mkArr 1 (fun _ => cinv (1, / 2))) 0 1 (of_list [1]) 4 0)
    as [[n [taus [fits [[_ [T0 [_ [F [P _]]]]] E]]]] _]; auto; [apply lstsq_ref_exact|].
  assert (V : veq (fst (fits 0%nat)) (of_list [1]) /\ veq (snd (fits 0%nat)) (of_list [1; - / 2])).
  { apply (fit_unique (of_list [1]) 4 (fun _ => cinv (1, / 2)) 0 1); auto.
    - apply (F 0%nat (fun _ => cinv (1, / 2))); [lia|]. rewrite T0.
      intros i Hi. cbn [aget]. rewrite Rmult_0_r, Ropp_0. unfold cis. rewrite cos_0, sin_0. symmetry. apply cmul_1_r.
    - apply determines_ex.
    - intros i Hi. cbn in Hi. assert (i = 0%nat) by lia. subst. rewrite freq_quarter.
      unfold freq_resp. change (csum (alen (of_list [1])) ?g) with (cadd C0 (g 0%nat)). cbv beta. change (INR 0) with 0.
      rewrite Rmult_0_r, Ropp_0. unfold cis. rewrite cos_0, sin_0.
      unfold cinv, cnorm2. apply C_eq; cbn; field. }
  destruct n as [|n].
  - exists (fst (fits 0%nat)), (snd (fits 0%nat)). rewrite E, T0. auto.
  - exfalso. destruct (P 0%nat ltac:(lia)) as [[z [Iz Lz]] _]. destruct V as [_ [La Va]].
    pose proof (Va 0%nat ltac:(rewrite La; cbn; lia)) as V0. pose proof (Va 1%nat ltac:(rewrite La; cbn; lia)) as V1.
    cbn in V0, V1. rewrite Hr in Iz; [|rewrite La; reflexivity|rewrite V0; lra].
    destruct Iz as [<-|[]]. rewrite V0, V1 in Lz. unfold cabs, cnorm2, RtoC in Lz. cbn [fst snd] in Lz.
    replace (- - / 2 / 1 * (- - / 2 / 1) + 0 * 0) with (/ 2 * / 2) in Lz by field.
    rewrite sqrt_square in Lz; lra.
Qed.

Lemma half_pi_resp : freq_resp (of_list [sqrt 2 / 2; sqrt 2 / 2]) (radf (of_list [1]) 4 0) = cis (- (radf (of_list [1]) 4 0 * / 2)).
Proof.
  rewrite freq_quarter, quarter_radf. replace (PI / 2 * / 2) with (PI / 4) by field.
  unfold cis. rewrite cos_neg, sin_neg, cos_PI4, sin_PI4. unfold Rdiv.
  assert (S : 0 < sqrt 2) by (apply sqrt_lt_R0; lra).
  assert (Q : 1 * / sqrt 2 = sqrt 2 * / 2).
  { apply (Rmult_eq_reg_l (sqrt 2)); [|lra]. field_simplify; [|lra]. unfold pow. rewrite Rmult_1_r, sqrt_def; lra. }
  apply C_eq; cbn; rewrite Q; ring.
Qed.

(** Without the restriction the claim is false: invLSIIR documents tau as float;
    the filter fitted with the delay 1/2 is returned with the delay 0. *)
Theorem C75_delay_refuted :
  exists (H : arr C) Nb Na f Fs tau, alen H = alen f /\
    forall lstsq roots, exact_lstsq lstsq -> (forall a : vec, alen a = 1%nat -> roots a = []) ->
    exists b a, invLSIIR lstsq roots 49 H Nb Na f Fs tau false = Some (Ok (b, a, Some 0)) /\
      (forall i, (i < alen f)%nat -> cmul (cmul (H i) (cis (radf f Fs i * tau))) (freq_resp b (radf f Fs i)) = freq_resp a (radf f Fs i)) /\
      exists i, (i < alen f)%nat /\ cmul (cmul (H i) (cis (radf f Fs i * 0))) (freq_resp b (radf f Fs i)) <> freq_resp a (radf f Fs i).
Proof.
  exists (mkArr 1 (fun _ => C1)), 1%nat, 0%nat, (of_list [1]), 4, (/ 2). split; [reflexivity|].
  intros lstsq roots X Hr.
  destruct (C75_invLSIIR_loop_partial lstsq roots 49 (mkArr 1 (fun _ => C1)) 1 0 (of_list [1]) 4 (/ 2) X eq_refl ltac:(lia))
    as [n [taus [fits [d [[_ [T0 [_ [F [P _]]]]] [E T]]]]]].
  set (t := fun i : nat => cis (- (radf (of_list [1]) 4 i * / 2))).
  assert (F0 : iir_fits (of_list [1]) 4 t 1 0 (fst (fits 0%nat)) (snd (fits 0%nat))).
  { apply (F 0%nat); [lia|]. rewrite T0. intros i Hi. apply cmul_1_l. }
  destruct n as [|n].
  2:{ exfalso. destruct (P 0%nat ltac:(lia)) as [[z [Iz _]] _]. destruct F0 as [_ [La _]]. rewrite Hr in Iz by auto. auto. }
  assert (Fa : forall a : vec, alen a = 1%nat -> a 0%nat = 1 -> forall w, freq_resp a w = C1).
  { intros a La A0 w. unfold freq_resp. rewrite La. change (csum 1 ?g) with (cadd C0 (g 0%nat)). cbv beta. rewrite A0. change (INR 0) with 0.
    rewrite Rmult_0_r, Ropp_0. unfold cis. rewrite cos_0, sin_0. apply C_eq; cbn; ring. }
  destruct (fit_unique (of_list [1]) 4 t 1 0 _ _ (of_list [sqrt 2 / 2; sqrt 2 / 2]) (of_list [1]) F0) as [[Lb Vb] [La Va]]; auto.
  - intros b a Lb La A0 Q. specialize (Q 0%nat ltac:(cbn; lia)).
    assert (Z : freq_resp a (radf (of_list [1]) 4 0) = C0).
    { unfold freq_resp. rewrite La. change (csum 1 ?g) with (cadd C0 (g 0%nat)). cbv beta. rewrite A0. apply C_eq; cbn; ring. }
    rewrite Z, cmul_0_r in Q.
    assert (Fb : freq_resp b (radf (of_list [1]) 4 0) = (b 0%nat, - b 1%nat)).
    { rewrite <- freq_quarter. unfold freq_resp. rewrite Lb. reflexivity. }
    rewrite Fb in Q. injection Q as Q1 Q2. split; intros j Hj.
    + assert (j = 0%nat \/ j = 1%nat) as [-> | ->] by lia; lra.
    + assert (j = 0%nat) by lia. subst. auto.
  - intros i Hi. cbn in Hi. assert (i = 0%nat) by lia. subst. rewrite half_pi_resp, Fa by auto. apply cmul_1_r.
  - exists (fst (fits 0%nat)), (snd (fits 0%nat)).
    assert (Fb : freq_resp (fst (fits 0%nat)) (radf (of_list [1]) 4 0) = t 0%nat).
    { unfold t. rewrite <- half_pi_resp. unfold freq_resp. rewrite Lb. apply csum_ext. intros j Hj. rewrite Vb; auto. rewrite Lb; auto. }
    assert (Fa0 : forall w, freq_resp (snd (fits 0%nat)) w = C1).
    { apply Fa; [rewrite La; reflexivity|]. rewrite Va; [reflexivity|]. rewrite La. cbn. lia. }
    split; [|split].
    + rewrite E. do 4 f_equal. rewrite T0 in T. destruct T as [[z ->] [_ B]]. rewrite <- abs_IZR in B.
      rewrite (Rabs_pos_eq (/ 2)) in B by lra. destruct B as [B _]. f_equal. apply Z.abs_0_iff.
      assert (IZR (Z.abs z) < 1) by lra. apply (lt_IZR _ 1) in H. lia.
    + intros i Hi. cbn in Hi. assert (i = 0%nat) by lia. subst. cbn [aget]. rewrite Fb, Fa0, cmul_1_l. apply cis_opp_mul.
    + exists 0%nat. split; [cbn; lia|]. cbn [aget]. rewrite Fb, Fa0, cmul_1_l, Rmult_0_r.
      unfold t. rewrite quarter_radf. replace (PI / 2 * / 2) with (PI / 4) by field.
      unfold cis. rewrite cos_0, sin_0, sin_neg, sin_PI4. intros Q. apply (f_equal snd) in Q. cbn in Q.
      assert (S : 0 < sqrt 2) by (apply sqrt_lt_R0; lra). assert (0 < / sqrt 2) by (apply Rinv_0_lt_compat; auto). lra.
Qed.
Print Assumptions C75_delay_refuted.

(** With justFit LSIIR fits with the delay tau but returns the delay 0. *)
Theorem C75_justfit_delay_refuted :
  exists (H : arr C) Nb Na f Fs tau, alen H = alen f /\
    forall lstsq roots fuel, exact_lstsq lstsq ->
    exists b a, LSIIR lstsq roots fuel H Nb Na f Fs tau true = Some (Ok (b, a, 0)) /\
      (forall i, (i < alen f)%nat -> freq_resp b (radf f Fs i) = cmul (cmul (H i) (cis (- (radf f Fs i * tau)))) (freq_resp a (radf f Fs i))) /\
      exists i, (i < alen f)%nat /\ freq_resp b (radf f Fs i) <> cmul (cmul (H i) (cis (- (radf f Fs i * 0)))) (freq_resp a (radf f Fs i)).
Proof.
  exists (mkArr 1 (fun _ => C1)), 1%nat, 0%nat, (of_list [1]), 4, 1. split; [reflexivity|].
  intros lstsq roots fuel X.
  set (t := fun i : nat => cis (- (radf (of_list [1]) 4 i * 1))).
  assert (Tt : t 0%nat = (0, - (1))).
  { unfold t. rewrite quarter_radf, Rmult_1_r. unfold cis. rewrite cos_neg, sin_neg, cos_PI2, sin_PI2. reflexivity. }
  destruct (C106_least_squares lstsq roots fuel (mkArr 1 (fun _ => C1)) 1 0 (of_list [1]) 4 1 t X eq_refl) as [b [a [d [E F0]]]].
  { intros i Hi. symmetry. apply cmul_1_l. }
  assert (Ed : LSIIR lstsq roots fuel (mkArr 1 (fun _ => C1)) 1 0 (of_list [1]) 4 1 true = Some (Ok (b, a, 0))).
  { unfold LSIIR, iir_values in *. cbn [alen of_list length] in *. change (1 =? 1)%nat with true in *. cbv iota in *.
    destruct (fitIIR _ _ _ _ _ _ _ _). congruence. }
  assert (Fa : forall a : vec, alen a = 1%nat -> a 0%nat = 1 -> forall w, freq_resp a w = C1).
  { intros a' La A0 w. unfold freq_resp. rewrite La. change (csum 1 ?g) with (cadd C0 (g 0%nat)). cbv beta. rewrite A0. change (INR 0) with 0.
    rewrite Rmult_0_r, Ropp_0. unfold cis. rewrite cos_0, sin_0. apply C_eq; cbn; ring. }
  destruct (fit_unique (of_list [1]) 4 t 1 0 _ _ (of_list [0; 1]) (of_list [1]) F0) as [[Lb Vb] [La Va]]; auto.
  - intros b' a' Lb La A0 Q. specialize (Q 0%nat ltac:(cbn; lia)).
    assert (Z : freq_resp a' (radf (of_list [1]) 4 0) = C0).
    { unfold freq_resp. rewrite La. change (csum 1 ?g) with (cadd C0 (g 0%nat)). cbv beta. rewrite A0. apply C_eq; cbn; ring. }
    rewrite Z, cmul_0_r in Q.
    assert (Fb : freq_resp b' (radf (of_list [1]) 4 0) = (b' 0%nat, - b' 1%nat)).
    { rewrite <- freq_quarter. unfold freq_resp. rewrite Lb. reflexivity. }
    rewrite Fb in Q. injection Q as Q1 Q2. split; intros j Hj.
    + assert (j = 0%nat \/ j = 1%nat) as [-> | ->] by lia; lra.
    + assert (j = 0%nat) by lia. subst. auto.
  - intros i Hi. cbn in Hi. assert (i = 0%nat) by lia. subst. rewrite freq_quarter, Tt, Fa by auto. apply cmul_1_r.
  - assert (Fb : freq_resp b (radf (of_list [1]) 4 0) = t 0%nat).
    { rewrite Tt. rewrite <- (freq_quarter 0 1). unfold freq_resp. rewrite Lb. apply csum_ext. intros j Hj. rewrite Vb; auto. rewrite Lb; auto. }
    assert (Fa0 : forall w, freq_resp a w = C1).
    { apply Fa; [rewrite La; reflexivity|]. rewrite Va; [reflexivity|]. rewrite La. cbn. lia. }
    exists b, a. split; auto. split.
    + intros i Hi. cbn in Hi. assert (i = 0%nat) by lia. subst. cbn [aget]. rewrite Fb, Fa0, cmul_1_l, cmul_1_r. reflexivity.
    + exists 0%nat. split; [cbn; lia|]. cbn [aget]. rewrite Fb, Fa0, cmul_1_l, cmul_1_r, Tt, Rmult_0_r, Ropp_0.
      unfold cis. rewrite cos_0. intros Q. apply (f_equal fst) in Q. cbn in Q. lra.
Qed.
Print Assumptions C75_justfit_delay_refuted.

(** Response and frequencies of different length are rejected (a single response
    value is taken for all frequencies). *)
Theorem C75_mismatch lstsq roots fuel (H : arr C) Nb Na f Fs tau jf : alen H <> alen f -> alen H <> 1%nat ->
  LSIIR lstsq roots fuel H Nb Na f Fs tau jf = Some (Err ValueError) /\
  invLSIIR lstsq roots fuel H Nb Na f Fs tau jf = Some (Err ValueError).
Proof.
  intros N N1. unfold LSIIR, invLSIIR, iir_values.
  assert (Q : (alen H =? alen f)%nat = false) by (apply Nat.eqb_neq; auto).
  assert (Q1 : (alen H =? 1)%nat = false) by (apply Nat.eqb_neq; auto).
  rewrite Q, Q1. auto.
Qed.
Print Assumptions C75_mismatch.
Example C75_mismatch_ex roots : LSIIR lstsq_ref roots 9 (mkArr 2 (fun _ => C1)) 1 1 (of_list [1]) 4 0 false = Some (Err ValueError).
Proof. apply C75_mismatch; cbn; lia. Qed.

(** Both loops end after at most 49 passes: for any solver and any root finder the
    result does not depend on the bound on the passes once this is 49 or more. *)
Theorem C75_terminates lstsq roots fuel (H : arr C) Nb Na f Fs tau jf : (49 <= fuel)%nat ->
  (LSIIR lstsq roots fuel H Nb Na f Fs tau jf = LSIIR lstsq roots 49 H Nb Na f Fs tau jf /\
   LSIIR lstsq roots fuel H Nb Na f Fs tau jf <> None) /\
  (invLSIIR lstsq roots fuel H Nb Na f Fs tau jf = invLSIIR lstsq roots 49 H Nb Na f Fs tau jf /\
   invLSIIR lstsq roots fuel H Nb Na f Fs tau jf <> None).
Proof.
  intros Hf. unfold LSIIR, invLSIIR, iir_stabilise.
  destruct (iir_values H (alen f)) as [Hv|e]; [|repeat split; auto; discriminate].
  split; destruct jf.
  1,3: destruct (fitIIR _ _ _ _ _ _ _ _); split; auto; discriminate.
  - destruct (fitIIR lstsq Hv tau f Fs Na Nb false) as [b a].
    destruct (loop_fuel (fun t => fitIIR lstsq Hv t f Fs Na Nb false) roots Fs 50 fuel 49 1
       (negb (has_outside_root roots a)) tau b a (mapped roots a)) as [E N]; [lia|lia|].
    rewrite <- E. split; auto.
    destruct (iir_loop _ _ _ _ _ _ _ _ _ _ _) as [[[[? ?] ?]|?]|]; auto; discriminate.
  - destruct (fitIIR lstsq Hv tau f Fs Na Nb true) as [b a].
    destruct (loop_fuel (fun t => fitIIR lstsq Hv t f Fs Na Nb true) roots Fs 50 fuel 49 1
       (negb (has_outside_root roots a)) tau b a (mapped roots a)) as [E N]; [lia|lia|].
    rewrite <- E. split; auto.
    destruct (iir_loop _ _ _ _ _ _ _ _ _ _ _) as [[[[? ?] ?]|?]|]; auto; discriminate.
Qed.
Print Assumptions C75_terminates.
Example C75_terminates_ex roots : exists r, LSIIR lstsq_ref roots 1000 (mkArr 1 (fun _ => C1)) 1 1 (of_list [1]) 4 0 false = Some r.
Proof.
  destruct (C75_terminates lstsq_ref roots 1000 (mkArr 1 (fun _ => C1)) 1 1 (of_list [1]) 4 0 false ltac:(lia)) as [[_ N] _].
  destruct (LSIIR _ _ _ _ _ _ _ _ _ _); [eauto|congruence].
Qed.

(** ** C107 invLSIIR_unc *)

(** [a_1, ..., a_Na, b_0, ..., b_Nb] *)
Definition coeffs (Na : nat) (ba : vec * vec) (i : nat) : R :=
  if (i <? Na)%nat then snd ba (S i) else fst ba (i - Na)%nat.

Lemma unc_fits_ok {A} (fit : vec -> option (res (vec * vec * option R))) Na (g : A -> vec) (l : list A)
  (bs as_ : A -> vec) (ts : A -> R) :
  (forall k, In k l -> fit (g k) = Some (Ok (bs k, as_ k, Some (ts k)))) ->
  exists fits, unc_fits fit Na (map g l) = Ok fits /\ length fits = length l /\
    map snd fits = map ts l /\
    map fst fits = map (fun k => mkArr (Na + alen (bs k)) (coeffs Na (bs k, as_ k))) l.
Proof.
  induction l as [|k l IH]; intros H; cbn [map unc_fits].
  - exists []. auto.
  - rewrite (H k (or_introl eq_refl)). destruct IH as [fits [E [L [S F]]]]; [intros; apply H; right; auto|].
    rewrite E. cbn [bind]. eexists. split; [reflexivity|]. cbn [length map snd fst]. rewrite L, S, F.
    split; auto.
Qed.

(** invLSIIR_unc returns the mean and the sample covariance of the coefficients
    that invLSIIR yields for the individual draws, and the mean of the delays. *)
Theorem C107_mean_and_covariance mvn lstsq roots (H : arr C) UH Nb Na f Fs tau runs :
  exact_lstsq lstsq -> alen H = alen f ->
  mrows UH = (alen f + alen f)%nat -> mcols UH = (alen f + alen f)%nat -> (1 <= runs)%nat ->
  exists RI b a t U (fits : nat -> vec * vec) (ts : nat -> R),
    alen RI = (alen f + alen f)%nat /\ (forall i, (i < alen f)%nat -> resp (alen f) RI i = H i) /\
    (forall k, (k < runs)%nat ->
       invLSIIR lstsq roots 50 (mkArr (alen f) (resp (alen f) (mvn RI UH runs k))) Nb Na f Fs tau false
       = Some (Ok (fst (fits k), snd (fits k), Some (ts k)))) /\
    invLSIIR_unc mvn lstsq roots H UH Nb Na f Fs tau runs = Ok (b, a, t, U) /\
    alen b = S Nb /\ alen a = S Na /\ mrows U = (Na + S Nb)%nat /\ mcols U = (Na + S Nb)%nat /\
    (forall i, (i < S Nb)%nat -> b i = avg (fun k => fst (fits k) i) (seq 0 runs)) /\
    a 0%nat = 1 /\ (forall i, (1 <= i < S Na)%nat -> a i = avg (fun k => snd (fits k) i) (seq 0 runs)) /\
    t = avg ts (seq 0 runs) /\
    forall i j, U i j = sample_cov (fun k => coeffs Na (fits k) i) (fun k => coeffs Na (fits k) j) (seq 0 runs).
Proof.
  intros X L Er Ec Hr. set (RI := stack1 (alen f) H).
  set (d := fun k => mkArr (alen f) (resp (alen f) (mvn RI UH runs k))).
  set (r := fun k => invLSIIR lstsq roots 50 (d k) Nb Na f Fs tau false).
  set (fits := fun k => match r k with Some (Ok (b, a, _)) => (b, a) | _ => (mkArr 0 (fun _ => 0), mkArr 0 (fun _ => 0)) end).
  set (ts := fun k => match r k with Some (Ok (_, _, Some t)) => t | _ => 0 end).
  assert (Rk : forall k, r k = Some (Ok (fst (fits k), snd (fits k), Some (ts k)))).
  { intros k. destruct (C75_invLSIIR_loop_partial lstsq roots 50 (d k) Nb Na f Fs tau X eq_refl ltac:(lia))
      as [n [taus [fi [t [_ [E _]]]]]]. unfold fits, ts. unfold r in *. rewrite E. reflexivity. }
  destruct (unc_fits_ok (fun d => invLSIIR lstsq roots 50 (mkArr (alen f) (unstack (alen f) d)) Nb Na f Fs tau false) Na
     (mvn RI UH runs) (seq 0 runs) (fun k => fst (fits k)) (fun k => snd (fits k)) ts) as [fs [E [Lf [Sf Ff]]]].
  { intros k Hk. exact (Rk k). }
  assert (Sl : length (seq 0 runs) = runs) by apply seq_length.
  eexists RI, _, _, _, _, fits, ts.
  split; [reflexivity|]. split.
  { intros i Hi. unfold resp, RI. rewrite stack1_re, stack1_im by auto. symmetry. apply surjective_pairing. }
  split; [intros k Hk; exact (Rk k)|].
  split.
  { assert (D : draw_mvn mvn RI UH runs = Ok (map (mvn RI UH runs) (seq 0 runs))).
    { unfold draw_mvn. rewrite Er, Ec. cbn [RI alen stack1]. rewrite !Nat.eqb_refl. reflexivity. }
    unfold invLSIIR_unc. rewrite L. fold RI. rewrite D, Nat.eqb_refl. cbn [bind negb].
    rewrite E. cbn [bind]. reflexivity. }
  do 4 (split; [reflexivity|]). rewrite Ff. split; [|split; [|split; [|split]]].
  - intros i Hi. cbn [aget]. rewrite rows_mean_avg. apply avg_ext. intros k Hk. cbn [aget]. unfold coeffs.
    assert (Q : (Na + i <? Na)%nat = false) by (apply Nat.ltb_ge; lia). rewrite Q. cbn [fst]. f_equal. lia.
  - reflexivity.
  - intros i Hi. destruct i as [|i]; [lia|]. cbn [aget]. rewrite rows_mean_avg. apply avg_ext. intros k Hk. cbn [aget]. unfold coeffs.
    assert (Q : (i <? Na)%nat = true) by (apply Nat.ltb_lt; lia). rewrite Q. reflexivity.
  - rewrite Sf, Lf, tot_lsum. reflexivity.
  - intros i j. rewrite rows_cov_sample by lia. apply sample_cov_ext; intros k Hk; cbn [aget];
      rewrite <- surjective_pairing; reflexivity.
Qed.
Print Assumptions C107_mean_and_covariance.

(** Without uncertainty the result is that of invLSIIR with vanishing covariance. *)
Theorem C107_no_uncertainty (mvn : vec -> mat -> nat -> nat -> vec) lstsq roots (H : arr C) UH Nb Na f Fs tau runs :
  exact_lstsq lstsq -> alen H = alen f ->
  mrows UH = (alen f + alen f)%nat -> mcols UH = (alen f + alen f)%nat -> (1 <= runs)%nat ->
  (forall RI k i, mvn RI UH runs k i = RI i) ->
  exists b a t b' a' U, invLSIIR lstsq roots 50 H Nb Na f Fs tau false = Some (Ok (b, a, Some t)) /\
    invLSIIR_unc mvn lstsq roots H UH Nb Na f Fs tau runs = Ok (b', a', t, U) /\
    veq b' b /\ veq a' a /\
    forall i j, (i < Na + S Nb)%nat -> (j < Na + S Nb)%nat -> U i j = 0.
Proof.
  intros X L Er Ec Hr Hm.
  destruct (C75_invLSIIR_loop_partial lstsq roots 50 H Nb Na f Fs tau X L ltac:(lia)) as [n [taus [fi [t [P [E _]]]]]].
  destruct (C107_mean_and_covariance mvn lstsq roots H UH Nb Na f Fs tau runs X L Er Ec Hr)
    as [RI [b' [a' [t' [U [fits [ts [LR [HR [Hk [E' [Lb [La [_ [_ [Hb [A0 [Ha [Ht HU]]]]]]]]]]]]]]]]]]].
  assert (Fk : forall k, (k < runs)%nat -> fst (fits k) = fst (fi n) /\ snd (fits k) = snd (fi n) /\ ts k = t).
  { intros k Hkr. specialize (Hk k Hkr).
    rewrite (invLSIIR_ext lstsq roots 50 _ H) in Hk; auto.
    - rewrite E in Hk. injection Hk as <- <- <-. auto.
    - intros i Hi. cbn [aget]. rewrite <- HR by auto. unfold resp. rewrite !Hm. auto. }
  assert (Sq : forall k, In k (seq 0 runs) -> (k < runs)%nat) by (intros k I; apply in_seq in I; lia).
  assert (Sl : (1 <= length (seq 0 runs))%nat) by (rewrite seq_length; auto).
  destruct P as [_ [_ [Sh _]]]. destruct (Sh n (le_n n)) as [LB [LA A1]].
  exists (fst (fi n)), (snd (fi n)), t, b', a', U. split; auto. split; [|split; [|split]].
  - rewrite E'. do 3 f_equal. rewrite Ht, (avg_ext ts (fun _ => t)) by (intros k I; destruct (Fk k (Sq k I)) as [_ [_ ->]]; auto).
    apply avg_const. auto.
  - split; [congruence|]. intros i Hi. rewrite Hb by lia.
    rewrite (avg_ext _ (fun _ => fst (fi n) i)) by (intros k I; destruct (Fk k (Sq k I)) as [-> _]; auto).
    apply avg_const. auto.
  - split; [congruence|]. intros i Hi. destruct i as [|i]; [congruence|]. rewrite Ha by lia.
    rewrite (avg_ext _ (fun _ => snd (fi n) (S i))) by (intros k I; destruct (Fk k (Sq k I)) as [_ [-> _]]; auto).
    apply avg_const. auto.
  - intros i j Hi Hj. rewrite HU.
    rewrite (sample_cov_ext _ (fun _ => coeffs Na (fi n) i) _ (fun _ => coeffs Na (fi n) j)).
    + apply sample_cov_const. auto.
    + intros k I. destruct (Fk k (Sq k I)) as [F1 [F2 _]]. unfold coeffs. rewrite F1, F2. auto.
    + intros k I. destruct (Fk k (Sq k I)) as [F1 [F2 _]]. unfold coeffs. rewrite F1, F2. auto.
Qed.
Print Assumptions C107_no_uncertainty.
Example C107_ex roots : exists b a t b' a' U,
  invLSIIR lstsq_ref roots 50 (mkArr 1 (fun _ => (1, / 2))) 0 1 (of_list [1]) 4 0 false = Some (Ok (b, a, Some t)) /\
  invLSIIR_unc (fun m _ _ _ => m) lstsq_ref roots (mkArr 1 (fun _ => (1, / 2))) (zeros2 2 2) 0 1 (of_list [1]) 4 0 3 = Ok (b', a', t, U) /\
  veq b' b /\ veq a' a /\ forall i j, (i < 2)%nat -> (j < 2)%nat -> U i j = 0.
Proof. apply (C107_no_uncertainty (fun m _ _ _ => m)); auto. apply lstsq_ref_exact. Qed.

(** A covariance of the wrong shape is rejected. *)
Theorem C107_shape mvn lstsq roots (H : arr C) UH Nb Na f Fs tau runs :
  (mrows UH <> alen H + alen H \/ mcols UH <> alen H + alen H)%nat ->
  invLSIIR_unc mvn lstsq roots H UH Nb Na f Fs tau runs = Err ValueError.
Proof.
  intros N. unfold invLSIIR_unc, draw_mvn. cbn [alen stack1].
  assert (Q : ((mrows UH =? alen H + alen H) && (mcols UH =? alen H + alen H))%nat%bool = false).
  { destruct (Nat.eqb_spec (mrows UH) (alen H + alen H)); destruct (Nat.eqb_spec (mcols UH) (alen H + alen H)); auto. lia. }
  rewrite Q. reflexivity.
Qed.
Print Assumptions C107_shape.
Example C107_shape_ex mvn roots : invLSIIR_unc mvn lstsq_ref roots (mkArr 1 (fun _ => C1)) (zeros2 1 1) 0 1 (of_list [1]) 4 0 3 = Err ValueError.
Proof. apply C107_shape. left. cbn. lia. Qed.
