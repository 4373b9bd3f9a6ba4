(** Harmonics put together from their lines: GUM_iDFT and AmpPhase2Time (C180).
    Model: M_DFT.v.  Vocabulary: S_DFT.v, harmonics (T_Harmonic.v), lines_of (T_Parseval.v). *)
From Coq Require Import Reals List Arith ZArith Bool Lia Lra Psatz.
From Verif Require Import Base Sums Stats StatsFacts M_DFT S_Jac S_DFT P_Jac P_Trig P_DFT P_AmpPhase P_iDFT P_APTime T_Parseval T_Harmonic.
Import ListNotations.
Open Scope R_scope.

Lemma idft_coeff_lines N n k : Nat.Even N -> (2 <= N)%nat -> (k < N / 2 + 1)%nat ->
  idft_coeff N n k = lines_of N k / INR N * cos (2 * PI * INR k * INR n / INR N) /\
  idft_coeff N n (N / 2 + 1 + k) = - (lines_of N k / INR N * sin (2 * PI * INR k * INR n / INR N)).
Proof.
  intros [p Hp] HN Hk.
  assert (HN2 : (N / 2)%nat = p) by (rewrite Hp, Nat.mul_comm; apply Nat.div_mul; lia).
  assert (H0 : INR N <> 0) by (apply not_0_INR; lia).
  rewrite idft_coeff_lo, idft_coeff_hi by assumption. unfold idft_Cc, idft_Cs. cbn [mget]. rewrite HN2 in *.
  unfold lines_of, beta_dft.
  destruct (Nat.eqb_spec k 0) as [->|K0]; cbn [orb].
  - replace (1 <=? 0)%nat with false by reflexivity. cbn [andb].
    replace (0 =? p + 1 - 1)%nat with false by (symmetry; apply Nat.eqb_neq; lia).
    change (INR 0) with 0. replace (2 * PI * 0 * INR n / INR N) with 0 by (field; exact H0). rewrite cos_0, sin_0. split; field; exact H0.
  - replace (1 <=? k)%nat with true by (symmetry; apply Nat.leb_le; lia). cbn [andb].
    destruct (Nat.eqb_spec (2 * k) N) as [E|E].
    + replace (k <? p)%nat with false by (symmetry; apply Nat.ltb_ge; lia).
      replace (k =? p + 1 - 1)%nat with true by (symmetry; apply Nat.eqb_eq; lia).
      replace (2 * PI * INR k * INR n / INR N) with (PI * INR n).
      2:{ rewrite <- E, mult_INR. cbn [INR]. assert (INR k <> 0) by (apply not_0_INR; lia). field. assumption. }
      split; field; exact H0.
    + replace (k <? p)%nat with true by (symmetry; apply Nat.ltb_lt; lia).
      replace (INR k * (2 * PI * INR n / INR N)) with (2 * PI * INR k * INR n / INR N) by (field; exact H0).
      split; field; exact H0.
Qed.
Lemma even_halves N : Nat.Even N -> (N + 2 = 2 * (N / 2 + 1))%nat.
Proof. intros [p ->]. rewrite (Nat.mul_comm 2 p), Nat.div_mul by lia. lia. Qed.

(** ** C180 *)
Theorem C180_synthesis : forall N Nx nx F UF A p, let h := (N / 2 + 1)%nat in
  Nat.Even N -> (2 <= N)%nat -> nx_fits N Nx nx -> alen F = (N + 2)%nat -> fun_fits (N + 2) UF -> symm (N + 2) (fun_U UF) ->
  (forall k, (k < h)%nat -> F k = INR N / lines_of N k * (A k * cos (p k)) /\
                            F (h + k)%nat = INR N / lines_of N k * (A k * sin (p k))) ->
  exists x V c, GUM_iDFT F UF Nx None None = Ok (x, V, c) /\ alen x = nx /\
    forall n, (n < nx)%nat -> x n = harmonics N A p n.
Proof.
  intros N Nx nx F UF A p h He HN Hx HF Hf Hs HA.
  destruct (GUM_iDFT_run F UF Nx N nx He HN Hx HF Hf Hs) as (x & V & c & E & L & _ & _ & Ex & _).
  exists x, V, c. split; [exact E|]. split; [exact L|]. intros n Hn. rewrite Ex by assumption.
  rewrite idft_map_linear by (assumption || lia). rewrite rsum_halves, <- rsum_plus. unfold harmonics. apply rsum_ext. fold h. intros k Hk.
  destruct (idft_coeff_lines N n k He HN Hk) as [C1 C2]. fold h in C2. destruct (HA k Hk) as [F1 F2].
  rewrite C1, C2, F1, F2, cos_plus. pose proof (lines_of_pos N k). assert (INR N <> 0) by (apply not_0_INR; lia). field. split; lra.
Qed.
(** Uncorrelated lines: covariance of the samples. *)
Theorem C180_uncorrelated : forall N Nx nx F UF (r : nat -> R), let h := (N / 2 + 1)%nat in
  Nat.Even N -> (2 <= N)%nat -> nx_fits N Nx nx -> alen F = (N + 2)%nat -> fun_fits (N + 2) UF -> symm (N + 2) (fun_U UF) ->
  (forall i j, (i < N + 2)%nat -> (j < N + 2)%nat -> i <> j -> fun_U UF i j = 0) ->
  exists x V c, GUM_iDFT F UF Nx None None = Ok (x, V, c) /\ mrows V = nx /\ mcols V = nx /\
    (forall n m, V n m = rsum h (fun k => (lines_of N k / INR N) ^ 2 *
       (fun_U UF k k * cos (2 * PI * INR k * INR n / INR N) * cos (2 * PI * INR k * INR m / INR N)
        + fun_U UF (h + k)%nat (h + k)%nat * sin (2 * PI * INR k * INR n / INR N) * sin (2 * PI * INR k * INR m / INR N)))) /\
    ((forall k, (k < h)%nat -> fun_U UF k k = r k /\ fun_U UF (h + k)%nat (h + k)%nat = r k) ->
       (forall n m, V n m = rsum h (fun k => (lines_of N k / INR N) ^ 2 * r k * cos (2 * PI * INR k * (INR n - INR m) / INR N)))).
Proof.
  intros N Nx nx F UF r h He HN Hx HF Hf Hs Hd.
  pose proof (even_halves N He) as H2. fold h in H2.
  destruct (GUM_iDFT_run F UF Nx N nx He HN Hx HF Hf Hs) as (x & V & c & E & _ & R1 & C1 & _ & EV & _).
  exists x, V, c. split; [exact E|]. split; [exact R1|]. split; [exact C1|].
  assert (Z : forall n m, idft_cross N (fun_U UF) n m = 0).
  { intros n m. unfold idft_cross. fold h. apply rsum_zero; intros a Ha. apply rsum_zero; intros b Hb. rewrite Hd by lia. ring. }
  assert (G : forall n m, V n m = rsum h (fun k => (lines_of N k / INR N) ^ 2 *
       (fun_U UF k k * cos (2 * PI * INR k * INR n / INR N) * cos (2 * PI * INR k * INR m / INR N)
        + fun_U UF (h + k)%nat (h + k)%nat * sin (2 * PI * INR k * INR n / INR N) * sin (2 * PI * INR k * INR m / INR N)))).
  { intros n m. rewrite EV, !Z, Rminus_0_r, Rplus_0_r. unfold sandwich. rewrite H2 at 1. rewrite rsum_halves, <- rsum_plus.
    apply rsum_ext. intros k Hk.
    rewrite (rsum_single (N + 2) k), (rsum_single (N + 2) (h + k)%nat).
    - destruct (idft_coeff_lines N n k He HN Hk) as [A1 A2]. destruct (idft_coeff_lines N m k He HN Hk) as [B1 B2]. fold h in A2, B2.
      rewrite A1, A2, B1, B2. ring.
    - lia.
    - intros j Hj Hne. rewrite Hd by lia. ring.
    - lia.
    - intros j Hj Hne. rewrite Hd by lia. ring. }
  split; [exact G|]. intros Hr n m. rewrite G. apply rsum_ext. intros k Hk. destruct (Hr k Hk) as [-> ->].
  replace (2 * PI * INR k * (INR n - INR m) / INR N) with (2 * PI * INR k * INR n / INR N - 2 * PI * INR k * INR m / INR N)
    by (field; apply not_0_INR; lia).
  rewrite cos_minus. ring.
Qed.
(** Amplitudes and phases of lines that are uncorrelated, amplitude and phase included. *)
Theorem C180_amp_phase : forall N (A P : vec) UAP, let h := (N / 2 + 1)%nat in
  Nat.Even N -> (2 <= N)%nat -> alen A = h -> alen P = h -> ap_fits (2 * h) UAP -> dia_full UAP ->
  (forall i j, (i < 2 * h)%nat -> (j < 2 * h)%nat -> i <> j -> ap_U UAP i j = 0) ->
  exists x V, AmpPhase2Time A P UAP = Ok (x, V) /\ alen x = N /\ mrows V = N /\ mcols V = N /\
    (forall n, (n < N)%nat -> x n = harmonics N (fun k => lines_of N k / INR N * A k) P n) /\
    forall n m, V n m = rsum h (fun k => (lines_of N k / INR N) ^ 2 *
       (ap_U UAP k k * cos (2 * PI * INR k * INR n / INR N + P k) * cos (2 * PI * INR k * INR m / INR N + P k)
        + ap_U UAP (h + k)%nat (h + k)%nat * A k ^ 2 * sin (2 * PI * INR k * INR n / INR N + P k) * sin (2 * PI * INR k * INR m / INR N + P k))).
Proof.
  intros N A P UAP h He HN HA HP Hf Hdf Hd.
  assert (Hs : symm (2 * h) (ap_U UAP)).
  { intros i j Hi Hj. destruct (Nat.eq_dec i j) as [->|Hne]; [reflexivity|]. rewrite !Hd by auto. reflexivity. }
  destruct (AmpPhase2Time_run A P UAP N h He HN eq_refl HA HP Hf Hs Hdf) as (x & V & E & L & R1 & C1 & Ex & EV).
  exists x, V. repeat (split; [assumption|]). split.
  - intros n Hn. rewrite Ex by assumption. rewrite idft_map_linear by (assumption || lia). rewrite rsum_halves, <- rsum_plus. unfold harmonics.
    apply rsum_ext. fold h. intros k Hk. destruct (idft_coeff_lines N n k He HN Hk) as [B1 B2]. fold h in B2.
    unfold to_real_imag, stk. rewrite HA.
    replace (k <? h)%nat with true by (symmetry; apply Nat.ltb_lt; lia).
    replace (h + k <? h)%nat with false by (symmetry; apply Nat.ltb_ge; lia). replace (h + k - h)%nat with k by lia.
    replace (k <? h)%nat with true by (symmetry; apply Nat.ltb_lt; lia). rewrite B1, B2, cos_plus. ring.
  - intros n m. rewrite EV.
    assert (Z : forall n m, cross h (apt_coeff N A P) (ap_U UAP) n m = 0).
    { intros a b. unfold cross. apply rsum_zero; intros i Hi. apply rsum_zero; intros j Hj. rewrite Hd by lia. ring. }
    rewrite !Z, Rminus_0_r, Rplus_0_r. unfold sandwich. rewrite rsum_halves, <- rsum_plus. apply rsum_ext. intros k Hk.
    rewrite (rsum_single (2 * h) k), (rsum_single (2 * h) (h + k)%nat).
    + assert (Hh2 : (2 <= h)%nat) by (pose proof (even_halves N He) as Q; fold h in Q; lia). destruct (apt_chain N A P n k h eq_refl Hh2 HA HP Hk) as [D1 D2]. destruct (apt_chain N A P m k h eq_refl Hh2 HA HP Hk) as [D3 D4].
      destruct (idft_coeff_lines N n k He HN Hk) as [A1 A2]. destruct (idft_coeff_lines N m k He HN Hk) as [B1 B2]. fold h in A2, B2.
      rewrite D1, D2, D3, D4, A1, A2, B1, B2, !cos_plus, !sin_plus. ring.
    + lia.
    + intros j Hj Hne. rewrite Hd by lia. ring.
    + lia.
    + intros j Hj Hne. rewrite Hd by lia. ring.
Qed.

(** Concrete cases: four samples, one line at a quarter of the sampling rate. *)
Lemma even4 : Nat.Even 4. Proof. exists 2%nat. reflexivity. Qed.
Example C180_synthesis_example : exists x V c,
  GUM_iDFT (of_list [0; 2; 0; 0; 0; 0]) (FuVec (of_list [1; 1; 1; 0; 1; 0])) None None None = Ok (x, V, c) /\ alen x = 4%nat /\
  forall n, (n < 4)%nat -> x n = harmonics 4 (fun k => if (k =? 1)%nat then 1 else 0) (fun _ => 0) n.
Proof.
  apply C180_synthesis; cbn [nx_fits]; auto using even4; try reflexivity.
  - intros i j _ _. cbn. rewrite Nat.eqb_sym. destruct (Nat.eqb_spec j i) as [->|]; reflexivity.
  - intros k Hk. change (4 / 2 + 1)%nat with 3%nat in *. destruct k as [|[|[|k]]]; [| | |lia]; cbn; rewrite cos_0, sin_0; split; field.
Qed.
Example C180_uncorrelated_example : exists x V c,
  GUM_iDFT (of_list [0; 2; 0; 0; 0; 0]) (FuVec (of_list [1; 1; 1; 0; 1; 0])) None None None = Ok (x, V, c) /\ V 0%nat 0%nat = 3 / 8.
Proof.
  destruct (C180_uncorrelated 4 None 4 (of_list [0; 2; 0; 0; 0; 0]) (FuVec (of_list [1; 1; 1; 0; 1; 0])) (fun _ => 1))
    as (x & V & c & E & _ & _ & H & _); cbn [nx_fits]; auto using even4; try reflexivity.
  - intros i j _ _. cbn. rewrite Nat.eqb_sym. destruct (Nat.eqb_spec j i) as [->|]; reflexivity.
  - intros i j _ _ Hne. cbn. apply Nat.eqb_neq in Hne. now rewrite Hne.
  - exists x, V, c. split; [exact E|]. rewrite H. change (4 / 2 + 1)%nat with 3%nat. cbn [rsum fun_U].
    change (INR 0) with 0. rewrite !Rmult_0_r. unfold Rdiv at 2 3 6 7 10 11. rewrite !Rmult_0_l.
    replace (0 / INR 4) with 0 by (cbn; field). rewrite cos_0, sin_0. cbn. lra.
Qed.
Example C180_amp_phase_example : exists x V,
  AmpPhase2Time (of_list [0; 2; 0]) (of_list [0; PI / 2; 0]) (ApVec (of_list [1; 1; 1; 0; 1; 0])) = Ok (x, V) /\ alen x = 4%nat /\
  forall n, (n < 4)%nat -> x n = harmonics 4 (fun k => lines_of 4 k / INR 4 * of_list [0; 2; 0] k) (of_list [0; PI / 2; 0]) n.
Proof.
  destruct (C180_amp_phase 4 (of_list [0; 2; 0]) (of_list [0; PI / 2; 0]) (ApVec (of_list [1; 1; 1; 0; 1; 0])))
    as (x & V & E & L & _ & _ & H & _); auto using even4; try reflexivity; try exact I.
  - intros i j _ _ Hne. cbn. apply Nat.eqb_neq in Hne. now rewrite Hne.
  - exists x, V. auto.
Qed.
Print Assumptions C180_synthesis.
Print Assumptions C180_uncorrelated.
Print Assumptions C180_amp_phase.
