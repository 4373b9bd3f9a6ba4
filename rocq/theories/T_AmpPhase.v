(** Amplitude / phase representation, deconvolution and multiplication in the frequency
    domain: theorems C29-C39, C85, C87.  Model: M_DFT.v.  Vocabulary: S_Jac.v, S_DFT.v, Stats.v. *)
From Coq Require Import Reals List Arith ZArith Bool Lia Lra Psatz.
From Verif Require Import Base Sums Stats StatsFacts M_DFT S_Jac S_DFT P_Jac P_Trig P_DFT P_iDFT
  P_Deriv P_AmpPhase P_APTime P_Deconv P_T2AP.
Import ListNotations.
Open Scope R_scope.

(** ** C29 *)
Theorem C29_amp_phase_exact : forall (F : vec) UF ks h,
  alen F = (2 * h)%nat -> (1 <= h)%nat -> fun_fits (2 * h) UF -> symm (2 * h) (fun_U UF) ->
  (forall k, (k < h)%nat -> 0 < amp (F k) (F (h + k)%nat)) ->
  exists A P U, DFT2AmpPhase F UF ks = Ok (A, P, U) /\ alen A = h /\ alen P = h /\ dense_shape (2 * h) U /\
    (* estimate: polar coordinates, phase in (-pi, pi] *)
    (forall k, (k < h)%nat -> A k = amp (F k) (F (h + k)%nat) /\ - PI < P k <= PI /\
       A k * cos (P k) = F k /\ A k * sin (P k) = F (h + k)%nat) /\
    (* the branch of the phase around P agrees with it and is differentiable ... *)
    (forall k, (k < h)%nat -> off_cut (P k) (F k) (F (h + k)%nat) /\ arg (P k) (F k) (F (h + k)%nat) = P k) /\
    (exists J, is_jac (2 * h) (2 * h) (to_amp_phase h P) F J) /\
    (* ... and the covariance is J UF J^T for the derivatives J of any branch *)
    (forall p, (forall k, (k < h)%nat -> off_cut (p k) (F k) (F (h + k)%nat)) ->
       forall J, is_jac (2 * h) (2 * h) (to_amp_phase h p) F J ->
       forall i j, (i < 2 * h)%nat -> (j < 2 * h)%nat ->
         dense U i j = sandwich (2 * h) J (fun_U UF) J i j) /\
    symm (2 * h) (dense U).
Proof.
  intros F UF ks h HF Hh Hf Hs Ha.
  destruct (DFT2AmpPhase_run F UF ks h) as [A [P [U [E [LA [LP [HA [HP [Sh HU]]]]]]]]]; auto.
  assert (Hb : forall k, (k < h)%nat -> off_cut (P k) (F k) (F (h + k)%nat) /\ arg (P k) (F k) (F (h + k)%nat) = P k).
  { intros k Hk. rewrite HP. destruct (arctan2_polar (F k) (F (h + k)%nat)) as [E1 [E2 _]]; [auto|].
    destruct (arg_own_direction _ _ _ E1 E2 (Ha k Hk)). auto. }
  exists A, P, U. repeat (split; [assumption|]). split; [|split; [exact Hb|split; [|split]]].
  - intros k Hk. rewrite HA, HP. destruct (arctan2_polar (F k) (F (h + k)%nat)) as [E1 [E2 E3]]; auto.
  - eexists. apply to_amp_phase_jac. intros k Hk. split; [auto|]. now apply Hb.
  - intros p Hp J HJ i j Hi Hj. rewrite HU by assumption. unfold S4. symmetry.
    apply (is_jac_any_sandwich (2 * h) (2 * h) (to_amp_phase h p) F); auto.
    apply to_amp_phase_jac. auto.
  - intros i j Hi Hj. rewrite !HU by assumption. now apply S4_symm.
Qed.
(** 3 + 4i with variances (1, 1): amplitude 5, variance of the amplitude 1, of the phase 1/25. *)
Lemma amp34 : amp 3 4 = 5.
Proof. unfold amp. replace (3 * 3 + 4 * 4) with (5 * 5) by ring. apply sqrt_square. lra. Qed.
Example C29_example : exists A P U, DFT2AmpPhase (of_list [3; 4]) (FuVec (of_list [1; 1])) false = Ok (A, P, U) /\
  A 0%nat = 5 /\ dense U 0 0 = 1 /\ dense U 0 1 = 0 /\ dense U 1 1 = / 25.
Proof.
  assert (Ha : forall k, (k < 1)%nat -> 0 < amp (of_list [3; 4] k) (of_list [3; 4] (1 + k)%nat)).
  { intros [|k] Hk; [|lia]. simpl. rewrite amp34. lra. }
  destruct (DFT2AmpPhase_run (of_list [3; 4]) (FuVec (of_list [1; 1])) false 1)
    as [A [P [U [E [_ [_ [HA [HP [_ HU]]]]]]]]]; simpl; auto.
  { apply (diag_symm 2 (of_list [1; 1])). }
  exists A, P, U. split; [exact E|]. split; [rewrite HA; simpl; exact amp34|].
  rewrite !HU by lia. rewrite !S4_term by lia.
  unfold term4, ap_al, ap_be, base. simpl. rewrite amp34. repeat split; lra.
Qed.
Print Assumptions C29_amp_phase_exact.

(** ** C30 *)
Definition matrix_or_vector (u : apunc) : Prop := match u with ApDia _ => False | _ => True end.
Theorem C30_real_imag_exact : forall (A P : vec) UAP ks h,
  alen A = h -> alen P = h -> (1 <= h)%nat -> ap_fits (2 * h) UAP -> symm (2 * h) (ap_U UAP) ->
  matrix_or_vector UAP ->
  exists F U, AmpPhase2DFT A P UAP ks = Ok (F, U) /\ alen F = (2 * h)%nat /\ dense_shape (2 * h) U /\
    (forall k, (k < h)%nat -> F k = A k * cos (P k) /\ F (h + k)%nat = A k * sin (P k)) /\
    (exists J, is_jac (2 * h) (2 * h) (to_real_imag h) (stk A P) J) /\
    (forall J, is_jac (2 * h) (2 * h) (to_real_imag h) (stk A P) J ->
       forall i j, (i < 2 * h)%nat -> (j < 2 * h)%nat ->
         dense U i j = sandwich (2 * h) J (ap_U UAP) J i j) /\
    symm (2 * h) (dense U).
Proof.
  intros A P UAP ks h HA HP Hh Hf Hs Hm.
  destruct (AmpPhase2DFT_run A P UAP ks h) as [F [U [E [LF [HF [Sh HU]]]]]]; auto.
  assert (H0 : forall i j, sparse_error h A P UAP i j = 0) by (intros; destruct UAP; [reflexivity..|contradiction]).
  exists F, U. split; [exact E|]. split; [exact LF|]. split; [exact Sh|]. split; [|split; [|split]].
  - intros k Hk. rewrite !HF by lia. unfold to_real_imag. rewrite hi_false.
    replace (k <? h)%nat with true by (symmetry; now apply Nat.ltb_lt).
    replace (h + k - h)%nat with k by lia. rewrite (stk_lo A P h), (stk_hi A P h) by auto. auto.
  - eexists. apply to_real_imag_jac.
  - intros J HJ i j Hi Hj. rewrite HU, H0 by assumption. unfold S4. rewrite Rplus_0_r. symmetry.
    apply (is_jac_any_sandwich (2 * h) (2 * h) (to_real_imag h) (stk A P)); auto. apply to_real_imag_jac.
  - intros i j Hi Hj. rewrite !HU, !H0 by assumption. now rewrite S4_symm.
Qed.
Theorem C30_shape_errors : forall (A P : vec) UAP ks,
  (alen A <> alen P \/ ~ ap_fits (2 * alen A) UAP) -> AmpPhase2DFT A P UAP ks = Err ValueError.
Proof.
  intros A P UAP ks H. unfold AmpPhase2DFT. destruct (Nat.eqb_spec (alen A) (alen P)) as [E|E]; [|reflexivity].
  cbn [negb]. destruct H as [H|H]; [contradiction|].
  destruct UAP as [v|m|d]; cbn [ap_fits] in H.
  - apply Nat.eqb_neq in H. rewrite H. reflexivity.
  - destruct (Nat.eqb_spec (mrows m) (2 * alen A)), (Nat.eqb_spec (mcols m) (2 * alen A)); try reflexivity. tauto.
  - apply Nat.eqb_neq in H. rewrite H. reflexivity.
Qed.
(** A = 2, P = 0: the phase only moves the imaginary part, by A. *)
Example C30_example : exists F U, AmpPhase2DFT (of_list [2]) (of_list [0]) (ApVec (of_list [1; 1])) false = Ok (F, U) /\
  F 0%nat = 2 /\ F 1%nat = 0 /\ dense U 0 0 = 1 /\ dense U 0 1 = 0 /\ dense U 1 1 = 4.
Proof.
  destruct (AmpPhase2DFT_run (of_list [2]) (of_list [0]) (ApVec (of_list [1; 1])) false 1)
    as [F [U [E [_ [HF [_ HU]]]]]]; simpl; auto.
  { apply (diag_symm 2 (of_list [1; 1])). }
  exists F, U. split; [exact E|]. rewrite !HF, !HU by lia. rewrite !S4_term by lia.
  unfold to_real_imag, stk, term4, ri_al, ri_be, base, stk. simpl. rewrite cos_0, sin_0. repeat split; lra.
Qed.
Print Assumptions C30_real_imag_exact.
Print Assumptions C30_shape_errors.

(** ** C31 *)
Definition as_ap (u : cunc2) : apunc := match u with UDense m => ApMat m | USparse d => ApDia d end.
Theorem C31_round_trip : forall (F : vec) UF h ks,
  alen F = (2 * h)%nat -> (1 <= h)%nat -> fun_fits (2 * h) UF -> symm (2 * h) (fun_U UF) ->
  (forall k, (k < h)%nat -> 0 < amp (F k) (F (h + k)%nat)) ->
  exists A P U F' U', DFT2AmpPhase F UF false = Ok (A, P, U) /\ AmpPhase2DFT A P (as_ap U) ks = Ok (F', U') /\
    alen F' = (2 * h)%nat /\ (forall i, (i < 2 * h)%nat -> F' i = F i) /\
    (forall i j, (i < 2 * h)%nat -> (j < 2 * h)%nat -> dense U' i j = fun_U UF i j).
Proof.
  intros F UF h ks HF Hh Hf Hs Ha.
  destruct (DFT2AmpPhase_run F UF false h) as [A [P [U [E [LA [LP [HA [HP [Sh HU]]]]]]]]]; auto.
  assert (HD : exists m, U = UDense m /\ mrows m = (2 * h)%nat /\ mcols m = (2 * h)%nat).
  { destruct U as [m|d]; [exists m; repeat split; apply Sh|].
    exfalso. unfold DFT2AmpPhase in E. rewrite HF, half_2h, Nat.eqb_refl in E. cbn [negb] in E.
    destruct UF as [v|M]; cbv zeta in E.
    - destruct (_ || _); discriminate.
    - cbv beta iota delta [bind] in E.
      repeat match type of E with match ?e with Ok _ => _ | Err _ => _ end = _ => destruct e; [|discriminate E] end.
      discriminate. }
  destruct HD as [m [-> [Hr Hc]]]. cbn [dense] in HU.
  destruct (AmpPhase2DFT_run A P (ApMat m) ks h) as [F' [U' [E' [LF [HF' [_ HU']]]]]]; auto.
  { intros i j Hi Hj. cbn [ap_U]. rewrite !HU by assumption. now apply S4_symm. }
  assert (Hk : forall k, (k < h)%nat -> 0 < amp (F k) (F (h + k)%nat) /\ stk A P k = amp (F k) (F (h + k)%nat) /\
     stk A P k * cos (stk A P (h + k)%nat) = F k /\ stk A P k * sin (stk A P (h + k)%nat) = F (h + k)%nat).
  { intros k Hk. rewrite (stk_lo A P h), (stk_hi A P h) by auto. rewrite HA, HP.
    destruct (arctan2_polar (F k) (F (h + k)%nat)) as [E1 [E2 _]]; auto. }
  exists A, P, (UDense m), F', U'. split; [exact E|]. split; [exact E'|]. split; [exact LF|]. split.
  - intros i Hi. rewrite HF' by assumption. unfold to_real_imag. destruct (Nat.ltb_spec i h).
    + now apply Hk.
    + replace i with (h + (i - h))%nat at 2 3 by lia. apply Hk. lia.
  - intros i j Hi Hj. rewrite HU' by assumption. cbn [sparse_error ap_U]. rewrite Rplus_0_r.
    apply (S4_roundtrip h F (stk A P) (fun_U UF) (fun a b => m a b)); auto.
Qed.
Example C31_example : exists A P U F' U',
  DFT2AmpPhase (of_list [3; 4]) (FuVec (of_list [1; 2])) false = Ok (A, P, U) /\
  AmpPhase2DFT A P (as_ap U) false = Ok (F', U') /\ F' 0%nat = 3 /\ F' 1%nat = 4 /\ dense U' 1 1 = 2 /\ dense U' 0 1 = 0.
Proof.
  destruct (C31_round_trip (of_list [3; 4]) (FuVec (of_list [1; 2])) 1 false)
    as [A [P [U [F' [U' [E [E' [_ [HF HU]]]]]]]]]; simpl; auto.
  { apply (diag_symm 2 (of_list [1; 2])). }
  { intros [|k] Hk; [|lia]. simpl. rewrite amp34. lra. }
  exists A, P, U, F', U'. rewrite !HF, !HU by lia. repeat split; assumption.
Qed.
Print Assumptions C31_round_trip.

(** ** C32 (false) *)
Definition ex_dia : dia := mkDia 1 (of_list [1; 1]) (of_list [1]) (of_list [1]).
(** A = 1, P = 0, all variances and the covariance 1: the imaginary part moves with the phase,
    the covariance of real and imaginary part is 1 (dense) but 0 is returned (sparse). *)
Theorem C32_sparse_equals_dense_refuted : exists A P d ks F U F' U',
  psd 2 (dia_toarray d) /\
  AmpPhase2DFT A P (ApDia d) ks = Ok (F, U) /\ AmpPhase2DFT A P (ApMat (dia_toarray d)) ks = Ok (F', U') /\
  dense U 0 1 = 0 /\ dense U' 0 1 = 1.
Proof.
  assert (Hp : psd 2 (dia_toarray ex_dia)).
  { split.
    - intros i j Hi Hj. destruct i as [|[|i]]; try lia; destruct j as [|[|j]]; try lia; reflexivity.
    - intros v. unfold quad. cbn. match goal with |- 0 <= ?x => replace x with ((v 0%nat + v 1%nat) ^ 2) by ring end.
      apply pow2_ge_0. }
  destruct (AmpPhase2DFT_run (of_list [1]) (of_list [0]) (ApDia ex_dia) false 1) as [F [U [E [_ [_ [_ HU]]]]]]; simpl; auto.
  { apply Hp. }
  destruct (AmpPhase2DFT_run (of_list [1]) (of_list [0]) (ApMat (dia_toarray ex_dia)) false 1) as [F' [U' [E' [_ [_ [_ HU']]]]]]; simpl; auto.
  { apply Hp. }
  exists (of_list [1]), (of_list [0]), ex_dia, false, F, U, F', U'.
  split; [exact Hp|]. split; [exact E|]. split; [exact E'|].
  rewrite HU, HU' by lia. rewrite !S4_term by lia.
  unfold term4, ri_al, ri_be, base, stk, sparse_error. simpl. rewrite cos_0, sin_0. split; lra.
Qed.
(** It also shows on the sparse matrix returned by DFT2AmpPhase: starting from 1+i with
    uncorrelated parts, going forth and back invents a covariance. *)
Theorem C32_sparse_round_trip_refuted : exists F v A P D F' U',
  DFT2AmpPhase F (FuVec v) true = Ok (A, P, USparse D) /\ AmpPhase2DFT A P (ApDia D) false = Ok (F', U') /\
  dense U' 0 1 <> 0 /\ fun_U (FuVec v) 0 1 = 0.
Proof.
  set (F := of_list [1; 1]). set (v := of_list [1; 3]).
  assert (Hs : symm 2 (fun_U (FuVec v))) by apply (diag_symm 2 v).
  destruct (DFT2AmpPhase_run F (FuVec v) true 1) as [A [P [U [E [LA [LP [HA [HP [Sh HU]]]]]]]]]; simpl; auto.
  assert (HD : exists D, U = USparse D).
  { destruct U; [|eauto]. exfalso. revert E. unfold DFT2AmpPhase. simpl. intros E. discriminate. }
  destruct HD as [D ->]. cbn [dense] in HU. cbn [dense_shape] in Sh.
  assert (HD : dia_half D = 1%nat) by (simpl in Sh; lia).
  destruct (AmpPhase2DFT_run A P (ApDia D) false 1) as [F' [U' [E' [_ [_ [_ HU']]]]]]; simpl; auto.
  { intros i j Hi Hj. change (dia_toarray D i j = dia_toarray D j i). rewrite !HU by (simpl; lia). now apply S4_symm. }
  exists F, v, A, P, D, F', U'. split; [exact E|]. split; [exact E'|].
  split; [|reflexivity]. rewrite HU' by lia.
  assert (Ha : amp 1 1 = sqrt 2) by (unfold amp; f_equal; lra).
  assert (Hp : 0 < sqrt 2) by (apply sqrt_lt_R0; lra).
  assert (Hq : sqrt 2 * sqrt 2 = 2) by (apply sqrt_sqrt; lra).
  rewrite (S4_roundtrip 1 F (stk A P) (fun_U (FuVec v)) (fun a b => dia_toarray D a b)); try lia; auto.
  2:{ intros [|k] Hk; [|lia]. rewrite (stk_lo A P 1), (stk_hi A P 1) by (auto; lia). rewrite HA, HP. simpl.
      rewrite Ha. destruct (arctan2_polar 1 1) as [E1 [E2 _]]; [rewrite Ha; exact Hp|]. rewrite Ha in *. auto. }
  simpl fun_U. unfold sparse_error. simpl Nat.eqb. cbv iota.
  destruct (dia_vals 1 D 0 HD) as [_ [Eup _]]; [lia|]. rewrite <- Eup. rewrite (HU 0 (1 + 0))%nat by lia.
  rewrite S4_term by lia. unfold term4, ap_al, ap_be, base. simpl. rewrite Ha, HA, HP. simpl. rewrite Ha.
  destruct (arctan2_polar 1 1) as [E1 [E2 _]]; [rewrite Ha; exact Hp|]. rewrite Ha in *.
  set (c := cos (arctan2 1 1)) in *. set (s := sin (arctan2 1 1)) in *.
  assert (Hc : c = / sqrt 2) by (apply (Rmult_eq_reg_l (sqrt 2)); [rewrite E1; field; lra|lra]).
  assert (Hsn : s = / sqrt 2) by (apply (Rmult_eq_reg_l (sqrt 2)); [rewrite E2; field; lra|lra]).
  rewrite Hc, Hsn. set (q := sqrt 2) in *.
  assert (Eq : / q - q * / q = (1 - q) / q) by (field; lra).
  intros Hz.
  assert (Hz2 : (1 - q) = 0).
  { assert (E3 : (1 - q) * (2 / (q * q * q * q * q)) = 0).
    { rewrite <- Hz. rewrite Eq. field. lra. }
    apply Rmult_integral in E3. destruct E3 as [E3|E3]; [exact E3|]. exfalso.
    assert (0 < 2 / (q * q * q * q * q)); [|lra].
    apply Rdiv_lt_0_compat; [lra|]. repeat apply Rmult_lt_0_compat; exact Hp. }
  nra.
Qed.
(** What holds: same F, same entries except for the covariance of the real and the imaginary
    part of one and the same line, whose error is known. *)
Theorem C32_sparse_error_partial : forall (A P : vec) d ks h,
  alen A = h -> alen P = h -> (1 <= h)%nat -> dia_half d = h -> symm (2 * h) (dia_toarray d) ->
  exists F U F' U', AmpPhase2DFT A P (ApDia d) ks = Ok (F, U) /\
    AmpPhase2DFT A P (ApMat (dia_toarray d)) ks = Ok (F', U') /\
    (forall i, (i < 2 * h)%nat -> F i = F' i) /\
    (forall i j, (i < 2 * h)%nat -> (j < 2 * h)%nat -> i <> (h + j)%nat -> j <> (h + i)%nat ->
       dense U i j = dense U' i j) /\
    (forall k, (k < h)%nat -> dense U k (h + k)%nat - dense U' k (h + k)%nat =
       cos (P k) * dia_up d k * (sin (P k) - A k * cos (P k))).
Proof.
  intros A P d ks h HA HP Hh Hd Hs.
  destruct (AmpPhase2DFT_run A P (ApDia d) ks h) as [F [U [E [_ [HF [_ HU]]]]]]; auto; [simpl; lia|].
  destruct (AmpPhase2DFT_run A P (ApMat (dia_toarray d)) ks h) as [F' [U' [E' [_ [HF' [_ HU']]]]]]; auto.
  { cbn [ap_fits]. unfold dia_toarray. cbn [mrows mcols]. rewrite Hd. auto. }
  exists F, U, F', U'. split; [exact E|]. split; [exact E'|]. split; [|split].
  - intros i Hi. now rewrite HF, HF'.
  - intros i j Hi Hj H1 H2. rewrite HU, HU' by assumption. change (ap_U (ApMat (dia_toarray d))) with (ap_U (ApDia d)). cbn [sparse_error].
    replace (j =? i + h)%nat with false by (symmetry; apply Nat.eqb_neq; lia).
    replace (i =? j + h)%nat with false by (symmetry; apply Nat.eqb_neq; lia). reflexivity.
  - intros k Hk. rewrite HU, HU' by lia. change (ap_U (ApMat (dia_toarray d))) with (ap_U (ApDia d)). cbn [sparse_error].
    replace (h + k =? k + h)%nat with true by (symmetry; apply Nat.eqb_eq; lia). ring.
Qed.
Example C32_example : exists F U, AmpPhase2DFT (of_list [1]) (of_list [0]) (ApDia ex_dia) false = Ok (F, U) /\
  dense U 0 0 = 1 /\ dense U 1 1 = 1.
Proof.
  destruct (C32_sparse_error_partial (of_list [1]) (of_list [0]) ex_dia false 1) as [F [U [F' [U' [E [E' [_ [HU _]]]]]]]]; auto.
  { intros i j Hi Hj. destruct i as [|[|i]]; try lia; destruct j as [|[|j]]; try lia; reflexivity. }
  destruct (AmpPhase2DFT_run (of_list [1]) (of_list [0]) (ApMat (dia_toarray ex_dia)) false 1) as [F2 [U2 [E2 [_ [_ [_ HU2]]]]]]; simpl; auto.
  { intros i j Hi Hj. destruct i as [|[|i]]; try lia; destruct j as [|[|j]]; try lia; reflexivity. }
  rewrite E' in E2. inversion E2; subst F2 U2. exists F, U. split; [exact E|].
  rewrite !HU, !HU2 by lia. rewrite !S4_term by lia.
  unfold term4, ri_al, ri_be, base, stk, sparse_error. simpl. rewrite cos_0, sin_0. split; lra.
Qed.
Print Assumptions C32_sparse_equals_dense_refuted.
Print Assumptions C32_sparse_round_trip_refuted.
Print Assumptions C32_sparse_error_partial.

(** ** C33 *)
Theorem C33_amp_phase_to_time : forall (A P : vec) UAP N,
  let h := (N / 2 + 1)%nat in
  Nat.Even N -> (2 <= N)%nat -> alen A = h -> alen P = h ->
  ap_fits (2 * h) UAP -> symm (2 * h) (ap_U UAP) -> dia_full UAP ->
  let G s n := idft_map N (to_real_imag h s) n in
  exists x V, AmpPhase2Time A P UAP = Ok (x, V) /\ alen x = N /\ mrows V = N /\ mcols V = N /\
    (forall n, (n < N)%nat -> x n = G (stk A P) n) /\
    (exists J, is_jac N (2 * h) G (stk A P) J) /\
    (forall J, is_jac N (2 * h) G (stk A P) J ->
      (forall n, (n < N)%nat -> V n n = sandwich (2 * h) J (ap_U UAP) J n n) /\
      (forall n m, (n < N)%nat -> (m < N)%nat -> (V n m + V m n) / 2 = sandwich (2 * h) J (ap_U UAP) J n m)).
Proof.
  intros A P UAP N h He HN HA HP Hf Hs Hd G.
  destruct (AmpPhase2Time_run A P UAP N h) as [x [V [E [Lx [Rv [Cv [Hx HV]]]]]]]; auto.
  pose proof (apt_jac N A P h He HN eq_refl HA HP) as HJ0.
  exists x, V. repeat (split; [assumption|]). split; [eexists; exact HJ0|].
  intros J HJ. split.
  - intros n Hn. rewrite HV. rewrite (is_jac_any_sandwich N (2 * h) G (stk A P) _ (ap_U UAP) HJ0 J HJ n n) by assumption. ring.
  - intros n m Hn Hm. rewrite !HV. rewrite (is_jac_any_sandwich N (2 * h) G (stk A P) _ (ap_U UAP) HJ0 J HJ n m) by assumption.
    rewrite (sandwich_symm _ _ _ m n) by assumption. field.
Qed.
(** Two samples: line 0 has amplitude 3, the other one 1 and phase pi. *)
Example C33_example : exists x V, AmpPhase2Time (of_list [3; 1]) (of_list [0; PI]) (ApVec (of_list [1; 1; 0; 0])) = Ok (x, V) /\
  x 0%nat = 1 /\ x 1%nat = 2 /\ V 0%nat 0%nat = /2.
Proof.
  destruct (AmpPhase2Time_run (of_list [3; 1]) (of_list [0; PI]) (ApVec (of_list [1; 1; 0; 0])) 2 2)
    as [x [V [E [_ [_ [_ [Hx HV]]]]]]]; simpl; auto; [exists 1%nat; lia| |].
  { apply (diag_symm 4 (of_list [1; 1; 0; 0])). }
  exists x, V. split; [exact E|].
  assert (He : Nat.Even 2) by (exists 1%nat; lia).
  rewrite !Hx, HV by lia. rewrite !idft_map_linear by (auto; lia).
  unfold to_real_imag, stk, idft_coeff, idft_Cc, idft_Cs, sandwich, apt_coeff, apt_Cc, apt_Cs, cross, beta_dft. simpl.
  replace (PI * 0) with 0 by ring. replace (PI * 1) with PI by ring. replace (PI + 0) with PI by ring.
  rewrite cos_0, sin_0, cos_PI, sin_PI. repeat split; field.
Qed.
Print Assumptions C33_amp_phase_to_time.

(** ** C34 (false) *)
Definition ex_uap : mat := of_rows [[1; 0; 0; 1]; [0; 0; 0; 0]; [0; 0; 0; 0]; [1; 0; 0; 1]].
Lemma ex_uap_psd : psd 4 (fun i j => ex_uap i j).
Proof.
  split.
  - intros i j Hi Hj. destruct i as [|[|[|[|i]]]]; try lia; destruct j as [|[|[|[|j]]]]; try lia; reflexivity.
  - intros v. unfold quad. cbn. match goal with |- 0 <= ?x => replace x with ((v 0%nat + v 3%nat) ^ 2) by ring end.
    apply pow2_ge_0.
Qed.
Theorem C34_symmetric_refuted : exists A P UAP x V,
  ap_fits 4 UAP /\ psd 4 (ap_U UAP) /\ AmpPhase2Time A P UAP = Ok (x, V) /\
  mrows V = 2%nat /\ mcols V = 2%nat /\ V 0%nat 1%nat - V 1%nat 0%nat = 1.
Proof.
  pose proof ex_uap_psd as Hp.
  destruct (AmpPhase2Time_run (of_list [1; 1]) (of_list [0; PI / 2]) (ApMat ex_uap) 2 2)
    as [x [V [E [_ [R1 [C1 [Hx HV]]]]]]]; simpl; auto; [exists 1%nat; lia| |].
  { apply Hp. }
  exists (of_list [1; 1]), (of_list [0; PI / 2]), (ApMat ex_uap), x, V.
  split; [simpl; auto|]. split; [exact Hp|]. split; [exact E|]. split; [exact R1|]. split; [exact C1|].
  rewrite !HV. rewrite (sandwich_symm _ _ _ 1 0) by apply Hp.
  unfold cross, apt_coeff, apt_Cc, apt_Cs, beta_dft. simpl.
  replace (PI * 0) with 0 by ring. replace (PI * 1) with PI by ring. replace (PI / 2 + 0) with (PI / 2) by ring.
  assert (Ec : cos (PI / 2 + PI) = 0) by (rewrite neg_cos, cos_PI2; ring).
  assert (Es : sin (PI / 2 + PI) = -1) by (rewrite neg_sin, sin_PI2; ring).
  rewrite Ec, Es, cos_PI2, sin_PI2, cos_0, sin_0. field.
Qed.
(** What holds: without covariance between amplitudes and phases Ux is exact (hence
    symmetric). *)
Theorem C34_uncorrelated_partial : forall (A P : vec) UAP N,
  let h := (N / 2 + 1)%nat in
  Nat.Even N -> (2 <= N)%nat -> alen A = h -> alen P = h ->
  ap_fits (2 * h) UAP -> symm (2 * h) (ap_U UAP) -> dia_full UAP ->
  (forall a b, (a < h)%nat -> (b < h)%nat -> ap_U UAP a (h + b)%nat = 0) ->
  exists x V, AmpPhase2Time A P UAP = Ok (x, V) /\ symm N (fun i j => V i j) /\
    (forall J, is_jac N (2 * h) (fun s n => idft_map N (to_real_imag h s) n) (stk A P) J ->
      forall n m, (n < N)%nat -> (m < N)%nat -> V n m = sandwich (2 * h) J (ap_U UAP) J n m).
Proof.
  intros A P UAP N h He HN HA HP Hf Hs Hd H0.
  destruct (AmpPhase2Time_run A P UAP N h) as [x [V [E [Lx [Rv [Cv [Hx HV]]]]]]]; auto.
  pose proof (apt_jac N A P h He HN eq_refl HA HP) as HJ0.
  assert (Hc : forall n m, cross h (apt_coeff N A P) (ap_U UAP) n m = 0).
  { intros. unfold cross. apply rsum_zero; intros a Ha. apply rsum_zero; intros b Hb. rewrite H0 by assumption. ring. }
  exists x, V. split; [exact E|]. split.
  - intros n m Hn Hm. rewrite !HV, !Hc. rewrite (sandwich_symm _ _ _ m n) by assumption. reflexivity.
  - intros J HJ n m Hn Hm. rewrite HV, !Hc.
    rewrite (is_jac_any_sandwich N (2 * h) _ (stk A P) _ (ap_U UAP) HJ0 J HJ n m) by assumption. ring.
Qed.
Example C34_example : exists x V, AmpPhase2Time (of_list [3; 1]) (of_list [0; PI]) (ApVec (of_list [1; 1; 0; 0])) = Ok (x, V) /\
  V 0%nat 1%nat = V 1%nat 0%nat.
Proof.
  destruct (C34_uncorrelated_partial (of_list [3; 1]) (of_list [0; PI]) (ApVec (of_list [1; 1; 0; 0])) 2)
    as [x [V [E [Hs _]]]]; simpl; auto; [exists 1%nat; lia| | |].
  { apply (diag_symm 4 (of_list [1; 1; 0; 0])). }
  { intros [|[|a]] [|[|b]] Ha Hb; simpl; auto; lia. }
  exists x, V. split; [exact E|]. apply Hs; lia.
Qed.
Print Assumptions C34_symmetric_refuted.
Print Assumptions C34_uncorrelated_partial.

(** ** C35 *)
Lemma dft_scalar_rc (x : vec) u : (1 <= alen x)%nat -> exists o o' v,
  GUM_DFT x (SuFloat u) None None None None true None = Ok o /\
  GUM_DFT x (SuFloat u) None None None None false None = Ok o' /\
  dft_C o = Some (None, None) /\ dft_F o = dft_F o' /\ dft_U o = dft_U o' /\ dft_U o = FuVec v /\
  alen v = (2 * (alen x / 2 + 1))%nat /\ alen (dft_F o) = (2 * (alen x / 2 + 1))%nat.
Proof.
  intros Hx. unfold GUM_DFT. cbv beta iota zeta delta [bind]. unfold rfft.
  replace (alen x =? 0)%nat with false by (symmetry; apply Nat.eqb_neq; lia).
  eexists. eexists. eexists. split; [reflexivity|]. split; [reflexivity|]. cbn [dft_C dft_F dft_U].
  repeat (split; [reflexivity|]).
  assert (Hl : forall f g, alen (cat (take_list f (seq 0 (alen x / 2 + 1))) (take_list g (seq 0 (alen x / 2 + 1)))) = (2 * (alen x / 2 + 1))%nat).
  { intros. unfold cat, take_list. cbn [alen]. rewrite seq_length. lia. }
  split; apply Hl.
Qed.
Lemma d2ap_vec (F v : vec) h : alen F = (2 * h)%nat -> alen v = (2 * h)%nat -> (1 <= h)%nat ->
  exists A P D, DFT2AmpPhase F (FuVec v) true = Ok (A, P, USparse D) /\
    DFT2AmpPhase F (FuVec v) false = Ok (A, P, UDense (dia_toarray D)) /\
    alen A = h /\ alen P = h /\ dia_half D = h /\ alen (dia_main D) = (2 * h)%nat /\ alen (dia_up D) = h.
Proof.
  intros HF Hv Hh. unfold DFT2AmpPhase. rewrite HF, Hv, half_2h, !Nat.eqb_refl. cbn [negb].
  replace (h =? 0)%nat with false by (symmetry; apply Nat.eqb_neq; lia). cbn [negb orb andb].
  eexists. eexists. eexists. split; [reflexivity|]. split; [reflexivity|]. cbn. repeat split; auto; lia.
Qed.
Lemma take_sel_spec v sel r : take_sel v sel = Ok r -> r = map v sel /\ forall k, In k sel -> (k < alen v)%nat.
Proof.
  unfold take_sel. destruct (forallb _ sel) eqn:E; [|discriminate]. intros H. inversion H. split; [reflexivity|].
  intros k Hk. rewrite forallb_forall in E. apply Nat.ltb_lt. now apply E.
Qed.
Lemma take_sel_ok v sel : (forall k, In k sel -> (k < alen v)%nat) -> take_sel v sel = Ok (map v sel).
Proof.
  intros H. unfold take_sel. replace (forallb _ sel) with true; [reflexivity|].
  symmetry. apply forallb_forall. intros k Hk. apply Nat.ltb_lt. auto.
Qed.
(** Result row for one signal: selected part of what Time2AmpPhase returns. *)
Definition multi_row (nx : nat) (sel : list nat) (x : vec) (u : R) (row : list R * list R * list R) : Prop :=
  exists A P U, Time2AmpPhase x (SuFloat u) = Ok (A, P, U) /\
    let h := (nx / 2 + 1)%nat in
    row = (map A sel, map P sel,
           map (fun k => dense U k k) sel ++ map (fun k => dense U k (h + k)%nat) sel
           ++ map (fun k => dense U (h + k)%nat (h + k)%nat) sel)%list.
Lemma t2ap_loop_ok nx sel : (1 <= nx)%nat -> (forall k, In k sel -> (k < nx / 2 + 1)%nat) ->
  forall rows, (forall x u, In (x, u) rows -> alen x = nx) ->
  exists out, t2ap_loop rows nx sel None None = Ok out /\
    Forall2 (fun xu row => multi_row nx sel (fst xu) (snd xu) row) rows out.
Proof.
  intros Hn Hsel. induction rows as [|[x u] rows IH]; intros Hr.
  - exists []. split; [reflexivity|constructor].
  - destruct IH as [out [Eo Ho]]; [intros; eapply Hr; right; eauto|].
    assert (Hx : alen x = nx) by (eapply Hr; left; reflexivity).
    destruct (dft_scalar_rc x u) as [o [o' [v [E1 [E2 [E3 [E4 [E5 [E6 [E7 E8]]]]]]]]]]; [lia|].
    rewrite Hx in *. set (h := (nx / 2 + 1)%nat) in *.
    destruct (d2ap_vec (dft_F o) v h) as [A [P [D [F1 [F2 [LA [LP [Dh [Dm Du]]]]]]]]]; auto; [unfold h; lia|].
    cbn [t2ap_loop as_window]. rewrite E1. cbv beta iota zeta delta [bind]. rewrite E3. rewrite E6, F1.
    rewrite !take_sel_ok.
    + rewrite Eo. eexists. split; [reflexivity|]. constructor; [|exact Ho].
      unfold multi_row. cbn [fst snd]. exists A, P, (UDense (dia_toarray D)). split.
      { unfold Time2AmpPhase. rewrite E2. cbv beta iota delta [bind]. rewrite <- E4, <- E5, E6, F2. reflexivity. }
      cbv zeta. f_equal. fold h. f_equal; [|f_equal]; apply map_ext_in; intros k Hk; apply Hsel in Hk; cbn [dense];
        destruct (dia_vals h D k Dh Hk) as [D1 [D2 [_ D4]]].
      * rewrite D1. reflexivity.
      * rewrite D2. reflexivity.
      * rewrite D4. reflexivity.
    + intros k Hk. apply Hsel in Hk. unfold slice. cbn [alen]. rewrite Dm. fold h. lia.
    + intros k Hk. rewrite Du. now apply Hsel.
    + intros k Hk. apply Hsel in Hk. unfold slice. cbn [alen]. rewrite Dm. fold h. lia.
    + intros k Hk. rewrite LP. now apply Hsel.
    + intros k Hk. rewrite LA. now apply Hsel.
Qed.
Lemma Forall2_len {A B} (Q : A -> B -> Prop) l o : Forall2 Q l o -> length l = length o.
Proof. induction 1; simpl; congruence. Qed.
Theorem C35_multi_rowwise : forall nx (x : list vec) (Ux : vec) selector,
  (1 <= nx)%nat -> (forall v, In v x -> alen v = nx) -> alen Ux = length x ->
  let sel := match selector with Some s => s | None => seq 0 (nx / 2 + 1) end in
  (forall k, In k sel -> (k < nx / 2 + 1)%nat) ->
  exists out, Time2AmpPhase_multi nx x Ux selector = Ok out /\ length out = length x /\
    forall m, (m < length x)%nat ->
      exists A P U, Time2AmpPhase (nth m x (of_list [])) (SuFloat (Ux m)) = Ok (A, P, U) /\
        let h := (nx / 2 + 1)%nat in
        nth m out ([], [], []) =
          (map A sel, map P sel,
           map (fun k => dense U k k) sel ++ map (fun k => dense U k (h + k)%nat) sel
           ++ map (fun k => dense U (h + k)%nat (h + k)%nat) sel)%list.
Proof.
  intros nx x Ux selector Hn Hx HU sel Hsel.
  destruct (t2ap_loop_ok nx sel Hn Hsel (combine x (map Ux (seq 0 (alen Ux))))) as [out [E HF]].
  { intros v u Hin. apply in_combine_l in Hin. auto. }
  exists out. assert (Hlen : length (combine x (map Ux (seq 0 (alen Ux)))) = length x).
  { rewrite combine_length, map_length, seq_length, HU. lia. }
  split; [|split].
  - unfold Time2AmpPhase_multi. rewrite HU, Nat.eqb_refl. cbn [negb]. rewrite <- HU. exact E.
  - apply Forall2_len in HF. congruence.
  - intros m Hm.
    assert (Hget : forall l o, Forall2 (fun xu row => multi_row nx sel (fst xu) (snd xu) row) l o -> forall m, (m < length l)%nat ->
        multi_row nx sel (fst (nth m l (of_list [], 0))) (snd (nth m l (of_list [], 0))) (nth m o ([], [], []))).
    { clear. intros l o H. induction H as [|a b l o Hab Hf IHf]; intros m Hm; [simpl in Hm; lia|].
      destruct m; simpl; [exact Hab|]. apply IHf. simpl in Hm. lia. }
    specialize (Hget _ _ HF m). rewrite Hlen in Hget. specialize (Hget Hm).
    rewrite combine_nth in Hget by (rewrite map_length, seq_length; auto). cbn [fst snd] in Hget.
    rewrite (nth_indep _ 0 (Ux 0%nat)) in Hget by (rewrite map_length, seq_length; lia).
    rewrite map_nth, seq_nth in Hget by lia. exact Hget.
Qed.
Theorem C35_number_of_variances_checked : forall nx x Ux selector, alen Ux <> length x ->
  Time2AmpPhase_multi nx x Ux selector = Err AssertionError.
Proof. intros nx x Ux selector H. unfold Time2AmpPhase_multi. apply Nat.eqb_neq in H. now rewrite H. Qed.
Example C35_example : exists out, Time2AmpPhase_multi 2 [of_list [1; 2]; of_list [3; 5]] (of_list [1; 4]) (Some [1%nat]) = Ok out /\
  length out = 2%nat /\ exists A P U, Time2AmpPhase (of_list [3; 5]) (SuFloat 4) = Ok (A, P, U) /\
  nth 1 out ([], [], []) = ([A 1%nat], [P 1%nat], [dense U 1 1; dense U 1 3; dense U 3 3]).
Proof.
  destruct (C35_multi_rowwise 2 [of_list [1; 2]; of_list [3; 5]] (of_list [1; 4]) (Some [1%nat])) as [out [E [L H]]]; auto.
  { intros v [<-|[<-|[]]]; reflexivity. }
  { intros k [<-|[]]. simpl. lia. }
  exists out. split; [exact E|]. split; [exact L|]. destruct (H 1%nat) as [A [P [U [E1 E2]]]]; [simpl; lia|].
  exists A, P, U. split; [exact E1|]. exact E2.
Qed.
Print Assumptions C35_multi_rowwise.
Print Assumptions C35_number_of_variances_checked.

(** ** C36 *)
Lemma deconv_rows h (H : nat -> R) p a : (p < 2 * h)%nat -> (a < 2 * h)%nat ->
  (forall k, (k < h)%nat -> nrm h H k <> 0) ->
  rsum (2 * h) (fun k => Kl h (dy_al h H) (dy_be h H) p k * Kl h (mul_al h H) (mul_be h H) k a)
  = if (p =? a)%nat then 1 else 0.
Proof.
  intros Hp Ha Hz. rewrite (Kl_row h (dy_al h H) (dy_be h H) p (fun k => Kl h (mul_al h H) (mul_be h H) k a)) by assumption.
  pose proof (base_lt h p Hp) as Hb. set (k := base h p) in *.
  assert (Hpk : p = k \/ p = (h + k)%nat).
  { unfold k, base. destruct (Nat.ltb_spec p h); [left; reflexivity|right; lia]. }
  assert (Hak : a = base h a \/ a = (h + base h a)%nat).
  { unfold base. destruct (Nat.ltb_spec a h); [left; reflexivity|right; lia]. }
  pose proof (base_lt h a Ha) as Hba. specialize (Hz k Hb).
  unfold Kl. rewrite base_hi. rewrite (base_lo h k Hb). unfold mul_al, mul_be. rewrite hi_false.
  replace (k <? h)%nat with true by (symmetry; now apply Nat.ltb_lt).
  replace (h + k - h)%nat with k by lia.
  unfold dy_al, dy_be, nrm in *. fold k.
  destruct Hpk as [Hpk|Hpk]; rewrite Hpk; [replace (k <? h)%nat with true by (symmetry; now apply Nat.ltb_lt)|rewrite hi_false];
    destruct (Nat.eqb_spec a k) as [Eak|Eak].
  - rewrite Eak, Nat.eqb_refl. field. exact Hz.
  - destruct (Nat.eqb_spec a (h + k)) as [Eh|Eh].
    + replace (k =? a)%nat with false by (symmetry; apply Nat.eqb_neq; lia). field. exact Hz.
    + replace (k =? a)%nat with false by (symmetry; apply Nat.eqb_neq; lia). ring.
  - replace (h + k =? a)%nat with false by (symmetry; apply Nat.eqb_neq; lia). field. exact Hz.
  - destruct (Nat.eqb_spec a (h + k)) as [Eh|Eh].
    + rewrite Eh, Nat.eqb_refl. field. exact Hz.
    + replace (h + k =? a)%nat with false by (symmetry; apply Nat.eqb_neq; lia). ring.
Qed.
Definition ap_zero (n : nat) : apunc := ApMat (zeros2 n n).
Theorem C36_deconv_inverts_multiply : forall (Y H : vec) UY UH h,
  alen Y = (2 * h)%nat -> alen H = (2 * h)%nat ->
  mrows UY = (2 * h)%nat -> mcols UY = (2 * h)%nat -> symm (2 * h) (fun i j => UY i j) ->
  matrix_or_vector UH -> ap_fits (2 * h) UH -> symm (2 * h) (ap_U UH) ->
  (forall k, (k < h)%nat -> H k ^ 2 + H (h + k)%nat ^ 2 <> 0) ->
  exists YH U X UX, DFT_multiply Y H (SuMat UY) None = Ok (YH, U) /\
    DFT_deconv H YH UH (ApMat U) = Ok (X, UX) /\ alen X = (2 * h)%nat /\
    (forall i, (i < 2 * h)%nat -> X i = Y i) /\
    (* with an exactly known H the covariance comes back, too *)
    ((forall i j, (i < 2 * h)%nat -> (j < 2 * h)%nat -> ap_U UH i j = 0) ->
     forall i j, (i < 2 * h)%nat -> (j < 2 * h)%nat -> UX i j = UY i j).
Proof.
  intros Y H UY UH h HY HH HR HC Hs Hm Hf HsH Hz.
  assert (Hz' : forall k, (k < h)%nat -> nrm h H k <> 0).
  { intros k Hk E. apply (Hz k Hk). unfold nrm in E. rewrite <- E. ring. }
  destruct (DFT_multiply_run Y H UY None h) as [YH [U [E1 [L1 [R1 [C1 [V1 W1]]]]]]]; auto; [exact I|intros i j _ _; reflexivity|].
  assert (HU : symm (2 * h) (ap_U (ApMat U))).
  { intros i j Hi Hj. cbn [ap_U]. rewrite !W1 by assumption.
    rewrite (S4_symm h (mul_al h H) (mul_be h H) (fun a b => UY a b) i j) by assumption.
    rewrite (S4_symm h (mul_al h Y) (mul_be h Y) (opt_U None) i j) by (intros ? ? _ _; reflexivity). reflexivity. }
  destruct (DFT_deconv_run H YH UH (ApMat U) h) as [X [UX [E2 [L2 [R2 [C2 [V2 W2]]]]]]]; auto; [exact (conj R1 C1)|].
  exists YH, U, X, UX. split; [exact E1|]. split; [exact E2|]. split; [exact L2|]. split.
  - intros i Hi. rewrite V2 by assumption. apply (cdiv_cmul h Y H i Hi Hz' YH). exact V1.
  - intros H0 i j Hi Hj. rewrite W2 by assumption.
    assert (EH : S4 h (dh_al h YH H) (dh_be_code h YH H) (ap_U UH) i j = 0).
    { rewrite <- (S4_zero h (dh_al h YH H) (dh_be_code h YH H) i j). unfold S4.
      apply (sandwich_ext (2 * h) (2 * h)); auto. }
    rewrite EH, Rplus_0_r. unfold S4.
    rewrite (sandwich_ext (2 * h) (2 * h) _ (Kl h (dy_al h H) (dy_be h H)) _
       (sandwich (2 * h) (Kl h (mul_al h H) (mul_be h H)) (fun a b => UY a b) (Kl h (mul_al h H) (mul_be h H)))
       _ (Kl h (dy_al h H) (dy_be h H))); auto.
    + rewrite sandwich_compose. apply (sandwich_id (2 * h) _ (fun a b => UY a b)); auto.
      intros p a Hp Ha. now apply deconv_rows.
    + intros a b Ha Hb. cbn [ap_U]. rewrite W1 by assumption.
      change (S4 h (mul_al h Y) (mul_be h Y) (opt_U None) a b) with (S4 h (mul_al h Y) (mul_be h Y) (fun _ _ => 0) a b).
      rewrite S4_zero. unfold S4. ring.
Qed.
Example C36_example : exists YH U X UX,
  DFT_multiply (of_list [1; 2]) (of_list [3; 4]) (SuMat (of_rows [[1; 0]; [0; 2]])) None = Ok (YH, U) /\
  DFT_deconv (of_list [3; 4]) YH (ap_zero 2) (ApMat U) = Ok (X, UX) /\ X 0%nat = 1 /\ X 1%nat = 2 /\ UX 1%nat 1%nat = 2.
Proof.
  destruct (C36_deconv_inverts_multiply (of_list [1; 2]) (of_list [3; 4]) (of_rows [[1; 0]; [0; 2]]) (ap_zero 2) 1)
    as [YH [U [X [UX [E1 [E2 [_ [HX HU]]]]]]]]; simpl; auto.
  { intros [|[|i]] [|[|j]] Hi Hj; try lia; reflexivity. }
  { intros i j _ _. reflexivity. }
  { intros [|k] Hk; [|lia]. simpl. lra. }
  exists YH, U, X, UX. split; [exact E1|]. split; [exact E2|]. rewrite !HX, HU by (lia || reflexivity). repeat split; reflexivity.
Qed.
Print Assumptions C36_deconv_inverts_multiply.

(** ** C37 (false) *)
(** H = i, Y = 2i, variance 1 of Im H: Re X = (rY rH + iY iH)/|H|^2 = iY/iH has variance
    (iY/iH^2)^2 = 4; 1 is returned. *)
Theorem C37_deconv_jacobian_refuted : exists H Y UH UY X UX J,
  ap_fits 2 UH /\ ap_fits 2 UY /\ psd 2 (ap_U UH) /\ (forall i j, ap_U UY i j = 0) /\
  DFT_deconv H Y UH UY = Ok (X, UX) /\
  is_jac 2 2 (fun s => cdiv_map 1 Y s) H J /\
  sandwich 2 J (ap_U UH) J 0 0 = 4 /\ UX 0%nat 0%nat = 1.
Proof.
  set (H := of_list [0; 1]). set (Y := of_list [0; 2]). set (UH := ApVec (of_list [0; 1])). set (UY := ApVec (of_list [0; 0])).
  assert (Hs : symm 2 (ap_U UH)) by apply (diag_symm 2 (of_list [0; 1])).
  assert (Hs' : symm 2 (ap_U UY)) by apply (diag_symm 2 (of_list [0; 0])).
  assert (H0 : forall i j, ap_U UY i j = 0).
  { intros i j. simpl. destruct (i =? j)%nat; auto. destruct i as [|[|[|i]]]; reflexivity. }
  assert (Hz : forall k, (k < 1)%nat -> nrm 1 H k <> 0).
  { intros [|k] Hk; [|lia]. unfold nrm. simpl. lra. }
  destruct (DFT_deconv_run H Y UH UY 1) as [X [UX [E [_ [_ [_ [_ HU]]]]]]]; simpl; auto.
  pose proof (cdiv_jac_H 1 Y H Hz) as HJ. change (2 * 1)%nat with 2%nat in HJ.
  exists H, Y, UH, UY, X, UX, (Kl 1 (dh_al 1 Y H) (dh_be 1 Y H)).
  split; [reflexivity|]. split; [reflexivity|]. split; [|split; [exact H0|split; [exact E|split; [exact HJ|split]]]].
  - split; [exact Hs|]. intros v. unfold quad. cbn.
    match goal with |- 0 <= ?x => replace x with (v 1%nat ^ 2) by ring end. apply pow2_ge_0.
  - unfold sandwich, Kl, dh_al, dh_be, base, nrm. simpl. field.
  - rewrite HU by lia. rewrite !S4_term by lia. unfold term4. rewrite !H0.
    unfold dh_al, dh_be_code, base, nrm. simpl. field.
Qed.
(** What holds: X = Y/H; the part due to UY is exact; the part due to UH is exact for the
    imaginary parts, and for all entries when the misprint does not matter
    (iH = 0 or iY = iH for every line). *)
Theorem C37_deconv_partial : forall (H Y : vec) UH UY h,
  alen H = (2 * h)%nat -> alen Y = (2 * h)%nat -> matrix_or_vector UH ->
  ap_fits (2 * h) UH -> ap_fits (2 * h) UY -> symm (2 * h) (ap_U UH) -> symm (2 * h) (ap_U UY) ->
  (forall k, (k < h)%nat -> H k ^ 2 + H (h + k)%nat ^ 2 <> 0) ->
  exists X UX, DFT_deconv H Y UH UY = Ok (X, UX) /\ alen X = (2 * h)%nat /\
    mrows UX = (2 * h)%nat /\ mcols UX = (2 * h)%nat /\ symm (2 * h) (fun i j => UX i j) /\
    is_quot h Y H X /\
    (exists JY JH, is_jac (2 * h) (2 * h) (fun s => cdiv_map h s H) Y JY /\
                   is_jac (2 * h) (2 * h) (fun s => cdiv_map h Y s) H JH) /\
    (forall i, (i < 2 * h)%nat -> X i = cdiv_map h Y H i) /\
    (forall JY JH, is_jac (2 * h) (2 * h) (fun s => cdiv_map h s H) Y JY ->
                   is_jac (2 * h) (2 * h) (fun s => cdiv_map h Y s) H JH ->
     forall i j, (i < 2 * h)%nat -> (j < 2 * h)%nat ->
       ((h <= i)%nat /\ (h <= j)%nat) \/
       (forall k, (k < h)%nat -> H (h + k)%nat = 0 \/ Y (h + k)%nat = H (h + k)%nat) \/
       (forall a b, (a < 2 * h)%nat -> (b < 2 * h)%nat -> ap_U UH a b = 0) ->
       UX i j = sandwich (2 * h) JY (ap_U UY) JY i j + sandwich (2 * h) JH (ap_U UH) JH i j).
Proof.
  intros H Y UH UY h HH HY Hm Hf Hf' Hs Hs' Hz.
  assert (Hz' : forall k, (k < h)%nat -> nrm h H k <> 0).
  { intros k Hk E. apply (Hz k Hk). unfold nrm in E. rewrite <- E. ring. }
  destruct (DFT_deconv_run H Y UH UY h) as [X [UX [E [L [R1 [C1 [V W]]]]]]]; auto.
  pose proof (cdiv_jac_Y h Y H Hz') as JY0. pose proof (cdiv_jac_H h Y H Hz') as JH0.
  exists X, UX. repeat (split; [assumption|]). split; [|split; [|split; [|split]]].
  - intros i j Hi Hj. rewrite !W by assumption. f_equal; now apply S4_symm.
  - apply (cdiv_is_quot h Y H X); auto.
  - eauto.
  - exact V.
  - intros JY JH HJY HJH i j Hi Hj Hc. rewrite W by assumption.
    rewrite (is_jac_any_sandwich (2 * h) (2 * h) _ Y _ (ap_U UY) JY0 JY HJY i j) by assumption.
    rewrite (is_jac_any_sandwich (2 * h) (2 * h) _ H _ (ap_U UH) JH0 JH HJH i j) by assumption.
    unfold S4 at 1. f_equal. destruct Hc as [[Hi' Hj']|[Hc|Hc]].
    + unfold S4. rewrite !sandwich_Kl by assumption. unfold dh_be, dh_be_code.
      replace (i <? h)%nat with false by (symmetry; now apply Nat.ltb_ge).
      replace (j <? h)%nat with false by (symmetry; now apply Nat.ltb_ge). reflexivity.
    + assert (Eb : forall i, (i < 2 * h)%nat -> dh_be_code h Y H i = dh_be h Y H i).
      { intros p Hp. unfold dh_be, dh_be_code. destruct (p <? h)%nat; [|reflexivity].
        destruct (Hc (base h p) (base_lt h p Hp)) as [E0|E0]; rewrite E0; f_equal; ring. }
      unfold S4. rewrite !sandwich_Kl by assumption. rewrite !Eb by assumption. reflexivity.
    + unfold S4. rewrite !sandwich_Kl by assumption.
      pose proof (base_lt h i Hi). pose proof (base_lt h j Hj). rewrite !Hc by lia. ring.
Qed.
(** Error cases. *)
Theorem C37_deconv_sparse_UH_fails : forall H Y d UY, alen H = alen Y -> DFT_deconv H Y (ApDia d) UY = Err TypeError.
Proof. intros H Y d UY E. unfold DFT_deconv. rewrite E, Nat.eqb_refl. reflexivity. Qed.
Theorem C37_deconv_shape_errors : forall H Y UH UY, matrix_or_vector UH ->
  alen H <> alen Y \/ ~ ap_fits (alen H) UH \/ ~ ap_fits (alen Y) UY ->
  DFT_deconv H Y UH UY = Err ValueError.
Proof.
  assert (Hc : forall n u, match u with
                   | ApVec v => (alen v =? n)%nat
                   | ApMat m => (mrows m =? n)%nat && (mcols m =? n)%nat
                   | ApDia d => (2 * dia_half d =? n)%nat
                   end = false <-> ~ ap_fits n u).
  { intros n [v|m|d]; cbn [ap_fits].
    - apply Nat.eqb_neq.
    - rewrite andb_false_iff, !Nat.eqb_neq. destruct (Nat.eq_dec (mrows m) n), (Nat.eq_dec (mcols m) n); tauto.
    - apply Nat.eqb_neq. }
  intros H Y UH UY Hm Hd. unfold DFT_deconv. destruct (Nat.eqb_spec (alen H) (alen Y)) as [E|E]; [|reflexivity].
  cbn [negb]. destruct UH as [v|m|d]; [| |contradiction].
  - destruct (Nat.odd _); [reflexivity|]. destruct Hd as [Hd|[Hd|Hd]]; [contradiction| |].
    + apply Hc in Hd. rewrite Hd. destruct (negb _); reflexivity.
    + apply Hc in Hd. rewrite Hd. reflexivity.
  - destruct (Nat.odd _); [reflexivity|]. destruct Hd as [Hd|[Hd|Hd]]; [contradiction| |].
    + apply Hc in Hd. rewrite Hd. destruct (negb _); reflexivity.
    + apply Hc in Hd. rewrite Hd. reflexivity.
Qed.
(** Y/H with H = 2, Y = 1 + 3i, variances 1 of Re H and Im H. *)
Example C37_example : exists X UX, DFT_deconv (of_list [2; 0]) (of_list [1; 3]) (ApVec (of_list [1; 1])) (ApVec (of_list [0; 0])) = Ok (X, UX) /\
  X 0%nat = /2 /\ X 1%nat = 3/2 /\ UX 0%nat 0%nat = 10/16.
Proof.
  destruct (C37_deconv_partial (of_list [2; 0]) (of_list [1; 3]) (ApVec (of_list [1; 1])) (ApVec (of_list [0; 0])) 1)
    as [X [UX [E [_ [_ [_ [_ [_ [_ [HX HU]]]]]]]]]]; simpl; auto.
  { apply (diag_symm 2 (of_list [1; 1])). } { apply (diag_symm 2 (of_list [0; 0])). }
  { intros [|k] Hk; [|lia]. simpl. lra. }
  exists X, UX. split; [exact E|]. rewrite !HX by lia.
  assert (Hz : forall k, (k < 1)%nat -> nrm 1 (of_list [2; 0]) k <> 0).
  { intros [|k] Hk; [|lia]. unfold nrm. simpl. lra. }
  rewrite (HU _ _ (cdiv_jac_Y 1 (of_list [1; 3]) (of_list [2; 0]) Hz) (cdiv_jac_H 1 (of_list [1; 3]) (of_list [2; 0]) Hz));
    try lia; [|right; left; intros [|k] Hk; [left; reflexivity|lia]].
  unfold cdiv_map, sandwich, Kl, dy_al, dy_be, dh_al, dh_be, base, nrm. simpl. repeat split; field.
Qed.
Print Assumptions C37_deconv_jacobian_refuted.
Print Assumptions C37_deconv_partial.
Print Assumptions C37_deconv_sparse_UH_fails.
Print Assumptions C37_deconv_shape_errors.

(** ** C38 *)
Theorem C38_multiply_exact : forall (Y F : vec) UY UF h,
  alen Y = (2 * h)%nat -> alen F = (2 * h)%nat ->
  mrows UY = (2 * h)%nat -> mcols UY = (2 * h)%nat -> symm (2 * h) (fun i j => UY i j) ->
  opt_full (2 * h) UF -> symm (2 * h) (opt_U UF) ->
  exists YF U, DFT_multiply Y F (SuMat UY) UF = Ok (YF, U) /\ alen YF = (2 * h)%nat /\
    mrows U = (2 * h)%nat /\ mcols U = (2 * h)%nat /\ symm (2 * h) (fun i j => U i j) /\
    (forall i, (i < 2 * h)%nat -> YF i = cmul_map h Y F i) /\
    (exists JY JF, is_jac (2 * h) (2 * h) (fun s => cmul_map h s F) Y JY /\
                   is_jac (2 * h) (2 * h) (fun s => cmul_map h Y s) F JF) /\
    (forall JY JF, is_jac (2 * h) (2 * h) (fun s => cmul_map h s F) Y JY ->
                   is_jac (2 * h) (2 * h) (fun s => cmul_map h Y s) F JF ->
     forall i j, (i < 2 * h)%nat -> (j < 2 * h)%nat ->
       U i j = sandwich (2 * h) JY (fun a b => UY a b) JY i j + sandwich (2 * h) JF (opt_U UF) JF i j).
Proof.
  intros Y F UY UF h HY HF HR HC Hs Hf Hs'.
  destruct (DFT_multiply_run Y F UY UF h) as [YF [U [E [L [R1 [C1 [V W]]]]]]]; auto.
  pose proof (cmul_jac_l h Y F) as JY0. pose proof (cmul_jac_r h Y F) as JF0.
  exists YF, U. repeat (split; [assumption|]). split; [|split; [exact V|split; [eauto|]]].
  - intros i j Hi Hj. rewrite !W by assumption. f_equal; now apply S4_symm.
  - intros JY JF HJY HJF i j Hi Hj. rewrite W by assumption.
    rewrite (is_jac_any_sandwich (2 * h) (2 * h) _ Y _ (fun a b => UY a b) JY0 JY HJY i j) by assumption.
    rewrite (is_jac_any_sandwich (2 * h) (2 * h) _ F _ (opt_U UF) JF0 JF HJF i j) by assumption. reflexivity.
Qed.
(** Spectra of different lengths are rejected, and so are spectra of odd length from 5 values
    on (for the lengths 1 and 3 see C185). *)
Theorem C38_length_errors : forall Y F UY UF,
  alen Y <> alen F \/ (Nat.Odd (alen Y) /\ (5 <= alen Y)%nat) -> DFT_multiply Y F UY UF = Err ValueError.
Proof.
  intros Y F UY UF H. unfold DFT_multiply. destruct (Nat.eqb_spec (alen Y) (alen F)) as [E|E]; [|reflexivity].
  cbn [negb]. destruct H as [H|[[k H] H5]]; [contradiction|].
  assert (Hh : (alen Y / 2 = k)%nat) by (rewrite H, Nat.mul_comm, Nat.div_add_l by lia; cbn; lia).
  unfold mul_est. rewrite <- E, Hh, H.
  replace (2 * k + 1 =? 2 * k)%nat with false by (symmetry; apply Nat.eqb_neq; lia). cbn [negb].
  unfold bvec at 1. cbn [slice alen]. rewrite H, <- E, H.
  replace (Nat.min k (2 * k + 1) - 0)%nat with k by lia. unfold bdim at 1. rewrite Nat.eqb_refl. cbn [bind].
  unfold bvec at 1. cbn [slice alen]. rewrite <- E, H.
  replace (Nat.min (2 * k + 1) (2 * k + 1) - k)%nat with (S k) by lia. unfold bdim at 1. rewrite Nat.eqb_refl. cbn [bind].
  unfold bvec at 1. cbn [alen]. unfold bdim at 1.
  replace (k =? S k)%nat with false by (symmetry; apply Nat.eqb_neq; lia).
  replace (k =? 1)%nat with false by (symmetry; apply Nat.eqb_neq; lia).
  replace (S k =? 1)%nat with false by (symmetry; apply Nat.eqb_neq; lia). reflexivity.
Qed.
(** (1 + 2i)(3 + 4i) = -5 + 10i *)
Example C38_example : exists YF U, DFT_multiply (of_list [1; 2]) (of_list [3; 4]) (SuMat (of_rows [[1; 0]; [0; 1]])) None = Ok (YF, U) /\
  YF 0%nat = -5 /\ YF 1%nat = 10 /\ U 0%nat 0%nat = 25 /\ U 0%nat 1%nat = 0.
Proof.
  destruct (DFT_multiply_run (of_list [1; 2]) (of_list [3; 4]) (of_rows [[1; 0]; [0; 1]]) None 1)
    as [YF [U [E [_ [_ [_ [V W]]]]]]]; simpl; auto.
  { intros [|[|i]] [|[|j]] Hi Hj; try lia; reflexivity. }
  { intros i j _ _; reflexivity. }
  exists YF, U. split; [exact E|]. rewrite !V, !W by lia. rewrite !S4_term by lia.
  unfold term4, cmul_map, mul_al, mul_be, base. simpl. repeat split; lra.
Qed.
Print Assumptions C38_multiply_exact.
Print Assumptions C38_length_errors.

(** ** C39 (false) *)
Theorem C39_vector_variances_refuted : exists Y F uy YF U,
  alen Y = 4%nat /\ alen F = 4%nat /\ alen uy = 4%nat /\
  DFT_multiply Y F (SuVec uy) None = Ok (YF, U) /\ mrows U = 2%nat.
Proof.
  exists (of_list [1; 1; 0; 0]), (of_list [1; 1; 0; 0]), (of_list [1; 1; 1; 1]).
  eexists. eexists. repeat (split; [reflexivity|]). reflexivity.
Qed.
(** Together with a full UF the variances are added to every row of the blocks: uncorrelated
    real parts come out correlated. *)
Theorem C39_vector_and_matrix_refuted : exists Y F uy UF YF U YF' U',
  alen uy = 4%nat /\ mrows UF = 4%nat /\ mcols UF = 4%nat /\
  DFT_multiply Y F (SuVec uy) (Some (SuMat UF)) = Ok (YF, U) /\
  DFT_multiply Y F (SuMat (diagm uy)) (Some (SuMat UF)) = Ok (YF', U') /\
  mrows U = 4%nat /\ U 0%nat 1%nat = 1 /\ U' 0%nat 1%nat = 0.
Proof.
  set (Y := of_list [0; 0; 0; 0]). set (F := of_list [1; 1; 0; 0]). set (uy := of_list [1; 1; 1; 1]). set (UF := zeros2 4 4).
  assert (Hs : symm 4 (fun i j => UF i j)) by (intros ? ? _ _; reflexivity).
  destruct (DFT_multiply_run Y F (diagm uy) (Some (SuMat UF)) 2) as [YF' [U' [E' [_ [R1 [_ [V W]]]]]]];
    try reflexivity; try exact Hs; try (split; reflexivity).
  { apply (diag_symm 4 uy). }
  assert (E : exists YF U, DFT_multiply Y F (SuVec uy) (Some (SuMat UF)) = Ok (YF, U) /\ mrows U = 4%nat /\ U 0%nat 1%nat = 1).
  { destruct (calcU_mat_ok Y UF 2) as [rr [ri [ii [Ec [a1 [a2 [a3 [a4 [a5 [a6 HV]]]]]]]]]]; try reflexivity; try exact Hs.
    unfold DFT_multiply. change (alen Y) with 4%nat. change (alen F) with 4%nat.
    change (negb (4 =? 4)%nat) with false. cbv iota zeta.
    rewrite (mul_est_even Y F 2 eq_refl eq_refl). cbn [bind].
    rewrite Ec. unfold calcU. change (alen uy) with 4%nat. change (alen F) with 4%nat.
    change (negb (4 =? 2 * (4 / 2))%nat) with false. cbn [orb]. cbv beta iota zeta delta [bind blk_add add2].
    cbn [mrows mcols alen]. rewrite a1, a2, a3, a4, a5, a6.
    change (4/2)%nat with 2%nat. change (bdim 1 2) with (Ok 2%nat). change (bdim 2 2) with (Ok 2%nat).
    cbv iota. cbv [blk_stack stack4]. cbn [mrows mcols transp Nat.eqb andb Nat.add].
    eexists. eexists. split; [reflexivity|]. split; [reflexivity|]. cbn [mget]. 
    change (0 <? 2)%nat with true. change (1 <? 2)%nat with true. cbv iota.
     change (bidx 2 2 0) with 0%nat. change (bidx 2 2 1) with 1%nat.
    destruct (HV 0%nat 1%nat) as [-> _]; [lia|lia|]. unfold term4, mul_al, mul_be. simpl. lra. }
  destruct E as [YF [U [E [R0 E0]]]].
  exists Y, F, uy, UF, YF, U, YF', U'. repeat (split; [reflexivity || assumption|]).
  rewrite W by lia. rewrite !S4_term by lia. unfold term4, mul_al, mul_be, base. simpl. lra.
Qed.
(** The result always has two rows (instead of 2M); they hold the true variances and
    same-line covariances. *)
Theorem C39_vector_two_rows_partial : forall (Y F uy : vec) h,
  alen Y = (2 * h)%nat -> alen F = (2 * h)%nat -> alen uy = (2 * h)%nat ->
  exists YF U YF' U', DFT_multiply Y F (SuVec uy) None = Ok (YF, U) /\
    DFT_multiply Y F (SuMat (diagm uy)) None = Ok (YF', U') /\
    mrows U = 2%nat /\ mcols U = (2 * h)%nat /\ mrows U' = (2 * h)%nat /\
    (forall i, (i < 2 * h)%nat -> YF i = YF' i) /\
    forall k, (k < h)%nat ->
      U 0%nat k = U' k k /\ U 0%nat (h + k)%nat = U' k (h + k)%nat /\
      U 1%nat k = U' k (h + k)%nat /\ U 1%nat (h + k)%nat = U' (h + k)%nat (h + k)%nat.
Proof.
  intros Y F uy h HY HF Hu.
  destruct (DFT_multiply_run Y F (diagm uy) None h) as [YF' [U' [E' [_ [R1 [_ [V W]]]]]]]; auto.
  { apply (diag_symm (2 * h) uy). } { exact I. } { intros ? ? _ _; reflexivity. }
  assert (E : exists YF U, DFT_multiply Y F (SuVec uy) None = Ok (YF, U) /\ mrows U = 2%nat /\ mcols U = (2 * h)%nat /\
     YF = YF' /\ forall k, (k < h)%nat ->
       U 0%nat k = F k * uy k * F k + F (h + k)%nat * uy (h + k)%nat * F (h + k)%nat /\
       U 0%nat (h + k)%nat = F k * uy k * F (h + k)%nat - F (h + k)%nat * uy (h + k)%nat * F k /\
       U 1%nat k = F k * uy k * F (h + k)%nat - F (h + k)%nat * uy (h + k)%nat * F k /\
       U 1%nat (h + k)%nat = F (h + k)%nat * uy k * F (h + k)%nat + F k * uy (h + k)%nat * F k).
  { unfold DFT_multiply in E' |- *. rewrite HY, HF, Nat.eqb_refl in E' |- *. cbn [negb] in E' |- *.
    rewrite (mul_est_even Y F h HY HF) in E' |- *. cbn [bind] in E' |- *.
    unfold calcU at 1. rewrite Hu, HF, half_2h, Nat.eqb_refl. cbn [negb orb]. cbv beta iota zeta delta [bind blk_stack].
    cbn [alen]. rewrite Nat.eqb_refl.
    eexists. eexists. split; [reflexivity|]. split; [reflexivity|]. split; [cbn [mcols]; lia|]. split.
    - cbv beta iota zeta delta [bind] in E'.
      repeat match type of E' with
             | match ?e with Ok _ => _ | Err _ => _ end = _ => destruct e; [|discriminate E']
             | match ?p with (_, _) => _ end = _ => destruct p end.
      injection E' as E1 _. exact E1.
    - intros k Hk. cbn [mget alen]. unfold cat. cbn [alen aget].
      replace (h + k <? h)%nat with false by (symmetry; apply Nat.ltb_ge; lia).
      replace (k <? h)%nat with true by (symmetry; now apply Nat.ltb_lt).
      replace (h + k - h)%nat with k by lia. simpl. auto. }
  destruct E as [YF [U [E [RU [CU [EY HU]]]]]].
  exists YF, U, YF', U'. repeat (split; [assumption|]). split; [intros; now rewrite EY|].
  intros k Hk. destruct (HU k Hk) as [-> [-> [-> ->]]].
  assert (HD : forall a b c d, term4 h (fun i j => diagm uy i j) a b k c d k = a * uy k * c + b * uy (h + k)%nat * d).
  { intros a b c d. apply (term4_diag h uy); assumption. }
  rewrite !W by lia. rewrite !S4_term by lia. rewrite base_hi, (base_lo h k Hk).
  change (opt_U None) with (fun _ _ : nat => 0).
  rewrite !HD. unfold mul_al, mul_be, term4. rewrite hi_false.
  replace (k <? h)%nat with true by (symmetry; now apply Nat.ltb_lt). replace (h + k - h)%nat with k by lia.
  repeat split; ring.
Qed.
Example C39_example : exists YF U, DFT_multiply (of_list [1; 2]) (of_list [3; 4]) (SuVec (of_list [1; 1])) None = Ok (YF, U) /\
  mrows U = 2%nat /\ U 0%nat 0%nat = 25.
Proof. eexists. eexists. split; [reflexivity|]. split; [reflexivity|]. simpl. lra. Qed.
Print Assumptions C39_vector_variances_refuted.
Print Assumptions C39_vector_and_matrix_refuted.
Print Assumptions C39_vector_two_rows_partial.

(** ** C85 (continued) *)
Theorem C85_amp_phase_psd : forall (F : vec) UF ks h,
  alen F = (2 * h)%nat -> (1 <= h)%nat -> fun_fits (2 * h) UF -> psd (2 * h) (fun_U UF) ->
  (forall k, (k < h)%nat -> F k ^ 2 + F (h + k)%nat ^ 2 <> 0) ->
  exists A P U, DFT2AmpPhase F UF ks = Ok (A, P, U) /\ psd (2 * h) (dense U).
Proof.
  intros F UF ks h HF Hh Hf Hp Hnz.
  destruct (DFT2AmpPhase_run F UF ks h) as [A [P [U [E [_ [_ [_ [_ [_ HU]]]]]]]]]; auto; [apply Hp|].
  exists A, P, U. split; [exact E|].
  apply (psd_ext (2 * h) (sandwich (2 * h) (Kl h (ap_al h F) (ap_be h F)) (fun_U UF) (Kl h (ap_al h F) (ap_be h F)))).
  - intros i j Hi Hj. symmetry. now apply HU.
  - now apply psd_sandwich.
Qed.
Theorem C85_real_imag_psd : forall (A P : vec) UAP ks h,
  alen A = h -> alen P = h -> (1 <= h)%nat -> ap_fits (2 * h) UAP -> matrix_or_vector UAP -> psd (2 * h) (ap_U UAP) ->
  exists F U, AmpPhase2DFT A P UAP ks = Ok (F, U) /\ psd (2 * h) (dense U).
Proof.
  intros A P UAP ks h HA HP Hh Hf Hm Hp.
  destruct (AmpPhase2DFT_run A P UAP ks h) as [F [U [E [_ [_ [_ HU]]]]]]; auto; [apply Hp|].
  exists F, U. split; [exact E|].
  apply (psd_ext (2 * h) (sandwich (2 * h) (Kl h (ri_al h (stk A P)) (ri_be h (stk A P))) (ap_U UAP) (Kl h (ri_al h (stk A P)) (ri_be h (stk A P))))).
  - intros i j Hi Hj. rewrite HU by assumption. destruct UAP; [| |contradiction]; cbn [sparse_error]; unfold S4; ring.
  - now apply psd_sandwich.
Qed.
Theorem C85_multiply_psd : forall (Y F : vec) UY UF h,
  alen Y = (2 * h)%nat -> alen F = (2 * h)%nat -> mrows UY = (2 * h)%nat -> mcols UY = (2 * h)%nat ->
  psd (2 * h) (fun i j => UY i j) -> opt_full (2 * h) UF -> psd (2 * h) (opt_U UF) ->
  exists YF U, DFT_multiply Y F (SuMat UY) UF = Ok (YF, U) /\ psd (2 * h) (fun i j => U i j).
Proof.
  intros Y F UY UF h HY HF HR HC Hp Hf Hp'.
  destruct (DFT_multiply_run Y F UY UF h) as [YF [U [E [_ [_ [_ [_ W]]]]]]]; auto; [apply Hp|apply Hp'|].
  exists YF, U. split; [exact E|].
  eapply psd_ext; [intros i j Hi Hj; symmetry; apply W; assumption|]. unfold S4.
  apply psd_plus; now apply psd_sandwich.
Qed.
(** Also DFT_deconv, whose covariance is not always the right one (C37). *)
Theorem C85_deconv_psd : forall (H Y : vec) UH UY h,
  alen H = (2 * h)%nat -> alen Y = (2 * h)%nat -> matrix_or_vector UH ->
  ap_fits (2 * h) UH -> ap_fits (2 * h) UY -> psd (2 * h) (ap_U UH) -> psd (2 * h) (ap_U UY) ->
  (forall k, (k < h)%nat -> H k ^ 2 + H (h + k)%nat ^ 2 <> 0) ->
  exists X UX, DFT_deconv H Y UH UY = Ok (X, UX) /\ psd (2 * h) (fun i j => UX i j).
Proof.
  intros H Y UH UY h HH HY Hm Hf Hf' Hp Hp' Hnz.
  destruct (DFT_deconv_run H Y UH UY h) as [X [UX [E [_ [_ [_ [_ W]]]]]]]; auto; [apply Hp|apply Hp'|].
  exists X, UX. split; [exact E|].
  eapply psd_ext; [intros i j Hi Hj; symmetry; apply W; assumption|]. unfold S4.
  apply psd_plus; now apply psd_sandwich.
Qed.
Example C85_multiply_example : exists YF U,
  DFT_multiply (of_list [1; 2]) (of_list [3; 4]) (SuMat (of_rows [[1; 1]; [1; 1]])) None = Ok (YF, U) /\ psd 2 (fun i j => U i j).
Proof.
  apply (C85_multiply_psd (of_list [1; 2]) (of_list [3; 4]) (of_rows [[1; 1]; [1; 1]]) None 1); try reflexivity; try exact I.
  - split; [intros [|[|i]] [|[|j]] Hi Hj; try lia; reflexivity|]. intros v. unfold quad. cbn.
    match goal with |- 0 <= ?x => replace x with ((v 0%nat + v 1%nat) ^ 2) by ring end. apply pow2_ge_0.
  - split; [intros ? ? _ _; reflexivity|]. intros v. unfold quad. cbn. lra.
Qed.
Print Assumptions C85_amp_phase_psd.
Print Assumptions C85_real_imag_psd.
Print Assumptions C85_multiply_psd.
Print Assumptions C85_deconv_psd.

(** ** C87: Time2AmpPhase *)
(** Estimate and covariance are those of the combined map signal -> (amplitude, phase). *)
Theorem C87_time_to_amp_phase : forall (x : vec) Ux,
  let n := alen x in let h := (n / 2 + 1)%nat in
  sig_fits n Ux -> symm n (sig_U Ux) -> (1 <= n)%nat ->
  (forall k, (k < h)%nat -> 0 < amp (dft_map n h n x k) (dft_map n h n x (h + k)%nat)) ->
  exists A P U, Time2AmpPhase x Ux = Ok (A, P, U) /\ alen A = h /\ alen P = h /\ dense_shape (2 * h) U /\
    (forall k, (k < h)%nat -> A k = amp (dft_map n h n x k) (dft_map n h n x (h + k)%nat) /\ - PI < P k <= PI /\
       A k * cos (P k) = dft_map n h n x k /\ A k * sin (P k) = dft_map n h n x (h + k)%nat) /\
    (exists J, is_jac (2 * h) n (fun s i => to_amp_phase h P (dft_map n h n s) i) x J) /\
    (forall p, (forall k, (k < h)%nat -> off_cut (p k) (dft_map n h n x k) (dft_map n h n x (h + k)%nat)) ->
       forall J, is_jac (2 * h) n (fun s i => to_amp_phase h p (dft_map n h n s) i) x J ->
       forall i j, (i < 2 * h)%nat -> (j < 2 * h)%nat ->
         dense U i j = sandwich n J (sig_U Ux) J i j).
Proof.
  intros x Ux n h Hs Hy Hn Ha.
  destruct (dft_plain x Ux false Hs Hy Hn) as [o [E [HL [HF [Hf [Hsy HV]]]]]]. fold n h in HL, HF, Hf, Hsy, HV.
  assert (HF' : forall k, (k < h)%nat -> dft_F o k = dft_map n h n x k /\ dft_F o (h + k)%nat = dft_map n h n x (h + k)%nat).
  { intros k Hk. rewrite !HF by lia. auto. }
  assert (Ha' : forall k, (k < h)%nat -> 0 < amp (dft_F o k) (dft_F o (h + k)%nat)).
  { intros k Hk. destruct (HF' k Hk) as [-> ->]. auto. }
  destruct (C29_amp_phase_exact (dft_F o) (dft_U o) false h) as [A [P [U [E1 [LA [LP [Sh [H1 [H2 [_ _]]]]]]]]]]; auto; [unfold h; lia|].
  destruct (DFT2AmpPhase_run (dft_F o) (dft_U o) false h) as [A' [P' [U' [E2 [_ [_ [_ [_ [_ HU]]]]]]]]]; auto; [unfold h; lia|].
  rewrite E1 in E2. inversion E2; subst A' P' U'. clear E2.
  exists A, P, U. split; [unfold Time2AmpPhase; rewrite E; exact E1|]. repeat (split; [assumption|]).
  assert (HJ : forall p, (forall k, (k < h)%nat -> off_cut (p k) (dft_map n h n x k) (dft_map n h n x (h + k)%nat)) ->
     is_jac (2 * h) n (fun s i => to_amp_phase h p (dft_map n h n s) i) x
       (fun i j => rsum (2 * h) (fun k => Kl h (ap_al h (dft_map n h n x)) (ap_be h (dft_map n h n x)) i k * dft_coeff n h k j))).
  { intros p Hp. apply (to_amp_phase_linear_jac h n p (dft_coeff n h) x). intros k Hk. split; [now apply Ha|now apply Hp]. }
  split; [|split].
  - intros k Hk. destruct (H1 k Hk) as [B1 [B2 [B3 B4]]]. destruct (HF' k Hk) as [C1 C2]. rewrite C1, C2 in *. auto.
  - eexists. apply HJ. intros k Hk. destruct (HF' k Hk) as [C1 C2]. rewrite <- C1, <- C2. now apply H2.
  - intros p Hp J HJ' i j Hi Hj. rewrite HU by assumption.
    rewrite (is_jac_any_sandwich (2 * h) n _ x _ (sig_U Ux) (HJ p Hp) J HJ' i j) by assumption.
    rewrite <- sandwich_compose. unfold S4.
    apply (sandwich_ext (2 * h) (2 * h)); auto.
    + intros a b Ha1 Hb1. unfold Kl, ap_al, ap_be. pose proof (base_lt h a Ha1) as Hb. destruct (HF' _ Hb) as [C1 C2]. rewrite C1, C2. reflexivity.
    + intros a b Ha1 Hb1. unfold Kl, ap_al, ap_be. pose proof (base_lt h a Ha1) as Hb. destruct (HF' _ Hb) as [C1 C2]. rewrite C1, C2. reflexivity.
Qed.
(** Signal (1, 2): lines 3 and -1; the second phase is pi. *)
Example C87_example : exists A P U, Time2AmpPhase (of_list [1; 2]) (SuFloat 1) = Ok (A, P, U) /\
  A 0%nat = 3 /\ A 1%nat = 1 /\ cos (P 1%nat) = -1.
Proof.
  assert (D : dft_map 2 2 2 (of_list [1; 2]) 0 = 3 /\ dft_map 2 2 2 (of_list [1; 2]) 1 = -1 /\
     dft_map 2 2 2 (of_list [1; 2]) 2 = 0 /\ dft_map 2 2 2 (of_list [1; 2]) 3 = 0).
  { unfold dft_map, dft_coeff. simpl.
    replace (2 * PI * 0 * 0 / (1 + 1)) with 0 by lra. replace (2 * PI * 0 * 1 / (1 + 1)) with 0 by lra.
    replace (2 * PI * 1 * 0 / (1 + 1)) with 0 by lra. replace (2 * PI * 1 * 1 / (1 + 1)) with PI by lra.
    rewrite cos_0, sin_0, cos_PI, sin_PI. repeat split; ring. }
  destruct D as [D0 [D1 [D2 D3]]].
  assert (A3 : amp 3 0 = 3) by (unfold amp; replace (3 * 3 + 0 * 0) with (3 * 3) by ring; apply sqrt_square; lra).
  assert (A1 : amp (-1) 0 = 1) by (unfold amp; replace (-1 * -1 + 0 * 0) with 1 by ring; apply sqrt_1).
  destruct (C87_time_to_amp_phase (of_list [1; 2]) (SuFloat 1)) as [A [P [U [E [_ [_ [_ [H1 _]]]]]]]]; simpl; auto; try exact I.
  { intros a b _ _; simpl; rewrite (Nat.eqb_sym b a); reflexivity. }
  { intros [|[|k]] Hk; try lia.
    - change (0 < amp (dft_map 2 2 2 (of_list [1; 2]) 0) (dft_map 2 2 2 (of_list [1; 2]) 2)). rewrite D0, D2, A3. lra.
    - change (0 < amp (dft_map 2 2 2 (of_list [1; 2]) 1) (dft_map 2 2 2 (of_list [1; 2]) 3)). rewrite D1, D3, A1. lra. }
  exists A, P, U. split; [exact E|]. change (alen (of_list [1; 2])) with 2%nat in H1. change (2 / 2 + 1)%nat with 2%nat in H1.
  destruct (H1 0%nat) as [B0 _]; [lia|]. destruct (H1 1%nat) as [B1 [_ [C1 _]]]; [lia|].
  simpl Nat.add in *. rewrite D0, D2 in B0. rewrite D1, D3 in B1. rewrite D1 in C1. rewrite A3 in B0. rewrite A1 in B1.
  rewrite B1 in C1. repeat split; lra.
Qed.
Print Assumptions C87_time_to_amp_phase.
