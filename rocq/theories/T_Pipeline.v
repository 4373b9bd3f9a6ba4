(** From the time domain to the frequency domain and back: deconvolution undoes convolution (C153). *)
From Coq Require Import Reals List Arith ZArith Bool Lia Lra Psatz String.
From Verif Require Import Base Sums Stats StatsFacts M_Filter S_Filter S_Conv P_Filter P_Filter2 P_Filter3 P_Conv
  M_DFT S_Jac S_DFT P_Jac P_Trig P_DFT P_iDFT P_AmpPhase P_APTime P_Deconv T_Filter T_DFT T_AmpPhase T_Assoc T_ConvThm.
Import ListNotations.
Open Scope R_scope.

(** No line of the spectrum of the kernel (zero padded to N) vanishes. *)
Definition no_zero_line (N : nat) (k : vec) : Prop :=
  forall l, (l < N / 2 + 1)%nat ->
    rsum (alen k) (fun m => k m * cos (2 * PI * INR l * INR m / INR N)) <> 0 \/
    rsum (alen k) (fun m => k m * sin (2 * PI * INR l * INR m / INR N)) <> 0.

Lemma no_zero_nrm N (k : vec) (F : vec) : (1 <= N)%nat -> no_zero_line N k ->
  (forall i, (i < 2 * (N / 2 + 1))%nat -> F i = dft_map N (N / 2 + 1) (alen k) k i) ->
  forall l, (l < N / 2 + 1)%nat -> nrm (N / 2 + 1) F l <> 0.
Proof.
  intros HN Hz HF l Hl. unfold nrm. rewrite !HF by lia. unfold dft_map, dft_coeff.
  destruct (Nat.ltb_spec l (N / 2 + 1)); [|lia]. destruct (Nat.ltb_spec (N / 2 + 1 + l) (N / 2 + 1)); [lia|].
  replace (N / 2 + 1 + l - (N / 2 + 1))%nat with l by lia.
  rewrite (rsum_ext (alen k) (fun m => cos _ * k m) (fun m => k m * cos (2 * PI * INR l * INR m / INR N))) by (intros; ring).
  rewrite (rsum_ext (alen k) (fun m => - sin _ * k m) (fun m => - (k m * sin (2 * PI * INR l * INR m / INR N)))) by (intros; ring).
  rewrite rsum_opp. intros E.
  match type of E with ?c * ?c + - ?d * - ?d = 0 =>
    assert (c * c = 0) as Ec by nra; assert (d * d = 0) as Ed by nra end.
  apply Rmult_integral in Ec, Ed.
  destruct (Hz l Hl) as [H1|H1]; apply H1; tauto.
Qed.

Lemma idft_dft_delta N n m : Nat.Even N -> (n < N)%nat -> (m < N)%nat ->
  rsum (N + 2) (fun r => idft_coeff N n r * dft_coeff N (N / 2 + 1) r m) = if (n =? m)%nat then 1 else 0.
Proof.
  intros He Hn Hm. replace (N + 2)%nat with (2 * (N / 2 + 1))%nat by (apply even_h2; exact He).
  rewrite <- (idft_map_linear N n (fun r => dft_coeff N (N / 2 + 1) r m)) by (auto; lia).
  rewrite <- (idft_dft N (fun k => if (k =? m)%nat then 1 else 0) n He Hn).
  rewrite !idft_map_linear by (auto; lia). apply rsum_ext. intros r _. f_equal. unfold dft_map.
  rewrite (rsum_single N m); [rewrite Nat.eqb_refl; ring|exact Hm|].
  intros k Hk Hne. destruct (Nat.eqb_spec k m); [contradiction|ring].
Qed.

(** A measured signal y (with covariance U) that is the response of a known filter k to x1 (with covariance U1):
    transforming, dividing by the frequency response of the filter and transforming back returns x1, its
    variances and (symmetrised) covariances. *)
Theorem C153_deconvolution : forall x1 U1 k n1 nk,
  alen x1 = n1 -> alen k = nk -> (2 <= n1)%nat -> (2 <= nk)%nat ->
  mrows U1 = n1 -> mcols U1 = n1 -> symm n1 (fun i j => U1 i j) ->
  let N := (n1 + nk - 1)%nat in let H := (N / 2 + 1)%nat in no_zero_line N k ->
  exists y U o M o1 M1 ok v X UX,
    convolve_unc x1 (Some U1) k None "full" = Ok (y, U) /\
    GUM_DFT y (SuMat U) None None None None false None = Ok o /\ dft_U o = FuMat M /\
    GUM_DFT k (SuFloat 0) (Some (Z.of_nat N)) None None None false None = Ok ok /\ dft_U ok = FuVec v /\
    DFT_deconv (dft_F ok) (dft_F o) (ApVec v) (ApMat M) = Ok (X, UX) /\
    (* the spectrum of x1 *)
    GUM_DFT x1 (SuMat U1) (Some (Z.of_nat N)) None None None false None = Ok o1 /\ dft_U o1 = FuMat M1 /\
    alen X = (2 * H)%nat /\ veq X (dft_F o1) /\ mrows UX = (2 * H)%nat /\ meq UX M1 /\
    (* and x1 itself, if the number of samples is even (C26) *)
    (Nat.Even N -> exists x V c, GUM_iDFT X (FuMat UX) (Some n1) None None = Ok (x, V, c) /\
       veq x x1 /\ mrows V = n1 /\ mcols V = n1 /\
       (forall i, (i < n1)%nat -> V i i = U1 i i) /\
       (forall i j, (i < n1)%nat -> (j < n1)%nat -> (V i j + V j i) / 2 = U1 i j)).
Proof.
  intros x1 U1 k n1 nk L1 L2 H1 H2 R1 C1 Y1 N H Hz.
  destruct (C152_exact_kernel x1 U1 k n1 nk) as (y & U & o & M & o1 & M1 & ok & YF & W & E1 & E2 & E3 & E4 & E5 & E6 & E7 & E8 & E9 & E10 & E11); auto.
  fold N in E4, E6. fold N H in E8, E9.
  destruct (spectrum_ok x1 U1 n1 (Some (Z.of_nat N)) N) as (o1' & M1' & P1 & P2 & P3 & P4 & P5 & P6 & P7 & P8); simpl; auto; try (unfold N; lia).
  fold H in P3, P4, P5, P6, P7, P8.
  rewrite E4 in P1. injection P1 as <-. rewrite E5 in P2. injection P2 as <-.
  destruct (GUM_DFT_run k (SuFloat 0) (Some (Z.of_nat N)) None false None) as (ok' & Q1 & Q3 & Q6 & Q7).
  { exact I. }
  { intros i j _ _. simpl. rewrite (Nat.eqb_sym j i). reflexivity. }
  { exact I. }
  { simpl. unfold N; lia. }
  { simpl. unfold N; lia. }
  { exact I. }
  rewrite E6 in Q1. injection Q1 as <-.
  cbv zeta in Q3, Q6, Q7. simpl dft_len in Q3, Q6, Q7. rewrite Nat2Z.id in Q3, Q6, Q7.
  assert (Lq : Datatypes.length (lines N None) = H) by apply seq_length. rewrite Lq in Q3, Q6, Q7. fold H in Q6.
  assert (Q6' : forall i, (i < 2 * H)%nat -> dft_F ok i = dft_map N H nk k i).
  { intros i Hi. rewrite Q6 by assumption. unfold H. rewrite row_nomask by assumption. rewrite L2. unfold dft_map.
    apply rsum_ext. intros m _. simpl. ring. }
  unfold unc_ok in Q7. destruct (dft_U ok) as [v|?] eqn:EU; [|destruct Q7 as [X0 _]; exfalso; apply X0; split; [exact I|reflexivity]].
  destruct Q7 as (_ & Q8 & Q9).
  assert (Hv0 : forall i, (i < 2 * H)%nat -> v i = 0).
  { intros i Hi. rewrite Q9 by assumption. unfold sandwich. apply rsum_zero. intros a _. apply rsum_zero. intros b _.
    simpl. destruct (a =? b)%nat; ring. }
  assert (Hnz : forall l, (l < H)%nat -> nrm H (dft_F ok) l <> 0).
  { intros l Hl. apply (no_zero_nrm N k); auto; [unfold N; lia|]. rewrite L2. exact Q6'. }
  destruct (DFT_multiply_run (dft_F o1) (dft_F ok) M1 None H) as (YF' & V' & W1 & W2 & W3 & W4 & W5 & W6); auto;
    [exact I|intros i j _ _; reflexivity|].
  rewrite E7 in W1. injection W1 as <- <-.
  destruct E10 as [E10a E10b]. destruct E11 as (E11a & E11b & E11c).
  assert (LFo : alen (dft_F o) = (2 * H)%nat) by congruence.
  assert (HFo : forall i, (i < 2 * H)%nat -> dft_F o i = cmul_map H (dft_F o1) (dft_F ok) i).
  { intros i Hi. rewrite E10b by congruence. apply W5. exact Hi. }
  assert (HM : forall i j, (i < 2 * H)%nat -> (j < 2 * H)%nat ->
    M i j = S4 H (mul_al H (dft_F ok)) (mul_be H (dft_F ok)) (fun a b => M1 a b) i j).
  { intros i j Hi Hj. rewrite E11c by congruence. rewrite W6 by assumption.
    change (opt_U None) with (fun _ _ : nat => 0). rewrite S4_zero. ring. }
  assert (HUv : forall i j, (i < 2 * H)%nat -> (j < 2 * H)%nat -> ap_U (ApVec v) i j = 0).
  { intros i j Hi Hj. cbn [ap_U]. destruct (i =? j)%nat; auto. }
  destruct (DFT_deconv_run (dft_F ok) (dft_F o) (ApVec v) (ApMat M) H) as (X & UX & D1 & D2 & D3 & D4 & D5 & D6).
  { exact Q3. }
  { exact LFo. }
  { exact I. }
  { exact Q8. }
  { split; congruence. }
  { intros i j Hi Hj. rewrite !HUv by assumption. reflexivity. }
  { intros i j Hi Hj. cbn [ap_U]. rewrite !HM by assumption. now apply S4_symm. }
  assert (HX : forall i, (i < 2 * H)%nat -> X i = dft_F o1 i).
  { intros i Hi. rewrite D5 by assumption. apply (cdiv_cmul H (dft_F o1) (dft_F ok) i Hi Hnz). exact HFo. }
  assert (HUX : forall i j, (i < 2 * H)%nat -> (j < 2 * H)%nat -> UX i j = M1 i j).
  { intros i j Hi Hj. rewrite D6 by assumption.
    assert (EH : S4 H (dh_al H (dft_F o) (dft_F ok)) (dh_be_code H (dft_F o) (dft_F ok)) (ap_U (ApVec v)) i j = 0).
    { rewrite <- (S4_zero H (dh_al H (dft_F o) (dft_F ok)) (dh_be_code H (dft_F o) (dft_F ok)) i j). unfold S4.
      apply (P_Jac.sandwich_ext (2 * H) (2 * H)); auto. }
    rewrite EH, Rplus_0_r. unfold S4.
    rewrite (P_Jac.sandwich_ext (2 * H) (2 * H) _ (Kl H (dy_al H (dft_F ok)) (dy_be H (dft_F ok))) _
       (sandwich (2 * H) (Kl H (mul_al H (dft_F ok)) (mul_be H (dft_F ok))) (fun a b => M1 a b) (Kl H (mul_al H (dft_F ok)) (mul_be H (dft_F ok))))
       _ (Kl H (dy_al H (dft_F ok)) (dy_be H (dft_F ok)))); auto.
    rewrite sandwich_compose. apply (sandwich_id (2 * H) _ (fun a b => M1 a b)); auto.
    intros p a Hp Ha. now apply deconv_rows. }
  exists y, U, o, M, o1, M1, ok, v, X, UX. repeat (split; [assumption|]).
  split. { split; [congruence|]. intros i Hi. apply HX. congruence. }
  split; [exact D3|]. split. { split; [congruence|]. split; [congruence|]. intros i j Hi Hj. apply HUX; congruence. }
  intros He.
  assert (H2H : (2 * H = N + 2)%nat) by (apply even_h2; exact He).
  assert (HsU : symm (N + 2) (fun_U (FuMat UX))).
  { rewrite <- H2H. intros i j Hi Hj. cbn [fun_U]. rewrite !HUX by assumption. apply P8; assumption. }
  destruct (GUM_iDFT_run X (FuMat UX) (Some n1) N n1) as (x & V & c & I1 & I2 & I3 & I4 & I5 & I6 & _); auto.
  { unfold N; lia. }
  { split; [reflexivity|unfold N; lia]. }
  { congruence. }
  { split; congruence. }
  assert (HS : forall i j, (i < n1)%nat -> (j < n1)%nat ->
    sandwich (N + 2) (idft_coeff N) (fun_U (FuMat UX)) (idft_coeff N) i j = U1 i j).
  { intros i j Hi Hj.
    rewrite (P_Jac.sandwich_ext n1 (N + 2) _ (idft_coeff N) _ (sandwich n1 (dft_coeff N H) (fun a b => U1 a b) (dft_coeff N H)) _ (idft_coeff N)); auto.
    - rewrite sandwich_compose. apply (sandwich_id n1 _ (fun a b => U1 a b)); auto.
      intros p a Hp Ha. apply idft_dft_delta; auto; unfold N; lia.
    - intros a b Ha Hb. cbn [fun_U]. rewrite HUX by lia. apply P7; lia. }
  exists x, V, c. split; [exact I1|]. split.
  { split; [congruence|]. intros i Hi. rewrite I2 in Hi. rewrite I5 by exact Hi.
    rewrite idft_map_linear by (auto; unfold N; lia). fold H.
    rewrite (rsum_ext (2 * H) _ (fun r => idft_coeff N i r * dft_map N H n1 x1 r)).
    2:{ intros r Hr. rewrite HX, P6 by exact Hr. reflexivity. }
    unfold dft_map. rewrite (rsum_ext (2 * H) _ (fun r => rsum n1 (fun m => idft_coeff N i r * dft_coeff N H r m * x1 m))).
    2:{ intros r _. rewrite <- rsum_scal. apply rsum_ext. intros m _. ring. }
    rewrite rsum_swap, (rsum_single n1 i); [|exact Hi|].
    - rewrite rsum_scal_r, H2H. unfold H. rewrite idft_dft_delta by (auto; unfold N; lia). rewrite Nat.eqb_refl. ring.
    - intros m Hm Hne. rewrite rsum_scal_r, H2H. unfold H. rewrite idft_dft_delta by (auto; unfold N; lia).
      destruct (Nat.eqb_spec i m); [congruence|ring]. }
  split; [exact I3|]. split; [exact I4|]. split.
  - intros i Hi. rewrite I6, HS by assumption. ring.
  - intros i j Hi Hj. rewrite !I6, !HS by assumption. rewrite (Y1 j i) by assumption. field.
Qed.
(** [1; 2] filtered with the kernel [2; 1; 0] (N = 4). *)
Example C153_example :
  let x1 := of_list [1; 2] in let k := of_list [2; 1; 0] in let U1 := of_rows [[1; 1/2]; [1/2; 2]] in
  exists y U o M ok v X UX x V c,
    convolve_unc x1 (Some U1) k None "full" = Ok (y, U) /\
    GUM_DFT y (SuMat U) None None None None false None = Ok o /\ dft_U o = FuMat M /\
    GUM_DFT k (SuFloat 0) (Some 4%Z) None None None false None = Ok ok /\ dft_U ok = FuVec v /\
    DFT_deconv (dft_F ok) (dft_F o) (ApVec v) (ApMat M) = Ok (X, UX) /\
    GUM_iDFT X (FuMat UX) (Some 2%nat) None None = Ok (x, V, c) /\
    x 0%nat = 1 /\ x 1%nat = 2 /\ V 0%nat 0%nat = 1 /\ V 1%nat 1%nat = 2.
Proof.
  intros x1 k U1.
  destruct (C153_deconvolution x1 U1 k 2 3) as
    (y & U & o & M & o1 & M1 & ok & v & X & UX & E1 & E2 & E3 & E4 & E5 & E6 & _ & _ & _ & _ & _ & _ & E7);
    try reflexivity; try lia.
  { intros i j Hi Hj. destruct i as [|[|?]]; try lia; destruct j as [|[|?]]; try lia; reflexivity. }
  { intros l Hl. left. cbn [alen k of_list Datatypes.length rsum].
    change (k 0%nat) with 2. change (k 1%nat) with 1. change (k 2%nat) with 0.
    replace (2 * PI * INR l * INR 0 / INR (2 + 3 - 1)) with 0 by (simpl; field). rewrite cos_0.
    match goal with |- 0 + 2 * 1 + 1 * cos ?t + 0 * cos ?u <> 0 => pose proof (COS_bound t); nra end. }
  destruct E7 as (x & V & c & I1 & [I2 I3] & _ & _ & I4 & _). { exists 2%nat. reflexivity. }
  exists y, U, o, M, ok, v, X, UX, x, V, c. repeat (split; [assumption|]).
  rewrite !I3 by (rewrite I2; simpl; lia). rewrite !I4 by lia. repeat split; reflexivity.
Qed.
Print Assumptions C153_deconvolution.
