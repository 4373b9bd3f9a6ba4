(** The convolution theorem (C152): convolve_unc in the time domain and DFT_multiply in the
    frequency domain. *)
From Coq Require Import Reals List Arith ZArith Bool Lia Lra Psatz String.
From Verif Require Import Base Sums Stats StatsFacts M_Filter S_Filter S_Conv P_Filter P_Filter2 P_Filter3 P_Conv
  M_DFT S_Jac S_DFT P_Jac P_Trig P_DFT P_AmpPhase P_Deconv T_Filter T_Assoc.
Import ListNotations.
Open Scope R_scope.

(** exp(-i w (m+a)) = exp(-i w m) exp(-i w a) *)
Lemma dft_coeff_add N H i m a : (1 <= N)%nat -> (i < 2 * H)%nat ->
  dft_coeff N H i (m + a) = cmul_map H (fun r => dft_coeff N H r m) (fun r => dft_coeff N H r a) i.
Proof.
  intros HN Hi. unfold dft_coeff, cmul_map. assert (INR N <> 0) by (apply not_0_INR; lia).
  destruct (Nat.ltb_spec i H).
  - destruct (Nat.ltb_spec (H + i) H); [lia|]. replace (H + i - H)%nat with i by lia. rewrite plus_INR.
    replace (2 * PI * INR i * (INR m + INR a) / INR N) with (2 * PI * INR i * INR m / INR N + 2 * PI * INR i * INR a / INR N) by (field; auto).
    rewrite cos_plus. ring.
  - destruct (Nat.ltb_spec (i - H) H); [|lia]. rewrite plus_INR.
    replace (2 * PI * INR (i - H) * (INR m + INR a) / INR N) with (2 * PI * INR (i - H) * INR m / INR N + 2 * PI * INR (i - H) * INR a / INR N) by (field; auto).
    rewrite sin_plus. ring.
Qed.
(** response of line i to an impulse at m, filtered with x *)
Definition through (N H n : nat) (x : nat -> R) (i m : nat) : R := rsum n (fun a => x a * dft_coeff N H i (m + a)).
Lemma through_eq N H n x (F : nat -> R) i m : (1 <= N)%nat -> (i < 2 * H)%nat ->
  (forall r, (r < 2 * H)%nat -> F r = dft_map N H n x r) ->
  through N H n x i m = mul_al H F i * dft_coeff N H (base H i) m + mul_be H F i * dft_coeff N H (H + base H i) m.
Proof.
  intros HN Hi HF. unfold through, mul_al, mul_be, base.
  rewrite (rsum_ext n _ _ (fun a _ => f_equal (Rmult (x a)) (dft_coeff_add N H i m a HN Hi))).
  unfold cmul_map. destruct (Nat.ltb_spec i H).
  - rewrite !HF by lia. unfold dft_map.
    rewrite (rsum_ext n _ (fun a => dft_coeff N H i a * x a * dft_coeff N H i m
      + - (dft_coeff N H (H + i) a * x a * dft_coeff N H (H + i) m))) by (intros; ring).
    rewrite rsum_plus, rsum_opp, !rsum_scal_r. ring.
  - rewrite !HF by lia. unfold dft_map. replace (H + (i - H))%nat with i by lia.
    rewrite (rsum_ext n _ (fun a => dft_coeff N H i a * x a * dft_coeff N H (i - H) m
      + dft_coeff N H (i - H) a * x a * dft_coeff N H i m)) by (intros; ring).
    rewrite rsum_plus, !rsum_scal_r. ring.
Qed.
Lemma term4_sandwich n H (c : nat -> nat -> R) U M a b k a' b' l :
  (k < H)%nat -> (l < H)%nat -> (forall r s, (r < 2 * H)%nat -> (s < 2 * H)%nat -> M r s = sandwich n c U c r s) ->
  term4 H M a b k a' b' l =
  rsum n (fun m => rsum n (fun p => (a * c k m + b * c (H + k)%nat m) * U m p * (a' * c l p + b' * c (H + l)%nat p))).
Proof.
  intros Hk Hl HM. unfold term4. rewrite !HM by lia. unfold sandwich.
  rewrite (rsum_ext n (fun m => rsum n (fun p => (a * c k m + b * c (H + k)%nat m) * U m p * (a' * c l p + b' * c (H + l)%nat p)))
    (fun m => a * a' * rsum n (fun p => c k m * U m p * c l p) + a * b' * rsum n (fun p => c k m * U m p * c (H + l)%nat p)
      + b * a' * rsum n (fun p => c (H + k)%nat m * U m p * c l p) + b * b' * rsum n (fun p => c (H + k)%nat m * U m p * c (H + l)%nat p))).
  - rewrite !rsum_plus, !rsum_scal. ring.
  - intros m _. rewrite <- !rsum_scal, <- !rsum_plus. apply rsum_ext. intros p _. ring.
Qed.
Lemma S4_sandwich n N H x (F : nat -> R) U M i j : (1 <= N)%nat -> (i < 2 * H)%nat -> (j < 2 * H)%nat ->
  (forall r s, (r < 2 * H)%nat -> (s < 2 * H)%nat -> M r s = sandwich n (dft_coeff N H) U (dft_coeff N H) r s) ->
  forall n2, (forall r, (r < 2 * H)%nat -> F r = dft_map N H n2 x r) ->
  S4 H (mul_al H F) (mul_be H F) M i j = sandwich n (through N H n2 x) U (through N H n2 x) i j.
Proof.
  intros HN Hi Hj HM n2 HF. rewrite S4_term by assumption.
  rewrite (term4_sandwich n H (dft_coeff N H) U M) by (auto using base_lt).
  unfold sandwich. apply rsum_ext. intros m _. apply rsum_ext. intros p _.
  rewrite !(through_eq N H n2 x F) by assumption. reflexivity.
Qed.

(** ** the covariance in the time domain, seen through the DFT *)
Lemma conv2_seen N H n1 n2 S1 S2 i j : (1 <= n1)%nat -> (1 <= n2)%nat -> N = (n1 + n2 - 1)%nat ->
  sandwich N (dft_coeff N H) (conv2 n1 n2 S1 S2) (dft_coeff N H) i j
  = rsum n1 (fun k => rsum n1 (fun l => rsum n2 (fun a => rsum n2 (fun b =>
      S1 k l * S2 a b * (dft_coeff N H i (k + a) * dft_coeff N H j (l + b)))))).
Proof.
  intros H1 H2 ->. rewrite <- (conv2_test n1 n2 S1 S2 (fun k l => dft_coeff _ H i k * dft_coeff _ H j l)) by assumption.
  unfold sandwich. apply rsum_ext. intros k _. apply rsum_ext. intros l _. ring.
Qed.
Lemma conv2_seen_l N H n1 n2 U x i j : (1 <= n1)%nat -> (1 <= n2)%nat -> N = (n1 + n2 - 1)%nat ->
  sandwich N (dft_coeff N H) (conv2 n1 n2 U (fun a b => x a * x b)) (dft_coeff N H) i j
  = sandwich n1 (through N H n2 x) U (through N H n2 x) i j.
Proof.
  intros H1 H2 HN. rewrite conv2_seen by assumption. unfold sandwich, through.
  apply rsum_ext. intros k _. apply rsum_ext. intros l _.
  rewrite Rmult_assoc, <- rsum_scal_r. apply rsum_ext. intros a _.
  rewrite <- Rmult_assoc, <- rsum_scal. apply rsum_ext. intros b _. ring.
Qed.
Lemma conv2_seen_r N H n1 n2 U x i j : (1 <= n1)%nat -> (1 <= n2)%nat -> N = (n1 + n2 - 1)%nat ->
  sandwich N (dft_coeff N H) (conv2 n1 n2 (fun a b => x a * x b) U) (dft_coeff N H) i j
  = sandwich n2 (through N H n1 x) U (through N H n1 x) i j.
Proof.
  intros H1 H2 HN. rewrite <- (conv2_seen_l N H n2 n1) by lia. unfold sandwich.
  apply rsum_ext. intros k _. apply rsum_ext. intros l _. rewrite conv2_comm. reflexivity.
Qed.
Lemma conv2_plus_l n1 n2 A B S k l :
  conv2 n1 n2 (fun i j => A i j + B i j) S k l = conv2 n1 n2 A S k l + conv2 n1 n2 B S k l.
Proof.
  unfold conv2. rewrite <- rsum_plus. apply rsum_ext. intros i _. rewrite <- rsum_plus. apply rsum_ext. intros j _.
  rewrite <- rsum_plus. apply rsum_ext. intros a _. rewrite <- rsum_plus. apply rsum_ext. intros b _. ring.
Qed.
Lemma conv2_plus_r n1 n2 A B S k l :
  conv2 n1 n2 S (fun i j => A i j + B i j) k l = conv2 n1 n2 S A k l + conv2 n1 n2 S B k l.
Proof. rewrite !(conv2_comm n1 n2 S). apply conv2_plus_l. Qed.
Lemma conv2_prod n1 n2 x1 x2 k l :
  conv2 n1 n2 (fun i j => x1 i * x1 j) (fun a b => x2 a * x2 b) k l = full_conv n1 n2 x1 x2 k * full_conv n1 n2 x1 x2 l.
Proof.
  rewrite !full_conv_hit. unfold conv2. rewrite <- rsum_scal_r. apply rsum_ext. intros i _.
  rewrite <- rsum_scal_r.
  rewrite (rsum_swap n1 n2). apply rsum_ext. intros a _. rewrite <- rsum_scal. apply rsum_ext. intros j _.
  rewrite <- rsum_scal. apply rsum_ext. intros b _. ring.
Qed.
Lemma sandwich_plus n c A B i j :
  sandwich n c (fun k l => A k l + B k l) c i j = sandwich n c A c i j + sandwich n c B c i j.
Proof.
  unfold sandwich. rewrite <- rsum_plus. apply rsum_ext. intros k _. rewrite <- rsum_plus. apply rsum_ext. intros l _. ring.
Qed.
Lemma sandwich_ext' n c A B i j : (forall k l, (k < n)%nat -> (l < n)%nat -> A k l = B k l) ->
  sandwich n c A c i j = sandwich n c B c i j.
Proof. intros H. unfold sandwich. apply rsum_ext. intros k Hk. apply rsum_ext. intros l Hl. rewrite H by assumption. reflexivity. Qed.

(** Estimate and covariance of the spectrum of a full convolution. *)
Lemma spectrum_of_conv x1 U1 x2 U2 n1 n2 y U N H :
  alen x1 = n1 -> alen x2 = n2 -> (2 <= n1)%nat -> (2 <= n2)%nat -> N = (n1 + n2 - 1)%nat ->
  opt_square n1 U1 -> opt_square n2 U2 -> symm n1 (opt_cov U1) -> symm n2 (opt_cov U2) ->
  convolve_unc x1 U1 x2 U2 "full" = Ok (y, U) ->
  alen y = N /\ mrows U = N /\ mcols U = N /\ symm N U /\
  (forall i, (i < 2 * H)%nat -> dft_map N H N y i = cmul_map H (dft_map N H n1 x1) (dft_map N H n2 x2) i) /\
  (forall i j, sandwich N (dft_coeff N H) U (dft_coeff N H) i j
     = sandwich n1 (through N H n2 x2) (opt_cov U1) (through N H n2 x2) i j
       + sandwich n2 (through N H n1 x1) (opt_cov U2) (through N H n1 x1) i j
       + sandwich N (dft_coeff N H) (conv2 n1 n2 (opt_cov U1) (opt_cov U2)) (dft_coeff N H) i j).
Proof.
  intros L1 L2 H1 H2 HN S1 S2 Y1 Y2 E.
  destruct (full_moment x1 U1 x2 U2 n1 n2) as (y' & U' & E' & A1 & A2 & A3 & A4 & A5 & A6); auto.
  rewrite E in E'. injection E' as <- <-. rewrite <- HN in *.
  repeat (split; [assumption|]). split.
  - intros i Hi. unfold dft_map at 1.
    rewrite (rsum_ext N _ (fun k => full_conv n1 n2 x1 x2 k * dft_coeff N H i k)).
    2:{ intros k Hk. rewrite A4 by exact Hk. ring. }
    rewrite HN at 1. rewrite full_conv_test by lia.
    rewrite (rsum_ext n1 _ (fun k => x1 k * through N H n2 x2 i k)).
    2:{ intros k _. unfold through. rewrite <- rsum_scal. apply rsum_ext. intros a _. ring. }
    rewrite (rsum_ext n1 _ (fun k => mul_al H (dft_map N H n2 x2) i * (dft_coeff N H (base H i) k * x1 k)
       + mul_be H (dft_map N H n2 x2) i * (dft_coeff N H (H + base H i) k * x1 k))).
    2:{ intros k _. rewrite (through_eq N H n2 x2 (dft_map N H n2 x2)) by (auto; lia). ring. }
    rewrite rsum_plus, !rsum_scal. fold (dft_map N H n1 x1 (base H i)). fold (dft_map N H n1 x1 (H + base H i)).
    unfold mul_al, mul_be, base, cmul_map. destruct (Nat.ltb_spec i H); [ring|].
    replace (H + (i - H))%nat with i by lia. ring.
  - intros i j.
    rewrite (sandwich_ext' N _ U (fun k l => (conv2 n1 n2 (opt_cov U1) (fun a b => x2 a * x2 b) k l
       + conv2 n1 n2 (fun a b => x1 a * x1 b) (opt_cov U2) k l) + conv2 n1 n2 (opt_cov U1) (opt_cov U2) k l)).
    + rewrite !sandwich_plus, conv2_seen_l, conv2_seen_r by lia. reflexivity.
    + intros k l Hk Hl. specialize (A5 k l Hk Hl). unfold moment2 in A5 at 1.
      rewrite A4 in A5 by exact Hk. rewrite (A4 l Hl) in A5. unfold moment2 in A5.
      rewrite conv2_plus_l, !conv2_plus_r, conv2_prod in A5. lra.
Qed.

Lemma spectrum_ok x U L N n : alen x = L -> mrows U = L -> mcols U = L -> symm L (fun i j => U i j) ->
  pad_fits L N -> dft_len L N = n -> (1 <= n)%nat -> let H := (n / 2 + 1)%nat in
  exists o M, GUM_DFT x (SuMat U) N None None None false None = Ok o /\ dft_U o = FuMat M /\
    alen (dft_F o) = (2 * H)%nat /\ mrows M = (2 * H)%nat /\ mcols M = (2 * H)%nat /\
    (forall i, (i < 2 * H)%nat -> dft_F o i = dft_map n H L x i) /\
    (forall i j, (i < 2 * H)%nat -> (j < 2 * H)%nat -> M i j = sandwich L (dft_coeff n H) (fun a b => U a b) (dft_coeff n H) i j) /\
    symm (2 * H) (fun i j => M i j).
Proof.
  intros HL R1 C1 Y1 HP Hn H1 H.
  destruct (GUM_DFT_run x (SuMat U) N None false None) as (o & E & LF & HF & HU);
    [rewrite HL; split; assumption|rewrite HL; exact Y1|exact I|rewrite HL; exact HP|rewrite HL, Hn; exact H1|exact I|].
  cbv zeta in LF, HF, HU. rewrite HL, Hn in LF, HF, HU.
  assert (Lq : Datatypes.length (lines n None) = H) by apply seq_length. rewrite Lq in LF, HF, HU. fold H in HF.
  unfold unc_ok in HU. destruct (dft_U o) as [v|M] eqn:EU; [destruct HU as [[[] _] _]|]. destruct HU as (_ & D1 & D2 & D3).
  assert (HM : forall i j, (i < 2 * H)%nat -> (j < 2 * H)%nat ->
    M i j = sandwich L (dft_coeff n H) (fun a b => U a b) (dft_coeff n H) i j).
  { intros i j Hi Hj. rewrite D3 by assumption. unfold sandwich. apply rsum_ext. intros a _. apply rsum_ext. intros b _.
    unfold H. rewrite !row_nomask by assumption. simpl. ring. }
  exists o, M. repeat (split; [assumption || reflexivity|]). split.
  { intros i Hi. rewrite HF by assumption. unfold H. rewrite row_nomask by assumption. unfold dft_map. apply rsum_ext.
    intros m _. simpl. ring. }
  split; [exact HM|]. intros i j Hi Hj. rewrite !HM by assumption. now apply sandwich_symm.
Qed.

(** C152.  Two signals of lengths n1 and n2, with covariances: the spectrum of their full convolution
    is the product of their spectra (taken with zero padding to N = n1 + n2 - 1), and the two
    routes agree on the covariance up to the term of second order in the uncertainties (the covariance of the
    spectrum of the convolution of two signals with estimate zero), which only convolve_unc has. *)
Theorem C152_convolution_theorem : forall x1 U1 x2 U2 n1 n2,
  alen x1 = n1 -> alen x2 = n2 -> (2 <= n1)%nat -> (2 <= n2)%nat ->
  mrows U1 = n1 -> mcols U1 = n1 -> mrows U2 = n2 -> mcols U2 = n2 ->
  symm n1 (fun i j => U1 i j) -> symm n2 (fun i j => U2 i j) ->
  let N := (n1 + n2 - 1)%nat in let H := (N / 2 + 1)%nat in
  let zeros n := mkArr n (fun _ => 0) in
  exists y U o M o1 M1 o2 M2 YF V y0 U0 o0 M0,
    (* time domain *)
    convolve_unc x1 (Some U1) x2 (Some U2) "full" = Ok (y, U) /\
    GUM_DFT y (SuMat U) None None None None false None = Ok o /\ dft_U o = FuMat M /\
    (* frequency domain *)
    GUM_DFT x1 (SuMat U1) (Some (Z.of_nat N)) None None None false None = Ok o1 /\ dft_U o1 = FuMat M1 /\
    GUM_DFT x2 (SuMat U2) (Some (Z.of_nat N)) None None None false None = Ok o2 /\ dft_U o2 = FuMat M2 /\
    DFT_multiply (dft_F o1) (dft_F o2) (SuMat M1) (Some (SuMat M2)) = Ok (YF, V) /\
    (* second order *)
    convolve_unc (zeros n1) (Some U1) (zeros n2) (Some U2) "full" = Ok (y0, U0) /\
    GUM_DFT y0 (SuMat U0) None None None None false None = Ok o0 /\ dft_U o0 = FuMat M0 /\
    alen YF = (2 * H)%nat /\ veq (dft_F o) YF /\
    mrows M = (2 * H)%nat /\ mcols M = (2 * H)%nat /\ mrows V = (2 * H)%nat /\ mcols V = (2 * H)%nat /\
    (forall i j, (i < 2 * H)%nat -> (j < 2 * H)%nat -> M i j = V i j + M0 i j) /\
    (* at frequency zero the second-order term is the product of the sums of all (co)variances *)
    M0 0%nat 0%nat = rsum n1 (fun k => rsum n1 (fun l => U1 k l)) * rsum n2 (fun a => rsum n2 (fun b => U2 a b)).
Proof.
  intros x1 U1 x2 U2 n1 n2 L1 L2 H1 H2 R1 C1 R2 C2 Y1 Y2 N H zeros.
  destruct (full_moment x1 (Some U1) x2 (Some U2) n1 n2) as (y & U & E & _); try (simpl; auto; fail).
  destruct (spectrum_of_conv x1 (Some U1) x2 (Some U2) n1 n2 y U N H) as (A1 & A2 & A3 & A4 & A5 & A6); try (simpl; auto; fail).
  destruct (full_moment (zeros n1) (Some U1) (zeros n2) (Some U2) n1 n2) as (y0 & U0 & E0 & _); try (simpl; auto; fail).
  destruct (spectrum_of_conv (zeros n1) (Some U1) (zeros n2) (Some U2) n1 n2 y0 U0 N H) as (B1 & B2 & B3 & B4 & _ & B6); try (simpl; auto; fail).
  destruct (spectrum_ok y U N None N) as (o & M & G1 & G2 & G3 & G4 & G5 & G6 & G7 & _); simpl; auto; [unfold N; lia|].
  destruct (spectrum_ok y0 U0 N None N) as (o0 & M0 & Z1 & Z2 & Z3 & Z4 & Z5 & Z6 & Z7 & _); simpl; auto; [unfold N; lia|].
  destruct (spectrum_ok x1 U1 n1 (Some (Z.of_nat N)) N) as (o1 & M1 & P1 & P2 & P3 & P4 & P5 & P6 & P7 & P8); simpl; auto; try (unfold N; lia).
  destruct (spectrum_ok x2 U2 n2 (Some (Z.of_nat N)) N) as (o2 & M2 & Q1 & Q2 & Q3 & Q4 & Q5 & Q6 & Q7 & Q8); simpl; auto; try (unfold N; lia).
  fold H in G3, G4, G5, G6, G7, Z7, P3, P4, P5, P6, P7, P8, Q3, Q4, Q5, Q6, Q7, Q8.
  destruct (DFT_multiply_run (dft_F o1) (dft_F o2) M1 (Some (SuMat M2)) H) as (YF & V & W1 & W2 & W3 & W4 & W5 & W6); auto;
    [split; assumption|].
  exists y, U, o, M, o1, M1, o2, M2, YF, V, y0, U0, o0, M0.
  repeat (split; [assumption|]). split.
  { split; [congruence|]. intros i Hi. rewrite G3 in Hi. rewrite G6, A5, W5 by assumption.
    unfold cmul_map. destruct (Nat.ltb_spec i H); rewrite !P6, !Q6 by lia; reflexivity. }
  repeat (split; [assumption|]).
  assert (T0 : forall n i k, through N H n (zeros n) i k = 0).
  { intros n i' k. unfold through, zeros. simpl. apply rsum_zero. intros. ring. }
  assert (T1 : forall m n A i j, sandwich m (through N H n (zeros n)) A (through N H n (zeros n)) i j = 0).
  { intros m n A i j. unfold sandwich. apply rsum_zero. intros. apply rsum_zero. intros. rewrite T0. ring. }
  split.
  2:{ rewrite Z7 by (unfold H; lia). rewrite B6, !T1, !Rplus_0_l, conv2_seen by (auto; lia).
      rewrite <- rsum_scal_r. apply rsum_ext. intros k _. rewrite <- rsum_scal_r. apply rsum_ext. intros l _.
      rewrite <- rsum_scal. apply rsum_ext. intros a _. rewrite <- rsum_scal. apply rsum_ext. intros b _.
      assert (D0 : forall r, dft_coeff N H 0 r = 1).
      { intros r. unfold dft_coeff. destruct (Nat.ltb_spec 0 H); [|unfold H in *; lia].
        replace (2 * PI * INR 0 * INR r / INR N) with 0 by (simpl; unfold Rdiv; ring). apply cos_0. }
      rewrite !D0. simpl. ring. }
  intros i j Hi Hj. rewrite G7, Z7, W6 by assumption. rewrite A6, B6.
  rewrite (S4_sandwich n1 N H x2 (dft_F o2) (fun a b => U1 a b) (fun a b => M1 a b) i j) with (n2 := n2) by (auto; unfold N; lia).
  rewrite (S4_sandwich n2 N H x1 (dft_F o1) (fun a b => U2 a b) (opt_U (Some (SuMat M2))) i j) with (n2 := n1) by (auto; unfold N; lia).
  rewrite !T1, !Rplus_0_l. reflexivity.
Qed.

(** With an exactly known second signal the two routes agree completely. *)
Theorem C152_exact_kernel : forall x1 U1 x2 n1 n2,
  alen x1 = n1 -> alen x2 = n2 -> (2 <= n1)%nat -> (2 <= n2)%nat ->
  mrows U1 = n1 -> mcols U1 = n1 -> symm n1 (fun i j => U1 i j) ->
  let N := (n1 + n2 - 1)%nat in let H := (N / 2 + 1)%nat in
  exists y U o M o1 M1 o2 YF V,
    convolve_unc x1 (Some U1) x2 None "full" = Ok (y, U) /\
    GUM_DFT y (SuMat U) None None None None false None = Ok o /\ dft_U o = FuMat M /\
    GUM_DFT x1 (SuMat U1) (Some (Z.of_nat N)) None None None false None = Ok o1 /\ dft_U o1 = FuMat M1 /\
    GUM_DFT x2 (SuFloat 0) (Some (Z.of_nat N)) None None None false None = Ok o2 /\
    DFT_multiply (dft_F o1) (dft_F o2) (SuMat M1) None = Ok (YF, V) /\
    alen YF = (2 * H)%nat /\ mrows V = (2 * H)%nat /\ veq (dft_F o) YF /\ meq M V.
Proof.
  intros x1 U1 x2 n1 n2 L1 L2 H1 H2 R1 C1 Y1 N H.
  assert (Y2 : symm n2 (opt_cov None)) by (intros i j _ _; reflexivity).
  destruct (full_moment x1 (Some U1) x2 None n1 n2) as (y & U & E & _); try (simpl; auto; fail).
  destruct (spectrum_of_conv x1 (Some U1) x2 None n1 n2 y U N H) as (A1 & A2 & A3 & A4 & A5 & A6); try (simpl; auto; fail).
  destruct (spectrum_ok y U N None N) as (o & M & G1 & G2 & G3 & G4 & G5 & G6 & G7 & _); simpl; auto; [unfold N; lia|].
  destruct (spectrum_ok x1 U1 n1 (Some (Z.of_nat N)) N) as (o1 & M1 & P1 & P2 & P3 & P4 & P5 & P6 & P7 & P8); simpl; auto; try (unfold N; lia).
  destruct (GUM_DFT_run x2 (SuFloat 0) (Some (Z.of_nat N)) None false None) as (o2 & Q1 & Q3 & Q6 & _).
  { exact I. }
  { intros i j _ _. simpl. rewrite (Nat.eqb_sym j i). reflexivity. }
  { exact I. }
  { simpl. unfold N; lia. }
  { simpl. unfold N; lia. }
  { exact I. }
  cbv zeta in Q3, Q6. simpl dft_len in Q3, Q6. rewrite Nat2Z.id in Q3, Q6.
  assert (Lq : Datatypes.length (lines N None) = H) by apply seq_length. rewrite Lq in Q3, Q6.
  fold H in G3, G4, G5, G6, G7, P3, P4, P5, P6, P7, P8, Q3, Q6.
  assert (Q6' : forall i, (i < 2 * H)%nat -> dft_F o2 i = dft_map N H n2 x2 i).
  { intros i Hi. rewrite Q6 by assumption. unfold H. rewrite row_nomask by assumption. rewrite L2. unfold dft_map.
    apply rsum_ext. intros m _. simpl. ring. }
  destruct (DFT_multiply_run (dft_F o1) (dft_F o2) M1 None H) as (YF & V & W1 & W2 & W3 & W4 & W5 & W6); auto;
    [exact I|intros i j _ _; reflexivity|].
  exists y, U, o, M, o1, M1, o2, YF, V. repeat (split; [assumption|]). split.
  { split; [congruence|]. intros i Hi. rewrite G3 in Hi. rewrite G6, A5, W5 by assumption.
    unfold cmul_map. destruct (Nat.ltb_spec i H); rewrite !P6, !Q6' by lia; reflexivity. }
  split; [congruence|]. split; [congruence|].
  intros i j Hi Hj. rewrite G4 in Hi. rewrite G5 in Hj. rewrite G7, W6 by assumption. rewrite A6.
  rewrite (S4_sandwich n1 N H x2 (dft_F o2) (fun a b => U1 a b) (fun a b => M1 a b) i j) with (n2 := n2) by (auto; unfold N; lia).
  change (opt_U None) with (fun _ _ : nat => 0). rewrite S4_zero. simpl opt_cov.
  assert (T1 : forall m c, sandwich m c (opt_cov None) c i j = 0).
  { intros m c. unfold sandwich. apply rsum_zero. intros. apply rsum_zero. intros. simpl. ring. }
  rewrite T1.
  rewrite (sandwich_ext' N _ (conv2 n1 n2 _ _) (fun _ _ => 0)).
  2:{ intros k l _ _. unfold conv2. apply rsum_zero. intros. apply rsum_zero. intros. apply rsum_zero. intros. apply rsum_zero. intros. simpl. ring. }
  unfold sandwich at 2. rewrite (rsum_zero N) by (intros; apply rsum_zero; intros; ring).
  rewrite !Rplus_0_r. reflexivity.
Qed.

(** [1; 2] * [3; 1], both uncertain: the routes agree, and at frequency zero they differ by 3 * 3. *)
Example C152_example :
  let x1 := of_list [1; 2] in let x2 := of_list [3; 1] in
  let U1 := of_rows [[1; 0]; [0; 2]] in let U2 := of_rows [[1; 1/2]; [1/2; 1]] in
  exists y U o M o1 M1 o2 M2 YF V,
    convolve_unc x1 (Some U1) x2 (Some U2) "full" = Ok (y, U) /\
    GUM_DFT y (SuMat U) None None None None false None = Ok o /\ dft_U o = FuMat M /\
    GUM_DFT x1 (SuMat U1) (Some 3%Z) None None None false None = Ok o1 /\ dft_U o1 = FuMat M1 /\
    GUM_DFT x2 (SuMat U2) (Some 3%Z) None None None false None = Ok o2 /\ dft_U o2 = FuMat M2 /\
    DFT_multiply (dft_F o1) (dft_F o2) (SuMat M1) (Some (SuMat M2)) = Ok (YF, V) /\
    alen YF = 4%nat /\ veq (dft_F o) YF /\ M 0%nat 0%nat = V 0%nat 0%nat + 9.
Proof.
  intros x1 x2 U1 U2.
  destruct (C152_convolution_theorem x1 U1 x2 U2 2 2) as
    (y & U & o & M & o1 & M1 & o2 & M2 & YF & V & y0 & U0 & o0 & M0 & H1 & H2 & H3 & H4 & H5 & H6 & H7 & H8 & _ & _ & _ & H9 & H10 & _ & _ & _ & _ & H11 & H12);
    try reflexivity; try lia; try (intros i j Hi Hj; destruct i as [|[|?]]; try lia; destruct j as [|[|?]]; try lia; reflexivity).
  exists y, U, o, M, o1, M1, o2, M2, YF, V. repeat (split; [assumption|]).
  rewrite H11 by (simpl; lia). rewrite H12. simpl. f_equal. lra.
Qed.
(** The same with an exactly known second signal. *)
Example C152_example2 :
  let x1 := of_list [1; 2] in let x2 := of_list [3; 1] in let U1 := of_rows [[1; 0]; [0; 2]] in
  exists y U o M o1 M1 o2 YF V,
    convolve_unc x1 (Some U1) x2 None "full" = Ok (y, U) /\
    GUM_DFT y (SuMat U) None None None None false None = Ok o /\ dft_U o = FuMat M /\
    GUM_DFT x1 (SuMat U1) (Some 3%Z) None None None false None = Ok o1 /\ dft_U o1 = FuMat M1 /\
    GUM_DFT x2 (SuFloat 0) (Some 3%Z) None None None false None = Ok o2 /\
    DFT_multiply (dft_F o1) (dft_F o2) (SuMat M1) None = Ok (YF, V) /\
    alen YF = 4%nat /\ mrows V = 4%nat /\ veq (dft_F o) YF /\ meq M V.
Proof.
  intros x1 x2 U1.
  apply (C152_exact_kernel x1 U1 x2 2 2); try reflexivity; try lia.
  intros i j Hi Hj; destruct i as [|[|?]]; try lia; destruct j as [|[|?]]; try lia; reflexivity.
Qed.
Print Assumptions C152_convolution_theorem.
Print Assumptions C152_exact_kernel.
