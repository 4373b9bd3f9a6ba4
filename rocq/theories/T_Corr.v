(** Covariances returned by the propagation functions as correlations (C189).
    Models: M_Filter.v, M_DFT.v.  Vocabulary: Stats.v, S_Filter.v, S_Conv.v, S_DFT.v. *)
From Coq Require Import Reals List Arith ZArith Bool Lia Lra Psatz String.
From Verif Require Import Base Sums Stats StatsFacts M_Filter S_Filter S_Conv P_Filter P_Filter2 P_Filter3 P_Conv T_Filter.
From Verif Require Import M_DFT S_Jac S_DFT P_Jac P_Trig P_DFT P_iDFT P_Deriv P_AmpPhase P_APTime P_Deconv P_T2AP T_DFT T_AmpPhase.
Import ListNotations.
Open Scope R_scope.

(** Full statement of C189: every covariance matrix returned by the library is one of a
    real quantity, in the sense that no variance is negative and every correlation
    coefficient lies in [-1, 1], i.e. |U i j| <= u(i) u(j). *)
Definition correlations_ok (n : nat) (U : nat -> nat -> R) : Prop :=
  forall i j, (i < n)%nat -> (j < n)%nat ->
    0 <= U i i /\ Rabs (U i j) <= sqrt (U i i) * sqrt (U j j).

Lemma quad_two n U i j s t : symm n U -> (i < n)%nat -> (j < n)%nat -> i <> j ->
  quad n U (fun k => if (k =? i)%nat then s else if (k =? j)%nat then t else 0)
  = s * s * U i i + 2 * s * t * U i j + t * t * U j j.
Proof.
  intros Hs Hi Hj Hij. unfold quad.
  assert (D : forall (f : nat -> R),
    rsum n (fun k => (if (k =? i)%nat then s else if (k =? j)%nat then t else 0) * f k) = s * f i + t * f j).
  { intros f.
    rewrite (rsum_ext n _ (fun k => (if (k =? i)%nat then s * f k else 0) + (if (k =? j)%nat then t * f k else 0))).
    - rewrite rsum_plus. rewrite (rsum_single n i), (rsum_single n j); auto.
      + now rewrite !Nat.eqb_refl.
      + intros k _ Hk. apply Nat.eqb_neq in Hk. now rewrite Hk.
      + intros k _ Hk. apply Nat.eqb_neq in Hk. now rewrite Hk.
    - intros k _. destruct (Nat.eqb_spec k i); destruct (Nat.eqb_spec k j); subst; try ring. now destruct Hij. }
  rewrite (rsum_ext n _ (fun k => (if (k =? i)%nat then s else if (k =? j)%nat then t else 0) * (s * U k i + t * U k j))).
  - rewrite D. rewrite (Hs j i) by assumption. ring.
  - intros k _. rewrite <- (D (fun l => U k l)). rewrite <- rsum_scal. apply rsum_ext. intros l _. ring.
Qed.
Lemma psd_correlations n U : psd n U -> correlations_ok n U.
Proof.
  intros HP i j Hi Hj. pose proof (psd_diag n U i HP Hi) as Pi. pose proof (psd_diag n U j HP Hj) as Pj.
  split; [exact Pi|].
  rewrite <- sqrt_mult by assumption. rewrite <- sqrt_Rsqr_abs. apply sqrt_le_1_alt. unfold Rsqr.
  destruct (Nat.eq_dec i j) as [<-|Hij]; [lra|].
  destruct HP as [Hs Hq].
  assert (Q : forall s t, 0 <= s * s * U i i + 2 * s * t * U i j + t * t * U j j).
  { intros s t. rewrite <- (quad_two n U i j s t) by assumption. apply Hq. }
  set (a := U i i) in *. set (b := U j j) in *. set (c := U i j) in *. clearbody a b c.
  destruct (Req_dec b 0) as [Eb|Eb].
  - subst b. destruct (Req_dec c 0) as [->|Hc]; [lra|].
    pose proof (Q 1 (- (a + 1) / (2 * c))) as Q1.
    replace (1 * 1 * a + 2 * 1 * (- (a + 1) / (2 * c)) * c + - (a + 1) / (2 * c) * (- (a + 1) / (2 * c)) * 0) with (-1) in Q1
      by (field; assumption). lra.
  - pose proof (Q b (- c)) as Q1. assert (0 < b) by lra.
    apply (Rmult_le_reg_l b); [assumption|]. nra.
Qed.
(** An exactly known result is uncorrelated with all others. *)
Lemma known_uncorrelated n U i j : correlations_ok n U -> (i < n)%nat -> (j < n)%nat -> U i i = 0 -> U i j = 0.
Proof.
  intros H Hi Hj E. destruct (H i j Hi Hj) as [_ HB]. rewrite E, sqrt_0, Rmult_0_l in HB.
  pose proof (Rabs_pos (U i j)). destruct (Req_dec (U i j) 0) as [|N]; [assumption|].
  apply Rabs_no_R0 in N. lra.
Qed.

(** ** C189 (false): the covariances after the way to the frequency domain and back *)
(** A signal of four samples of which only sample 1 is uncertain.  After GUM_DFT and GUM_iDFT
    sample 3 still has variance zero, but a covariance of -1/2 with sample 1. *)
Theorem C189_idft_refuted : exists x Ux o x' V c,
  alen x = 4%nat /\ sig_fits 4 Ux /\ psd 4 (sig_U Ux) /\
  GUM_DFT x Ux None None None None false None = Ok o /\
  GUM_iDFT (dft_F o) (dft_U o) None None None = Ok (x', V, c) /\
  V 3%nat 3%nat = 0 /\ V 1%nat 3%nat = -1/2 /\ ~ correlations_ok 4 V.
Proof.
  destruct C28_idft_symmetric_refuted as [x [Ux [o [x' [V [c [HL [HF [HP [E [_ [E' [D [N Z]]]]]]]]]]]]]].
  destruct (C28_round_trip_partial x Ux) as [o2 [x2 [V2 [c2 [F [F' [HS HD]]]]]]]; rewrite ?HL; auto.
  { apply HP. } { exists 2%nat; reflexivity. }
  rewrite E in F. injection F as <-. rewrite E' in F'. injection F' as <- <- <-. rewrite HL in *.
  exists x, Ux, o, x', V, c.
  assert (E33 : V 3%nat 3%nat = 0) by (rewrite HD by lia; exact Z).
  assert (U13 : sig_U Ux 1 3 = 0).
  { destruct HP as [Hs Hq]. rewrite (Hs 1%nat 3%nat) by lia.
    apply (known_uncorrelated 4 (sig_U Ux) 3 1); try lia; try exact Z. now apply psd_correlations. }
  pose proof (HS 1%nat 3%nat ltac:(lia) ltac:(lia)) as HS13. rewrite U13 in HS13.
  assert (E13 : V 1%nat 3%nat = -1/2) by lra.
  repeat (split; [assumption|]). intros HC.
  destruct (HC 1%nat 3%nat ltac:(lia) ltac:(lia)) as [_ HB].
  rewrite E33, sqrt_0, Rmult_0_r, E13 in HB. pose proof (Rle_abs (- (-1/2))) as HA. rewrite Rabs_Ropp in HA. lra.
Qed.
Print Assumptions C189_idft_refuted.

(** ** C189 (what holds) *)
(** Filtering and convolution. *)
Theorem C189_filter_partial : forall ydt tdt y sn theta Ut kind n N,
  alen y = n -> alen theta = N -> (1 <= n)%nat -> (2 <= N)%nat ->
  noise_fits n sn kind -> coeff_matrix N Ut ->
  psd (n + (N - 1)) (stat_cont n (N - 1) (sig_cov sn kind)) -> psd N (coeff_cov Ut) ->
  exists x U, FIRuncFilter ydt tdt y sn theta Ut 0 None kind true = Ok (x, FullU U) /\ correlations_ok n U.
Proof.
  intros ydt tdt y sn theta Ut kind n N Hy Ht Hn HN Hs HU Q1 Q2.
  destruct (C03_fir_cov_psd ydt tdt y sn theta Ut kind n N) as [x [U [E [_ [_ [HP _]]]]]]; auto.
  exists x, U. split; [exact E|]. now apply psd_correlations.
Qed.
Theorem C189_convolution_partial : forall x1 U1 x2 U2 mode n1 n2,
  alen x1 = n1 -> alen x2 = n2 -> (2 <= n1)%nat -> (2 <= n2)%nat ->
  opt_square n1 U1 -> opt_square n2 U2 -> (numpy_mode mode \/ ndimage_mode mode) ->
  psd n1 (opt_cov U1) -> psd n2 (opt_cov U2) ->
  exists y U, convolve_unc x1 U1 x2 U2 mode = Ok (y, U) /\ correlations_ok (mrows U) U.
Proof.
  intros x1 U1 x2 U2 mode n1 n2 H1 H2 Hn1 Hn2 S1 S2 Hm Q1 Q2.
  destruct (C14_convolution_psd x1 U1 x2 U2 mode n1 n2) as [y [U [E [_ HP]]]]; auto.
  exists y, U. split; [exact E|]. now apply psd_correlations.
Qed.
Example C189_convolution_example : exists y U,
  convolve_unc ex_y (Some ones22) ex_th (Some ones22) "mirror" = Ok (y, U) /\ correlations_ok (mrows U) U.
Proof.
  destruct C14_example as [y [U [E [_ HP]]]].
  exists y, U. split; [exact E|]. now apply psd_correlations.
Qed.
(** To the frequency domain, for all options. *)
Theorem C189_dft_partial : forall x Ux N w rc mask,
  let L := alen x in let n := dft_len L N in
  sig_fits L Ux -> psd L (sig_U Ux) -> win_fits L Ux w -> pad_fits L N -> (1 <= n)%nat -> mask_fits n mask ->
  exists o, GUM_DFT x Ux N w None None rc mask = Ok o /\
    correlations_ok (alen (dft_F o)) (fun_U (dft_U o)).
Proof.
  intros x Ux N w rc mask L n Hs Hp Hw Hpd Hn Hm.
  destruct (C85_dft_psd x Ux N w rc mask) as [o [E [_ HP]]]; auto.
  exists o. split; [exact E|]. now apply psd_correlations.
Qed.
(** Changes of representation. *)
Theorem C189_representation_partial : forall h, (1 <= h)%nat ->
  (forall (F : vec) UF ks, alen F = (2 * h)%nat -> fun_fits (2 * h) UF -> psd (2 * h) (fun_U UF) ->
     (forall k, (k < h)%nat -> F k ^ 2 + F (h + k)%nat ^ 2 <> 0) ->
     exists A P U, DFT2AmpPhase F UF ks = Ok (A, P, U) /\ correlations_ok (2 * h) (dense U)) /\
  (forall (A P : vec) UAP ks, alen A = h -> alen P = h -> ap_fits (2 * h) UAP -> matrix_or_vector UAP ->
     psd (2 * h) (ap_U UAP) ->
     exists F U, AmpPhase2DFT A P UAP ks = Ok (F, U) /\ correlations_ok (2 * h) (dense U)).
Proof.
  intros h Hh. split.
  - intros F UF ks HF Hf HP Hnz. destruct (C85_amp_phase_psd F UF ks h) as [A [P [U [E Q]]]]; auto.
    exists A, P, U. split; [exact E|]. now apply psd_correlations.
  - intros A P UAP ks HA HP Hf Hm Hp. destruct (C85_real_imag_psd A P UAP ks h) as [F [U [E Q]]]; auto.
    exists F, U. split; [exact E|]. now apply psd_correlations.
Qed.
(** Products and quotients of spectra. *)
Theorem C189_spectra_partial : forall h,
  (forall (Y F : vec) UY UF,
     alen Y = (2 * h)%nat -> alen F = (2 * h)%nat -> mrows UY = (2 * h)%nat -> mcols UY = (2 * h)%nat ->
     psd (2 * h) (fun i j => UY i j) -> opt_full (2 * h) UF -> psd (2 * h) (opt_U UF) ->
     exists YF U, DFT_multiply Y F (SuMat UY) UF = Ok (YF, U) /\ correlations_ok (2 * h) (fun i j => U i j)) /\
  (forall (H Y : vec) UH UY,
     alen H = (2 * h)%nat -> alen Y = (2 * h)%nat -> matrix_or_vector UH ->
     ap_fits (2 * h) UH -> ap_fits (2 * h) UY -> psd (2 * h) (ap_U UH) -> psd (2 * h) (ap_U UY) ->
     (forall k, (k < h)%nat -> H k ^ 2 + H (h + k)%nat ^ 2 <> 0) ->
     exists X UX, DFT_deconv H Y UH UY = Ok (X, UX) /\ correlations_ok (2 * h) (fun i j => UX i j)).
Proof.
  intros h. split.
  - intros Y F UY UF HY HF HR HC Hp Hf Hp'.
    destruct (C85_multiply_psd Y F UY UF h) as [YF [U [E Q]]]; auto.
    exists YF, U. split; [exact E|]. now apply psd_correlations.
  - intros H Y UH UY HH HY Hm Hf Hf' Hp Hp' Hnz.
    destruct (C85_deconv_psd H Y UH UY h) as [X [UX [E Q]]]; auto.
    exists X, UX. split; [exact E|]. now apply psd_correlations.
Qed.
(** Back to the time domain: the bound holds for the mean of the two entries of a pair. *)
Theorem C189_symmetric_part_partial : forall F UF Nx N nx,
  Nat.Even N -> (2 <= N)%nat -> nx_fits N Nx nx ->
  alen F = (N + 2)%nat -> fun_fits (N + 2) UF -> psd (N + 2) (fun_U UF) ->
  exists x V c, GUM_iDFT F UF Nx None None = Ok (x, V, c) /\ mrows V = nx /\
    correlations_ok nx (fun n m => (V n m + V m n) / 2).
Proof.
  intros F UF Nx N nx He HN Hx HF Hf HP.
  destruct (GUM_iDFT_run F UF Nx N nx) as [x [V [c [E [_ [R1 [_ [_ [V1 _]]]]]]]]]; auto; [apply HP|].
  exists x, V, c. split; [exact E|]. split; [exact R1|]. apply psd_correlations.
  apply (psd_ext nx (sandwich (N + 2) (idft_coeff N) (fun_U UF) (idft_coeff N))).
  - intros i j _ _. rewrite !V1, (sandwich_symm _ _ _ j i) by apply HP. field.
  - now apply psd_sandwich.
Qed.
Example C189_dft_example : exists o,
  GUM_DFT ex_x (SuVec (of_list [1; 4])) None None None None false None = Ok o /\
  correlations_ok (alen (dft_F o)) (fun_U (dft_U o)).
Proof.
  apply (C189_dft_partial ex_x (SuVec (of_list [1; 4])) None None false None); simpl; auto; try lia.
  split.
  - intros a b _ _; simpl; rewrite (Nat.eqb_sym b a). destruct (Nat.eqb_spec a b); [subst|]; reflexivity.
  - intros v. unfold quad. simpl. nra.
Qed.
Example C189_product_example : exists YF U,
  DFT_multiply (of_list [1; 2]) (of_list [3; 4]) (SuMat (of_rows [[1; 1]; [1; 1]])) None = Ok (YF, U) /\
  correlations_ok 2 (fun i j => U i j).
Proof.
  destruct C85_multiply_example as [YF [U [E HP]]]. exists YF, U. split; [exact E|]. now apply psd_correlations.
Qed.
Print Assumptions C189_filter_partial.
Print Assumptions C189_convolution_partial.
Print Assumptions C189_dft_partial.
Print Assumptions C189_representation_partial.
Print Assumptions C189_spectra_partial.
Print Assumptions C189_symmetric_part_partial.
