(** Frequency domain: larger uncertainties in give larger uncertainties out (C130), exactly
    known inputs (C131), change of units (C133, C134).
    Model: M_DFT.v.  Vocabulary: Stats.v, S_DFT.v, S_Order.v. *)
From Coq Require Import Reals List Arith ZArith Bool Lia Lra Psatz.
From Verif Require Import Base Sums Stats StatsFacts M_DFT S_Jac S_DFT S_Order P_Jac P_Trig P_DFT P_iDFT
  P_Deriv P_AmpPhase P_APTime P_Deconv T_DFT T_AmpPhase.
Import ListNotations.
Open Scope R_scope.

(** ** C130 (continued) *)
Lemma sandwich_minus m J U V i j :
  sandwich m J (fun a b => V a b - U a b) J i j = sandwich m J V J i j - sandwich m J U J i j.
Proof.
  unfold sandwich. rewrite <- rsum_minus. apply rsum_ext. intros a _. rewrite <- rsum_minus.
  apply rsum_ext. intros b _. ring.
Qed.
Lemma sandwich_mono n m J U V : at_most m U V -> at_most n (sandwich m J U J) (sandwich m J V J).
Proof.
  intros O. unfold at_most. eapply psd_ext; [|exact (psd_sandwich n m J _ O)].
  intros i j _ _. apply sandwich_minus.
Qed.
Lemma at_most_le n U V i : at_most n U V -> (i < n)%nat -> U i i <= V i i.
Proof. intros O Hi. pose proof (psd_diag n _ i O Hi) as D. cbn beta in D. lra. Qed.
Lemma at_most_eq n U V U' V' :
  (forall i j, (i < n)%nat -> (j < n)%nat -> U i j = U' i j) ->
  (forall i j, (i < n)%nat -> (j < n)%nat -> V i j = V' i j) ->
  at_most n U V -> at_most n U' V'.
Proof. intros H1 H2 O. unfold at_most. eapply psd_ext; [|exact O]. intros i j Hi Hj. cbn beta. now rewrite H1, H2. Qed.
Lemma at_most_plus n U V U' V' : at_most n U V -> at_most n U' V' ->
  at_most n (fun i j => U i j + U' i j) (fun i j => V i j + V' i j).
Proof.
  intros O O'. unfold at_most. eapply psd_ext; [|exact (psd_plus n _ _ O O')].
  intros i j _ _. cbn beta. ring.
Qed.
Lemma sandwich_win L w J U i j :
  sandwich L J (fun a b => win w a * U a b * win w b) J i j =
  sandwich L (fun r m => J r m * win w m) U (fun r m => J r m * win w m) i j.
Proof. unfold sandwich. apply rsum_ext. intros a _. apply rsum_ext. intros b _. ring. Qed.

(** the diagonal of the returned uncertainty, whatever its form *)
Lemma unc_ok_diag L U n rw q iv u i : unc_ok L U n rw q iv u -> (i < 2 * q)%nat ->
  fun_U u i i = sandwich L (fun r m => dft_coeff n (n / 2 + 1) (rw r) m) U
                       (fun r m => dft_coeff n (n / 2 + 1) (rw r) m) i i.
Proof.
  intros H Hi. destruct u as [v|M]; cbn [unc_ok fun_U] in *.
  - rewrite Nat.eqb_refl. now apply H.
  - now apply H.
Qed.

(** GUM_DFT with any padding, window and mask: larger variances of the samples give larger
    variances of all lines; full covariances are ordered as well. *)
Theorem C130_dft : forall x Ux Ux' N w rc mask,
  let L := alen x in let n := dft_len L N in
  sig_fits L Ux -> sig_fits L Ux' -> symm L (sig_U Ux) -> win_fits L Ux w -> win_fits L Ux' w ->
  pad_fits L N -> (1 <= n)%nat -> mask_fits n mask ->
  at_most L (sig_U Ux) (sig_U Ux') ->
  exists o o', GUM_DFT x Ux N w None None rc mask = Ok o /\ GUM_DFT x Ux' N w None None rc mask = Ok o' /\
    alen (dft_F o') = alen (dft_F o) /\
    (forall i, (i < alen (dft_F o))%nat ->
       dft_F o i = dft_F o' i /\ fun_U (dft_U o) i i <= fun_U (dft_U o') i i) /\
    (forall M M', dft_U o = FuMat M -> dft_U o' = FuMat M' -> at_most (alen (dft_F o)) M M').
Proof.
  intros x Ux Ux' N w rc mask L n F F' Hs W W' Hp Hn Hm O.
  assert (Hs' : symm L (sig_U Ux')).
  { intros i j Hi Hj. destruct O as [Os _]. specialize (Os i j Hi Hj). cbn beta in Os.
    rewrite (Hs i j Hi Hj) in Os. lra. }
  destruct (GUM_DFT_run x Ux N w rc mask) as (o & E & A & B & C); auto.
  destruct (GUM_DFT_run x Ux' N w rc mask) as (o' & E' & A' & B' & C'); auto.
  exists o, o'. split; [exact E|]. split; [exact E'|]. split; [congruence|].
  cbv zeta in A, B, C, A', B', C'. fold L in A, B, C, A', B', C'. fold n in A, B, C, A', B', C'. set (idx := lines n mask) in *. set (q := length idx) in *.
  assert (OO : at_most (2 * q)
     (sandwich L (fun r m => dft_coeff n (n / 2 + 1) (row (n / 2 + 1) idx r) m)
        (fun a b => win w a * sig_U Ux a b * win w b) (fun r m => dft_coeff n (n / 2 + 1) (row (n / 2 + 1) idx r) m))
     (sandwich L (fun r m => dft_coeff n (n / 2 + 1) (row (n / 2 + 1) idx r) m)
        (fun a b => win w a * sig_U Ux' a b * win w b) (fun r m => dft_coeff n (n / 2 + 1) (row (n / 2 + 1) idx r) m))).
  { eapply at_most_eq; [| |exact (sandwich_mono (2 * q) L
      (fun r m => dft_coeff n (n / 2 + 1) (row (n / 2 + 1) idx r) m * win w m) _ _ O)];
    intros i j _ _; symmetry; apply sandwich_win. }
  split.
  - intros i Hi. rewrite A in Hi. split; [rewrite B, B' by assumption; reflexivity|].
    rewrite (unc_ok_diag _ _ _ _ _ _ _ _ C Hi), (unc_ok_diag _ _ _ _ _ _ _ _ C' Hi).
    now apply (at_most_le (2 * q)).
  - intros M M' EM EM'. rewrite EM in C. rewrite EM' in C'. cbn [unc_ok] in C, C'. rewrite A.
    eapply at_most_eq; [| |exact OO]; intros i j Hi Hj; symmetry; [now apply C|now apply C'].
Qed.

(** GUM_iDFT (even number of samples): variances of the samples. *)
Theorem C130_idft : forall F UF UF' Nx N nx,
  Nat.Even N -> (2 <= N)%nat -> nx_fits N Nx nx ->
  alen F = (N + 2)%nat -> fun_fits (N + 2) UF -> fun_fits (N + 2) UF' -> symm (N + 2) (fun_U UF) ->
  at_most (N + 2) (fun_U UF) (fun_U UF') ->
  exists x V c x' V' c', GUM_iDFT F UF Nx None None = Ok (x, V, c) /\
    GUM_iDFT F UF' Nx None None = Ok (x', V', c') /\ alen x = nx /\
    forall n, (n < nx)%nat -> x n = x' n /\ V n n <= V' n n.
Proof.
  intros F UF UF' Nx N nx He H2 Hx HF Hf Hf' Hs O.
  assert (Hs' : symm (N + 2) (fun_U UF')).
  { intros i j Hi Hj. destruct O as [Os _]. specialize (Os i j Hi Hj). cbn beta in Os.
    rewrite (Hs i j Hi Hj) in Os. lra. }
  destruct (GUM_iDFT_run F UF Nx N nx) as (x & V & c & E & A & _ & _ & B & C & _); auto.
  destruct (GUM_iDFT_run F UF' Nx N nx) as (x' & V' & c' & E' & A' & _ & _ & B' & C' & _); auto.
  exists x, V, c, x', V', c'. split; [exact E|]. split; [exact E'|]. split; [exact A|].
  intros n Hn. split; [rewrite B, B' by assumption; reflexivity|]. rewrite C, C'.
  assert (D := at_most_le nx _ _ n (sandwich_mono nx (N + 2) (idft_coeff N) _ _ O) Hn). lra.
Qed.

Theorem C130_amp_phase : forall (F : vec) UF UF' ks ks' h,
  alen F = (2 * h)%nat -> (1 <= h)%nat -> fun_fits (2 * h) UF -> fun_fits (2 * h) UF' ->
  symm (2 * h) (fun_U UF) -> at_most (2 * h) (fun_U UF) (fun_U UF') ->
  (forall k, (k < h)%nat -> F k ^ 2 + F (h + k)%nat ^ 2 <> 0) ->
  exists A P U A' P' U', DFT2AmpPhase F UF ks = Ok (A, P, U) /\ DFT2AmpPhase F UF' ks' = Ok (A', P', U') /\
    (forall k, (k < h)%nat -> A k = A' k /\ P k = P' k) /\ at_most (2 * h) (dense U) (dense U').
Proof.
  intros F UF UF' ks ks' h HF Hh Hf Hf' Hs O Hnz.
  assert (Hs' : symm (2 * h) (fun_U UF')).
  { intros i j Hi Hj. destruct O as [Os _]. specialize (Os i j Hi Hj). cbn beta in Os.
    rewrite (Hs i j Hi Hj) in Os. lra. }
  destruct (DFT2AmpPhase_run F UF ks h) as (A & P & U & E & _ & _ & HA & HP & _ & HU); auto.
  destruct (DFT2AmpPhase_run F UF' ks' h) as (A' & P' & U' & E' & _ & _ & HA' & HP' & _ & HU'); auto.
  exists A, P, U, A', P', U'. split; [exact E|]. split; [exact E'|]. split.
  - intros k Hk. rewrite HA, HA', HP, HP'. auto.
  - eapply at_most_eq; [| |exact (sandwich_mono (2 * h) (2 * h) (Kl h (ap_al h F) (ap_be h F)) _ _ O)];
      intros i j Hi Hj; symmetry; [now apply HU|now apply HU'].
Qed.
Theorem C130_real_imag : forall (A P : vec) UAP UAP' ks ks' h,
  alen A = h -> alen P = h -> (1 <= h)%nat -> ap_fits (2 * h) UAP -> ap_fits (2 * h) UAP' ->
  matrix_or_vector UAP -> matrix_or_vector UAP' ->
  symm (2 * h) (ap_U UAP) -> at_most (2 * h) (ap_U UAP) (ap_U UAP') ->
  exists F U F' U', AmpPhase2DFT A P UAP ks = Ok (F, U) /\ AmpPhase2DFT A P UAP' ks' = Ok (F', U') /\
    (forall i, (i < 2 * h)%nat -> F i = F' i) /\ at_most (2 * h) (dense U) (dense U').
Proof.
  intros A P UAP UAP' ks ks' h HA HP Hh Hf Hf' M M' Hs O.
  assert (Hs' : symm (2 * h) (ap_U UAP')).
  { intros i j Hi Hj. destruct O as [Os _]. specialize (Os i j Hi Hj). cbn beta in Os.
    rewrite (Hs i j Hi Hj) in Os. lra. }
  assert (Z : forall u i j, matrix_or_vector u -> sparse_error h A P u i j = 0)
    by (intros u i j; destruct u; [reflexivity..|contradiction]).
  destruct (AmpPhase2DFT_run A P UAP ks h) as (F & U & E & _ & HF & _ & HU); auto.
  destruct (AmpPhase2DFT_run A P UAP' ks' h) as (F' & U' & E' & _ & HF' & _ & HU'); auto.
  exists F, U, F', U'. split; [exact E|]. split; [exact E'|]. split.
  - intros i Hi. rewrite HF, HF' by assumption. reflexivity.
  - eapply at_most_eq; [| |exact (sandwich_mono (2 * h) (2 * h)
      (Kl h (ri_al h (stk A P)) (ri_be h (stk A P))) _ _ O)]; intros i j Hi Hj;
      [rewrite HU, Z by assumption|rewrite HU', Z by assumption]; unfold S4; ring.
Qed.
Theorem C130_multiply : forall (Y F : vec) UY UY' UF UF' h,
  alen Y = (2 * h)%nat -> alen F = (2 * h)%nat ->
  mrows UY = (2 * h)%nat -> mcols UY = (2 * h)%nat -> mrows UY' = (2 * h)%nat -> mcols UY' = (2 * h)%nat ->
  opt_full (2 * h) UF -> opt_full (2 * h) UF' ->
  symm (2 * h) (fun i j => UY i j) -> symm (2 * h) (opt_U UF) ->
  at_most (2 * h) UY UY' -> at_most (2 * h) (opt_U UF) (opt_U UF') ->
  exists YF U YF' U', DFT_multiply Y F (SuMat UY) UF = Ok (YF, U) /\ DFT_multiply Y F (SuMat UY') UF' = Ok (YF', U') /\
    (forall i, (i < 2 * h)%nat -> YF i = YF' i) /\ at_most (2 * h) U U'.
Proof.
  intros Y F UY UY' UF UF' h HY HF R1 C1 R2 C2 Hf Hf' Hs Hs2 O O2.
  assert (Hs' : symm (2 * h) (fun i j => UY' i j)).
  { intros i j Hi Hj. destruct O as [Os _]. specialize (Os i j Hi Hj). cbn beta in Os.
    pose proof (Hs i j Hi Hj) as E. cbn beta in E. rewrite E in Os. lra. }
  assert (Hs2' : symm (2 * h) (opt_U UF')).
  { intros i j Hi Hj. destruct O2 as [Os _]. specialize (Os i j Hi Hj). cbn beta in Os.
    rewrite (Hs2 i j Hi Hj) in Os. lra. }
  destruct (DFT_multiply_run Y F UY UF h) as (YF & U & E & _ & _ & _ & HV & HU); auto.
  destruct (DFT_multiply_run Y F UY' UF' h) as (YF' & U' & E' & _ & _ & _ & HV' & HU'); auto.
  exists YF, U, YF', U'. split; [exact E|]. split; [exact E'|]. split.
  - intros i Hi. rewrite HV, HV' by assumption. reflexivity.
  - eapply at_most_eq; [| |exact (at_most_plus (2 * h) _ _ _ _
      (sandwich_mono (2 * h) (2 * h) (Kl h (mul_al h F) (mul_be h F)) _ _ O)
      (sandwich_mono (2 * h) (2 * h) (Kl h (mul_al h Y) (mul_be h Y)) _ _ O2))];
      intros i j Hi Hj; symmetry; [now apply HU|now apply HU'].
Qed.
Theorem C130_deconv : forall (H Y : vec) UH UH' UY UY' h,
  alen H = (2 * h)%nat -> alen Y = (2 * h)%nat -> matrix_or_vector UH -> matrix_or_vector UH' ->
  ap_fits (2 * h) UH -> ap_fits (2 * h) UH' -> ap_fits (2 * h) UY -> ap_fits (2 * h) UY' ->
  symm (2 * h) (ap_U UH) -> symm (2 * h) (ap_U UY) ->
  at_most (2 * h) (ap_U UH) (ap_U UH') -> at_most (2 * h) (ap_U UY) (ap_U UY') ->
  (forall k, (k < h)%nat -> H k ^ 2 + H (h + k)%nat ^ 2 <> 0) ->
  exists X UX X' UX', DFT_deconv H Y UH UY = Ok (X, UX) /\ DFT_deconv H Y UH' UY' = Ok (X', UX') /\
    (forall i, (i < 2 * h)%nat -> X i = X' i) /\ at_most (2 * h) UX UX'.
Proof.
  intros H Y UH UH' UY UY' h HH HY M M' F1 F2 F3 F4 S1 S2 O1 O2 Hnz.
  assert (S1' : symm (2 * h) (ap_U UH')).
  { intros i j Hi Hj. destruct O1 as [Os _]. specialize (Os i j Hi Hj). cbn beta in Os.
    rewrite (S1 i j Hi Hj) in Os. lra. }
  assert (S2' : symm (2 * h) (ap_U UY')).
  { intros i j Hi Hj. destruct O2 as [Os _]. specialize (Os i j Hi Hj). cbn beta in Os.
    rewrite (S2 i j Hi Hj) in Os. lra. }
  destruct (DFT_deconv_run H Y UH UY h) as (X & UX & E & _ & _ & _ & HV & HU); auto.
  destruct (DFT_deconv_run H Y UH' UY' h) as (X' & UX' & E' & _ & _ & _ & HV' & HU'); auto.
  exists X, UX, X', UX'. split; [exact E|]. split; [exact E'|]. split.
  - intros i Hi. rewrite HV, HV' by assumption. reflexivity.
  - eapply at_most_eq; [| |exact (at_most_plus (2 * h) _ _ _ _
      (sandwich_mono (2 * h) (2 * h) (Kl h (dy_al h H) (dy_be h H)) _ _ O2)
      (sandwich_mono (2 * h) (2 * h) (Kl h (dh_al h Y H) (dh_be_code h Y H)) _ _ O1))];
      intros i j Hi Hj; symmetry; [now apply HU|now apply HU'].
Qed.

Lemma diag_order n (d e : nat -> R) : (forall i, (i < n)%nat -> d i <= e i) ->
  at_most n (fun i j => if (i =? j)%nat then d i else 0) (fun i j => if (i =? j)%nat then e i else 0).
Proof.
  intros H. split.
  - intros i j Hi Hj. rewrite (Nat.eqb_sym j i). destruct (Nat.eqb_spec i j); [subst|]; reflexivity.
  - intros v. unfold quad. apply rsum_nonneg. intros i Hi.
    rewrite (rsum_single n i); [|exact Hi|intros j Hj Hne; destruct (Nat.eqb_spec i j); [lia|ring]].
    rewrite Nat.eqb_refl. replace (v i * (e i - d i) * v i) with ((e i - d i) * (v i * v i)) by ring.
    apply Rmult_le_pos; [specialize (H i Hi); lra|apply Rle_0_sqr].
Qed.
Example C130_dft_example : exists o o',
  GUM_DFT ex_x (SuFloat 1) None (Some ex_x) None None false None = Ok o /\
  GUM_DFT ex_x (SuMat (of_rows [[2; 0]; [0; 1]])) None (Some ex_x) None None false None = Ok o' /\
  fun_U (dft_U o) 0 0 <= fun_U (dft_U o') 0 0.
Proof.
  destruct (C130_dft ex_x (SuFloat 1) (SuMat (of_rows [[2; 0]; [0; 1]])) None (Some ex_x) false None)
    as (o & o' & E & E' & L & H & _); try (simpl; auto; lia); try exact I.
  - apply (diag_symm 2 (mkArr 2 (fun _ => 1))).
  - eapply at_most_eq; [| |apply (diag_order 2 (fun _ => 1) (fun i => if (i =? 0)%nat then 2 else 1))].
    + intros i j _ _. reflexivity.
    + intros [|[|i]] [|[|j]] Hi Hj; try (simpl in *; lia); reflexivity.
    + intros i _. destruct (i =? 0)%nat; lra.
  - exists o, o'. split; [exact E|]. split; [exact E'|]. apply (H 0%nat).
    destruct (GUM_DFT_run ex_x (SuFloat 1) None (Some ex_x) false None) as (o2 & E2 & A & _); try (simpl; auto; lia); try exact I.
    { apply (diag_symm 2 (mkArr 2 (fun _ => 1))). }
    rewrite E in E2. inversion E2; subst o2. rewrite A. simpl. lia.
Qed.
Example C130_amp_phase_example : exists A P U A' P' U',
  DFT2AmpPhase (of_list [3; 4]) (FuVec (of_list [1; 1])) false = Ok (A, P, U) /\
  DFT2AmpPhase (of_list [3; 4]) (FuVec (of_list [1; 2])) true = Ok (A', P', U') /\
  at_most 2 (dense U) (dense U').
Proof.
  destruct (C130_amp_phase (of_list [3; 4]) (FuVec (of_list [1; 1])) (FuVec (of_list [1; 2])) false true 1)
    as (A & P & U & A' & P' & U' & E & E' & _ & O); simpl; auto.
  - apply (diag_symm 2 (of_list [1; 1])).
  - apply (diag_order 2 (of_list [1; 1]) (of_list [1; 2])). intros [|[|i]] Hi; simpl; lra.
  - intros [|k] Hk; [simpl; lra|lia].
  - exists A, P, U, A', P', U'. auto.
Qed.
Example C130_deconv_example : exists X UX X' UX',
  DFT_deconv (of_list [3; 4]) (of_list [1; 2]) (ApVec (of_list [0; 0])) (ApVec (of_list [1; 1])) = Ok (X, UX) /\
  DFT_deconv (of_list [3; 4]) (of_list [1; 2]) (ApVec (of_list [1; 0])) (ApVec (of_list [1; 2])) = Ok (X', UX') /\
  at_most 2 UX UX'.
Proof.
  destruct (C130_deconv (of_list [3; 4]) (of_list [1; 2]) (ApVec (of_list [0; 0])) (ApVec (of_list [1; 0]))
    (ApVec (of_list [1; 1])) (ApVec (of_list [1; 2])) 1) as (X & U & X' & U' & E & E' & _ & O); simpl; auto.
  - apply (diag_symm 2 (of_list [0; 0])).
  - apply (diag_symm 2 (of_list [1; 1])).
  - apply (diag_order 2 (of_list [0; 0]) (of_list [1; 0])). intros [|[|i]] Hi; simpl; lra.
  - apply (diag_order 2 (of_list [1; 1]) (of_list [1; 2])). intros [|[|i]] Hi; simpl; lra.
  - intros [|k] Hk; [simpl; lra|lia].
  - exists X, U, X', U'. auto.
Qed.
Print Assumptions C130_dft.
Print Assumptions C130_idft.
Print Assumptions C130_amp_phase.
Print Assumptions C130_real_imag.
Print Assumptions C130_multiply.
Print Assumptions C130_deconv.

(** ** C131 (continued) *)
Lemma sandwich_zero m J U i j : all_zero m U -> sandwich m J U J i j = 0.
Proof.
  intros Z. unfold sandwich. apply rsum_zero. intros a Ha. apply rsum_zero. intros b Hb.
  rewrite Z by assumption. ring.
Qed.
Lemma zero_symm n U : all_zero n U -> symm n U.
Proof. intros Z i j Hi Hj. now rewrite !Z. Qed.
Theorem C131_dft : forall x Ux N w rc mask,
  let L := alen x in let n := dft_len L N in
  sig_fits L Ux -> win_fits L Ux w -> pad_fits L N -> (1 <= n)%nat -> mask_fits n mask ->
  all_zero L (sig_U Ux) ->
  exists o, GUM_DFT x Ux N w None None rc mask = Ok o /\
    fun_fits (alen (dft_F o)) (dft_U o) /\ all_zero (alen (dft_F o)) (fun_U (dft_U o)).
Proof.
  intros x Ux N w rc mask L n F W Hp Hn Hm Z.
  destruct (GUM_DFT_run x Ux N w rc mask) as (o & E & A & _ & C); auto; [now apply zero_symm|].
  exists o. split; [exact E|]. cbv zeta in A, C. fold L in A, C. fold n in A, C. rewrite A.
  assert (ZZ : all_zero L (fun a b => win w a * sig_U Ux a b * win w b)).
  { intros a b Ha Hb. rewrite (Z a b Ha Hb). ring. }
  destruct (dft_U o) as [v|M]; cbn [unc_ok fun_fits fun_U] in *.
  - destruct C as (_ & L1 & C). split; [exact L1|]. intros i j Hi Hj. cbn [fun_U].
    destruct (i =? j)%nat; [|reflexivity]. rewrite C by assumption. now apply sandwich_zero.
  - destruct C as (_ & L1 & L2 & C). split; [now split|]. intros i j Hi Hj. cbn [fun_U].
    rewrite C by assumption. now apply sandwich_zero.
Qed.
Theorem C131_idft : forall F UF Nx N nx,
  Nat.Even N -> (2 <= N)%nat -> nx_fits N Nx nx -> alen F = (N + 2)%nat -> fun_fits (N + 2) UF ->
  all_zero (N + 2) (fun_U UF) ->
  exists x V c, GUM_iDFT F UF Nx None None = Ok (x, V, c) /\ mrows V = nx /\ mcols V = nx /\ all_zero nx V.
Proof.
  intros F UF Nx N nx He H2 Hx HF Hf Z.
  destruct (GUM_iDFT_run F UF Nx N nx) as (x & V & c & E & _ & R1 & R2 & _ & C & _); auto; [now apply zero_symm|].
  exists x, V, c. split; [exact E|]. split; [exact R1|]. split; [exact R2|]. intros i j Hi Hj. rewrite C.
  rewrite sandwich_zero by exact Z.
  assert (X : forall a b, idft_cross N (fun_U UF) a b = 0).
  { intros a b. unfold idft_cross. apply rsum_zero. intros p Hp. apply rsum_zero. intros q Hq.
    rewrite Z; [ring| |]; destruct He as [k ->]; replace (2 * k / 2)%nat with k in *
      by (symmetry; rewrite Nat.mul_comm; apply Nat.div_mul; lia); lia. }
  rewrite !X. ring.
Qed.
Theorem C131_amp_phase : forall (F : vec) UF ks h,
  alen F = (2 * h)%nat -> (1 <= h)%nat -> fun_fits (2 * h) UF -> all_zero (2 * h) (fun_U UF) ->
  (forall k, (k < h)%nat -> F k ^ 2 + F (h + k)%nat ^ 2 <> 0) ->
  exists A P U, DFT2AmpPhase F UF ks = Ok (A, P, U) /\ dense_shape (2 * h) U /\ all_zero (2 * h) (dense U).
Proof.
  intros F UF ks h HF Hh Hf Z Hnz.
  destruct (DFT2AmpPhase_run F UF ks h) as (A & P & U & E & _ & _ & _ & _ & S & HU); auto; [now apply zero_symm|].
  exists A, P, U. split; [exact E|]. split; [exact S|]. intros i j Hi Hj. rewrite HU by assumption.
  now apply sandwich_zero.
Qed.
Theorem C131_real_imag : forall (A P : vec) UAP ks h,
  alen A = h -> alen P = h -> (1 <= h)%nat -> ap_fits (2 * h) UAP -> matrix_or_vector UAP ->
  all_zero (2 * h) (ap_U UAP) ->
  exists F U, AmpPhase2DFT A P UAP ks = Ok (F, U) /\ dense_shape (2 * h) U /\ all_zero (2 * h) (dense U).
Proof.
  intros A P UAP ks h HA HP Hh Hf M Z.
  destruct (AmpPhase2DFT_run A P UAP ks h) as (F & U & E & _ & _ & S & HU); auto; [now apply zero_symm|].
  exists F, U. split; [exact E|]. split; [exact S|]. intros i j Hi Hj. rewrite HU by assumption.
  unfold S4. rewrite sandwich_zero by exact Z. destruct UAP; [simpl; ring|simpl; ring|contradiction].
Qed.
Theorem C131_multiply : forall (Y F : vec) UY UF h,
  alen Y = (2 * h)%nat -> alen F = (2 * h)%nat -> mrows UY = (2 * h)%nat -> mcols UY = (2 * h)%nat ->
  opt_full (2 * h) UF -> all_zero (2 * h) UY -> all_zero (2 * h) (opt_U UF) ->
  exists YF U, DFT_multiply Y F (SuMat UY) UF = Ok (YF, U) /\
    mrows U = (2 * h)%nat /\ mcols U = (2 * h)%nat /\ all_zero (2 * h) U.
Proof.
  intros Y F UY UF h HY HF R1 C1 Hf Z Z'.
  destruct (DFT_multiply_run Y F UY UF h) as (YF & U & E & _ & R & C & _ & HU); auto; [now apply zero_symm..|].
  exists YF, U. split; [exact E|]. split; [exact R|]. split; [exact C|]. intros i j Hi Hj. rewrite HU by assumption.
  unfold S4. rewrite !sandwich_zero by assumption. ring.
Qed.
Theorem C131_deconv : forall (H Y : vec) UH UY h,
  alen H = (2 * h)%nat -> alen Y = (2 * h)%nat -> matrix_or_vector UH ->
  ap_fits (2 * h) UH -> ap_fits (2 * h) UY -> all_zero (2 * h) (ap_U UH) -> all_zero (2 * h) (ap_U UY) ->
  (forall k, (k < h)%nat -> H k ^ 2 + H (h + k)%nat ^ 2 <> 0) ->
  exists X UX, DFT_deconv H Y UH UY = Ok (X, UX) /\
    mrows UX = (2 * h)%nat /\ mcols UX = (2 * h)%nat /\ all_zero (2 * h) UX.
Proof.
  intros H Y UH UY h HH HY M F1 F2 Z Z' Hnz.
  destruct (DFT_deconv_run H Y UH UY h) as (X & UX & E & _ & R & C & _ & HU); auto; [now apply zero_symm..|].
  exists X, UX. split; [exact E|]. split; [exact R|]. split; [exact C|]. intros i j Hi Hj. rewrite HU by assumption.
  unfold S4. rewrite !sandwich_zero by assumption. ring.
Qed.
Example C131_dft_example : exists o, GUM_DFT ex_x (SuVec (of_list [0; 0])) None None None None false None = Ok o /\
  fun_U (dft_U o) 0 1 = 0 /\ dft_F o 0%nat = 3.
Proof.
  destruct (C131_dft ex_x (SuVec (of_list [0; 0])) None None false None) as (o & E & _ & Z);
    try (simpl; auto; lia); try exact I.
  - intros [|[|i]] [|[|j]] Hi Hj; try (simpl in *; lia); reflexivity.
  - exists o. split; [exact E|]. destruct (C22_dft_estimate _ _ _ _ _ _ _ _ E) as [_ [HL HF]].
    split; [apply Z; rewrite HL; simpl; lia|]. rewrite HF by (simpl; lia).
    change (alen ex_x) with 2%nat. change (dft_len 2 None) with 2%nat. change (2 / 2 + 1)%nat with 2%nat.
    destruct (dft2 (fun m => win None m * ex_x m)) as [-> _]. simpl. lra.
Qed.
Example C131_deconv_example : exists X UX,
  DFT_deconv (of_list [3; 4]) (of_list [1; 2]) (ApVec (of_list [0; 0])) (ApVec (of_list [0; 0])) = Ok (X, UX) /\
  UX 0%nat 1%nat = 0.
Proof.
  destruct (C131_deconv (of_list [3; 4]) (of_list [1; 2]) (ApVec (of_list [0; 0])) (ApVec (of_list [0; 0])) 1)
    as (X & UX & E & _ & _ & Z); simpl; auto;
    try (intros [|[|i]] [|[|j]] Hi Hj; try (simpl in *; lia); reflexivity).
  { intros [|k] Hk; [simpl; lra|lia]. }
  exists X, UX. split; [exact E|]. apply Z; lia.
Qed.
Print Assumptions C131_dft.
Print Assumptions C131_idft.
Print Assumptions C131_amp_phase.
Print Assumptions C131_real_imag.
Print Assumptions C131_multiply.
Print Assumptions C131_deconv.

(** ** C133 *)
Lemma sandwich_scaled m J U V c i j : (forall a b, (a < m)%nat -> (b < m)%nat -> V a b = c ^ 2 * U a b) ->
  sandwich m J V J i j = c ^ 2 * sandwich m J U J i j.
Proof.
  intros H. unfold sandwich. rewrite <- rsum_scal. apply rsum_ext. intros a Ha.
  rewrite <- rsum_scal. apply rsum_ext. intros b Hb. rewrite H by assumption. ring.
Qed.
Lemma rescaled_sig_U c u i j : sig_U (rescaled_sig c u) i j = c ^ 2 * sig_U u i j.
Proof. destruct u; cbn [rescaled_sig sig_U aget mget]; try (destruct (i =? j)%nat); ring. Qed.
Lemma rescaled_fun_U c u i j : fun_U (rescaled_fun c u) i j = c ^ 2 * fun_U u i j.
Proof. destruct u; cbn [rescaled_fun fun_U aget mget]; try (destruct (i =? j)%nat); ring. Qed.
Lemma rescaled_ap_U c u i j : matrix_or_vector u -> ap_U (rescaled_ap c u) i j = c ^ 2 * ap_U u i j.
Proof. destruct u; cbn [rescaled_ap ap_U aget mget matrix_or_vector]; intros H; try contradiction;
  try (destruct (i =? j)%nat); ring. Qed.

(** The signal in other units: spectrum times c, covariance times c^2 (any padding, window,
    mask). *)
Theorem C133_dft : forall c x Ux N w rc mask,
  let L := alen x in let n := dft_len L N in
  sig_fits L Ux -> symm L (sig_U Ux) -> win_fits L Ux w -> pad_fits L N -> (1 <= n)%nat -> mask_fits n mask ->
  exists o o', GUM_DFT x Ux N w None None rc mask = Ok o /\
    GUM_DFT (rescaled c x) (rescaled_sig c Ux) N w None None rc mask = Ok o' /\
    alen (dft_F o') = alen (dft_F o) /\
    forall i j, (i < alen (dft_F o))%nat -> (j < alen (dft_F o))%nat ->
      dft_F o' i = c * dft_F o i /\ fun_U (dft_U o') i j = c ^ 2 * fun_U (dft_U o) i j.
Proof.
  intros c x Ux N w rc mask L n F Hs W Hp Hn Hm.
  destruct (GUM_DFT_run x Ux N w rc mask) as (o & E & A & B & C); auto.
  destruct (GUM_DFT_run (rescaled c x) (rescaled_sig c Ux) N w rc mask) as (o' & E' & A' & B' & C'); auto.
  { destruct Ux; exact F. }
  { intros i j Hi Hj. rewrite !rescaled_sig_U. f_equal. now apply Hs. }
  { destruct w; [|exact I]. destruct Ux; exact W. }
  exists o, o'. split; [exact E|]. split; [exact E'|].
  cbv zeta in A, B, C, A', B', C'. change (alen (rescaled c x)) with (alen x) in A', B', C'.
  fold L in A, B, C, A', B', C'. fold n in A, B, C, A', B', C'. set (q := length (lines n mask)) in *.
  split; [congruence|]. rewrite A. intros i j Hi Hj.
  split.
  - rewrite B, B' by assumption. unfold dft_map. rewrite <- rsum_scal. apply rsum_ext. intros m Hmm.
    unfold rescaled. cbn [aget]. ring.
  - assert (SC : forall J i j, sandwich L J (fun a b => win w a * sig_U (rescaled_sig c Ux) a b * win w b) J i j =
       c ^ 2 * sandwich L J (fun a b => win w a * sig_U Ux a b * win w b) J i j).
    { intros J i' j'. apply sandwich_scaled. intros a b _ _. rewrite rescaled_sig_U. ring. }
    assert (SV : is_scalar (rescaled_sig c Ux) <-> is_scalar Ux) by (destruct Ux; simpl; tauto).
    destruct (dft_U o) as [v|M], (dft_U o') as [v'|M']; cbn [unc_ok fun_U] in *.
    + destruct (i =? j)%nat; [|ring]. destruct C as (_ & _ & C). destruct C' as (_ & _ & C').
      rewrite C, C' by assumption. apply SC.
    + exfalso. destruct C as ((C1 & C2) & _). destruct C' as (C1' & _). apply C1'. split; [now apply SV|exact C2].
    + exfalso. destruct C as (C1 & _). destruct C' as ((C1' & C2') & _). apply C1. split; [now apply SV|exact C2'].
    + destruct C as (_ & _ & _ & C). destruct C' as (_ & _ & _ & C'). rewrite C, C' by assumption. apply SC.
Qed.
Theorem C133_idft : forall c F UF Nx N nx,
  Nat.Even N -> (2 <= N)%nat -> nx_fits N Nx nx ->
  alen F = (N + 2)%nat -> fun_fits (N + 2) UF -> symm (N + 2) (fun_U UF) ->
  exists x V d x' V' d', GUM_iDFT F UF Nx None None = Ok (x, V, d) /\
    GUM_iDFT (rescaled c F) (rescaled_fun c UF) Nx None None = Ok (x', V', d') /\ alen x' = alen x /\
    forall i j, (i < nx)%nat -> (j < nx)%nat -> x' i = c * x i /\ V' i j = c ^ 2 * V i j.
Proof.
  intros c F UF Nx N nx He H2 Hx HF Hf Hs.
  destruct (GUM_iDFT_run F UF Nx N nx) as (x & V & d & E & A & _ & _ & B & C & _); auto.
  destruct (GUM_iDFT_run (rescaled c F) (rescaled_fun c UF) Nx N nx) as (x' & V' & d' & E' & A' & _ & _ & B' & C' & _); auto.
  { destruct UF; exact Hf. }
  { intros i j Hi Hj. rewrite !rescaled_fun_U. f_equal. now apply Hs. }
  exists x, V, d, x', V', d'. split; [exact E|]. split; [exact E'|]. split; [congruence|].
  intros i j Hi Hj. split.
  - rewrite B, B' by assumption. unfold idft_map.
    match goal with |- ?p / _ = c * (?q / _) => replace p with (c * q); [unfold Rdiv; ring|] end.
    rewrite <- rsum_scal. apply rsum_ext. intros k Hk. unfold spec_re, spec_im, rescaled. cbn [aget].
    destruct (k <=? N / 2)%nat; ring.
  - rewrite C, C'. rewrite (sandwich_scaled (N + 2) (idft_coeff N) (fun_U UF) _ c)
      by (intros; apply rescaled_fun_U).
    assert (X : forall a b, idft_cross N (fun_U (rescaled_fun c UF)) a b = c ^ 2 * idft_cross N (fun_U UF) a b).
    { intros a b. unfold idft_cross. rewrite <- rsum_scal. apply rsum_ext. intros p _.
      rewrite <- rsum_scal. apply rsum_ext. intros q _. rewrite rescaled_fun_U. ring. }
    rewrite !X. ring.
Qed.

Lemma amp_scaled c x y : 0 < c -> amp (c * x) (c * y) = c * amp x y.
Proof.
  intros Hc. unfold amp. replace (c * x * (c * x) + c * y * (c * y)) with ((c * c) * (x * x + y * y)) by ring.
  rewrite sqrt_mult_alt by nra. rewrite sqrt_square by lra. reflexivity.
Qed.
Lemma arctan2_scaled c x y : 0 < c -> arctan2 (c * y) (c * x) = arctan2 y x.
Proof.
  intros Hc. unfold arctan2.
  assert (Q : x <> 0 -> c * y / (c * x) = y / x) by (intros; field; lra).
  destruct (Rlt_dec 0 (c * x)) as [P|P], (Rlt_dec 0 x) as [P'|P']; try (exfalso; nra).
  - rewrite Q by lra. reflexivity.
  - destruct (Rlt_dec (c * x) 0) as [R1|R1], (Rlt_dec x 0) as [R1'|R1']; try (exfalso; nra).
    + rewrite Q by lra. destruct (Rle_dec 0 (c * y)), (Rle_dec 0 y); try (exfalso; nra); reflexivity.
    + destruct (Rlt_dec 0 (c * y)), (Rlt_dec 0 y); try (exfalso; nra); [reflexivity|].
      destruct (Rlt_dec (c * y) 0), (Rlt_dec y 0); try (exfalso; nra); reflexivity.
Qed.
Lemma ap_scaled h F c i : 0 < c -> (forall k, (k < h)%nat -> 0 < amp (F k) (F (h + k)%nat)) -> (i < 2 * h)%nat ->
  c * ap_al h (fun k => c * F k) i = unit_of h c i * ap_al h F i /\
  c * ap_be h (fun k => c * F k) i = unit_of h c i * ap_be h F i.
Proof.
  intros Hc Ha Hi. specialize (Ha (base h i) (base_lt h i Hi)). unfold ap_al, ap_be, unit_of. cbv zeta.
  rewrite amp_scaled by exact Hc. destruct (i <? h)%nat; split; field; lra.
Qed.
Lemma S4_units h al be al' be' U U' c s i j : (i < 2 * h)%nat -> (j < 2 * h)%nat ->
  (forall a b, (a < 2 * h)%nat -> (b < 2 * h)%nat -> U' a b = c ^ 2 * U a b) ->
  (forall k, (k < 2 * h)%nat -> c * al' k = s k * al k /\ c * be' k = s k * be k) ->
  S4 h al' be' U' i j = s i * s j * S4 h al be U i j.
Proof.
  intros Hi Hj HU Hs. rewrite !S4_term by assumption. unfold term4.
  pose proof (base_lt h i Hi). pose proof (base_lt h j Hj). rewrite !HU by lia.
  destruct (Hs i Hi) as [A1 B1]. destruct (Hs j Hj) as [A2 B2].
  assert (T : forall p q u (v : R) w, c * p = w * u -> forall p' u' w', c * p' = w' * u' ->
    p * (c ^ 2 * q) * p' = w * w' * (u * q * u')).
  { intros p q u v w E p' u' w' E'. replace (p * (c ^ 2 * q) * p') with ((c * p) * q * (c * p')) by ring.
    rewrite E, E'. ring. }
  rewrite (T _ (U (base h i) (base h j)) _ 0 _ A1 _ _ _ A2), (T _ (U (base h i) (h + base h j)%nat) _ 0 _ A1 _ _ _ B2),
    (T _ (U (h + base h i)%nat (base h j)) _ 0 _ B1 _ _ _ A2), (T _ (U (h + base h i)%nat (h + base h j)%nat) _ 0 _ B1 _ _ _ B2).
  ring.
Qed.
(** Spectrum in other units (c > 0): amplitudes and their uncertainty are multiplied by c,
    phases and their uncertainty do not change. *)
Theorem C133_amp_phase : forall c (F : vec) UF ks h, 0 < c ->
  alen F = (2 * h)%nat -> (1 <= h)%nat -> fun_fits (2 * h) UF -> symm (2 * h) (fun_U UF) ->
  (forall k, (k < h)%nat -> 0 < amp (F k) (F (h + k)%nat)) ->
  exists A P U A' P' U', DFT2AmpPhase F UF ks = Ok (A, P, U) /\
    DFT2AmpPhase (rescaled c F) (rescaled_fun c UF) ks = Ok (A', P', U') /\
    (forall k, (k < h)%nat -> A' k = c * A k /\ P' k = P k) /\
    forall i j, (i < 2 * h)%nat -> (j < 2 * h)%nat ->
      dense U' i j = unit_of h c i * unit_of h c j * dense U i j.
Proof.
  intros c F UF ks h Hc HF Hh Hf Hs Ha.
  destruct (DFT2AmpPhase_run F UF ks h) as (A & P & U & E & _ & _ & HA & HP & _ & HU); auto.
  destruct (DFT2AmpPhase_run (rescaled c F) (rescaled_fun c UF) ks h) as (A' & P' & U' & E' & _ & _ & HA' & HP' & _ & HU'); auto.
  { destruct UF; exact Hf. }
  { intros i j Hi Hj. rewrite !rescaled_fun_U. f_equal. now apply Hs. }
  exists A, P, U, A', P', U'. split; [exact E|]. split; [exact E'|]. split.
  - intros k Hk. rewrite HA, HA', HP, HP'. unfold rescaled. cbn [aget].
    split; [now apply amp_scaled|now apply arctan2_scaled].
  - intros i j Hi Hj. rewrite HU, HU' by assumption.
    apply S4_units with (c := c); auto.
    + intros a b _ _. apply rescaled_fun_U.
    + intros k Hk. exact (ap_scaled h F c k Hc Ha Hk).
Qed.
(** ... and back: amplitudes in other units. *)
Theorem C133_real_imag : forall c (A P : vec) (M M' : mat) ks h,
  alen A = h -> alen P = h -> (1 <= h)%nat ->
  mrows M = (2 * h)%nat -> mcols M = (2 * h)%nat -> symm (2 * h) (fun i j => M i j) ->
  mrows M' = (2 * h)%nat -> mcols M' = (2 * h)%nat ->
  (forall i j, (i < 2 * h)%nat -> (j < 2 * h)%nat -> M' i j = unit_of h c i * unit_of h c j * M i j) ->
  exists F U F' U', AmpPhase2DFT A P (ApMat M) ks = Ok (F, U) /\
    AmpPhase2DFT (rescaled c A) P (ApMat M') ks = Ok (F', U') /\
    forall i j, (i < 2 * h)%nat -> (j < 2 * h)%nat ->
      F' i = c * F i /\ dense U' i j = c ^ 2 * dense U i j.
Proof.
  intros c A P M M' ks h HA HP Hh R1 R2 Hs R1' R2' HM.
  destruct (AmpPhase2DFT_run A P (ApMat M) ks h) as (F & U & E & _ & HF & _ & HU); auto; [now split|].
  destruct (AmpPhase2DFT_run (rescaled c A) P (ApMat M') ks h) as (F' & U' & E' & _ & HF' & _ & HU'); auto.
  { now split. }
  { intros i j Hi Hj. cbn [ap_U]. rewrite !HM by assumption. pose proof (Hs i j Hi Hj) as Q. cbn beta in Q.
    rewrite Q. ring. }
  exists F, U, F', U'. split; [exact E|]. split; [exact E'|]. intros i j Hi Hj.
  assert (LO : forall k, (k < h)%nat -> stk (rescaled c A) P k = c * stk A P k).
  { intros k Hk. rewrite !(stk_lo _ P h) by auto. reflexivity. }
  assert (HI : forall k, stk (rescaled c A) P (h + k) = stk A P (h + k)).
  { intros k. rewrite !(stk_hi _ P h) by auto. reflexivity. }
  split.
  - rewrite HF, HF' by assumption. unfold to_real_imag. destruct (Nat.ltb_spec i h).
    + rewrite LO, HI by assumption. ring.
    + rewrite LO by lia. replace i with (h + (i - h))%nat at 2 4 by lia. rewrite HI. ring.
  - rewrite HU, HU' by assumption. cbn [sparse_error]. rewrite !Rplus_0_r, !S4_term by assumption.
    unfold term4. pose proof (base_lt h i Hi) as Bi. pose proof (base_lt h j Hj) as Bj.
    cbn [ap_U]. rewrite !HM by lia. unfold unit_of, ri_al, ri_be.
    replace (base h i <? h)%nat with true by (symmetry; now apply Nat.ltb_lt).
    replace (base h j <? h)%nat with true by (symmetry; now apply Nat.ltb_lt).
    rewrite !hi_false, !HI, !LO by assumption. destruct (i <? h)%nat, (j <? h)%nat; ring.
Qed.
Definition rescaled_mat (c : R) (m : mat) : mat := mkMat (mrows m) (mcols m) (fun i j => c ^ 2 * m i j).
Theorem C133_multiply : forall a b (Y F : vec) UY UF h,
  alen Y = (2 * h)%nat -> alen F = (2 * h)%nat -> mrows UY = (2 * h)%nat -> mcols UY = (2 * h)%nat ->
  symm (2 * h) (fun i j => UY i j) -> opt_full (2 * h) UF -> symm (2 * h) (opt_U UF) ->
  exists YF U YF' U', DFT_multiply Y F (SuMat UY) UF = Ok (YF, U) /\
    DFT_multiply (rescaled a Y) (rescaled b F) (SuMat (rescaled_mat a UY)) (option_map (rescaled_sig b) UF) = Ok (YF', U') /\
    forall i j, (i < 2 * h)%nat -> (j < 2 * h)%nat ->
      YF' i = a * b * YF i /\ U' i j = (a * b) ^ 2 * U i j.
Proof.
  intros a b Y F UY UF h HY HF R1 C1 Hs Hf Hs2.
  assert (OU : forall i j, opt_U (option_map (rescaled_sig b) UF) i j = b ^ 2 * opt_U UF i j).
  { intros i j. destruct UF as [[s|v|m]|]; cbn [option_map rescaled_sig opt_U mget]; ring. }
  destruct (DFT_multiply_run Y F UY UF h) as (YF & U & E & _ & _ & _ & HV & HU); auto.
  destruct (DFT_multiply_run (rescaled a Y) (rescaled b F) (rescaled_mat a UY) (option_map (rescaled_sig b) UF) h)
    as (YF' & U' & E' & _ & _ & _ & HV' & HU'); auto.
  { intros i j Hi Hj. unfold rescaled_mat. cbn [mget]. f_equal. now apply Hs. }
  { destruct UF as [[s|v|m]|]; exact Hf. }
  { intros i j Hi Hj. rewrite !OU. f_equal. now apply Hs2. }
  exists YF, U, YF', U'. split; [exact E|]. split; [exact E'|]. intros i j Hi Hj. split.
  - rewrite HV, HV' by assumption. unfold cmul_map, rescaled. cbn [aget]. destruct (i <? h)%nat; ring.
  - rewrite HU, HU' by assumption. rewrite !S4_term by assumption. unfold term4, mul_al, mul_be, rescaled, rescaled_mat.
    rewrite !OU. cbn [aget mget]. destruct (i <? h)%nat, (j <? h)%nat; ring.
Qed.
Example C133_example : exists A P U A' P' U',
  DFT2AmpPhase (of_list [3; 4]) (FuVec (of_list [1; 1])) false = Ok (A, P, U) /\
  DFT2AmpPhase (rescaled 2 (of_list [3; 4])) (FuVec (mkArr 2 (fun i => 2 ^ 2 * of_list [1; 1] i))) false = Ok (A', P', U') /\
  A' 0%nat = 10 /\ P' 0%nat = P 0%nat /\ dense U' 0 0 = 4 * dense U 0 0 /\ dense U' 1 1 = dense U 1 1.
Proof.
  destruct (C133_amp_phase 2 (of_list [3; 4]) (FuVec (of_list [1; 1])) false 1)
    as (A & P & U & A' & P' & U' & E & E' & H1 & H2); simpl; auto; try lra.
  { apply (diag_symm 2 (of_list [1; 1])). }
  { intros [|k] Hk; [|lia]. simpl. rewrite amp34. lra. }
  exists A, P, U, A', P', U'. split; [exact E|]. split; [exact E'|].
  destruct (DFT2AmpPhase_run (of_list [3; 4]) (FuVec (of_list [1; 1])) false 1)
    as (A0 & P0 & U0 & E0 & _ & _ & HA & _); simpl; auto.
  { apply (diag_symm 2 (of_list [1; 1])). }
  rewrite E in E0. inversion E0; subst A0 P0 U0.
  destruct (H1 0%nat ltac:(lia)) as [-> ->]. rewrite HA. simpl. rewrite amp34.
  split; [lra|]. split; [reflexivity|].
  rewrite !H2 by lia. unfold unit_of. simpl. split; ring.
Qed.
Example C133_dft_example : exists o o',
  GUM_DFT ex_x (SuFloat 1) None None None None false None = Ok o /\
  GUM_DFT (rescaled 3 ex_x) (SuFloat (3 ^ 2 * 1)) None None None None false None = Ok o' /\
  dft_F o' 0%nat = 9.
Proof.
  destruct (C133_dft 3 ex_x (SuFloat 1) None None false None) as (o & o' & E & E' & L & H);
    try (simpl; auto; lia); try exact I.
  { apply (diag_symm 2 (mkArr 2 (fun _ => 1))). }
  exists o, o'. split; [exact E|]. split; [exact E'|].
  destruct (C22_dft_estimate _ _ _ _ _ _ _ _ E) as [_ [HL HF]].
  destruct (H 0%nat 0%nat) as [-> _]; try (rewrite HL; simpl; lia). rewrite HF by (simpl; lia).
  change (alen ex_x) with 2%nat. change (dft_len 2 None) with 2%nat. change (2 / 2 + 1)%nat with 2%nat.
  destruct (dft2 (fun m => win None m * ex_x m)) as [-> _]. simpl. lra.
Qed.
Print Assumptions C133_dft.
Print Assumptions C133_idft.
Print Assumptions C133_amp_phase.
Print Assumptions C133_real_imag.
Print Assumptions C133_multiply.

(** ** C134 (false): the covariance of a deconvolution depends on the units of the output
    signal.  Full statement: with H, Y in other units (a H, b Y) the estimate is multiplied by
    b/a and the covariance by (b/a)^2. *)
Theorem C134_deconv_units_refuted : exists (H Y : vec) UH UY c X UX X' UX',
  c = 2 /\
  (forall k, (k < 1)%nat -> 0 < H k * H k + H (1 + k)%nat * H (1 + k)%nat) /\
  DFT_deconv H Y UH UY = Ok (X, UX) /\
  DFT_deconv H (rescaled c Y) UH (rescaled_ap c UY) = Ok (X', UX') /\
  (forall i, (i < 2)%nat -> X' i = c * X i) /\ UX' 0%nat 0%nat <> c ^ 2 * UX 0%nat 0%nat.
Proof.
  assert (S0 : forall l, symm (2 * 1) (ap_U (ApVec (of_list l)))).
  { intros l. apply (diag_symm 2 (of_list l)). }
  destruct (DFT_deconv_run (of_list [0; 1]) (of_list [0; 2]) (ApVec (of_list [0; 1])) (ApVec (of_list [0; 0])) 1)
    as (X & UX & E & _ & _ & _ & HV & HU); try reflexivity; try exact I; try apply S0.
  destruct (DFT_deconv_run (of_list [0; 1]) (rescaled 2 (of_list [0; 2])) (ApVec (of_list [0; 1])) (rescaled_ap 2 (ApVec (of_list [0; 0]))) 1)
    as (X' & UX' & E' & _ & _ & _ & HV' & HU'); try reflexivity; try exact I; try apply S0.
  { apply (diag_symm 2 (mkArr 2 (fun i => 2 ^ 2 * of_list [0; 0] i))). }
  exists (of_list [0; 1]), (of_list [0; 2]), (ApVec (of_list [0; 1])), (ApVec (of_list [0; 0])), 2, X, UX, X', UX'.
  split; [reflexivity|]. split; [intros [|k] Hk; [simpl; lra|lia]|]. split; [exact E|]. split; [exact E'|]. split.
  - intros i Hi. rewrite HV, HV' by lia. destruct i as [|[|i]]; [| |lia]; unfold cdiv_map, rescaled; simpl; lra.
  - rewrite HU, HU' by lia. rewrite !S4_term by lia.
    unfold term4, dy_al, dy_be, dh_al, dh_be_code, base, nrm, rescaled. simpl. lra.
Qed.
(** It holds when the transfer function is exactly known, ... *)
Theorem C134_exact_system_partial : forall a b (H Y : vec) UH UH' UY h, a <> 0 ->
  alen H = (2 * h)%nat -> alen Y = (2 * h)%nat -> matrix_or_vector UH -> matrix_or_vector UH' -> matrix_or_vector UY ->
  ap_fits (2 * h) UH -> ap_fits (2 * h) UH' -> ap_fits (2 * h) UY -> symm (2 * h) (ap_U UY) ->
  all_zero (2 * h) (ap_U UH) -> all_zero (2 * h) (ap_U UH') ->
  (forall k, (k < h)%nat -> 0 < H k * H k + H (h + k)%nat * H (h + k)%nat) ->
  exists X UX X' UX', DFT_deconv H Y UH UY = Ok (X, UX) /\
    DFT_deconv (rescaled a H) (rescaled b Y) UH' (rescaled_ap b UY) = Ok (X', UX') /\
    forall i j, (i < 2 * h)%nat -> (j < 2 * h)%nat ->
      X' i = b / a * X i /\ UX' i j = (b / a) ^ 2 * UX i j.
Proof.
  intros a b H Y UH UH' UY h Ha HH HY M M' MY F1 F2 F3 Hs Z Z' HN.
  destruct (DFT_deconv_run H Y UH UY h) as (X & UX & E & _ & _ & _ & HV & HU); auto; [now apply zero_symm|].
  destruct (DFT_deconv_run (rescaled a H) (rescaled b Y) UH' (rescaled_ap b UY) h)
    as (X' & UX' & E' & _ & _ & _ & HV' & HU'); auto.
  { destruct UY; exact F3. }
  { now apply zero_symm. }
  { intros i j Hi Hj. rewrite !rescaled_ap_U by assumption. f_equal. now apply Hs. }
  exists X, UX, X', UX'. split; [exact E|]. split; [exact E'|]. intros i j Hi Hj. split.
  - rewrite HV, HV' by assumption. unfold cdiv_map, rescaled. cbn [aget].
    destruct (Nat.ltb_spec i h) as [L|L].
    + specialize (HN i L). field. repeat split; try exact Ha; try lra.
      replace (a * H i * (a * H i) + a * H (h + i)%nat * (a * H (h + i)%nat))
        with ((a * a) * (H i * H i + H (h + i)%nat * H (h + i)%nat)) by ring.
      apply Rmult_integral_contrapositive. split; [now apply Rmult_integral_contrapositive|lra].
    + specialize (HN (i - h)%nat ltac:(lia)). replace (h + (i - h))%nat with i in HN by lia.
      field. repeat split; try exact Ha; try lra.
      replace (a * H (i - h)%nat * (a * H (i - h)%nat) + a * H i * (a * H i))
        with ((a * a) * (H (i - h)%nat * H (i - h)%nat + H i * H i)) by ring.
      apply Rmult_integral_contrapositive. split; [now apply Rmult_integral_contrapositive|lra].
  - rewrite HU, HU' by assumption. unfold S4 at 2 4. rewrite !sandwich_zero by assumption. rewrite !Rplus_0_r.
    assert (A : forall k, (k < 2 * h)%nat ->
      a * dy_al h (rescaled a H) k = dy_al h H k /\ a * dy_be h (rescaled a H) k = dy_be h H k).
    { intros k Hk. specialize (HN (base h k) (base_lt h k Hk)). unfold dy_al, dy_be, nrm, rescaled. cbn [aget].
      assert (D : a * H (base h k) * (a * H (base h k)) + a * H (h + base h k)%nat * (a * H (h + base h k)%nat) <> 0).
      { replace (a * H (base h k) * (a * H (base h k)) + a * H (h + base h k)%nat * (a * H (h + base h k)%nat))
          with ((a * a) * (H (base h k) * H (base h k) + H (h + base h k)%nat * H (h + base h k)%nat)) by ring.
        apply Rmult_integral_contrapositive. split; [now apply Rmult_integral_contrapositive|lra]. }
      destruct (k <? h)%nat; split; field; (repeat split; try exact D; lra). }
    rewrite !S4_term by assumption. unfold term4. rewrite !rescaled_ap_U by assumption.
    destruct (A i Hi) as [A1 B1]. destruct (A j Hj) as [A2 B2]. rewrite <- A1, <- B1, <- A2, <- B2. field. exact Ha.
Qed.
Example C134_exact_system_example : exists X UX X' UX',
  DFT_deconv (of_list [3; 4]) (of_list [1; 2]) (ApVec (of_list [0; 0])) (ApVec (of_list [1; 1])) = Ok (X, UX) /\
  DFT_deconv (rescaled 5 (of_list [3; 4])) (rescaled 2 (of_list [1; 2])) (ApVec (of_list [0; 0]))
    (rescaled_ap 2 (ApVec (of_list [1; 1]))) = Ok (X', UX') /\
  X' 0%nat = 2 / 5 * X 0%nat /\ UX' 0%nat 0%nat = (2 / 5) ^ 2 * UX 0%nat 0%nat.
Proof.
  destruct (C134_exact_system_partial 5 2 (of_list [3; 4]) (of_list [1; 2]) (ApVec (of_list [0; 0])) (ApVec (of_list [0; 0]))
    (ApVec (of_list [1; 1])) 1) as (X & UX & X' & UX' & E & E' & H); try reflexivity; try exact I; try lra.
  { apply (diag_symm 2 (of_list [1; 1])). }
  { intros [|[|i]] [|[|j]] Hi Hj; try lia; simpl; reflexivity. }
  { intros [|[|i]] [|[|j]] Hi Hj; try lia; simpl; reflexivity. }
  { intros [|k] Hk; [simpl; lra|lia]. }
  destruct (H 0%nat 0%nat) as [A B]; try lia.
  exists X, UX, X', UX'. auto.
Qed.
Print Assumptions C134_deconv_units_refuted.
Print Assumptions C134_exact_system_partial.
