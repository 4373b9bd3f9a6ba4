(** The lines at zero frequency and at half the sampling rate are real: theorems C187.
    Model: M_DFT.v.  Vocabulary: S_DFT.v, Stats.v. *)
From Coq Require Import Reals List Arith ZArith Bool Lia Lra Psatz.
From Verif Require Import Base Sums Stats StatsFacts M_DFT S_Jac S_DFT P_Jac P_Trig P_DFT P_iDFT
  P_Deriv P_AmpPhase P_APTime P_Deconv P_T2AP T_DFT T_AmpPhase.
Import ListNotations.
Open Scope R_scope.

(** ** C187 *)
(** Line k of a transform of length n lies at zero frequency or at half the sampling rate. *)
Definition real_line (n k : nat) : Prop := k = 0%nat \/ (2 * k = n)%nat.

Lemma real_coeff n H k m : (1 <= n)%nat -> real_line n k -> dft_coeff n H (H + k) m = 0.
Proof.
  intros Hn Hk. unfold dft_coeff. rewrite hi_false. replace (H + k - H)%nat with k by lia.
  assert (INR n <> 0) by (apply not_0_INR; lia).
  destruct Hk as [-> | Hk].
  - replace (2 * PI * INR 0 * INR m / INR n) with 0 by (simpl; field; assumption). rewrite sin_0. ring.
  - replace (2 * PI * INR k * INR m / INR n) with (PI * INR m).
    + rewrite sin_PI_nat. ring.
    + rewrite <- Hk, mult_INR. simpl. assert (INR k <> 0) by (apply not_0_INR; lia). field. assumption.
Qed.

(** Whatever the signal, its uncertainty, padding and window: the imaginary part of such a line is 0, without
    uncertainty and without correlation to any other entry. *)
Theorem C187_dft : forall x Ux N w rc,
  let n := dft_len (alen x) N in let H := (n / 2 + 1)%nat in
  sig_fits (alen x) Ux -> symm (alen x) (sig_U Ux) -> win_fits (alen x) Ux w -> pad_fits (alen x) N -> (1 <= n)%nat ->
  exists o, GUM_DFT x Ux N w None None rc None = Ok o /\ alen (dft_F o) = (2 * H)%nat /\ fun_fits (2 * H) (dft_U o) /\
    forall k, real_line n k -> dft_F o (H + k)%nat = 0 /\
      forall j, (j < 2 * H)%nat -> fun_U (dft_U o) (H + k) j = 0 /\ fun_U (dft_U o) j (H + k) = 0.
Proof.
  intros x Ux N w rc n H Hs Hy Hw Hp Hn.
  destruct (GUM_DFT_run x Ux N w rc None) as (o & E & HL & HF & HU); auto; [exact I|].
  fold n in HL, HF, HU. unfold lines in HL, HF, HU. fold H in HL, HF, HU. rewrite seq_length in HL, HF, HU.
  assert (Hrow : forall i, (i < 2 * H)%nat -> row H (seq 0 H) i = i) by (intros; apply row_nomask; assumption).
  assert (Hk2 : forall k, real_line n k -> (k < H)%nat).
  { intros k [-> | Hk]; unfold H; [lia|]. rewrite <- Hk, Nat.mul_comm, Nat.div_mul by lia. lia. }
  exists o. split; [exact E|]. split; [exact HL|]. split.
  { unfold unc_ok in HU. destruct (dft_U o); simpl; tauto. }
  intros k Hk. specialize (Hk2 k Hk).
  split.
  - rewrite HF by lia. rewrite Hrow by lia. unfold dft_map. apply rsum_zero; intros m _. rewrite real_coeff by assumption. ring.
  - intros j Hj. unfold unc_ok in HU. destruct (dft_U o) as [v|M]; cbn [fun_U].
    + destruct HU as (_ & Lv & Hv).
      assert (V0 : v (H + k)%nat = 0).
      { rewrite Hv by lia. unfold sandwich. apply rsum_zero; intros a _. apply rsum_zero; intros b _.
        fold H. rewrite Hrow by lia. rewrite real_coeff by assumption. ring. }
      split; [destruct (Nat.eqb_spec (H + k) j)|destruct (Nat.eqb_spec j (H + k))]; subst; auto.
    + destruct HU as (_ & _ & _ & Hv). rewrite !Hv by lia.
      split; unfold sandwich; apply rsum_zero; intros a _; apply rsum_zero; intros b _; fold H; rewrite !Hrow by lia;
        rewrite real_coeff by assumption; ring.
Qed.

(** Hence the phase of such a line is 0 or pi, known exactly and uncorrelated with everything. *)
Theorem C187_phase : forall (x : vec) Ux,
  let n := alen x in let h := (n / 2 + 1)%nat in
  sig_fits n Ux -> symm n (sig_U Ux) -> (1 <= n)%nat ->
  exists A P V, Time2AmpPhase x Ux = Ok (A, P, V) /\ alen A = h /\ alen P = h /\ dense_shape (2 * h) V /\
    forall k, real_line n k -> 0 < A k -> (P k = 0 \/ P k = PI) /\ dense V (h + k) (h + k) = 0 /\
      forall j, (j < 2 * h)%nat -> 0 < A (if (j <? h)%nat then j else (j - h)%nat) ->
        dense V (h + k) j = 0 /\ dense V j (h + k) = 0.
Proof.
  intros x Ux n h Hs Hy Hn.
  destruct (dft_plain x Ux false Hs Hy Hn) as (o & E & HL & HF & Hf & Hsy & HV). fold n h in HL, HF, Hf, Hsy, HV.
  destruct (C187_dft x Ux None None false Hs Hy I I Hn) as (o' & E' & _ & _ & HR). rewrite E in E'. injection E' as <-.
  cbn [dft_len] in HR. fold n h in HR.
  destruct (DFT2AmpPhase_run (dft_F o) (dft_U o) false h) as (A & P & V & E1 & LA & LP & EA & EP & Sh & EV); auto; [unfold h; lia|].
  exists A, P, V. split; [unfold Time2AmpPhase; rewrite E; exact E1|]. repeat (split; [assumption|]).
  intros k Hk HA.
  assert (Hkh : (k < h)%nat).
  { destruct Hk as [-> | Hk]; unfold h; [lia|]. rewrite <- Hk, Nat.mul_comm, Nat.div_mul by lia. lia. }
  destruct (HR k Hk) as [F0 U0].
  assert (Row : forall j, (j < 2 * h)%nat -> dense V (h + k) j = 0).
  { intros j Hj. rewrite EV, S4_term by lia. rewrite base_hi. unfold term4. pose proof (base_lt h j Hj) as Bj.
    rewrite (proj1 (U0 (base h j) ltac:(lia))), (proj1 (U0 (h + base h j)%nat ltac:(lia))).
    rewrite ap_al_hi, F0. unfold Rdiv. ring. }
  split; [|split].
  - rewrite EP, F0. rewrite EA, F0 in HA.
    assert (Hx : dft_F o k <> 0).
    { intros Z. rewrite Z in HA. unfold amp in HA. replace (0 * 0 + 0 * 0) with 0 in HA by ring. rewrite sqrt_0 in HA. lra. }
    unfold arctan2. destruct (Rlt_dec 0 (dft_F o k)).
    + left. unfold Rdiv. now rewrite Rmult_0_l, atan_0.
    + destruct (Rlt_dec (dft_F o k) 0); [|lra]. destruct (Rle_dec 0 0); [|lra].
      right. unfold Rdiv. rewrite Rmult_0_l, atan_0. ring.
  - apply Row. lia.
  - intros j Hj _. split; [now apply Row|]. rewrite EV by lia. rewrite S4_symm by exact Hsy. rewrite <- EV by lia. now apply Row.
Qed.

(** The inverse transform ignores the imaginary parts of these lines, together with their uncertainties and
    covariances: spectra that differ there only give the same signal with the same covariance. *)
Lemma real_icoeff N n i : Nat.Even N -> (2 <= N)%nat -> i = (N / 2 + 1)%nat \/ i = (N + 1)%nat -> idft_coeff N n i = 0.
Proof.
  intros [p Hp] HN Hi. assert (HN2 : (N / 2 = p)%nat) by (rewrite Hp, Nat.mul_comm; apply Nat.div_mul; lia).
  assert (Hq : exists k, i = (N / 2 + 1 + k)%nat /\ (k = 0 \/ k = N / 2)%nat).
  { destruct Hi as [-> | ->]; [exists 0%nat|exists (N / 2)%nat]; lia. }
  destruct Hq as (k & -> & Hk). rewrite idft_coeff_hi. unfold idft_Cs. cbn [mget].
  replace ((1 <=? k)%nat && (k <? N / 2)%nat)%bool with false.
  2:{ symmetry. apply andb_false_iff. destruct Hk as [-> | ->]; [left; reflexivity|right; apply Nat.ltb_irrefl]. }
  destruct (k =? N / 2 + 1 - 1)%nat; [rewrite sin_PI_nat|]; unfold Rdiv; ring.
Qed.
Theorem C187_idft : forall F F' UF UF' Nx N nx,
  Nat.Even N -> (2 <= N)%nat -> nx_fits N Nx nx -> alen F = (N + 2)%nat -> alen F' = (N + 2)%nat ->
  fun_fits (N + 2) UF -> fun_fits (N + 2) UF' -> symm (N + 2) (fun_U UF) -> symm (N + 2) (fun_U UF') ->
  let given i := (i < N + 2)%nat /\ i <> (N / 2 + 1)%nat /\ i <> (N + 1)%nat in
  (forall i, given i -> F i = F' i) -> (forall i j, given i -> given j -> fun_U UF i j = fun_U UF' i j) ->
  exists x V c x' V' c', GUM_iDFT F UF Nx None None = Ok (x, V, c) /\ GUM_iDFT F' UF' Nx None None = Ok (x', V', c') /\
    alen x = nx /\ alen x' = nx /\ mrows V = nx /\ mcols V = nx /\ mrows V' = nx /\ mcols V' = nx /\
    (forall n, (n < nx)%nat -> x n = x' n) /\ (forall n m, (n < nx)%nat -> (m < nx)%nat -> V n m = V' n m).
Proof.
  intros F F' UF UF' Nx N nx HN H2 Hx LF LF' Hf Hf' Hs Hs' given HF HU.
  destruct (GUM_iDFT_run F UF Nx N nx) as (x & V & c & E & L & R1 & C1 & HX & HV & _); auto.
  destruct (GUM_iDFT_run F' UF' Nx N nx) as (x' & V' & c' & E' & L' & R1' & C1' & HX' & HV' & _); auto.
  assert (H2h : (N + 2 = 2 * (N / 2 + 1))%nat).
  { destruct HN as [p Hp]. rewrite Hp at 2. rewrite (Nat.mul_comm 2 p), Nat.div_mul by lia. lia. }
  assert (D : forall i, (i < N + 2)%nat -> given i \/ (i = (N / 2 + 1)%nat \/ i = (N + 1)%nat)).
  { intros i Hi. unfold given. destruct (Nat.eq_dec i (N / 2 + 1)); [auto|]. destruct (Nat.eq_dec i (N + 1)); auto. }
  exists x, V, c, x', V', c'. repeat (split; [assumption|]). split.
  - intros n Hn. rewrite HX, HX' by exact Hn. rewrite !idft_map_linear by (assumption || lia).
    rewrite <- H2h. apply rsum_ext; intros i Hi. destruct (D i Hi) as [G|G]; [now rewrite HF|].
    rewrite real_icoeff by assumption. ring.
  - intros n m _ _. rewrite HV, HV'.
    assert (EC : forall n m, idft_cross N (fun_U UF) n m = idft_cross N (fun_U UF') n m).
    { intros a b. unfold idft_cross. apply rsum_ext; intros i Hi. apply rsum_ext; intros j Hj.
      destruct (D (N / 2 + 1 + j)%nat ltac:(lia)) as [G|G]; [|rewrite (real_icoeff N b (N / 2 + 1 + j)) by assumption; ring].
      rewrite HU; [reflexivity| |exact G]. unfold given. lia. }
    rewrite (EC n m), (EC m n). f_equal. unfold sandwich. apply rsum_ext; intros i Hi. apply rsum_ext; intros j Hj.
    destruct (D i Hi) as [G|G]; [|rewrite (real_icoeff N n i) by assumption; ring].
    destruct (D j Hj) as [G'|G']; [|rewrite (real_icoeff N m j) by assumption; ring].
    rewrite HU by assumption. reflexivity.
Qed.

(** Two samples, correlated: both lines are real; three samples: the last line is not at half the sampling rate and its
    imaginary part is uncertain. *)
Example C187_dft_example : exists o, GUM_DFT (of_list [1; 2]) (SuMat (of_rows [[2; 1]; [1; 2]])) None None None None false None = Ok o /\
  dft_F o 0%nat = 3 /\ dft_F o 3%nat = 0 /\ fun_U (dft_U o) 3 1 = 0 /\ fun_U (dft_U o) 0 0 = 6.
Proof.
  assert (Hsy : symm 2 (sig_U (SuMat (of_rows [[2; 1]; [1; 2]])))) by (intros [|[|a]] [|[|b]] Ha Hb; try lia; reflexivity).
  destruct (C187_dft (of_list [1; 2]) (SuMat (of_rows [[2; 1]; [1; 2]])) None None false) as (o & E & _ & _ & HR);
    [split; reflexivity|exact Hsy|exact I|exact I|simpl; lia|].
  destruct (dft_plain (of_list [1; 2]) (SuMat (of_rows [[2; 1]; [1; 2]])) false) as (o' & E' & _ & HF & _ & _ & HV);
    [split; reflexivity|exact Hsy|simpl; lia|].
  rewrite E in E'. injection E' as <-. exists o. split; [exact E|].
  destruct (HR 1%nat) as [F3 U3]; [right; reflexivity|].
  assert (D0 : forall m, dft_coeff 2 2 0 m = 1).
  { intros m. unfold dft_coeff. cbn [Nat.ltb Nat.leb]. replace (2 * PI * INR 0 * INR m / INR 2) with 0 by (simpl; field). apply cos_0. }
  change (alen (of_list [1; 2])) with 2%nat in *. change (2 / 2 + 1)%nat with 2%nat in *.
  split; [rewrite HF by lia; unfold dft_map; cbn [rsum]; rewrite !D0; cbn; lra|].
  split; [exact F3|]. split; [exact (proj1 (U3 1%nat ltac:(simpl; lia)))|].
  rewrite HV by lia. unfold sandwich. cbn [rsum]. rewrite !D0. cbn. lra.
Qed.
Example C187_phase_example : exists A P V, Time2AmpPhase (of_list [1; 2]) (SuMat (of_rows [[2; 1]; [1; 2]])) = Ok (A, P, V) /\
  A 0%nat = 3 /\ (P 0%nat = 0 \/ P 0%nat = PI) /\ dense V 2 2 = 0 /\ dense V 2 0 = 0.
Proof.
  assert (Hsy : symm 2 (sig_U (SuMat (of_rows [[2; 1]; [1; 2]])))) by (intros [|[|a]] [|[|b]] Ha Hb; try lia; reflexivity).
  destruct (C187_phase (of_list [1; 2]) (SuMat (of_rows [[2; 1]; [1; 2]]))) as (A & P & V & E & LA & LP & Sh & HR);
    [split; reflexivity|exact Hsy|simpl; lia|].
  destruct C187_dft_example as (o & Eo & F0 & _).
  destruct (C187_dft (of_list [1; 2]) (SuMat (of_rows [[2; 1]; [1; 2]])) None None false) as (o' & E' & _ & _ & H0);
    [split; reflexivity|exact Hsy|exact I|exact I|simpl; lia|].
  rewrite Eo in E'. injection E' as <-. destruct (H0 0%nat (or_introl eq_refl)) as [F2 _].
  destruct (dft_plain (of_list [1; 2]) (SuMat (of_rows [[2; 1]; [1; 2]])) false) as (o' & E' & HL & HF & Hf & Hs & HV);
    [split; reflexivity|exact Hsy|simpl; lia|].
  rewrite Eo in E'. injection E' as <-.
  destruct (DFT2AmpPhase_run (dft_F o) (dft_U o) false 2) as (A' & P' & V' & E1 & _ & _ & EA & _); auto.
  assert (E2 : Time2AmpPhase (of_list [1; 2]) (SuMat (of_rows [[2; 1]; [1; 2]])) = Ok (A', P', V')) by (unfold Time2AmpPhase; rewrite Eo; exact E1).
  rewrite E in E2. injection E2 as <- <- <-.
  assert (A3 : A 0%nat = 3).
  { rewrite EA. change (dft_F o 2%nat = 0) in F2. cbn [Nat.add]. rewrite F0, F2. unfold amp. replace (3 * 3 + 0 * 0) with (3 * 3) by ring. apply sqrt_square. lra. }
  exists A, P, V. split; [exact E|]. split; [exact A3|].
  destruct (HR 0%nat (or_introl eq_refl)) as (X & Y & Z); [rewrite A3; lra|]. split; [exact X|]. split; [exact Y|].
  apply (Z 0%nat); [simpl; lia|]. change (0 < A 0%nat). rewrite A3. lra.
Qed.
(** N = 2: real parts 3 and 1; imaginary parts 0 or 7 and their variances do not matter. *)
Example C187_idft_example : exists x V c x' V' c',
  GUM_iDFT (of_list [3; 1; 0; 0]) (FuVec (of_list [1; 1; 0; 0])) None None None = Ok (x, V, c) /\
  GUM_iDFT (of_list [3; 1; 7; -7]) (FuVec (of_list [1; 1; 5; 6])) None None None = Ok (x', V', c') /\
  x 0%nat = x' 0%nat /\ V 0%nat 1%nat = V' 0%nat 1%nat.
Proof.
  destruct (C187_idft (of_list [3; 1; 0; 0]) (of_list [3; 1; 7; -7]) (FuVec (of_list [1; 1; 0; 0])) (FuVec (of_list [1; 1; 5; 6])) None 2 2)
    as (x & V & c & x' & V' & c' & E & E' & _ & _ & _ & _ & _ & _ & HX & HV); try reflexivity; try lia.
  - exists 1%nat; reflexivity.
  - apply diag_symm.
  - apply diag_symm.
  - intros [|[|[|[|i]]]] (H1 & H2 & H3); try (simpl in *; lia); reflexivity.
  - intros [|[|[|[|i]]]] [|[|[|[|j]]]] (H1 & H2 & H3) (H4 & H5 & H6); try (simpl in *; lia); reflexivity.
  - exists x, V, c, x', V', c'. split; [exact E|]. split; [exact E'|]. split; [apply HX; lia|apply HV; lia].
Qed.
Print Assumptions C187_dft.
Print Assumptions C187_phase.
Print Assumptions C187_idft.
