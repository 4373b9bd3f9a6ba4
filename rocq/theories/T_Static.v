(** Constant signals through filters and convolutions (C190).
    Model: M_Filter.v.  Vocabulary: Stats.v, S_Filter.v, S_Conv.v. *)
From Coq Require Import Reals List Arith ZArith Bool Lia Lra Psatz String.
From Verif Require Import Base Sums Stats StatsFacts M_Filter S_Filter S_Conv P_Filter P_Filter2 P_Filter3 P_Conv T_Filter.
Import ListNotations.
Open Scope R_scope.

(** All entries of a signal are equal; all entries of a covariance are equal (an offset common to
    all samples). *)
Definition constant_signal (x : vec) (c : R) : Prop := forall i, (i < alen x)%nat -> x i = c.
Definition common_offset (n : nat) (U : option mat) (v : R) : Prop :=
  forall i j, (i < n)%nat -> (j < n)%nat -> opt_cov U i j = v.
(** Static gain: the sum of the coefficients; its variance: the sum of all their covariances. *)
Definition static_gain (theta : vec) : R := rsum (alen theta) theta.
Definition gain_variance (n : nat) (U : nat -> nat -> R) : R := rsum n (fun a => rsum n (fun b => U a b)).

Lemma fir_value_const (theta y : vec) c n : constant_signal y c -> (n < alen y)%nat ->
  fir_value theta y n = c * static_gain theta.
Proof.
  intros Hc Hn. unfold fir_value, static_gain. rewrite <- rsum_scal. apply rsum_ext. intros k _.
  destruct (Nat.leb_spec k n); rewrite Hc by lia; ring.
Qed.

(** ** C190 *)
(** The estimate, whatever the uncertainties, the shift and the low-pass. *)
Theorem C190_filter_value : forall ydt tdt y sn theta Ut shift blow kind full x ux c,
  constant_signal y c ->
  FIRuncFilter ydt tdt y sn theta Ut shift blow kind full = Ok (x, ux) ->
  alen x = alen y /\
  constant_signal x (c * match blow with Some b => static_gain b | None => 1 end * static_gain theta).
Proof.
  intros ydt tdt y sn theta Ut shift blow kind full x ux c Hc H.
  destruct (FIRuncFilter_estimate _ _ _ _ _ _ _ _ _ _ _ _ H) as [Hn [_ [Hl [[Hf He]|[_ He]]]]];
    (split; [exact Hl|]); intros n Hnn; rewrite Hl in Hnn; rewrite He by assumption.
  - destruct blow.
    { unfold fast_path in Hf. repeat rewrite andb_false_r in Hf. simpl in Hf. discriminate. }
    rewrite (fir_value_const theta y c) by assumption. ring.
  - pose proof (roll_idx_lt (alen y) (- shift) n Hn) as Hr. destruct blow as [b|]; unfold filtered.
    + rewrite (fir_value_const theta _ (c * static_gain b)); [ring| |exact Hr].
      intros i Hi. simpl. now apply fir_value_const.
    + rewrite (fir_value_const theta y c) by assumption. ring.
Qed.

Lemma continued_const p (y : vec) c n i : constant_signal y c -> alen y = n -> (1 <= n)%nat -> (i < n + p)%nat ->
  continued p (y 0%nat) y i = c.
Proof. intros Hc Hn H1 Hi. unfold continued. destruct (Nat.ltb_spec i p); apply Hc; lia. Qed.

(** An exactly known constant signal: the outputs share the uncertainty of the static gain. *)
Theorem C190_filter_known_signal : forall ydt tdt y theta Ut kind n N c,
  alen y = n -> alen theta = N -> (1 <= n)%nat -> (2 <= N)%nat -> coeff_matrix N Ut -> constant_signal y c ->
  exists x U, FIRuncFilter ydt tdt y (NsFloat 0) theta Ut 0 None kind true = Ok (x, FullU U) /\
    mrows U = n /\ mcols U = n /\
    forall i j, (i < n)%nat -> (j < n)%nat -> U i j = c ^ 2 * gain_variance N (coeff_cov Ut).
Proof.
  intros ydt tdt y theta Ut kind n N c Hy Ht Hn HN HU Hc.
  destruct (FIR_general ydt tdt y (NsFloat 0) theta Ut kind n N) as [x [U [H [_ [L2 [L3 [_ F]]]]]]]; auto; [exact I|].
  exists x, U. split; [exact H|]. split; [exact L2|]. split; [exact L3|].
  intros i j Hi Hj. rewrite F by assumption. unfold gen_cov, gain_variance.
  rewrite <- rsum_scal. apply rsum_ext. intros a Ha. rewrite <- rsum_scal. apply rsum_ext. intros b Hb.
  rewrite !(continued_const (N - 1) y c n) by (auto; lia).
  replace (stat_cont n (N - 1) (sig_cov (NsFloat 0) kind) (i + (N - 1) - a)%nat (j + (N - 1) - b)%nat) with 0; [ring|].
  unfold stat_cont, sig_cov. repeat match goal with |- context [if ?b then _ else _] => destruct b end; ring.
Qed.

(** White noise on a constant signal: the same uncertainty from the first sample on. *)
Theorem C190_filter_white_noise : forall y s theta Ut kind n N c,
  alen y = n -> alen theta = N -> (1 <= n)%nat -> (2 <= N)%nat -> coeff_pointwise N Ut -> constant_signal y c ->
  exists x u, FIRuncFilter DFloat DFloat y (NsFloat s) theta Ut 0 None kind false = Ok (x, PointU u) /\
    alen u = n /\
    forall i, (i < n)%nat ->
      u i = sqrt (s ^ 2 * rsum N (fun a => theta a ^ 2) + (c ^ 2 + s ^ 2) * rsum N (fun a => coeff_cov Ut a a)).
Proof.
  intros y s theta Ut kind n N c Hy Ht Hn HN HU Hc.
  destruct (FIR_fast y (NsFloat s) theta Ut 0 kind n N) as [x [u [H [_ [L2 [_ F]]]]]]; auto using coeff_pointwise_fast; [exact I|].
  exists x, u. split; [exact H|]. split; [exact L2|].
  intros i Hi. rewrite F by assumption.
  assert (E : forall a, coeff_std Ut a * coeff_std Ut a = coeff_cov Ut a a).
  { intros a. destruct Ut; simpl in *; try contradiction; try ring. now rewrite Nat.eqb_refl. }
  replace (point_var _ _ _ _ _ _) with
    (s ^ 2 * rsum N (fun a => theta a ^ 2) + (c ^ 2 + s ^ 2) * rsum N (fun a => coeff_cov Ut a a)).
  - rewrite Rabs_right; [reflexivity|]. apply Rle_ge.
    assert (0 <= rsum N (fun a => theta a ^ 2)) by (apply rsum_nonneg; intros; apply pow2_ge_0).
    assert (0 <= rsum N (fun a => coeff_cov Ut a a)).
    { apply rsum_nonneg; intros a _. rewrite <- E. nra. }
    pose proof (pow2_ge_0 s). pose proof (pow2_ge_0 c). nra.
  - unfold point_var. rewrite <- !rsum_scal, <- rsum_plus. apply rsum_ext. intros a Ha. rewrite E.
    rewrite !(continued_const (N - 1) y c n) by (auto; lia). unfold continued. simpl.
    destruct (_ <? _)%nat; ring.
Qed.

(** Convolution with a continued signal: value and covariance for an offset common to all samples. *)
Lemma nd_some mode n1 N i j : (1 <= n1)%nat -> (1 <= N)%nat -> (i < n1)%nat -> (j < N)%nat ->
  exists a, shiftg (N - 1) (ndg mode n1 ((N + 1) / 2)) (N + i + (N - 1) - j) = Some a /\ (a < n1)%nat.
Proof.
  intros Hn HN Hi Hj. unfold shiftg, ndg.
  assert (Hd : (N <= 2 * ((N + 1) / 2))%nat).
  { pose proof (Nat.div_mod (N + 1) 2 ltac:(lia)). pose proof (Nat.mod_upper_bound (N + 1) 2 ltac:(lia)). lia. }
  destruct (Nat.ltb_spec (N + i + (N - 1) - j) (N - 1)); [lia|].
  destruct (Nat.ltb_spec (N + i + (N - 1) - j - (N - 1)) ((N + 1) / 2 + n1 + (N + 1) / 2)); [|lia].
  eexists. split; [reflexivity|]. now apply pad_idx_lt.
Qed.
Theorem C190_convolution : forall x1 U1 x2 U2 mode n1 n2 c v,
  alen x1 = n1 -> alen x2 = n2 -> (1 <= n1)%nat -> (2 <= n2)%nat ->
  opt_square n1 U1 -> opt_square n2 U2 -> ndimage_mode mode ->
  constant_signal x1 c -> common_offset n1 U1 v ->
  exists y U, convolve_unc x1 U1 x2 U2 mode = Ok (y, U) /\ alen y = n1 /\ mrows U = n1 /\ mcols U = n1 /\
    constant_signal y (c * static_gain x2) /\
    forall i j, (i < n1)%nat -> (j < n1)%nat ->
      U i j = v * static_gain x2 ^ 2 + (c ^ 2 + v) * gain_variance n2 (opt_cov U2).
Proof.
  intros x1 U1 x2 U2 mode n1 n2 c v H1 H2 Hn1 Hn2 S1 S2 Hm Hc Hv.
  destruct (convolve_nd_closed x1 U1 x2 U2 mode n1 n2) as [y [U [E [L1 [L2 [L3 F]]]]]]; auto.
  exists y, U. repeat (split; [assumption|]).
  set (g := shiftg (n2 - 1) (ndg mode n1 ((n2 + 1) / 2))) in *.
  assert (Xs : forall i j, (i < n1)%nat -> (j < n2)%nat -> extsig g x1 (n2 + i + (n2 - 1) - j) = c).
  { intros i j Hi Hj. unfold extsig, g. destruct (nd_some mode n1 n2 i j) as [a [-> Ha]]; try lia. apply Hc. lia. }
  assert (Xc : forall i j a b, (i < n1)%nat -> (j < n1)%nat -> (a < n2)%nat -> (b < n2)%nat ->
     extcov g (opt_cov U1) (n2 + i + (n2 - 1) - a) (n2 + j + (n2 - 1) - b) = v).
  { intros i j a b Hi Hj Ha Hb. unfold extcov, g. destruct (nd_some mode n1 n2 i a) as [p [-> Hp]]; try lia.
    destruct (nd_some mode n1 n2 j b) as [q [-> Hq]]; try lia. now apply Hv. }
  split.
  - intros i Hi. rewrite L1 in Hi. destruct (F i i Hi Hi) as [-> _]. unfold fir_outcome, static_gain.
    rewrite H2, <- rsum_scal. apply rsum_ext. intros k Hk. rewrite Xs by assumption. ring.
  - intros i j Hi Hj. destruct (F i j Hi Hj) as [_ ->]. unfold ext_conv_cov.
    rewrite (rsum_ext n2 _ (fun a => rsum n2 (fun b => v * (x2 a * x2 b)) + rsum n2 (fun b => c ^ 2 * opt_cov U2 a b)
        + rsum n2 (fun b => v * opt_cov U2 b a))).
    + rewrite !rsum_plus. rewrite (rsum_swap n2 n2 (fun a b => v * opt_cov U2 b a)).
      unfold gain_variance, static_gain. rewrite H2.
      replace (rsum n2 (fun i0 => rsum n2 (fun b => v * (x2 i0 * x2 b)))) with (v * rsum n2 x2 ^ 2).
      * rewrite (rsum_ext n2 (fun a => rsum n2 (fun b => c ^ 2 * opt_cov U2 a b)) (fun a => c ^ 2 * rsum n2 (fun b => opt_cov U2 a b)))
          by (intros; apply rsum_scal).
        rewrite (rsum_ext n2 (fun j0 => rsum n2 (fun i0 => v * opt_cov U2 j0 i0)) (fun a => v * rsum n2 (fun b => opt_cov U2 a b)))
          by (intros; apply rsum_scal).
        rewrite !rsum_scal. ring.
      * replace (rsum n2 x2 ^ 2) with (rsum n2 x2 * rsum n2 x2) by ring. rewrite rsum_mult, <- rsum_scal.
        apply rsum_ext. intros a _. now rewrite <- rsum_scal.
    + intros a Ha. rewrite <- !rsum_plus. apply rsum_ext. intros b Hb. rewrite !Xs, !Xc by assumption. ring.
Qed.
Lemma offset_cov n2 g (x1 : vec) C1 (x2 : vec) C2 i j c v : alen x2 = n2 ->
  (forall a, (a < n2)%nat -> extsig g x1 (i + (n2 - 1) - a) = c /\ extsig g x1 (j + (n2 - 1) - a) = c) ->
  (forall a b, (a < n2)%nat -> (b < n2)%nat -> extcov g C1 (i + (n2 - 1) - a) (j + (n2 - 1) - b) = v) ->
  ext_conv_cov n2 g x1 C1 x2 C2 i j = v * static_gain x2 ^ 2 + (c ^ 2 + v) * gain_variance n2 C2.
Proof.
  intros H2 Xs Xc. unfold ext_conv_cov.
  rewrite (rsum_ext n2 _ (fun a => rsum n2 (fun b => v * (x2 a * x2 b)) + rsum n2 (fun b => c ^ 2 * C2 a b)
      + rsum n2 (fun b => v * C2 b a))).
  + rewrite !rsum_plus. rewrite (rsum_swap n2 n2 (fun a b => v * C2 b a)).
    unfold gain_variance, static_gain. rewrite H2.
    replace (rsum n2 (fun i0 => rsum n2 (fun b => v * (x2 i0 * x2 b)))) with (v * rsum n2 x2 ^ 2).
    * rewrite (rsum_ext n2 (fun a => rsum n2 (fun b => c ^ 2 * C2 a b)) (fun a => c ^ 2 * rsum n2 (fun b => C2 a b)))
        by (intros; apply rsum_scal).
      rewrite (rsum_ext n2 (fun j0 => rsum n2 (fun i0 => v * C2 j0 i0)) (fun a => v * rsum n2 (fun b => C2 a b)))
        by (intros; apply rsum_scal).
      rewrite !rsum_scal. ring.
    * replace (rsum n2 x2 ^ 2) with (rsum n2 x2 * rsum n2 x2) by ring. rewrite rsum_mult, <- rsum_scal.
      apply rsum_ext. intros a _. now rewrite <- rsum_scal.
  + intros a Ha. rewrite <- !rsum_plus. apply rsum_ext. intros b Hb.
    rewrite Xc by assumption. destruct (Xs a Ha) as [-> Ea]. destruct (Xs b Hb) as [Eb Eb']. rewrite ?Ea, ?Eb, ?Eb'. ring.
Qed.
(** Mode "valid" with the signal at least as long as the kernel. *)
Theorem C190_valid_value : forall x1 U1 x2 U2 n1 n2 c,
  alen x1 = n1 -> alen x2 = n2 -> (2 <= n2)%nat -> (n2 <= n1)%nat ->
  opt_square n1 U1 -> opt_square n2 U2 -> constant_signal x1 c ->
  exists y U, convolve_unc x1 U1 x2 U2 "valid" = Ok (y, U) /\ alen y = (n1 - n2 + 1)%nat /\
    constant_signal y (c * static_gain x2).
Proof.
  intros x1 U1 x2 U2 n1 n2 c H1 H2 Hn2 Hn S1 S2 Hc.
  destruct (C11_numpy_modes x1 U1 x2 U2 "valid" n1 n2) as [y [U [E [L F]]]]; auto; try lia; [right; left; reflexivity|].
  unfold np_conv_len in L, F. cbn [String.eqb] in L, F. simpl in L, F.
  rewrite Nat.max_l, Nat.min_r in L, F by lia.
  exists y, U. split; [exact E|]. split; [exact L|]. intros k Hk. rewrite L in Hk. rewrite F by assumption.
  unfold np_conv, np_conv_start. simpl. rewrite Nat.min_r by lia. unfold full_conv, static_gain.
  rewrite rsum_swap, H2, <- rsum_scal. apply rsum_ext. intros j Hj.
  rewrite (rsum_single n1 (k + (n2 - 1) - j)); try lia.
  - replace (k + (n2 - 1) - j + j =? k + (n2 - 1))%nat with true by (symmetry; apply Nat.eqb_eq; lia).
    rewrite Hc by lia. ring.
  - intros i Hi Hd. destruct (Nat.eqb_spec (i + j) (k + (n2 - 1))); [lia|reflexivity].
Qed.

(** There, too, an offset common to all samples gives the same covariance everywhere. *)
Theorem C190_valid_covariance : forall x1 U1 x2 U2 n1 n2 c v,
  alen x1 = n1 -> alen x2 = n2 -> (2 <= n2)%nat -> (n2 <= n1)%nat ->
  opt_square n1 U1 -> opt_square n2 U2 -> constant_signal x1 c -> common_offset n1 U1 v ->
  exists y U, convolve_unc x1 U1 x2 U2 "valid" = Ok (y, U) /\
    mrows U = (n1 - n2 + 1)%nat /\ mcols U = (n1 - n2 + 1)%nat /\
    forall i j, (i < n1 - n2 + 1)%nat -> (j < n1 - n2 + 1)%nat ->
      U i j = v * static_gain x2 ^ 2 + (c ^ 2 + v) * gain_variance n2 (opt_cov U2).
Proof.
  intros x1 U1 x2 U2 n1 n2 c v H1 H2 Hn2 Hn S1 S2 Hc Hv.
  destruct (np_conv_noswap x1 U1 x2 U2 "valid" n1 n2) as [y [U [E [L1 [L2 [L3 F]]]]]]; auto; try lia; [right; left; reflexivity|].
  assert (Len : np_conv_len "valid" n1 n2 = (n1 - n2 + 1)%nat).
  { unfold np_conv_len. cbn [String.eqb]. simpl. rewrite Nat.max_l, Nat.min_r by lia. reflexivity. }
  assert (St : np_conv_start "valid" n1 n2 = (n2 - 1)%nat).
  { unfold np_conv_start. simpl. rewrite Nat.min_r by lia. reflexivity. }
  rewrite Len in *. exists y, U. split; [exact E|]. split; [exact L2|]. split; [exact L3|].
  set (g := shiftg (n2 - 1) (zp n1)) in *.
  assert (G : forall i a, (i < n1 - n2 + 1)%nat -> (a < n2)%nat ->
     exists p, g (i + (n2 - 1) + (n2 - 1) - a)%nat = Some p /\ (p < n1)%nat).
  { intros i a Hi Ha. unfold g, shiftg, zp.
    destruct (Nat.ltb_spec (i + (n2 - 1) + (n2 - 1) - a) (n2 - 1)); [lia|].
    destruct (Nat.ltb_spec (i + (n2 - 1) + (n2 - 1) - a - (n2 - 1)) n1); [|lia].
    eexists. split; [reflexivity|lia]. }
  intros i j Hi Hj. destruct (F i j Hi Hj) as [_ ->]. rewrite St. unfold np_closed. fold g. apply offset_cov; [exact H2| |].
  - intros a Ha. unfold extsig. split.
    + destruct (G i a Hi Ha) as [p [-> Hp]]. apply Hc. lia.
    + destruct (G j a Hj Ha) as [p [-> Hp]]. apply Hc. lia.
  - intros a b Ha Hb. unfold extcov. destruct (G i a Hi Ha) as [p [-> Hp]]. destruct (G j b Hj Hb) as [q [-> Hq]]. now apply Hv.
Qed.

(** A signal (3, 3, 3) filtered with (1/2, 1/2), and convolved with an uncertain kernel (1, 2). *)
Example C190_filter_example : exists x u,
  FIRuncFilter DFloat DFloat (of_list [3; 3; 3]) (NsFloat 2) (of_list [1/2; 1/2]) (UtVec (of_list [1; 0])) 0 None "diag" false
    = Ok (x, PointU u) /\ u 0%nat = sqrt 15 /\ u 2%nat = sqrt 15.
Proof.
  destruct (C190_filter_white_noise (of_list [3; 3; 3]) 2 (of_list [1/2; 1/2]) (UtVec (of_list [1; 0])) "diag" 3 2 3)
    as [x [u [E [_ F]]]]; try reflexivity; try lia.
  { intros [|[|[|i]]] Hi; try reflexivity. simpl in Hi. lia. }
  exists x, u. split; [exact E|]. rewrite !F by lia. split; apply f_equal; simpl; field.
Qed.
Example C190_known_example : exists x U,
  FIRuncFilter DFloat DFloat (of_list [3; 3; 3]) (NsFloat 0) (of_list [1/2; 1/2]) (UtMat (of_rows [[1; 0]; [0; 1]])) 0 None "diag" true
    = Ok (x, FullU U) /\ U 0%nat 2%nat = 18.
Proof.
  destruct (C190_filter_known_signal DFloat DFloat (of_list [3; 3; 3]) (of_list [1/2; 1/2]) (UtMat (of_rows [[1; 0]; [0; 1]])) "diag" 3 2 3)
    as [x [U [E [_ [_ F]]]]]; try reflexivity; try lia; [split; reflexivity| |].
  { intros [|[|[|i]]] Hi; try reflexivity. simpl in Hi. lia. }
  exists x, U. split; [exact E|]. rewrite F by lia. unfold gain_variance. simpl. ring.
Qed.
Example C190_convolution_example : exists y U,
  convolve_unc (of_list [3; 3; 3]) (Some (of_rows [[2; 2; 2]; [2; 2; 2]; [2; 2; 2]])) (of_list [1; 2])
    (Some (of_rows [[1; 0]; [0; 1]])) "mirror" = Ok (y, U) /\ y 0%nat = 9 /\ U 0%nat 2%nat = 40.
Proof.
  destruct (C190_convolution (of_list [3; 3; 3]) (Some (of_rows [[2; 2; 2]; [2; 2; 2]; [2; 2; 2]])) (of_list [1; 2])
    (Some (of_rows [[1; 0]; [0; 1]])) "mirror" 3 2 3 2) as [y [U [E [L [_ [_ [F G]]]]]]]; try reflexivity; try lia.
  - split; reflexivity.
  - split; reflexivity.
  - right; right; reflexivity.
  - intros [|[|[|i]]] Hi; try reflexivity. simpl in Hi. lia.
  - intros [|[|[|i]]] [|[|[|j]]] Hi Hj; try lia; reflexivity.
  - exists y, U. split; [exact E|]. rewrite F by (rewrite L; lia). rewrite G by lia.
    unfold gain_variance, static_gain. simpl. split; ring.
Qed.
Example C190_valid_example : exists y U,
  convolve_unc (of_list [3; 3; 3]) (Some (of_rows [[2; 2; 2]; [2; 2; 2]; [2; 2; 2]])) (of_list [1; 2])
    (Some (of_rows [[1; 0]; [0; 1]])) "valid" = Ok (y, U) /\ U 0%nat 1%nat = 40.
Proof.
  destruct (C190_valid_covariance (of_list [3; 3; 3]) (Some (of_rows [[2; 2; 2]; [2; 2; 2]; [2; 2; 2]])) (of_list [1; 2])
    (Some (of_rows [[1; 0]; [0; 1]])) 3 2 3 2) as [y [U [E [_ [_ G]]]]]; try reflexivity; try lia.
  - split; reflexivity.
  - split; reflexivity.
  - intros [|[|[|i]]] Hi; try reflexivity. simpl in Hi. lia.
  - intros [|[|[|i]]] [|[|[|j]]] Hi Hj; try lia; reflexivity.
  - exists y, U. split; [exact E|]. rewrite G by lia. unfold gain_variance, static_gain. simpl. ring.
Qed.
Print Assumptions C190_filter_value.
Print Assumptions C190_filter_known_signal.
Print Assumptions C190_filter_white_noise.
Print Assumptions C190_convolution.
Print Assumptions C190_valid_value.
Print Assumptions C190_valid_covariance.
