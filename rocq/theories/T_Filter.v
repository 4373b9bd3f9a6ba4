(** FIRuncFilter, IIRuncFilter, convolve_unc, shift_uncertainty, trimOrPad:
    theorems C01-C18, C81, C82.  Model: M_Filter.v.  Vocabulary: Stats.v, S_Filter.v, S_Conv.v. *)
From Coq Require Import Reals List Arith ZArith Bool Lia Lra Psatz String.
From Verif Require Import Base Sums Stats StatsFacts M_Filter S_Filter S_Conv
  P_Filter P_Filter2 P_Filter3 P_Conv.
Import ListNotations.
Open Scope R_scope.

(** Case analysis on an index below a literal bound. *)
Ltac below i H :=
  match type of H with
  | (_ < O)%nat => exfalso; lia
  | _ => destruct i as [|i]; [ | apply Nat.succ_lt_mono in H; below i H ]
  end.

(** ** Concrete data used by the examples *)
Definition ex_y : vec := of_list [1; 2].
Definition ex_th : vec := of_list [1; -1].
Definition ex_Ut : cunc := UtMat (of_rows [[1; 0]; [0; 0]]).
(** signal (1,1,2) with independent errors +-1; filter (1,-1), first coefficient +-1 *)
Definition ex_dx : dist (nat -> R) :=
  map (fun l => (/8, fun i => nth i l 0))
    [[2;2;3]; [2;2;1]; [2;0;3]; [2;0;1]; [0;2;3]; [0;2;1]; [0;0;3]; [0;0;1]].
Definition ex_dt : dist (nat -> R) :=
  map (fun l => (/2, fun i => nth i l 0)) [[2;-1]; [0;-1]].

Lemma ex_dx_prob : is_prob ex_dx.
Proof.
  split; [|unfold ex_dx; simpl; lra].
  intros p a Hin. unfold ex_dx in Hin. simpl in Hin.
  repeat (destruct Hin as [Hin|Hin]; [inversion Hin; lra|]). contradiction.
Qed.
Lemma ex_dt_prob : is_prob ex_dt.
Proof.
  split; [|unfold ex_dt; simpl; lra].
  intros p a Hin. unfold ex_dt in Hin. simpl in Hin.
  repeat (destruct Hin as [Hin|Hin]; [inversion Hin; lra|]). contradiction.
Qed.
Lemma ex_dx_mean : has_mean 3 ex_dx (continued 1 1 ex_y).
Proof. intros i Hi. unfold ex_dx. below i Hi; simpl; unfold continued; simpl; lra. Qed.
Lemma ex_dx_cov : has_cov 3 ex_dx (stat_cont 2 1 (sig_cov (NsFloat 1) "diag")).
Proof.
  intros i j Hi Hj. unfold ex_dx, Cov, stat_cont, sig_cov.
  below i Hi; below j Hj; simpl; lra.
Qed.
Lemma ex_dt_mean : has_mean 2 ex_dt ex_th.
Proof. intros i Hi. unfold ex_dt. below i Hi; simpl; lra. Qed.
Lemma ex_dt_cov : has_cov 2 ex_dt (coeff_cov ex_Ut).
Proof. intros i j Hi Hj. unfold ex_dt, Cov. below i Hi; below j Hj; simpl; lra. Qed.

(** ** C01 *)
(** Whatever the arguments: if the call returns, the estimate is the convolution with the
    input continued by its first value (after the low-pass, if there is one). *)
Theorem C01_fir_estimate : forall ydt tdt y sn theta Ut blow kind full x ux,
  FIRuncFilter ydt tdt y sn theta Ut 0 blow kind full = Ok (x, ux) ->
  alen x = alen y /\
  forall n, (n < alen y)%nat ->
    x n = match blow with
          | None => fir_value theta y n
          | Some bl => fir_value theta (mkArr (alen y) (fir_value bl y)) n
          end.
Proof.
  intros ydt tdt y sn theta Ut blow kind full x ux H.
  destruct (FIRuncFilter_estimate _ _ _ _ _ _ _ _ _ _ _ _ H) as [Hn [_ [Hl [[Hf He]|[_ He]]]]];
    (split; [exact Hl|]); intros n Hnn.
  - rewrite He by assumption. destruct blow; [|reflexivity].
    unfold fast_path in Hf. repeat rewrite andb_false_r in Hf. simpl in Hf. discriminate.
  - rewrite He by assumption. change (- 0)%Z with 0%Z. rewrite roll_idx_0 by assumption.
    destruct blow; reflexivity.
Qed.
(** ... and valid arguments do return: both paths. *)
Theorem C01_fir_returns : forall y sn theta Ut kind n N,
  alen y = n -> alen theta = N -> (1 <= n)%nat -> (2 <= N)%nat ->
  (noise_pointwise n sn kind -> coeff_pointwise N Ut ->
     exists x u, FIRuncFilter DFloat DFloat y sn theta Ut 0 None kind false = Ok (x, PointU u) /\
       forall i, (i < n)%nat -> x i = fir_value theta y i) /\
  (noise_fits n sn kind -> coeff_matrix N Ut ->
     exists x U, FIRuncFilter DFloat DFloat y sn theta Ut 0 None kind true = Ok (x, FullU U) /\
       forall i, (i < n)%nat -> x i = fir_value theta y i).
Proof.
  intros y sn theta Ut kind n N Hy Ht Hn HN. split; intros Hs HU.
  - destruct (FIR_fast y sn theta Ut 0 kind n N) as [x [u [H [_ [_ [E _]]]]]];
      auto using noise_pointwise_fast, coeff_pointwise_fast. eauto.
  - destruct (FIR_general DFloat DFloat y sn theta Ut kind n N) as [x [U [H [_ [_ [_ [E _]]]]]]]; auto. eauto.
Qed.
Example C01_example : exists x U,
  FIRuncFilter DFloat DFloat ex_y (NsFloat 1) ex_th ex_Ut 0 None "diag" true = Ok (x, FullU U) /\
  x 0%nat = 0 /\ x 1%nat = 1.
Proof.
  destruct (proj2 (C01_fir_returns ex_y (NsFloat 1) ex_th ex_Ut "diag" 2 2 eq_refl eq_refl ltac:(lia) ltac:(lia)))
    as [x [U [H E]]]; [exact I | split; reflexivity |].
  exists x, U. split; [assumption|]. rewrite !E by lia. unfold fir_value; simpl. split; lra.
Qed.
Print Assumptions C01_fir_estimate.
Print Assumptions C01_fir_returns.

(** ** C02 *)
Theorem C02_fir_cov_exact : forall ydt tdt y sn theta Ut kind n N (dx dt : dist (nat -> R)),
  alen y = n -> alen theta = N -> (1 <= n)%nat -> (2 <= N)%nat ->
  noise_fits n sn kind -> coeff_matrix N Ut ->
  is_prob dx -> is_prob dt ->
  has_mean (n + (N - 1)) dx (continued (N - 1) (y 0%nat) y) ->
  has_cov (n + (N - 1)) dx (stat_cont n (N - 1) (sig_cov sn kind)) ->
  has_mean N dt theta -> has_cov N dt (coeff_cov Ut) ->
  exists x U, FIRuncFilter ydt tdt y sn theta Ut 0 None kind true = Ok (x, FullU U) /\
    alen x = n /\ mrows U = n /\ mcols U = n /\
    forall i j, (i < n)%nat -> (j < n)%nat ->
      x i = Ex (indep dx dt) (fun o => fir_outcome N (snd o) (fst o) i) /\
      U i j = Cov (indep dx dt) (fun o => fir_outcome N (snd o) (fst o) i)
                                (fun o => fir_outcome N (snd o) (fst o) j).
Proof.
  intros ydt tdt y sn theta Ut kind n N dx dt Hy Ht Hn HN Hs HU P1 P2 M1 C1 M2 C2.
  destruct (FIR_general ydt tdt y sn theta Ut kind n N) as [x [U [H [L1 [L2 [L3 [E F]]]]]]]; auto.
  exists x, U. repeat (split; [assumption|]). intros i j Hi Hj. split.
  - rewrite (fir_mean_exact n N theta (continued (N - 1) (y 0%nat) y)) by (auto; lia).
    rewrite E by assumption. rewrite <- Ht. symmetry. apply fir_outcome_value. lia.
  - rewrite F by assumption. symmetry. apply gen_cov_exact; auto. lia.
Qed.
(** Same for the efficient path: squared uncertainties are the exact variances. *)
Theorem C02_fir_var_exact : forall y sn theta Ut kind n N (dx dt : dist (nat -> R)),
  alen y = n -> alen theta = N -> (1 <= n)%nat -> (2 <= N)%nat ->
  noise_pointwise n sn kind -> coeff_pointwise N Ut ->
  is_prob dx -> is_prob dt ->
  has_mean (n + (N - 1)) dx (continued (N - 1) (y 0%nat) y) ->
  has_cov (n + (N - 1)) dx (stat_cont n (N - 1) (sig_cov sn kind)) ->
  has_mean N dt theta -> has_cov N dt (coeff_cov Ut) ->
  exists x u, FIRuncFilter DFloat DFloat y sn theta Ut 0 None kind false = Ok (x, PointU u) /\
    alen x = n /\ alen u = n /\
    forall i, (i < n)%nat ->
      x i = Ex (indep dx dt) (fun o => fir_outcome N (snd o) (fst o) i) /\
      0 <= u i /\
      u i * u i = Cov (indep dx dt) (fun o => fir_outcome N (snd o) (fst o) i)
                                    (fun o => fir_outcome N (snd o) (fst o) i).
Proof. exact fast_exact. Qed.
(** A low-pass is a first filtering whose output (with covariance) is filtered again. *)
Theorem C02_fir_lowpass_cascade : forall ydt tdt y sn theta Ut kind bl n N,
  alen y = n -> alen theta = N -> (1 <= n)%nat -> (2 <= N)%nat -> (2 <= alen bl)%nat ->
  noise_fits n sn kind -> coeff_matrix N Ut ->
  exists ylow Ulow x U,
    FIRuncFilter ydt tdt y sn bl UtNone 0 None kind true = Ok (ylow, FullU Ulow) /\
    FIRuncFilter ydt tdt ylow (NsMat Ulow) theta Ut 0 None kind true = Ok (x, FullU U) /\
    FIRuncFilter ydt tdt y sn theta Ut 0 (Some bl) kind true = Ok (x, FullU U).
Proof.
  intros. destruct (FIR_cascade ydt tdt y sn theta Ut kind bl n N (alen bl))
    as [a [b [c [d [H6 [H7 [H8 _]]]]]]]; auto. exists a, b, c, d. auto.
Qed.
Example C02_example : exists x U,
  FIRuncFilter DFloat DFloat ex_y (NsFloat 1) ex_th ex_Ut 0 None "diag" true = Ok (x, FullU U) /\
  x 0%nat = Ex (indep ex_dx ex_dt) (fun o => fir_outcome 2 (snd o) (fst o) 0) /\
  U 0%nat 1%nat = Cov (indep ex_dx ex_dt) (fun o => fir_outcome 2 (snd o) (fst o) 0)
                        (fun o => fir_outcome 2 (snd o) (fst o) 1) /\ U 0%nat 1%nat = 1.
Proof.
  destruct (C02_fir_cov_exact DFloat DFloat ex_y (NsFloat 1) ex_th ex_Ut "diag" 2 2 ex_dx ex_dt eq_refl eq_refl
    ltac:(lia) ltac:(lia) I (conj eq_refl eq_refl) ex_dx_prob ex_dt_prob ex_dx_mean ex_dx_cov ex_dt_mean ex_dt_cov)
    as [x [U [H [_ [_ [_ E]]]]]].
  exists x, U. split; [assumption|]. destruct (E 0%nat 1%nat ltac:(lia) ltac:(lia)) as [E1 E2].
  repeat (split; [assumption|]). rewrite E2. unfold Cov, ex_dx, ex_dt, fir_outcome, indep. simpl. lra.
Qed.
Print Assumptions C02_fir_cov_exact.
Print Assumptions C02_fir_var_exact.
Print Assumptions C02_fir_lowpass_cascade.

(** ** C03 *)
Theorem C03_fir_cov_psd : forall ydt tdt y sn theta Ut kind n N,
  alen y = n -> alen theta = N -> (1 <= n)%nat -> (2 <= N)%nat ->
  noise_fits n sn kind -> coeff_matrix N Ut ->
  psd (n + (N - 1)) (stat_cont n (N - 1) (sig_cov sn kind)) -> psd N (coeff_cov Ut) ->
  exists x U, FIRuncFilter ydt tdt y sn theta Ut 0 None kind true = Ok (x, FullU U) /\
    mrows U = n /\ mcols U = n /\ psd n U /\ forall i, (i < n)%nat -> 0 <= U i i.
Proof.
  intros ydt tdt y sn theta Ut kind n N Hy Ht Hn HN Hs HU Q1 Q2.
  destruct (FIR_general ydt tdt y sn theta Ut kind n N) as [x [U [H [L1 [L2 [L3 [E F]]]]]]]; auto.
  exists x, U. split; [assumption|]. split; [assumption|]. split; [assumption|].
  assert (HP : psd n U).
  { apply (psd_ext n (gen_cov n N theta (continued (N - 1) (y 0%nat) y) Ut (stat_cont n (N - 1) (sig_cov sn kind)))).
    - intros; now rewrite F.
    - apply gen_cov_psd; auto; lia. }
  split; [exact HP|]. intros i Hi. now apply (psd_diag n).
Qed.
Example C03_example : exists x U,
  FIRuncFilter DFloat DFloat ex_y (NsFloat 1) ex_th ex_Ut 0 None "diag" true = Ok (x, FullU U) /\ psd 2 U.
Proof.
  destruct (C03_fir_cov_psd DFloat DFloat ex_y (NsFloat 1) ex_th ex_Ut "diag" 2 2 eq_refl eq_refl
    ltac:(lia) ltac:(lia) I (conj eq_refl eq_refl)) as [x [U [H [_ [_ [HP _]]]]]].
  - apply (cov_psd 3 ex_dx (fun i s => s i)); [apply ex_dx_prob | exact ex_dx_cov].
  - apply (cov_psd 2 ex_dt (fun i s => s i)); [apply ex_dt_prob | exact ex_dt_cov].
  - eauto.
Qed.
Print Assumptions C03_fir_cov_psd.

(** ** C04 *)
Theorem C04_fast_equals_general : forall y sn theta Ut kind kind' n N,
  alen y = n -> alen theta = N -> (1 <= n)%nat -> (2 <= N)%nat ->
  noise_pointwise n sn kind -> coeff_pointwise N Ut ->
  exists x u x' U,
    FIRuncFilter DFloat DFloat y sn theta Ut 0 None kind false = Ok (x, PointU u) /\
    FIRuncFilter DFloat DFloat y (NsMat (mkMat n n (sig_cov sn kind))) theta
      (UtMat (mkMat N N (coeff_cov Ut))) 0 None kind' true = Ok (x', FullU U) /\
    alen u = n /\ mrows U = n /\ mcols U = n /\
    forall i, (i < n)%nat -> x i = x' i /\ 0 <= U i i /\ u i = sqrt (U i i).
Proof. exact fast_general_agree. Qed.
(** In the general path the point-wise result is the root of the diagonal of the full one. *)
Theorem C04_pointwise_is_diagonal : forall ydt tdt y sn theta Ut shift blow kind x U,
  match sn with NsMat _ => True | _ => match Ut with UtMat _ => True | _ => blow <> None end end ->
  FIRuncFilter ydt tdt y sn theta Ut shift blow kind true = Ok (x, FullU U) ->
  exists u, FIRuncFilter ydt tdt y sn theta Ut shift blow kind false = Ok (x, PointU u) /\
    alen u = mrows U /\ forall i, u i = sqrt (Rabs (U i i)).
Proof.
  intros ydt tdt y sn theta Ut shift blow kind x U Hg H.
  assert (Hf : fast_path sn Ut blow kind false = false).
  { unfold fast_path. destruct sn, Ut, blow; simpl in *; try congruence; try reflexivity; destruct (kind =? "diag")%string; reflexivity. }
  rewrite (FIR_point_of_full _ _ _ _ _ _ _ _ _ Hf), H. eexists. split; [reflexivity|]. split; reflexivity.
Qed.
Example C04_example : exists x u, FIRuncFilter DFloat DFloat ex_y (NsVec (of_list [1; 2])) ex_th
    (UtVec (of_list [1; 0])) 0 None "diag" false = Ok (x, PointU u) /\ u 1%nat = sqrt 13.
Proof.
  destruct (C04_fast_equals_general ex_y (NsVec (of_list [1; 2])) ex_th (UtVec (of_list [1; 0])) "diag" "diag" 2 2
     eq_refl eq_refl ltac:(lia) ltac:(lia)) as [x [u [x' [U [H1 [H2 [_ [_ [_ E]]]]]]]]]; try (split; reflexivity); try reflexivity.
  exists x, u. split; [assumption|]. destruct (E 1%nat ltac:(lia)) as [_ [_ ->]]. f_equal.
  destruct (FIR_general DFloat DFloat ex_y (NsMat (mkMat 2 2 (sig_cov (NsVec (of_list [1; 2])) "diag"))) ex_th
     (UtMat (mkMat 2 2 (coeff_cov (UtVec (of_list [1; 0]))))) "diag" 2 2) as [x2 [U2 [H [_ [_ [_ [_ F]]]]]]];
     try (split; reflexivity); try reflexivity; try lia.
  rewrite H2 in H. inversion H; subst. rewrite F by lia. unfold gen_cov, stat_cont, continued. simpl. lra.
Qed.
Print Assumptions C04_fast_equals_general.
Print Assumptions C04_pointwise_is_diagonal.

(** ** C05 (false: the covariance is rolled as a flattened array; the efficient path does not
    shift at all) *)
Theorem C05_shift_moves_both_refuted : exists y sn theta n s x U x0 U0,
  alen y = n /\
  FIRuncFilter DFloat DFloat y sn theta UtNone s None "diag" true = Ok (x, FullU U) /\
  FIRuncFilter DFloat DFloat y sn theta UtNone 0 None "diag" true = Ok (x0, FullU U0) /\
  (forall i, (i < n)%nat -> x i = x0 (roll_idx n (- s) i)) /\
  exists i j, (i < n)%nat /\ (j < n)%nat /\
    U i j <> U0 (roll_idx n (- s) i) (roll_idx n (- s) j).
Proof.
  - destruct (FIR_general DFloat DFloat ex_y (NsFloat 1) ex_th UtNone "diag" 2 2)
      as [x [U [H [L1 [L2 [L3 [E F]]]]]]]; try reflexivity; try lia; try exact I.
    exists ex_y, (NsFloat 1), ex_th, 2%nat, 1%Z.
    pose proof H as H'. unfold FIRuncFilter in H'.
    assert (Hf : fast_path (NsFloat 1) UtNone None "diag" true = false) by reflexivity.
    rewrite Hf in H'.
    destruct (noise_cov (alen ex_y) (NsFloat 1) "diag") as [M|] eqn:HM; [|discriminate]. simpl bind in H'.
    destruct (fir_filter ex_y ex_th (Some M) UtNone "constant") as [[x1 U1]|] eqn:HF; [|discriminate].
    simpl bind in H'. simpl in H'. inversion H'; subst x1 U1; clear H'.
    exists (roll x (-1)), (roll_flat U (-2)), x, U. split; [reflexivity|]. split.
    { unfold FIRuncFilter. rewrite Hf, HM. simpl bind. rewrite HF. reflexivity. }
    split; [assumption|]. split.
    { intros i Hi. simpl roll. unfold roll; cbn [alen aget]. rewrite L1. reflexivity. }
    exists 0%nat, 0%nat. split; [lia|]. split; [lia|].
    unfold roll_flat; cbn [mget]. rewrite L2, L3.
    change (roll_idx (2 * 2) (-2) (0 * 2 + 0)) with 2%nat. change (roll_idx 2 (- (1)) 0) with 1%nat.
    change (2 / 2)%nat with 1%nat. change (2 mod 2)%nat with 0%nat.
    rewrite !F by lia. unfold gen_cov, stat_cont, continued, sig_cov. simpl. lra.
Qed.
Theorem C05_efficient_path_refuted : exists y sn theta n s x u x0 u0,
  alen y = n /\
  FIRuncFilter DFloat DFloat y sn theta UtNone s None "diag" false = Ok (x, PointU u) /\
  FIRuncFilter DFloat DFloat y sn theta UtNone 0 None "diag" false = Ok (x0, PointU u0) /\
  exists i, (i < n)%nat /\ x i <> x0 (roll_idx n (- s) i).
Proof.
  - destruct (FIR_fast ex_y NsNone ex_th UtNone 1 "diag" 2 2) as [x [u [H [L1 [L2 [E F]]]]]];
      try reflexivity; try lia; try exact I.
    destruct (FIR_fast ex_y NsNone ex_th UtNone 0 "diag" 2 2) as [x0 [u0 [H0 [L10 [L20 [E0 F0]]]]]];
      try reflexivity; try lia; try exact I.
    exists ex_y, NsNone, ex_th, 2%nat, 1%Z, x, u, x0, u0.
    split; [reflexivity|]. split; [assumption|]. split; [assumption|].
    exists 0%nat. split; [lia|]. change (roll_idx 2 (- (1)) 0) with 1%nat.
    rewrite E, E0 by lia. unfold fir_value. simpl. lra.
Qed.
(** What does hold: with the general path the estimate is shifted circularly by -s.
    (Missing from the full claim: the covariance, and the efficient path.) *)
Theorem C05_shift_estimate_partial : forall ydt tdt y sn theta Ut s blow kind full x ux x0 ux0,
  match sn with NsMat _ => True | _ => match Ut with UtMat _ => True | _ => full = true end end ->
  FIRuncFilter ydt tdt y sn theta Ut s blow kind full = Ok (x, ux) ->
  FIRuncFilter ydt tdt y sn theta Ut 0 blow kind full = Ok (x0, ux0) ->
  alen x = alen y /\
  forall i, (i < alen y)%nat -> x i = x0 (Z.to_nat ((Z.of_nat i + s) mod Z.of_nat (alen y))).
Proof.
  intros ydt tdt y sn theta Ut s blow kind full x ux x0 ux0 Hg H H0.
  assert (Hf : fast_path sn Ut blow kind full = false).
  { unfold fast_path. destruct sn, Ut; simpl in *; subst; try reflexivity;
      repeat rewrite andb_false_r; reflexivity. }
  destruct (FIRuncFilter_estimate _ _ _ _ _ _ _ _ _ _ _ _ H) as [Hn [_ [L1 [[F1 _]|[_ E1]]]]]; [congruence|].
  destruct (FIRuncFilter_estimate _ _ _ _ _ _ _ _ _ _ _ _ H0) as [_ [_ [L0 [[F0 _]|[_ E0]]]]]; [congruence|].
  split; [assumption|]. intros i Hi. rewrite E1 by assumption.
  assert (Hr : (Z.to_nat ((Z.of_nat i + s) mod Z.of_nat (alen y)) < alen y)%nat).
  { pose proof (Z.mod_pos_bound (Z.of_nat i + s) (Z.of_nat (alen y)) ltac:(lia)). lia. }
  rewrite E0 by assumption. change (- 0)%Z with 0%Z. rewrite roll_idx_0 by assumption. f_equal.
  unfold roll_idx. now replace (Z.of_nat i - - s)%Z with (Z.of_nat i + s)%Z by lia.
Qed.
Example C05_example : exists x U, FIRuncFilter DFloat DFloat ex_y (NsFloat 1) ex_th ex_Ut 1 None "diag" true
   = Ok (x, FullU U).
Proof.
  destruct (fir_decision DFloat DFloat ex_y (NsFloat 1) ex_th ex_Ut 1 None "diag" true 2 2) as [[x [u|U]] H];
    try reflexivity; try lia; try discriminate; try exact I; try (split; reflexivity); eauto.
Qed.
Print Assumptions C05_shift_moves_both_refuted.
Print Assumptions C05_efficient_path_refuted.
Print Assumptions C05_shift_estimate_partial.

(** ** C06 (false: the float is used as a variance) *)
Theorem C06_float_utheta_refuted : exists y theta u n x v x' v',
  0 < u /\ alen y = n /\
  FIRuncFilter DFloat DFloat y NsNone theta (UtFloat u) 0 None "diag" false = Ok (x, PointU v) /\
  FIRuncFilter DFloat DFloat y NsNone theta (UtVec (mkArr (alen theta) (fun _ => u))) 0 None "diag" false
    = Ok (x', PointU v') /\
  exists i, (i < n)%nat /\ v i <> v' i.
Proof.
  destruct (float_utheta_sqrt (of_list [1; 1]) NsNone ex_th 4 0 "diag" 2 2) as [x [v [x' [v' [H1 [H2 E]]]]]];
    try reflexivity; try lia; try lra; try exact I.
  destruct (FIR_fast (of_list [1; 1]) NsNone ex_th (UtVec (mkArr 2 (fun _ => sqrt 4))) 0 "diag" 2 2)
    as [x2 [u2 [G2 [_ [_ [_ F2]]]]]]; try reflexivity; try lia; try exact I.
  destruct (FIR_fast (of_list [1; 1]) NsNone ex_th (UtVec (mkArr 2 (fun _ => 4))) 0 "diag" 2 2)
    as [x3 [u3 [G3 [_ [_ [_ F3]]]]]]; try reflexivity; try lia; try exact I.
  exists (of_list [1; 1]), ex_th, 4, 2%nat, x, v, x3, u3.
  split; [lra|]. split; [reflexivity|]. split; [assumption|]. split; [exact G3|].
  exists 0%nat. split; [lia|]. destruct (E 0%nat ltac:(lia)) as [_ ->].
  rewrite H2 in G2. inversion G2; subst u2. rewrite F2, F3 by lia.
  unfold point_var, continued. simpl.
  replace (sqrt 4) with 2 by (symmetry; replace 4 with (2 * 2) by lra; apply sqrt_square; lra).
  intros Hc. apply sqrt_inj in Hc; try apply Rabs_pos.
  rewrite !Rabs_pos_eq in Hc by lra. lra.
Qed.
(** What does hold: a float u acts like standard uncertainties sqrt(u).
    (The full claim asks for standard uncertainties u.) *)
Theorem C06_float_utheta_partial : forall y sn theta u shift kind n N,
  0 <= u -> alen y = n -> alen theta = N -> (1 <= n)%nat -> (2 <= N)%nat -> noise_pointwise n sn kind ->
  exists x v x' v',
  FIRuncFilter DFloat DFloat y sn theta (UtFloat u) shift None kind false = Ok (x, PointU v) /\
  FIRuncFilter DFloat DFloat y sn theta (UtVec (mkArr N (fun _ => sqrt u))) shift None kind false = Ok (x', PointU v') /\
  forall i, (i < n)%nat -> x i = x' i /\ v i = v' i.
Proof. exact float_utheta_sqrt. Qed.
Example C06_example : exists x v,
  FIRuncFilter DFloat DFloat ex_y (NsFloat 1) ex_th (UtFloat 4) 0 None "diag" false = Ok (x, PointU v).
Proof.
  destruct (C06_float_utheta_partial ex_y (NsFloat 1) ex_th 4 0 "diag" 2 2) as [x [v [_ [_ [H _]]]]];
    try reflexivity; try lia; try lra; try exact I. eauto.
Qed.
Print Assumptions C06_float_utheta_refuted.
Print Assumptions C06_float_utheta_partial.

(** ** C07 (false: the continuation into the past can be indefinite) *)
Definition ones22 : mat := mkMat 2 2 (fun _ _ => 1).
Lemma ones22_psd : psd 2 ones22.
Proof.
  split; [intros i j _ _; reflexivity|]. intros v. unfold quad. simpl.
  replace (0 + (0 + v 0%nat * 1 * v 0%nat + v 0%nat * 1 * v 1%nat) + (0 + v 1%nat * 1 * v 0%nat + v 1%nat * 1 * v 1%nat))
    with (Rsqr (v 0%nat + v 1%nat)) by (unfold Rsqr; ring).
  apply Rle_0_sqr.
Qed.
Theorem C07_no_negative_variance_refuted : exists y Uy theta n x U,
  alen y = n /\ mrows Uy = n /\ mcols Uy = n /\ psd n Uy /\
  FIRuncFilter DFloat DFloat y (NsMat Uy) theta UtNone 0 None "corr" true = Ok (x, FullU U) /\
  exists i, (i < n)%nat /\ U i i < 0.
Proof.
  destruct (FIR_general DFloat DFloat (of_list [0; 0]) (NsMat ones22) (of_list [1; -1; 1]) UtNone "corr" 2 3)
    as [x [U [H [_ [_ [_ [_ F]]]]]]]; try reflexivity; try lia; try exact I; try (split; reflexivity).
  exists (of_list [0; 0]), ones22, (of_list [1; -1; 1]), 2%nat, x, U.
  split; [reflexivity|]. split; [reflexivity|]. split; [reflexivity|]. split; [apply ones22_psd|].
  split; [assumption|]. exists 0%nat. split; [lia|]. rewrite F by lia.
  unfold gen_cov, stat_cont, continued. simpl. lra.
Qed.
(** What does hold: white or point-wise input noise gives a p.s.d. result (and C03 in general).
    (Missing from the full claim: correlated input.) *)
Theorem C07_pointwise_noise_partial : forall ydt tdt y sn theta Ut kind n N,
  alen y = n -> alen theta = N -> (1 <= n)%nat -> (2 <= N)%nat ->
  noise_pointwise n sn kind -> sn <> NsNone -> coeff_matrix N Ut -> psd N (coeff_cov Ut) ->
  exists x U, FIRuncFilter ydt tdt y sn theta Ut 0 None kind true = Ok (x, FullU U) /\ psd n U.
Proof. exact pointwise_psd. Qed.
Example C07_example : exists x U,
  FIRuncFilter DFloat DFloat ex_y (NsVec (of_list [1; 3])) ex_th ex_Ut 0 None "diag" true = Ok (x, FullU U) /\ psd 2 U.
Proof.
  apply C07_pointwise_noise_partial with (N := 2%nat); try reflexivity; try lia; try (split; reflexivity); try discriminate.
  apply (cov_psd 2 ex_dt (fun i s => s i)); [apply ex_dt_prob | exact ex_dt_cov].
Qed.
Print Assumptions C07_no_negative_variance_refuted.
Print Assumptions C07_pointwise_noise_partial.

(** ** C08 *)
Theorem C08_argument_table : forall ydt tdt y sn theta Ut shift blow kind full n N,
  alen y = n -> alen theta = N -> (1 <= n)%nat -> (2 <= N)%nat ->
  (forall b, blow = Some b -> (2 <= alen b)%nat) ->
  noise_shape n sn kind -> coeff_fits N Ut ->
  match fir_table sn Ut (match blow with Some _ => true | None => false end) kind full with
  | None => exists r, FIRuncFilter ydt tdt y sn theta Ut shift blow kind full = Ok r
  | Some e => FIRuncFilter ydt tdt y sn theta Ut shift blow kind full = Err e
  end.
Proof. exact fir_decision. Qed.
Example C08_example :
  (exists r, FIRuncFilter DFloat DFloat ex_y NsNone ex_th (UtVec (of_list [1; 2])) 0 None "corr" false = Ok r) /\
  FIRuncFilter DFloat DFloat ex_y NsNone ex_th (UtVec (of_list [1; 2])) 0 None "corr" true = Err ValueError.
Proof.
  split.
  - apply (C08_argument_table DFloat DFloat ex_y NsNone ex_th (UtVec (of_list [1; 2])) 0 None "corr" false 2 2);
      try reflexivity; try lia; try exact I; discriminate.
  - apply (C08_argument_table DFloat DFloat ex_y NsNone ex_th (UtVec (of_list [1; 2])) 0 None "corr" true 2 2);
      try reflexivity; try lia; try exact I; discriminate.
Qed.
Print Assumptions C08_argument_table.

(** ** C09 *)
Theorem C09_homogeneous_full : forall ydt tdt c y sn theta Ut kind n N,
  alen y = n -> alen theta = N -> (1 <= n)%nat -> (2 <= N)%nat ->
  noise_fits n sn kind -> coeff_matrix N Ut ->
  exists x U x' U',
    FIRuncFilter ydt tdt y sn theta Ut 0 None kind true = Ok (x, FullU U) /\
    FIRuncFilter ydt tdt (scale_vec c y) (scale_noise c kind sn) theta Ut 0 None kind true = Ok (x', FullU U') /\
    forall i j, (i < n)%nat -> (j < n)%nat -> x' i = c * x i /\ U' i j = c * c * U i j.
Proof. exact homogeneous_full. Qed.
Theorem C09_homogeneous_pointwise : forall c y sn theta Ut kind n N,
  alen y = n -> alen theta = N -> (1 <= n)%nat -> (2 <= N)%nat ->
  noise_pointwise n sn kind -> coeff_pointwise N Ut ->
  exists x u x' u',
    FIRuncFilter DFloat DFloat y sn theta Ut 0 None kind false = Ok (x, PointU u) /\
    FIRuncFilter DFloat DFloat (scale_vec c y) (scale_noise c kind sn) theta Ut 0 None kind false = Ok (x', PointU u') /\
    forall i, (i < n)%nat -> x' i = c * x i /\ u' i = Rabs c * u i.
Proof. exact homogeneous_point. Qed.
Theorem C09_homogeneous_filter : forall ydt tdt c y sn theta kind n N,
  alen y = n -> alen theta = N -> (1 <= n)%nat -> (2 <= N)%nat -> noise_fits n sn kind ->
  exists x U x' U',
    FIRuncFilter ydt tdt y sn theta UtNone 0 None kind true = Ok (x, FullU U) /\
    FIRuncFilter ydt tdt y sn (scale_vec c theta) UtNone 0 None kind true = Ok (x', FullU U') /\
    forall i j, (i < n)%nat -> (j < n)%nat -> x' i = c * x i /\ U' i j = c * c * U i j.
Proof. exact homogeneous_theta_full. Qed.
Example C09_example : exists x u x' u',
    FIRuncFilter DFloat DFloat ex_y (NsFloat 1) ex_th (UtVec (of_list [1; 2])) 0 None "diag" false = Ok (x, PointU u) /\
    FIRuncFilter DFloat DFloat (scale_vec (-3) ex_y) (NsFloat (Rabs (-3) * 1)) ex_th (UtVec (of_list [1; 2])) 0 None "diag" false = Ok (x', PointU u') /\
    u' 1%nat = Rabs (-3) * u 1%nat.
Proof.
  destruct (C09_homogeneous_pointwise (-3) ex_y (NsFloat 1) ex_th (UtVec (of_list [1; 2])) "diag" 2 2)
    as [x [u [x' [u' [H1 [H2 E]]]]]]; try reflexivity; try lia; try exact I.
  exists x, u, x', u'. split; [assumption|]. split; [exact H2|]. apply E. lia.
Qed.
Print Assumptions C09_homogeneous_full.
Print Assumptions C09_homogeneous_pointwise.
Print Assumptions C09_homogeneous_filter.

(** ** C10 *)
Theorem C10_causal_pointwise : forall y y' sn sn' theta Ut kind n n' N m,
  alen y = n -> alen y' = n' -> alen theta = N -> (2 <= N)%nat -> (m < n)%nat -> (m < n')%nat ->
  noise_pointwise n sn kind -> noise_pointwise n' sn' kind -> coeff_pointwise N Ut ->
  (forall k, (k <= m)%nat -> y k = y' k) ->
  (forall k, (k <= m)%nat -> sig_cov sn kind k k = sig_cov sn' kind k k) ->
  exists x u x' u',
    FIRuncFilter DFloat DFloat y sn theta Ut 0 None kind false = Ok (x, PointU u) /\
    FIRuncFilter DFloat DFloat y' sn' theta Ut 0 None kind false = Ok (x', PointU u') /\
    forall i, (i <= m)%nat -> x i = x' i /\ u i = u' i.
Proof. exact causal_point. Qed.
Theorem C10_causal_full : forall ydt tdt y y' sn sn' theta Ut kind n n' N m,
  alen y = n -> alen y' = n' -> alen theta = N -> (2 <= N)%nat -> (m < n)%nat -> (m < n')%nat ->
  noise_pointwise n sn kind -> noise_pointwise n' sn' kind -> sn <> NsNone -> sn' <> NsNone ->
  coeff_matrix N Ut ->
  (forall k, (k <= m)%nat -> y k = y' k) ->
  (forall k, (k <= m)%nat -> sig_cov sn kind k k = sig_cov sn' kind k k) ->
  exists x U x' U',
    FIRuncFilter ydt tdt y sn theta Ut 0 None kind true = Ok (x, FullU U) /\
    FIRuncFilter ydt tdt y' sn' theta Ut 0 None kind true = Ok (x', FullU U') /\
    forall i j, (i <= m)%nat -> (j <= m)%nat -> x i = x' i /\ U i j = U' i j.
Proof. exact causal_full. Qed.
Example C10_example : exists x u x' u',
  FIRuncFilter DFloat DFloat ex_y (NsVec (of_list [1; 2])) ex_th (UtVec (of_list [1; 2])) 0 None "diag" false = Ok (x, PointU u) /\
  FIRuncFilter DFloat DFloat (of_list [1; 7; 8]) (NsVec (of_list [1; 5; 6])) ex_th (UtVec (of_list [1; 2])) 0 None "diag" false = Ok (x', PointU u') /\
  u 0%nat = u' 0%nat.
Proof.
  destruct (C10_causal_pointwise ex_y (of_list [1; 7; 8]) (NsVec (of_list [1; 2])) (NsVec (of_list [1; 5; 6])) ex_th
    (UtVec (of_list [1; 2])) "diag" 2 3 2 0) as [x [u [x' [u' [H1 [H2 E]]]]]]; try reflexivity; try lia; try (split; reflexivity).
  - intros k Hk. assert (k = 0%nat) by lia. subst. reflexivity.
  - intros k Hk. assert (k = 0%nat) by lia. subst. simpl. lra.
  - exists x, u, x', u'. split; [assumption|]. split; [assumption|]. apply E. lia.
Qed.
Print Assumptions C10_causal_pointwise.
Print Assumptions C10_causal_full.

(** ** C11, C12 *)
Definition cx1 : vec := of_list [1; 2; 3].
Definition cx2 : vec := of_list [1; -1].
Definition cU1 : option mat := Some (of_rows [[2; 1; 0]; [1; 2; 0]; [0; 0; 1]]).
Definition cU2 : option mat := Some (of_rows [[1; 1]; [1; 1]]).

Theorem C11_numpy_modes : forall x1 U1 x2 U2 mode n1 n2,
  alen x1 = n1 -> alen x2 = n2 -> (2 <= n1)%nat -> (2 <= n2)%nat ->
  opt_square n1 U1 -> opt_square n2 U2 -> numpy_mode mode ->
  exists y U, convolve_unc x1 U1 x2 U2 mode = Ok (y, U) /\
    alen y = np_conv_len mode n1 n2 /\
    forall i, (i < np_conv_len mode n1 n2)%nat -> y i = np_conv mode n1 n2 x1 x2 i.
Proof.
  intros x1 U1 x2 U2 mode n1 n2 H1 H2 Hn1 Hn2 S1 S2 Hm.
  destruct (convolve_np_exact x1 U1 x2 U2 mode n1 n2) as [y [U [H [L1 [_ [_ E]]]]]]; auto.
  exists y, U. split; [assumption|]. split; [assumption|]. intros i Hi. apply (E i i Hi Hi).
Qed.
Theorem C11_ndimage_modes : forall x1 U1 x2 U2 mode n1 n2 e,
  alen x1 = n1 -> alen x2 = n2 -> (1 <= n1)%nat -> (2 <= n2)%nat ->
  opt_square n1 U1 -> opt_square n2 U2 -> ndimage_mode mode -> is_continuation mode n1 e ->
  exists y U, convolve_unc x1 U1 x2 U2 mode = Ok (y, U) /\
    alen y = n1 /\ forall i, (i < n1)%nat -> y i = nd_conv e n2 x1 x2 i.
Proof.
  intros x1 U1 x2 U2 mode n1 n2 e H1 H2 Hn1 Hn2 S1 S2 Hm He.
  destruct (convolve_nd_exact x1 U1 x2 U2 mode n1 n2 e) as [y [U [H [L1 [_ [_ E]]]]]]; auto.
  exists y, U. split; [assumption|]. split; [assumption|]. intros i Hi. apply (E i i Hi Hi).
Qed.
(** the continuation the previous theorem talks about exists for every length *)
Theorem C11_continuation_exists : forall mode n, (1 <= n)%nat -> ndimage_mode mode ->
  exists e, is_continuation mode n e.
Proof. exact continuation_exists. Qed.
Example C11_example : exists y U, convolve_unc cx1 cU1 cx2 cU2 "same" = Ok (y, U) /\
  alen y = 3%nat /\ y 0%nat = 1 /\ y 1%nat = 1 /\ y 2%nat = 1.
Proof.
  destruct (C11_numpy_modes cx1 cU1 cx2 cU2 "same" 3 2) as [y [U [H [L E]]]];
    try reflexivity; try lia; try (split; reflexivity). { right; right; reflexivity. }
  exists y, U. split; [assumption|]. split; [assumption|].
  rewrite !E by (unfold np_conv_len; simpl; lia). unfold np_conv, full_conv. simpl. lra.
Qed.
Print Assumptions C11_numpy_modes.
Print Assumptions C11_ndimage_modes.
Print Assumptions C11_continuation_exists.

Theorem C12_numpy_cov_exact : forall x1 U1 x2 U2 mode n1 n2 (d1 d2 : dist (nat -> R)),
  alen x1 = n1 -> alen x2 = n2 -> (2 <= n1)%nat -> (2 <= n2)%nat ->
  opt_square n1 U1 -> opt_square n2 U2 -> numpy_mode mode ->
  is_prob d1 -> is_prob d2 -> has_mean n1 d1 x1 -> has_cov n1 d1 (opt_cov U1) ->
  has_mean n2 d2 x2 -> has_cov n2 d2 (opt_cov U2) ->
  exists y U, convolve_unc x1 U1 x2 U2 mode = Ok (y, U) /\
    mrows U = np_conv_len mode n1 n2 /\ mcols U = np_conv_len mode n1 n2 /\
    forall i j, (i < np_conv_len mode n1 n2)%nat -> (j < np_conv_len mode n1 n2)%nat ->
      y i = Ex (indep d1 d2) (fun o => np_conv mode n1 n2 (fst o) (snd o) i) /\
      U i j = Cov (indep d1 d2) (fun o => np_conv mode n1 n2 (fst o) (snd o) i)
                                (fun o => np_conv mode n1 n2 (fst o) (snd o) j).
Proof.
  intros x1 U1 x2 U2 mode n1 n2 d1 d2 H1 H2 Hn1 Hn2 S1 S2 Hm P1 P2 M1 C1 M2 C2.
  destruct (convolve_np_exact x1 U1 x2 U2 mode n1 n2) as [y [U [H [L1 [L2 [L3 E]]]]]]; auto.
  exists y, U. repeat (split; [assumption|]). intros i j Hi Hj. now apply (E i j Hi Hj).
Qed.
Theorem C12_ndimage_cov_exact : forall x1 U1 x2 U2 mode n1 n2 e (d1 d2 : dist (nat -> R)),
  alen x1 = n1 -> alen x2 = n2 -> (1 <= n1)%nat -> (2 <= n2)%nat ->
  opt_square n1 U1 -> opt_square n2 U2 -> ndimage_mode mode -> is_continuation mode n1 e ->
  is_prob d1 -> is_prob d2 -> has_mean n1 d1 x1 -> has_cov n1 d1 (opt_cov U1) ->
  has_mean n2 d2 x2 -> has_cov n2 d2 (opt_cov U2) ->
  exists y U, convolve_unc x1 U1 x2 U2 mode = Ok (y, U) /\
    mrows U = n1 /\ mcols U = n1 /\
    forall i j, (i < n1)%nat -> (j < n1)%nat ->
      y i = Ex (indep d1 d2) (fun o => nd_conv e n2 (fst o) (snd o) i) /\
      U i j = Cov (indep d1 d2) (fun o => nd_conv e n2 (fst o) (snd o) i)
                                (fun o => nd_conv e n2 (fst o) (snd o) j).
Proof.
  intros x1 U1 x2 U2 mode n1 n2 e d1 d2 H1 H2 Hn1 Hn2 S1 S2 Hm He P1 P2 M1 C1 M2 C2.
  destruct (convolve_nd_exact x1 U1 x2 U2 mode n1 n2 e) as [y [U [H [L1 [L2 [L3 E]]]]]]; auto.
  exists y, U. repeat (split; [assumption|]). intros i j Hi Hj. now apply (E i j Hi Hj).
Qed.
Example C12_example : exists y U,
  convolve_unc ex_y (Some (of_rows [[1; 0]; [0; 1]])) ex_th (Some (of_rows [[1; 0]; [0; 0]])) "full" = Ok (y, U) /\
  U 0%nat 0%nat = 3.
Proof.
  pose (d1 := map (fun l => (/4, fun i => nth i l 0)) [[2;3]; [2;1]; [0;3]; [0;1]]).
  destruct (C12_numpy_cov_exact ex_y (Some (of_rows [[1; 0]; [0; 1]])) ex_th (Some (of_rows [[1; 0]; [0; 0]])) "full" 2 2
     d1 ex_dt) as [y [U [H [_ [_ E]]]]];
    try reflexivity; try lia; try (split; reflexivity); try (left; reflexivity);
    try apply ex_dt_prob; try apply ex_dt_mean; try apply ex_dt_cov.
  - split; [|unfold d1; simpl; lra].
    intros p a Hin. unfold d1 in Hin. simpl in Hin.
    repeat (destruct Hin as [Hin|Hin]; [inversion Hin; lra|]). contradiction.
  - intros i Hi. unfold d1. below i Hi; simpl; lra.
  - intros i j Hi Hj. unfold d1, Cov. below i Hi; below j Hj; simpl; lra.
  - exists y, U. split; [assumption|]. destruct (E 0%nat 0%nat) as [_ ->]; try (unfold np_conv_len; simpl; lia).
    unfold Cov, d1, ex_dt, np_conv, full_conv, indep. simpl. lra.
Qed.
Print Assumptions C12_numpy_cov_exact.
Print Assumptions C12_ndimage_cov_exact.

(** ** C13 *)
Theorem C13_convolution_commutes : forall x1 U1 x2 U2 mode n1 n2,
  alen x1 = n1 -> alen x2 = n2 -> (2 <= n1)%nat -> (2 <= n2)%nat ->
  opt_square n1 U1 -> opt_square n2 U2 -> numpy_mode mode ->
  symm n1 (opt_cov U1) -> symm n2 (opt_cov U2) ->
  exists y U y' U', convolve_unc x1 U1 x2 U2 mode = Ok (y, U) /\
     convolve_unc x2 U2 x1 U1 mode = Ok (y', U') /\ veq y y' /\ meq U U'.
Proof. exact convolve_comm. Qed.
Example C13_example : exists y U y' U', convolve_unc ex_y cU2 cx2 (Some (of_rows [[3; 1]; [1; 5]])) "full" = Ok (y, U) /\
  convolve_unc cx2 (Some (of_rows [[3; 1]; [1; 5]])) ex_y cU2 "full" = Ok (y', U') /\ veq y y' /\ meq U U'.
Proof.
  apply C13_convolution_commutes with (n1 := 2%nat) (n2 := 2%nat);
    try reflexivity; try lia; try (split; reflexivity); try (left; reflexivity).
  - intros i j Hi Hj. below i Hi; below j Hj; reflexivity.
  - intros i j Hi Hj. below i Hi; below j Hj; reflexivity.
Qed.
Print Assumptions C13_convolution_commutes.

(** ** C14 *)
Theorem C14_convolution_psd : forall x1 U1 x2 U2 mode n1 n2,
  alen x1 = n1 -> alen x2 = n2 -> (2 <= n1)%nat -> (2 <= n2)%nat ->
  opt_square n1 U1 -> opt_square n2 U2 -> (numpy_mode mode \/ ndimage_mode mode) ->
  psd n1 (opt_cov U1) -> psd n2 (opt_cov U2) ->
  exists y U, convolve_unc x1 U1 x2 U2 mode = Ok (y, U) /\ mrows U = mcols U /\ psd (mrows U) U.
Proof.
  intros x1 U1 x2 U2 mode n1 n2 H1 H2 Hn1 Hn2 S1 S2 [Hm|Hm] Q1 Q2.
  - now apply convolve_np_psd with n1 n2.
  - apply convolve_nd_psd with n1 n2; auto. lia.
Qed.
Example C14_example : exists y U, convolve_unc ex_y (Some ones22) ex_th (Some ones22) "mirror" = Ok (y, U) /\
  mrows U = mcols U /\ psd (mrows U) U.
Proof.
  apply C14_convolution_psd with (n1 := 2%nat) (n2 := 2%nat);
    try reflexivity; try lia; try (split; reflexivity); try apply ones22_psd.
  right; right; right; reflexivity.
Qed.
Print Assumptions C14_convolution_psd.

(** ** C15 (false for a kernel of length one) *)
Theorem C15_any_two_signals_refuted : exists x1 x2 mode,
  (1 <= alen x1)%nat /\ (1 <= alen x2)%nat /\ numpy_mode mode /\
  convolve_unc x1 None x2 None mode = Err ValueError.
Proof.
  exists (of_list [1; 2]), (of_list [3]), "full"%string. split; [simpl; lia|]. split; [simpl; lia|].
  split; [left; reflexivity|]. apply convolve_short_kernel; simpl; try lia. left; left; reflexivity.
Qed.
(** Every mode fails for a kernel of length one, whatever the values. *)
Theorem C15_length_one_always_fails : forall x1 U1 x2 U2 mode,
  (1 <= alen x1)%nat -> alen x2 = 1%nat -> (numpy_mode mode \/ ndimage_mode mode) ->
  convolve_unc x1 U1 x2 U2 mode = Err ValueError.
Proof. exact convolve_short_kernel. Qed.
(** What does hold: lengths of at least two succeed, other mode strings raise ValueError.
    (Missing from the full claim: length one.) *)
Theorem C15_modes_partial : forall x1 U1 x2 U2 mode,
  ((2 <= alen x1)%nat -> (2 <= alen x2)%nat -> opt_square (alen x1) U1 -> opt_square (alen x2) U2 ->
     numpy_mode mode \/ ndimage_mode mode -> exists r, convolve_unc x1 U1 x2 U2 mode = Ok r) /\
  (~ numpy_mode mode -> ~ ndimage_mode mode -> convolve_unc x1 U1 x2 U2 mode = Err ValueError).
Proof.
  intros x1 U1 x2 U2 mode. split.
  - intros Hn1 Hn2 S1 S2 [Hm|Hm].
    + destruct (convolve_np_exact x1 U1 x2 U2 mode (alen x1) (alen x2)) as [y [U [H _]]]; eauto.
    + destruct (convolve_nd_closed x1 U1 x2 U2 mode (alen x1) (alen x2)) as [y [U [H _]]]; auto; [lia|]. eauto.
  - apply convolve_bad_mode.
Qed.
Example C15_example : (exists r, convolve_unc cx1 cU1 cx2 cU2 "reflect" = Ok r) /\
  convolve_unc cx1 cU1 cx2 cU2 "wrap" = Err ValueError.
Proof.
  split.
  - apply C15_modes_partial; try (simpl; lia); try (split; reflexivity). right; right; left; reflexivity.
  - apply C15_modes_partial; unfold numpy_mode, ndimage_mode; intros [H|[H|H]]; discriminate.
Qed.
Print Assumptions C15_any_two_signals_refuted.
Print Assumptions C15_length_one_always_fails.
Print Assumptions C15_modes_partial.

(** ** C17 *)
Theorem C17_shift_moves_together : forall x ux s n, alen x = n -> (1 <= n)%nat ->
  match ux with
  | SuFloat u => exists xs, shift_uncertainty x ux (ShInt s) = Ok (xs, SuFloat u) /\ alen xs = n /\
      forall i, (i < n)%nat -> xs (Z.to_nat ((Z.of_nat i + s) mod Z.of_nat n)) = x i
  | SuVec v => alen v = n ->
      exists xs vs, shift_uncertainty x ux (ShInt s) = Ok (xs, SuVec vs) /\ alen xs = n /\ alen vs = n /\
      forall i, (i < n)%nat ->
        xs (Z.to_nat ((Z.of_nat i + s) mod Z.of_nat n)) = x i /\
        vs (Z.to_nat ((Z.of_nat i + s) mod Z.of_nat n)) = v i
  | SuMat m => mrows m = n -> mcols m = n ->
      exists xs ms, shift_uncertainty x ux (ShInt s) = Ok (xs, SuMat ms) /\ alen xs = n /\
      mrows ms = n /\ mcols ms = n /\
      forall i j, (i < n)%nat -> (j < n)%nat ->
        xs (Z.to_nat ((Z.of_nat i + s) mod Z.of_nat n)) = x i /\
        ms (Z.to_nat ((Z.of_nat i + s) mod Z.of_nat n)) (Z.to_nat ((Z.of_nat j + s) mod Z.of_nat n)) = m i j
  | SuNd | SuOther => shift_uncertainty x ux (ShInt s) = Err TypeError
  end.
Proof.
  intros x ux s n Hx Hn. destruct ux as [u|v|m| |].
  - exists (roll x s). split; [reflexivity|]. split; [exact Hx|]. intros i Hi. simpl. rewrite Hx.
    now rewrite roll_idx_shifted.
  - intros Hv. exists (roll x s), (roll v s). split; [reflexivity|]. split; [exact Hx|]. split; [exact Hv|].
    intros i Hi. simpl. rewrite Hx, Hv. now rewrite roll_idx_shifted.
  - intros Hr Hc. exists (roll x s), (roll2 m s s). simpl. rewrite Hr, Hc, Nat.eqb_refl.
    split; [reflexivity|]. split; [exact Hx|]. split; [reflexivity|]. split; [reflexivity|].
    intros i j Hi Hj. rewrite Hx. now rewrite !roll_idx_shifted.
  - reflexivity.
  - reflexivity.
Qed.
(** Non-integer shifts and non-square matrices violate the assertions of the function. *)
Theorem C17_assertions : forall x ux m s,
  shift_uncertainty x ux ShOther = Err AssertionError /\
  (mrows m <> mcols m -> shift_uncertainty x (SuMat m) (ShInt s) = Err AssertionError).
Proof.
  intros. split; [reflexivity|]. intros H. simpl. apply Nat.eqb_neq in H. now rewrite H.
Qed.
(** Composition: shifting by s, then by t equals shifting by s+t; t = -s is the identity. *)
Theorem C17_shift_composes : forall x m s t n, alen x = n -> mrows m = n -> mcols m = n -> (1 <= n)%nat ->
  exists x1 m1 x2 m2 x3 m3,
    shift_uncertainty x (SuMat m) (ShInt s) = Ok (x1, SuMat m1) /\
    shift_uncertainty x1 (SuMat m1) (ShInt t) = Ok (x2, SuMat m2) /\
    shift_uncertainty x (SuMat m) (ShInt (s + t)) = Ok (x3, SuMat m3) /\
    veq x2 x3 /\ meq m2 m3 /\
    (t = (- s)%Z -> veq x2 x /\ meq m2 m).
Proof.
  intros x m s t n Hx Hr Hc Hn.
  exists (roll x s), (roll2 m s s), (roll (roll x s) t), (roll2 (roll2 m s s) t t), (roll x (s + t)), (roll2 m (s + t) (s + t)).
  simpl. rewrite Hr, Hc, Nat.eqb_refl. repeat (split; [reflexivity|]).
  split; [|split].
  - split; [reflexivity|]. simpl. rewrite Hx. intros i Hi. now rewrite roll_idx_add.
  - split; [reflexivity|]. split; [reflexivity|]. simpl. rewrite Hr, Hc. intros i j Hi Hj. now rewrite !roll_idx_add.
  - intros ->. split.
    + split; [reflexivity|]. simpl. rewrite Hx. intros i Hi. rewrite roll_idx_add by assumption.
      rewrite Z.add_opp_diag_r. now rewrite roll_idx_0.
    + split; [simpl; congruence|]. split; [simpl; congruence|]. simpl. rewrite Hr, Hc. intros i j Hi Hj.
      rewrite !roll_idx_add by assumption. rewrite Z.add_opp_diag_r. now rewrite !roll_idx_0.
Qed.
Example C17_example : exists xs vs,
  shift_uncertainty cx1 (SuVec (of_list [4; 5; 6])) (ShInt (-4)) = Ok (xs, SuVec vs) /\
  xs 2%nat = 1 /\ vs 2%nat = 4.
Proof.
  destruct (C17_shift_moves_together cx1 (SuVec (of_list [4; 5; 6])) (-4) 3 eq_refl ltac:(lia) eq_refl)
    as [xs [vs [H [_ [_ E]]]]].
  exists xs, vs. split; [assumption|]. exact (E 0%nat ltac:(lia)).
Qed.
Print Assumptions C17_shift_moves_together.
Print Assumptions C17_assertions.
Print Assumptions C17_shift_composes.

(** ** C18 *)
Theorem C18_trimOrPad : forall a L,
  alen (trimOrPad a L) = L /\
  forall i, (i < L)%nat ->
    ((i < alen a)%nat -> trimOrPad a L i = a i) /\ ((alen a <= i)%nat -> trimOrPad a L i = 0).
Proof.
  intros a L. split; [apply trimOrPad_len|]. intros i Hi. rewrite trimOrPad_get by assumption.
  destruct (Nat.ltb_spec i (alen a)); split; intros; try lia; reflexivity.
Qed.
Example C18_example : trimOrPad cx1 5 2%nat = 3 /\ trimOrPad cx1 5 4%nat = 0 /\ alen (trimOrPad cx1 2) = 2%nat.
Proof. repeat split. Qed.
Print Assumptions C18_trimOrPad.

(** ** C81 (false): the documented 1D Utheta (coefficient-wise standard uncertainties) is
    rejected by the general path. *)
Theorem C81_vector_utheta_refuted : exists y theta ut n N,
  alen y = n /\ alen theta = N /\ alen ut = N /\ (1 <= n)%nat /\ (2 <= N)%nat /\
  FIRuncFilter DFloat DFloat y (NsFloat 1) theta (UtVec ut) 0 None "corr" true = Err ValueError.
Proof.
  exists ex_y, ex_th, (of_list [1; 2]), 2%nat, 2%nat. repeat (split; [simpl; try reflexivity; try lia|]).
  apply (fir_decision DFloat DFloat ex_y (NsFloat 1) ex_th (UtVec (of_list [1; 2])) 0 None "corr" true 2 2);
   try reflexivity; try lia; try exact I; discriminate.
Qed.
(** What does hold: the efficient path accepts it (C02_fir_var_exact) and a diagonal matrix
    is accepted everywhere. *)
Theorem C81_diagonal_utheta_partial : forall y sn theta ut kind n N,
  alen y = n -> alen theta = N -> alen ut = N -> (1 <= n)%nat -> (2 <= N)%nat -> noise_fits n sn kind ->
  exists x U, FIRuncFilter DFloat DFloat y sn theta (UtMat (mkMat N N (coeff_cov (UtVec ut)))) 0 None kind true
    = Ok (x, FullU U).
Proof.
  intros y sn theta ut kind n N Hy Ht Hu Hn HN Hs.
  destruct (FIR_general DFloat DFloat y sn theta (UtMat (mkMat N N (coeff_cov (UtVec ut)))) kind n N)
    as [x [U [H _]]]; simpl; auto. eauto.
Qed.
Print Assumptions C81_vector_utheta_refuted.
Print Assumptions C81_diagonal_utheta_partial.

(** ** C82 (false): integer arrays are not treated like the same values as floats, because
    np.full_like keeps the integer type and truncates the variance. *)
Theorem C82_integer_arrays_refuted : exists y theta s n x u x' u',
  alen y = n /\ (forall i, (i < n)%nat -> exists z, y i = IZR z) /\
  FIRuncFilter DInt DFloat y (NsFloat s) theta UtNone 0 None "diag" false = Ok (x, PointU u) /\
  FIRuncFilter DFloat DFloat y (NsFloat s) theta UtNone 0 None "diag" false = Ok (x', PointU u') /\
  exists i, (i < n)%nat /\ u i = 0 /\ 0 < u' i.
Proof.
  destruct (FIR_fast ex_y (NsFloat (/2)) ex_th UtNone 0 "diag" 2 2) as [x' [u' [H' [_ [_ [E' F']]]]]];
      try reflexivity; try lia; try exact I.
  assert (Hh : history_value ex_y "constant" = Ok 1) by reflexivity.
  destruct (fir_filter_diag_closed ex_y ex_th (Some (full_like DInt 2 (Rsqr (/2)))) None "constant" 1 2 2)
    as [x [U [Hok [Lx [LU [E F]]]]]]; auto; try reflexivity; try exact I.
  exists ex_y, ex_th, (/2), 2%nat, x, (vmap (fun v => sqrt (Rabs v)) U), x', u'.
  split; [reflexivity|]. split.
  { intros i Hi. below i Hi; [exists 1%Z | exists 2%Z]; reflexivity. }
  split. { unfold FIRuncFilter. simpl fast_path. cbv iota. change (alen ex_y) with 2%nat. rewrite Hok. reflexivity. }
  split; [exact H'|]. exists 0%nat. split; [lia|].
  assert (Ht : Rtrunc (Rsqr (/2)) = 0).
  { unfold Rtrunc. destruct (Rle_dec 0 (Rsqr (/2))) as [_|Hn]; [|exfalso; apply Hn; apply Rle_0_sqr].
    replace (Int_part (Rsqr (/2))) with 0%Z; [reflexivity|]. symmetry.
    unfold Int_part. replace (up (Rsqr (/2))) with 1%Z; [reflexivity|]. apply tech_up; unfold Rsqr; lra. }
  split.
  - unfold vmap; cbn [aget]. rewrite F by lia. unfold ext_var, continued, vec_or_zero, full_like; simpl.
    rewrite !Ht. replace (0 + _ + _) with 0 by lra. rewrite Rabs_R0. apply sqrt_0.
  - rewrite F' by lia. apply sqrt_lt_R0. unfold point_var, continued. simpl.
    rewrite Rabs_pos_eq; lra.
Qed.
(** What does hold: the estimate (C01_fir_estimate) does not depend on the element type, nor
    does the full covariance. *)
Theorem C82_full_result_partial : forall ydt tdt y sn theta Ut shift blow kind,
  FIRuncFilter ydt tdt y sn theta Ut shift blow kind true =
  FIRuncFilter DFloat DFloat y sn theta Ut shift blow kind true.
Proof. reflexivity. Qed.
Print Assumptions C82_integer_arrays_refuted.
Print Assumptions C82_full_result_partial.
