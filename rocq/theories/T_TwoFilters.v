(** Filters applied one after another (C167).  Model: M_Filter.v (FIRuncFilter), M_SigClass.v (Signal.apply_filter).
    Vocabulary: S_Filter.v, one_filter (T_Assoc.v). *)
From Coq Require Import String.
From Coq Require Import Reals List Arith ZArith Bool Lia Lra Psatz Permutation.
From Verif Require Import Base Sums Stats StatsFacts M_Filter S_Filter S_Conv P_Filter P_Filter2 P_Filter3 P_Conv
  M_MC S_MC S_MC2 P_MC P_MC2 P_MC3 P_MC4 M_SigClass T_Filter T_MC3 T_Assoc T_SigClass.
Import ListNotations.
Open Scope R_scope.
Local Notation length := Datatypes.length.

Lemma fir_value_cascade (y b1 b2 b12 : vec) n1 n2 i : (1 <= alen y)%nat -> alen b1 = n1 -> alen b2 = n2 -> (2 <= n1)%nat -> (2 <= n2)%nat ->
  one_filter n1 n2 b1 b2 b12 -> (i < alen y)%nat ->
  fir_value b2 (mkArr (alen y) (fir_value b1 y)) i = fir_value b12 y i.
Proof.
  intros Hy H1 H2 Hn1 Hn2 H12 Hi.
  destruct (C148_cascade_partial DFloat DFloat y (NsFloat 0) b1 b2 b12 "diag" (alen y) n1 n2) as (x & U & x' & U' & E & E' & [_ V] & _); auto; [exact I|].
  destruct (C01_fir_estimate _ _ _ _ _ _ _ _ _ _ _ E) as [L X]. destruct (C01_fir_estimate _ _ _ _ _ _ _ _ _ _ _ E') as [L' X'].
  rewrite <- X, <- X' by assumption. apply V. rewrite L. exact Hi.
Qed.
Lemma fir_value_ext b (x x' : vec) n i : (1 <= n)%nat -> (i < n)%nat -> (forall k, (k < n)%nat -> x k = x' k) -> fir_value b x i = fir_value b x' i.
Proof.
  intros Hn Hi H. unfold fir_value. apply rsum_ext. intros k Hk. destruct (k <=? i)%nat eqn:E; rewrite H by lia; reflexivity.
Qed.

(** Two calls of FIRuncFilter, whatever uncertainties they are given, return the values of the single call with the convolved filter. *)
Theorem C167_values : forall ydt tdt y sn1 b1 U1 k1 f1 x1 u1 sn2 b2 U2 k2 f2 x2 u2 sn3 b12 U3 k3 f3 x3 u3 n1 n2,
  alen b1 = n1 -> alen b2 = n2 -> (2 <= n1)%nat -> (2 <= n2)%nat -> one_filter n1 n2 b1 b2 b12 -> (1 <= alen y)%nat ->
  FIRuncFilter ydt tdt y sn1 b1 U1 0 None k1 f1 = Ok (x1, u1) ->
  FIRuncFilter ydt tdt x1 sn2 b2 U2 0 None k2 f2 = Ok (x2, u2) ->
  FIRuncFilter ydt tdt y sn3 b12 U3 0 None k3 f3 = Ok (x3, u3) ->
  veq x2 x3.
Proof.
  intros ydt tdt y sn1 b1 U1 k1 f1 x1 u1 sn2 b2 U2 k2 f2 x2 u2 sn3 b12 U3 k3 f3 x3 u3 n1 n2 H1 H2 Hn1 Hn2 H12 Hy E1 E2 E3.
  destruct (C01_fir_estimate _ _ _ _ _ _ _ _ _ _ _ E1) as [L1 V1].
  destruct (C01_fir_estimate _ _ _ _ _ _ _ _ _ _ _ E2) as [L2 V2].
  destruct (C01_fir_estimate _ _ _ _ _ _ _ _ _ _ _ E3) as [L3 V3].
  split; [congruence|]. intros i Hi. rewrite V2, V3 by lia.
  rewrite <- (fir_value_cascade y b1 b2 b12 n1 n2) by (auto; lia).
  apply (fir_value_ext b2 _ _ (alen y)); try lia. intros k Hk. cbn [aget]. now apply V1.
Qed.
(** The same for a Signal and its method apply_filter. *)
Theorem C167_signal_values : forall stable me theta z bdt dr s b1 fu1 b2 fu2 b12 fu3 r1 r2 r3 s1 s2 s3 x n1 n2,
  alen b1 = n1 -> alen b2 = n2 -> (2 <= n1)%nat -> (2 <= n2)%nat -> one_filter n1 n2 b1 b2 b12 ->
  sg_values s = Some x -> (1 <= alen x)%nat ->
  apply_filter stable me theta z bdt dr s b1 DenNum fu1 r1 = Ok s1 ->
  apply_filter stable me theta z bdt dr s1 b2 DenNum fu2 r2 = Ok s2 ->
  apply_filter stable me theta z bdt dr s b12 DenNum fu3 r3 = Ok s3 ->
  exists x2 x3, sg_values s2 = Some x2 /\ sg_values s3 = Some x3 /\ veq x2 x3 /\ sg_time s2 = sg_time s3.
Proof.
  intros stable me theta z bdt dr s b1 fu1 b2 fu2 b12 fu3 r1 r2 r3 s1 s2 s3 x n1 n2 H1 H2 Hn1 Hn2 H12 Hx Hn E1 E2 E3.
  destruct (C80_fir_partial _ _ _ _ _ _ _ _ _ _ _ _ Hx E1) as (x1 & u1 & Hx1 & _ & L1 & T1 & V1).
  destruct (C80_fir_partial _ _ _ _ _ _ _ _ _ _ _ _ Hx1 E2) as (x2 & u2 & Hx2 & _ & L2 & T2 & V2).
  destruct (C80_fir_partial _ _ _ _ _ _ _ _ _ _ _ _ Hx E3) as (x3 & u3 & Hx3 & _ & L3 & T3 & V3).
  exists x2, x3. split; [exact Hx2|]. split; [exact Hx3|]. split; [|congruence].
  split; [congruence|]. intros i Hi. rewrite V2, V3 by lia.
  rewrite <- (fir_value_cascade x b1 b2 b12 n1 n2) by (auto; lia).
  apply (fir_value_ext b2 _ _ (alen x)); try lia. intros k Hk. cbn [aget]. now apply V1.
Qed.

(** White noise of standard deviation sigma.  In two steps: sigma times the product of the norms of the filters; in one step: sigma times the norm of their
    convolution. *)
Lemma white_pointwise y s b kind n N : alen y = n -> alen b = N -> (1 <= n)%nat -> (2 <= N)%nat ->
  fast_noise n s kind -> (forall k, (k < n)%nat -> point_std s k = point_std s 0) ->
  exists x u, FIRuncFilter DFloat DFloat y s b UtNone 0 None kind false = Ok (x, PointU u) /\ alen x = n /\ alen u = n /\
    forall i, (i < n)%nat -> u i = Rabs (point_std s 0) * sqrt (rsum N (fun a => b a ^ 2)).
Proof.
  intros Hy Hb Hn HN Hs Hc.
  destruct (FIR_fast y s b UtNone 0 kind n N) as (x & u & E & Lx & Lu & _ & V); auto; [exact I|].
  exists x, u. split; [exact E|]. split; [exact Lx|]. split; [exact Lu|]. intros i Hi. rewrite V by assumption.
  set (c := point_std s 0) in *. unfold point_var. cbn [coeff_std].
  rewrite (rsum_ext N _ (fun a => (c * c) * b a ^ 2)).
  2:{ intros a Ha. unfold continued at 1 3. destruct (Nat.ltb_spec (i + (N - 1) - a) (N - 1)); [fold c; ring|]. rewrite Hc by lia. ring. }
  rewrite rsum_scal.
  assert (P : 0 <= rsum N (fun a => b a ^ 2)) by (apply rsum_nonneg; intros; apply pow2_ge_0).
  rewrite Rabs_right by (apply Rle_ge; apply Rmult_le_pos; [nra|exact P]). rewrite sqrt_mult by (nra || exact P). f_equal.
  change (c * c) with (Rsqr c). apply sqrt_Rsqr_abs.
Qed.
Theorem C167_white_noise_partial : forall y sigma b1 b2 b12 n1 n2,
  alen b1 = n1 -> alen b2 = n2 -> (2 <= n1)%nat -> (2 <= n2)%nat -> one_filter n1 n2 b1 b2 b12 -> (1 <= alen y)%nat -> 0 <= sigma ->
  exists x1 u1 x2 u2 x3 u3,
    FIRuncFilter DFloat DFloat y (NsFloat sigma) b1 UtNone 0 None "corr" false = Ok (x1, PointU u1) /\
    FIRuncFilter DFloat DFloat x1 (NsVec u1) b2 UtNone 0 None "diag" false = Ok (x2, PointU u2) /\
    FIRuncFilter DFloat DFloat y (NsFloat sigma) b12 UtNone 0 None "corr" false = Ok (x3, PointU u3) /\
    forall i, (i < alen y)%nat ->
      u2 i = sigma * sqrt (rsum n1 (fun a => b1 a ^ 2)) * sqrt (rsum n2 (fun a => b2 a ^ 2)) /\
      u3 i = sigma * sqrt (rsum (n1 + n2 - 1) (fun k => full_conv n1 n2 b1 b2 k ^ 2)).
Proof.
  intros y sigma b1 b2 b12 n1 n2 H1 H2 Hn1 Hn2 [L12 H12] Hy Hs.
  destruct (white_pointwise y (NsFloat sigma) b1 "corr" (alen y) n1) as (x1 & u1 & E1 & Lx1 & Lu1 & V1); auto; [exact I|].
  cbn [point_std] in V1.
  destruct (white_pointwise x1 (NsVec u1) b2 "diag" (alen y) n2) as (x2 & u2 & E2 & _ & _ & V2); auto.
  { split; auto. }
  { intros k Hk. cbn [point_std]. rewrite !V1 by lia. reflexivity. }
  destruct (white_pointwise y (NsFloat sigma) b12 "corr" (alen y) (n1 + n2 - 1)) as (x3 & u3 & E3 & _ & _ & V3); auto; [lia|exact I|].
  cbn [point_std] in V2, V3.
  exists x1, u1, x2, u2, x3, u3. split; [exact E1|]. split; [exact E2|]. split; [exact E3|]. intros i Hi.
  rewrite V2, V3, V1 by lia. rewrite !(Rabs_right sigma) by lra.
  split.
  - rewrite Rabs_right; [reflexivity|]. apply Rle_ge, Rmult_le_pos; [exact Hs|apply sqrt_pos].
  - f_equal. f_equal. apply rsum_ext. intros k Hk. rewrite H12 by exact Hk. reflexivity.
Qed.
(** Twice the average of two neighbours: sigma/2 in two steps, but sigma sqrt 6 / 4 is right; average and difference: too much in two steps. *)
Theorem C167_pointwise_refuted : exists y b1 b2 b12 x1 u1 x2 u2 x3 u3,
  one_filter 2 2 b1 b2 b12 /\
  FIRuncFilter DFloat DFloat y (NsFloat 1) b1 UtNone 0 None "corr" false = Ok (x1, PointU u1) /\
  FIRuncFilter DFloat DFloat x1 (NsVec u1) b2 UtNone 0 None "diag" false = Ok (x2, PointU u2) /\
  FIRuncFilter DFloat DFloat y (NsFloat 1) b12 UtNone 0 None "corr" false = Ok (x3, PointU u3) /\
  u2 1%nat ^ 2 = 1 / 4 /\ u3 1%nat ^ 2 = 3 / 8.
Proof.
  set (b := of_list [1/2; 1/2]). set (b12 := of_list [1/4; 1/2; 1/4]). set (y := of_list [1; 2; 5]).
  assert (H12 : one_filter 2 2 b b b12).
  { split; [reflexivity|]. intros [|[|[|k]]] Hk; [| | |lia]; cbv -[Rplus Rmult Rdiv Rinv IZR]; lra. }
  destruct (C167_white_noise_partial y 1 b b b12 2 2) as (x1 & u1 & x2 & u2 & x3 & u3 & E1 & E2 & E3 & V); auto; try (cbn; lia); try lra.
  exists y, b, b, b12, x1, u1, x2, u2, x3, u3. split; [exact H12|]. split; [exact E1|]. split; [exact E2|]. split; [exact E3|].
  destruct (V 1%nat) as [-> ->]; [cbn; lia|].
  assert (S1 : rsum 2 (fun a => b a ^ 2) = 1/2) by (cbn; lra).
  assert (S2 : rsum (2 + 2 - 1) (fun k => full_conv 2 2 b b k ^ 2) = 3/8).
  { transitivity (rsum 3 (fun k => b12 k ^ 2)); [apply rsum_ext; intros k Hk; destruct H12 as [_ H]; rewrite H by exact Hk; reflexivity|]. cbn. lra. }
  rewrite S1, S2. split.
  - rewrite Rmult_1_l, Rpow_mult_distr, pow2_sqrt by lra. lra.
  - rewrite Rmult_1_l, pow2_sqrt by lra. lra.
Qed.
(** With the full covariance passed on, two steps give the result of one, up to covariances across the beginning (C148). *)
Theorem C167_full_covariance_partial : forall ydt tdt y sn b1 b2 b12 kind n n1 n2,
  alen y = n -> alen b1 = n1 -> alen b2 = n2 -> (1 <= n)%nat -> (2 <= n1)%nat -> (2 <= n2)%nat ->
  one_filter n1 n2 b1 b2 b12 -> noise_fits n sn kind ->
  exists x1 U1 x2 U2 x3 U3,
    FIRuncFilter ydt tdt y sn b1 UtNone 0 None kind true = Ok (x1, FullU U1) /\
    FIRuncFilter ydt tdt x1 (NsMat U1) b2 UtNone 0 None kind true = Ok (x2, FullU U2) /\
    FIRuncFilter ydt tdt y sn b12 UtNone 0 None kind true = Ok (x3, FullU U3) /\
    forall i j, (i < n)%nat -> (j < n)%nat ->
      (n2 - 1 <= i /\ n2 - 1 <= j)%nat \/ (i + n2 <= n + j /\ j + n2 <= n + i)%nat -> U2 i j = U3 i j.
Proof.
  intros ydt tdt y sn b1 b2 b12 kind n n1 n2 Hy H1 H2 Hn Hn1 Hn2 H12 Hs.
  destruct (C02_fir_lowpass_cascade ydt tdt y sn b2 UtNone kind b1 n n2) as (yl & Ul & x & U & El & Ex & E); auto; try lia; [exact I|].
  destruct (C148_cascade_partial ydt tdt y sn b1 b2 b12 kind n n1 n2) as (x2 & U2 & x3 & U3 & E2 & E3 & _ & _ & _ & _ & _ & V); auto.
  assert (X : Ok (x, FullU U) = Ok (x2, FullU U2)) by congruence. injection X as <- <-.
  exists yl, Ul, x, U, x3, U3. auto.
Qed.

Example C167_example : exists x1 u1 x2 u2 x3 u3,
  FIRuncFilter DFloat DFloat (of_list [1; 2; 5]) (NsFloat 2) (of_list [1; 1]) UtNone 0 None "corr" false = Ok (x1, PointU u1) /\
  FIRuncFilter DFloat DFloat x1 (NsVec u1) (of_list [1; -1]) UtNone 0 None "diag" false = Ok (x2, PointU u2) /\
  FIRuncFilter DFloat DFloat (of_list [1; 2; 5]) (NsFloat 2) (of_list [1; 0; -1]) UtNone 0 None "corr" false = Ok (x3, PointU u3) /\
  x2 2%nat = 4 /\ x3 2%nat = 4.
Proof.
  assert (H12 : one_filter 2 2 (of_list [1; 1]) (of_list [1; -1]) (of_list [1; 0; -1])).
  { split; [reflexivity|]. intros [|[|[|k]]] Hk; [| | |lia]; cbv -[Rplus Rmult IZR]; ring. }
  destruct (C167_white_noise_partial (of_list [1; 2; 5]) 2 (of_list [1; 1]) (of_list [1; -1]) (of_list [1; 0; -1]) 2 2) as (x1 & u1 & x2 & u2 & x3 & u3 & E1 & E2 & E3 & V); auto; try (cbn; lia); try lra.
  exists x1, u1, x2, u2, x3, u3. split; [exact E1|]. split; [exact E2|]. split; [exact E3|].
  destruct (C01_fir_estimate _ _ _ _ _ _ _ _ _ _ _ E3) as [L3 V3].
  assert (X3 : x3 2%nat = 4) by (rewrite V3 by (cbn; lia); unfold fir_value; cbn; lra).
  split; [|exact X3].
  assert (VV : veq x2 x3) by (eapply C167_values with (n1 := 2%nat) (n2 := 2%nat); [| | | |exact H12| |exact E1|exact E2|exact E3]; cbn; lia).
  destruct VV as [L W].
  rewrite W; [exact X3|]. rewrite L, L3. cbn. lia.
Qed.
Example C167_signal_example : exists s1 s2 s3,
  let s := mkSig (of_list [0; 1]) (Some (of_list [1; 2])) (Num 1) (Num 1) (SuVec (of_list [0; 0])) in
  let f := apply_filter (fun _ _ => true) (fun _ => 1) (fun _ => of_list []) (fun _ => of_list []) DFloat 10 in
  f s (of_list [1; 1]) DenNum UtNone RunsOther = Ok s1 /\ f s1 (of_list [1; -1]) DenNum UtNone RunsOther = Ok s2 /\
  f s (of_list [1; 0; -1]) DenNum UtNone RunsOther = Ok s3.
Proof.
  assert (R : forall s x u b, sg_values s = Some x -> sg_unc s = SuVec u -> alen x = 2%nat -> alen u = 2%nat -> (2 <= alen b)%nat ->
    exists s' x' u', apply_filter (fun _ _ => true) (fun _ => 1) (fun _ => of_list []) (fun _ => of_list []) DFloat 10 s b DenNum UtNone RunsOther = Ok s' /\
      sg_values s' = Some x' /\ sg_unc s' = SuVec u' /\ alen x' = 2%nat /\ alen u' = 2%nat).
  { intros s x u b Hx Hu Lx Lu Lb. rewrite (apply_fir _ _ _ _ _ _ s b UtNone x u Hx Hu).
    destruct (FIR_general DFloat DFloat x (NsVec u) b UtNone "corr" 2 (alen b)) as (x' & U & E & Lx' & R1 & R2 & _); auto; [right; reflexivity|exact I|].
    rewrite (FIR_point_of_full DFloat DFloat x (NsVec u) b UtNone 0 None "corr" eq_refl), E. cbn [bind]. eexists _, _, _. split; [reflexivity|].
    cbn [sg_values sg_unc]. split; [reflexivity|]. split; [reflexivity|]. split; [exact Lx'|exact R1]. }
  set (s := mkSig (of_list [0; 1]) (Some (of_list [1; 2])) (Num 1) (Num 1) (SuVec (of_list [0; 0]))).
  destruct (R s _ _ (of_list [1; 1]) eq_refl eq_refl eq_refl eq_refl (le_n 2)) as (s1 & x1 & u1 & E1 & Hx1 & Hu1 & Lx1 & Lu1).
  destruct (R s1 _ _ (of_list [1; -1]) Hx1 Hu1 Lx1 Lu1 (le_n 2)) as (s2 & x2 & u2 & E2 & _).
  destruct (R s _ _ (of_list [1; 0; -1]) eq_refl eq_refl eq_refl eq_refl ltac:(cbn; lia)) as (s3 & x3 & u3 & E3 & _).
  exists s1, s2, s3. cbv zeta. auto.
Qed.
Print Assumptions C167_values.
Print Assumptions C167_signal_values.
Print Assumptions C167_white_noise_partial.
Print Assumptions C167_pointwise_refuted.
Print Assumptions C167_full_covariance_partial.
