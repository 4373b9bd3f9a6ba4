(** Lemmas behind C04-C10. *)
From Coq Require Import Reals List Arith ZArith Bool Lia Lra Psatz String.
From Verif Require Import Base Sums Stats StatsFacts M_Filter S_Filter P_Filter P_Filter2.
Import ListNotations.
Open Scope R_scope.

Lemma noise_pointwise_fast n sn kind : noise_pointwise n sn kind -> fast_noise n sn kind.
Proof. destruct sn; simpl; auto. Qed.
Lemma coeff_pointwise_fast N Ut : coeff_pointwise N Ut -> fast_coeff N Ut.
Proof. destruct Ut; simpl; auto. Qed.

Lemma sig_cov_pointwise n sn kind i j : noise_pointwise n sn kind ->
  sig_cov sn kind i j = if (i =? j)%nat then point_std sn i * point_std sn i else 0.
Proof.
  destruct sn; simpl; try contradiction; intros H.
  - destruct (i =? j)%nat; ring.
  - reflexivity.
  - destruct H as [-> _]. simpl. reflexivity.
Qed.
Lemma coeff_cov_pointwise N Ut i j : coeff_pointwise N Ut ->
  coeff_cov Ut i j = if (i =? j)%nat then coeff_std Ut i * coeff_std Ut i else 0.
Proof.
  destruct Ut; simpl; try contradiction; intros H.
  - destruct (i =? j)%nat; ring.
  - reflexivity.
Qed.

Lemma point_var_nonneg theta xt ut u N i : (forall a, 0 <= ut a) -> (forall a, 0 <= u a) ->
  0 <= point_var theta xt ut u N i.
Proof.
  intros H1 H2. unfold point_var. apply rsum_nonneg. intros a Ha.
  specialize (H1 a). pose proof (H2 (i + (N - 1) - a)%nat) as H3.
  pose proof (Rle_0_sqr (theta a)). pose proof (Rle_0_sqr (xt (i + (N - 1) - a)%nat)). unfold Rsqr in *.
  assert (0 <= theta a * theta a * u (i + (N - 1) - a)%nat) by nra.
  assert (0 <= ut a * (xt (i + (N - 1) - a)%nat * xt (i + (N - 1) - a)%nat)) by nra.
  assert (0 <= ut a * u (i + (N - 1) - a)%nat) by nra. lra.
Qed.

Lemma continued_nonneg p h u k : 0 <= h -> (forall a, 0 <= u a) -> 0 <= continued p h u k.
Proof. intros. unfold continued. destruct (k <? p)%nat; auto. Qed.

Lemma sqr_nonneg x : 0 <= x * x.
Proof. pose proof (Rle_0_sqr x). unfold Rsqr in *. lra. Qed.

Lemma psd_diagonal n (u : nat -> R) : (forall i, (i < n)%nat -> 0 <= u i) ->
  psd n (fun i j => if (i =? j)%nat then u i else 0).
Proof.
  intros H. split.
  - intros i j Hi Hj. destruct (Nat.eqb_spec i j), (Nat.eqb_spec j i); try congruence; try lia; reflexivity.
  - intros v. unfold quad. apply rsum_nonneg. intros i Hi.
    rewrite (rsum_single n i); auto.
    + rewrite Nat.eqb_refl. specialize (H i Hi). pose proof (sqr_nonneg (v i)). nra.
    + intros j Hj Hne. destruct (Nat.eqb_spec i j); [lia|ring].
Qed.

Lemma fast_general_agree y sn theta Ut kind kind' n N :
  alen y = n -> alen theta = N -> (1 <= n)%nat -> (2 <= N)%nat ->
  noise_pointwise n sn kind -> coeff_pointwise N Ut ->
  exists x u x' U,
    FIRuncFilter DFloat DFloat y sn theta Ut 0 None kind false = Ok (x, PointU u) /\
    FIRuncFilter DFloat DFloat y (NsMat (mkMat n n (sig_cov sn kind))) theta
      (UtMat (mkMat N N (coeff_cov Ut))) 0 None kind' true = Ok (x', FullU U) /\
    alen u = n /\ mrows U = n /\ mcols U = n /\
    forall i, (i < n)%nat -> x i = x' i /\ 0 <= U i i /\ u i = sqrt (U i i).
Proof.
  intros Hy Ht Hn HN Hsn HUt.
  destruct (FIR_fast y sn theta Ut 0 kind n N) as [x [u [H1 [Lx [Lu [Ex Eu]]]]]]; auto using
    noise_pointwise_fast, coeff_pointwise_fast.
  destruct (FIR_general DFloat DFloat y (NsMat (mkMat n n (sig_cov sn kind))) theta
     (UtMat (mkMat N N (coeff_cov Ut))) kind' n N) as [x' [U [H2 [Lx' [Ur [Uc [Ex' EU]]]]]]]; auto.
  { simpl; auto. } { simpl; auto. }
  exists x, u, x', U. repeat (split; [assumption|]). intros i Hi. split; [rewrite Ex, Ex'; auto|].
  assert (HU : U i i = point_var theta (continued (N - 1) (y 0%nat) y)
                    (fun a => coeff_std Ut a * coeff_std Ut a)
                    (continued (N - 1) (point_std sn 0 * point_std sn 0)
                       (fun k => point_std sn k * point_std sn k)) N i).
  { rewrite EU by assumption. unfold point_var. apply gen_cov_diag; auto.
    - intros a b Ha Hb.
      rewrite <- (stat_cont_diag n (N - 1) (fun k => point_std sn k * point_std sn k)) by assumption.
      apply stat_cont_ext; auto.
      intros c d Hc Hd. simpl. now apply sig_cov_pointwise with n.
    - intros a b Ha Hb. simpl. now apply coeff_cov_pointwise with N. }
  assert (Hp : 0 <= U i i).
  { rewrite HU. apply point_var_nonneg; [intros; apply sqr_nonneg|]. intros a.
    apply continued_nonneg; intros; apply sqr_nonneg. }
  split; [assumption|]. rewrite Eu by assumption. rewrite <- HU, Rabs_pos_eq by assumption. reflexivity.
Qed.

(** ** C02 for the efficient path *)
Lemma fast_exact y sn theta Ut kind n N (dx dt : dist (nat -> R)) :
  alen y = n -> alen theta = N -> (1 <= n)%nat -> (2 <= N)%nat ->
  noise_pointwise n sn kind -> coeff_pointwise N Ut ->
  is_prob dx -> is_prob dt ->
  has_mean (n + (N - 1)) dx (continued (N - 1) (y 0%nat) y) ->
  has_cov (n + (N - 1)) dx (stat_cont n (N - 1) (sig_cov sn kind)) ->
  has_mean N dt theta -> has_cov N dt (coeff_cov Ut) ->
  exists x u, FIRuncFilter DFloat DFloat y sn theta Ut 0 None kind false = Ok (x, PointU u) /\
    alen x = n /\ alen u = n /\
    forall i, (i < n)%nat ->
      x i = Ex (indep dx dt) (fun o => fir_outcome N (snd o) (fst o) i) /\
      0 <= u i /\
      u i * u i = Cov (indep dx dt) (fun o => fir_outcome N (snd o) (fst o) i)
                                    (fun o => fir_outcome N (snd o) (fst o) i).
Proof.
  intros Hy Ht Hn HN Hsn HUt P1 P2 M1 C1 M2 C2.
  destruct (fast_general_agree y sn theta Ut kind kind n N)
    as [x [u [x' [U [H1 [H2 [Lu [Ur [Uc HH]]]]]]]]]; auto.
  destruct (FIR_general DFloat DFloat y (NsMat (mkMat n n (sig_cov sn kind))) theta
     (UtMat (mkMat N N (coeff_cov Ut))) kind n N) as [x2 [U2 [H2' [Lx' [Ur' [Uc' [Ex' EU]]]]]]]; auto.
  { simpl; auto. } { simpl; auto. }
  rewrite H2 in H2'. inversion H2'; subst x2 U2; clear H2'.
  exists x, u. split; [assumption|].
  pose proof (FIRuncFilter_estimate _ _ _ _ _ _ _ _ _ _ _ _ H1) as [_ [_ [Lx _]]].
  split; [congruence|]. split; [assumption|]. intros i Hi. destruct (HH i Hi) as [E1 [E2 E3]].
  split.
  { rewrite (fir_mean_exact n N theta (continued (N - 1) (y 0%nat) y)) by (auto; lia).
    rewrite E1, Ex' by assumption. rewrite <- Ht. symmetry. apply fir_outcome_value. lia. }
  rewrite E3. split; [apply sqrt_pos|]. rewrite sqrt_sqrt by assumption.
  rewrite (gen_cov_exact n N theta (continued (N - 1) (y 0%nat) y) Ut
     (stat_cont n (N - 1) (sig_cov sn kind)) dx dt i i Hi Hi) by (auto; lia).
  rewrite EU by assumption. reflexivity.
Qed.

(** ** C09 *)
Lemma sig_cov_scale c sn kind i j : sig_cov (scale_noise c kind sn) kind i j = c * c * sig_cov sn kind i j.
Proof.
  assert (Hc : Rabs c * Rabs c = c * c).
  { unfold Rabs. destruct (Rcase_abs c); ring. }
  destruct sn; simpl; try ring.
  - destruct (i =? j)%nat; [|ring]. replace (Rabs c * s * (Rabs c * s)) with (Rabs c * Rabs c * (s * s)) by ring.
    rewrite Hc. ring.
  - destruct (kind =? "diag")%string eqn:Hk; simpl; rewrite Hk.
    + destruct (i =? j)%nat; [|ring].
      replace (Rabs c * v i * (Rabs c * v i)) with (Rabs c * Rabs c * (v i * v i)) by ring. rewrite Hc; ring.
    + destruct (_ <? alen v)%nat; ring.
Qed.

Lemma noise_fits_scale c n sn kind : noise_fits n sn kind -> noise_fits n (scale_noise c kind sn) kind.
Proof.
  destruct sn; simpl; auto. destruct (kind =? "diag")%string; simpl; auto.
Qed.
Lemma noise_pointwise_scale c n sn kind : noise_pointwise n sn kind -> noise_pointwise n (scale_noise c kind sn) kind.
Proof. destruct sn; simpl; auto. destruct (kind =? "diag")%string; simpl; auto. Qed.

Lemma stat_cont_scale n p c U i j : stat_cont n p (fun a b => c * U a b) i j = c * stat_cont n p U i j.
Proof.
  unfold stat_cont. destruct (_ && _); [reflexivity|].
  destruct (j <=? i)%nat; match goal with |- context [if ?b then _ else _] => destruct b end; ring.
Qed.

Lemma fir_value_scale c theta y n : fir_value theta (scale_vec c y) n = c * fir_value theta y n.
Proof.
  unfold fir_value. rewrite <- rsum_scal. apply rsum_ext. intros k Hk. simpl.
  destruct (k <=? n)%nat; ring.
Qed.
Lemma fir_value_scale_theta c theta y n : fir_value (scale_vec c theta) y n = c * fir_value theta y n.
Proof.
  unfold fir_value. simpl. rewrite <- rsum_scal. apply rsum_ext. intros k Hk. ring.
Qed.

Lemma gen_cov_scale n N c theta xt Ut V i j :
  gen_cov n N theta (fun k => c * xt k) Ut (fun a b => c * c * V a b) i j = c * c * gen_cov n N theta xt Ut V i j.
Proof.
  unfold gen_cov. rewrite <- rsum_scal. apply rsum_ext. intros a Ha.
  rewrite <- rsum_scal. apply rsum_ext. intros b Hb. ring.
Qed.
Lemma gen_cov_scale_theta n N c theta xt V i j :
  gen_cov n N (fun k => c * theta k) xt UtNone V i j = c * c * gen_cov n N theta xt UtNone V i j.
Proof.
  unfold gen_cov. rewrite <- rsum_scal. apply rsum_ext. intros a Ha.
  rewrite <- rsum_scal. apply rsum_ext. intros b Hb. simpl. ring.
Qed.

Lemma homogeneous_full ydt tdt c y sn theta Ut kind n N :
  alen y = n -> alen theta = N -> (1 <= n)%nat -> (2 <= N)%nat ->
  noise_fits n sn kind -> coeff_matrix N Ut ->
  exists x U x' U',
    FIRuncFilter ydt tdt y sn theta Ut 0 None kind true = Ok (x, FullU U) /\
    FIRuncFilter ydt tdt (scale_vec c y) (scale_noise c kind sn) theta Ut 0 None kind true = Ok (x', FullU U') /\
    forall i j, (i < n)%nat -> (j < n)%nat -> x' i = c * x i /\ U' i j = c * c * U i j.
Proof.
  intros Hy Ht Hn HN Hns HUt.
  destruct (FIR_general ydt tdt y sn theta Ut kind n N) as [x [U [H1 [_ [_ [_ [E1 F1]]]]]]]; auto.
  destruct (FIR_general ydt tdt (scale_vec c y) (scale_noise c kind sn) theta Ut kind n N)
    as [x' [U' [H2 [_ [_ [_ [E2 F2]]]]]]]; auto using noise_fits_scale.
  exists x, U, x', U'. split; [assumption|]. split; [assumption|]. intros i j Hi Hj. split.
  - rewrite E1, E2 by assumption. apply fir_value_scale.
  - rewrite F1, F2 by assumption. rewrite <- gen_cov_scale. apply gen_cov_ext; auto; try lia.
    + intros k Hk. unfold continued. simpl. destruct (k <? N - 1)%nat; reflexivity.
    + intros a b Ha Hb. rewrite <- stat_cont_scale. apply stat_cont_ext; auto; try lia.
      intros. apply sig_cov_scale.
Qed.

Lemma homogeneous_theta_full ydt tdt c y sn theta kind n N :
  alen y = n -> alen theta = N -> (1 <= n)%nat -> (2 <= N)%nat -> noise_fits n sn kind ->
  exists x U x' U',
    FIRuncFilter ydt tdt y sn theta UtNone 0 None kind true = Ok (x, FullU U) /\
    FIRuncFilter ydt tdt y sn (scale_vec c theta) UtNone 0 None kind true = Ok (x', FullU U') /\
    forall i j, (i < n)%nat -> (j < n)%nat -> x' i = c * x i /\ U' i j = c * c * U i j.
Proof.
  intros Hy Ht Hn HN Hns.
  destruct (FIR_general ydt tdt y sn theta UtNone kind n N) as [x [U [H1 [_ [_ [_ [E1 F1]]]]]]]; simpl; auto.
  destruct (FIR_general ydt tdt y sn (scale_vec c theta) UtNone kind n N)
    as [x' [U' [H2 [_ [_ [_ [E2 F2]]]]]]]; simpl; auto.
  exists x, U, x', U'. split; [assumption|]. split; [assumption|]. intros i j Hi Hj. split.
  - rewrite E1, E2 by assumption. apply fir_value_scale_theta.
  - rewrite F1, F2 by assumption. rewrite <- gen_cov_scale_theta. apply gen_cov_ext; auto; lia.
Qed.

Lemma point_std_scale c sn kind n i : noise_pointwise n sn kind ->
  point_std (scale_noise c kind sn) i = Rabs c * point_std sn i.
Proof.
  destruct sn; simpl; try contradiction; intros; try ring.
  destruct H as [-> _]. simpl. reflexivity.
Qed.

Lemma sqrt_abs_scale c v : sqrt (Rabs (c * c * v)) = Rabs c * sqrt (Rabs v).
Proof.
  rewrite Rabs_mult. rewrite (Rabs_pos_eq (c * c)) by apply sqr_nonneg.
  rewrite sqrt_mult by (apply sqr_nonneg || apply Rabs_pos). f_equal.
  replace (c * c) with (Rsqr c) by reflexivity. apply sqrt_Rsqr_abs.
Qed.

Lemma homogeneous_point c y sn theta Ut kind n N :
  alen y = n -> alen theta = N -> (1 <= n)%nat -> (2 <= N)%nat ->
  noise_pointwise n sn kind -> coeff_pointwise N Ut ->
  exists x u x' u',
    FIRuncFilter DFloat DFloat y sn theta Ut 0 None kind false = Ok (x, PointU u) /\
    FIRuncFilter DFloat DFloat (scale_vec c y) (scale_noise c kind sn) theta Ut 0 None kind false = Ok (x', PointU u') /\
    forall i, (i < n)%nat -> x' i = c * x i /\ u' i = Rabs c * u i.
Proof.
  intros Hy Ht Hn HN Hsn HUt.
  destruct (FIR_fast y sn theta Ut 0 kind n N) as [x [u [H1 [_ [_ [E1 F1]]]]]]; auto using
    noise_pointwise_fast, coeff_pointwise_fast.
  destruct (FIR_fast (scale_vec c y) (scale_noise c kind sn) theta Ut 0 kind n N) as [x' [u' [H2 [_ [_ [E2 F2]]]]]]; auto using
    noise_pointwise_fast, coeff_pointwise_fast, noise_pointwise_scale.
  exists x, u, x', u'. split; [assumption|]. split; [assumption|]. intros i Hi. split.
  - rewrite E1, E2 by assumption. apply fir_value_scale.
  - rewrite F1, F2 by assumption. rewrite <- sqrt_abs_scale. do 2 f_equal.
    unfold point_var. rewrite <- rsum_scal. apply rsum_ext. intros a Ha. unfold continued. simpl.
    assert (Hc : Rabs c * Rabs c = c * c).
    { unfold Rabs. destruct (Rcase_abs c); ring. }
    assert (Hs : forall k, point_std (scale_noise c kind sn) k * point_std (scale_noise c kind sn) k
                 = c * c * (point_std sn k * point_std sn k)).
    { intros k. rewrite (point_std_scale c sn kind n) by assumption. rewrite <- Hc. ring. }
    rewrite !Hs. destruct (_ <? _)%nat; ring.
Qed.

(** ** C10 *)
Lemma fir_value_causal theta (y y' : vec) m i : (forall k, (k <= m)%nat -> y k = y' k) -> (i <= m)%nat ->
  fir_value theta y i = fir_value theta y' i.
Proof.
  intros H Hi. unfold fir_value. apply rsum_ext. intros k Hk.
  rewrite (H 0%nat) by lia. destruct (Nat.leb_spec k i); [rewrite H by lia|]; reflexivity.
Qed.

Lemma continued_causal p h (x x' : nat -> R) m k : (forall k, (k <= m)%nat -> x k = x' k) ->
  (k <= m + p)%nat -> continued p h x k = continued p h x' k.
Proof. intros H Hk. unfold continued. destruct (Nat.ltb_spec k p); [reflexivity|]. apply H. lia. Qed.

Lemma gen_cov_causal N n theta (y y' u u' : nat -> R) Ut m i j :
  (forall k, (k <= m)%nat -> y k = y' k) -> (forall k, (k <= m)%nat -> u k = u' k) ->
  (m < n)%nat -> (i <= m)%nat -> (j <= m)%nat -> (2 <= N)%nat ->
  gen_cov n N theta (continued (N - 1) (y 0%nat) y) Ut
     (stat_cont n (N - 1) (fun a b => if (a =? b)%nat then u a else 0)) i j =
  gen_cov n N theta (continued (N - 1) (y' 0%nat) y') Ut
     (stat_cont n (N - 1) (fun a b => if (a =? b)%nat then u' a else 0)) i j.
Proof.
  intros Hy Hu Hm Hi Hj HN. unfold gen_cov. apply rsum_ext. intros a Ha. apply rsum_ext. intros b Hb.
  rewrite !stat_cont_diag by lia. rewrite <- !Hy, <- !Hu by lia.
  rewrite (continued_causal (N - 1) (y 0%nat) y y' m) by (auto; lia).
  rewrite (continued_causal (N - 1) (y 0%nat) y y' m (j + (N - 1) - b)) by (auto; lia).
  rewrite (continued_causal (N - 1) (u 0%nat) u u' m) by (auto; lia). reflexivity.
Qed.

Lemma causal_full ydt tdt y y' sn sn' theta Ut kind n n' N m :
  alen y = n -> alen y' = n' -> alen theta = N -> (2 <= N)%nat -> (m < n)%nat -> (m < n')%nat ->
  noise_pointwise n sn kind -> noise_pointwise n' sn' kind -> sn <> NsNone -> sn' <> NsNone ->
  coeff_matrix N Ut ->
  (forall k, (k <= m)%nat -> y k = y' k) ->
  (forall k, (k <= m)%nat -> sig_cov sn kind k k = sig_cov sn' kind k k) ->
  exists x U x' U',
    FIRuncFilter ydt tdt y sn theta Ut 0 None kind true = Ok (x, FullU U) /\
    FIRuncFilter ydt tdt y' sn' theta Ut 0 None kind true = Ok (x', FullU U') /\
    forall i j, (i <= m)%nat -> (j <= m)%nat -> x i = x' i /\ U i j = U' i j.
Proof.
  intros Hy Hy' Ht HN Hm Hm' Hs Hs' Hne Hne' HU Heq Hseq.
  assert (F : noise_fits n sn kind). { destruct sn; simpl in *; auto; try tauto; congruence. }
  assert (F' : noise_fits n' sn' kind). { destruct sn'; simpl in *; auto; try tauto; congruence. }
  destruct (FIR_general ydt tdt y sn theta Ut kind n N) as [x [U [H1 [_ [_ [_ [E1 F1]]]]]]]; auto; [lia|].
  destruct (FIR_general ydt tdt y' sn' theta Ut kind n' N) as [x' [U' [H2 [_ [_ [_ [E2 F2]]]]]]]; auto; [lia|].
  exists x, U, x', U'. split; [assumption|]. split; [assumption|]. intros i j Hi Hj. split.
  - rewrite E1, E2 by lia. now apply fir_value_causal with m.
  - rewrite F1, F2 by lia.
    rewrite (gen_cov_ext n N theta theta _ (continued (N - 1) (y 0%nat) y) Ut _
       (stat_cont n (N - 1) (fun a b => if (a =? b)%nat then point_std sn a * point_std sn a else 0)) i j)
       by (auto; try lia; intros; apply stat_cont_ext; auto; try lia; intros; now apply sig_cov_pointwise with n).
    rewrite (gen_cov_ext n' N theta theta _ (continued (N - 1) (y' 0%nat) y') Ut _
       (stat_cont n' (N - 1) (fun a b => if (a =? b)%nat then point_std sn' a * point_std sn' a else 0)) i j)
       by (auto; try lia; intros; apply stat_cont_ext; auto; try lia; intros; now apply sig_cov_pointwise with n').
    assert (Hps : forall k, (k <= m)%nat -> point_std sn k * point_std sn k = point_std sn' k * point_std sn' k).
    { intros k Hk. specialize (Hseq k Hk). rewrite (sig_cov_pointwise n), (sig_cov_pointwise n') in Hseq by auto.
      now rewrite Nat.eqb_refl in Hseq. }
    rewrite (gen_cov_causal N n theta y y' _ (fun a => point_std sn' a * point_std sn' a) Ut m i j) by (auto; lia).
    unfold gen_cov. apply rsum_ext. intros a Ha. apply rsum_ext. intros b Hb.
    rewrite !stat_cont_diag by lia. reflexivity.
Qed.

Lemma causal_point y y' sn sn' theta Ut kind n n' N m :
  alen y = n -> alen y' = n' -> alen theta = N -> (2 <= N)%nat -> (m < n)%nat -> (m < n')%nat ->
  noise_pointwise n sn kind -> noise_pointwise n' sn' kind -> coeff_pointwise N Ut ->
  (forall k, (k <= m)%nat -> y k = y' k) ->
  (forall k, (k <= m)%nat -> sig_cov sn kind k k = sig_cov sn' kind k k) ->
  exists x u x' u',
    FIRuncFilter DFloat DFloat y sn theta Ut 0 None kind false = Ok (x, PointU u) /\
    FIRuncFilter DFloat DFloat y' sn' theta Ut 0 None kind false = Ok (x', PointU u') /\
    forall i, (i <= m)%nat -> x i = x' i /\ u i = u' i.
Proof.
  intros Hy Hy' Ht HN Hm Hm' Hs Hs' HU Heq Hseq.
  destruct (FIR_fast y sn theta Ut 0 kind n N) as [x [u [H1 [_ [_ [E1 F1]]]]]]; auto using
    noise_pointwise_fast, coeff_pointwise_fast; [lia|].
  destruct (FIR_fast y' sn' theta Ut 0 kind n' N) as [x' [u' [H2 [_ [_ [E2 F2]]]]]]; auto using
    noise_pointwise_fast, coeff_pointwise_fast; [lia|].
  exists x, u, x', u'. split; [assumption|]. split; [assumption|]. intros i Hi. split.
  - rewrite E1, E2 by lia. now apply fir_value_causal with m.
  - rewrite F1, F2 by lia. do 2 f_equal.
    assert (Hps : forall k, (k <= m)%nat -> point_std sn k * point_std sn k = point_std sn' k * point_std sn' k).
    { intros k Hk. specialize (Hseq k Hk). rewrite (sig_cov_pointwise n), (sig_cov_pointwise n') in Hseq by auto.
      now rewrite Nat.eqb_refl in Hseq. }
    apply (point_var_ext _ _ _ _ _ _ _ _ (S m)); auto; try lia; intros k Hk.
    + rewrite Heq by lia. apply continued_causal with m; auto; lia.
    + rewrite Hps by lia. apply continued_causal with m; auto; lia.
Qed.

(** ** C06: what a float Utheta means *)
Lemma float_utheta_sqrt y sn theta u shift kind n N : 0 <= u ->
  alen y = n -> alen theta = N -> (1 <= n)%nat -> (2 <= N)%nat -> noise_pointwise n sn kind ->
  exists x v x' v',
  FIRuncFilter DFloat DFloat y sn theta (UtFloat u) shift None kind false = Ok (x, PointU v) /\
  FIRuncFilter DFloat DFloat y sn theta (UtVec (mkArr N (fun _ => sqrt u))) shift None kind false = Ok (x', PointU v') /\
  forall i, (i < n)%nat -> x i = x' i /\ v i = v' i.
Proof.
  intros Hu Hy Ht Hn HN Hsn.
  assert (Hh : history_value y "constant" = Ok (y 0%nat)).
  { unfold history_value. simpl. destruct (Nat.eqb_spec (alen y) 0); [lia|reflexivity]. }
  assert (Hfp : forall k, fast_path sn (UtFloat u) None k false = fast_path sn (UtVec (mkArr N (fun _ => sqrt u))) None k false) by reflexivity.
  assert (Hf : fast_path sn (UtVec (mkArr N (fun _ => sqrt u))) None kind false = true).
  { apply (fast_path_true n N); [now apply noise_pointwise_fast| reflexivity]. }
  unfold FIRuncFilter. rewrite Hfp, Hf. cbv beta iota zeta.
  set (Uy := match sn with NsFloat s => _ | NsVec v => _ | _ => None end).
  assert (Hv : vshape_ok n Uy). { destruct sn; simpl in *; auto; tauto. }
  destruct (fir_filter_diag_closed y theta Uy (Some (full_like DFloat (alen theta) u)) "constant" (y 0%nat) n N)
    as [x [U [Hok [Lx [LU [E1 EU]]]]]]; auto.
  destruct (fir_filter_diag_closed y theta Uy (Some (vmap Rsqr (mkArr N (fun _ => sqrt u)))) "constant" (y 0%nat) n N)
    as [x' [U' [Hok' [Lx' [LU' [E1' EU']]]]]]; auto.
  { reflexivity. }
  rewrite Hok, Hok'. simpl bind. exists x, (vmap (fun v => sqrt (Rabs v)) U), x', (vmap (fun v => sqrt (Rabs v)) U').
  split; [reflexivity|]. split; [reflexivity|]. intros i Hi. split; [rewrite E1, E1'; auto|].
  simpl. rewrite EU, EU' by assumption. do 2 f_equal. apply rsum_ext. intros a Ha. simpl.
  unfold Rsqr. rewrite sqrt_sqrt by assumption. reflexivity.
Qed.

(** ** C08 *)
Lemma fir_filter_nonmatrix y theta Uy Ut n N :
  alen y = n -> alen theta = N -> (1 <= n)%nat -> (2 <= N)%nat ->
  mrows Uy = n -> mcols Uy = n ->
  match Ut with UtFloat _ | UtVec _ => True | _ => False end ->
  fir_filter y theta (Some Uy) Ut "constant" = Err ValueError.
Proof.
  intros Hy Ht Hn HN Hr Hc HU.
  destruct (fir_filter_const y theta Uy UtNone n N Hy Ht Hn HN Hr Hc I) as [x [U [Hok _]]].
  unfold fir_filter in *.
  destruct (history_value y "constant"); simpl bind in *; [|discriminate].
  destruct (lfilter_zi1 theta); simpl bind in *; [|discriminate].
  match goal with |- bind ?m _ = _ => destruct m end; simpl bind in *; [|discriminate].
  destruct Ut; try contradiction; reflexivity.
Qed.

Lemma fir_decision ydt tdt y sn theta Ut shift blow kind full n N :
  alen y = n -> alen theta = N -> (1 <= n)%nat -> (2 <= N)%nat ->
  (forall b, blow = Some b -> (2 <= alen b)%nat) ->
  noise_shape n sn kind -> coeff_fits N Ut ->
  match fir_table sn Ut (match blow with Some _ => true | None => false end) kind full with
  | None => exists r, FIRuncFilter ydt tdt y sn theta Ut shift blow kind full = Ok r
  | Some e => FIRuncFilter ydt tdt y sn theta Ut shift blow kind full = Err e
  end.
Proof.
  intros Hy Ht Hn HN Hb Hs HU.
  assert (Hh : history_value y "constant" = Ok (y 0%nat)).
  { unfold history_value. simpl. destruct (Nat.eqb_spec (alen y) 0); [lia|reflexivity]. }
  (* fast path succeeds *)
  assert (Fast : fast_path sn Ut blow kind full = true ->
     exists r, FIRuncFilter ydt tdt y sn theta Ut shift blow kind full = Ok r).
  { intros Hf. unfold FIRuncFilter. rewrite Hf.
    set (Uy := match sn with NsFloat s => _ | NsVec v => _ | _ => None end).
    set (Uth := match Ut with UtFloat u => _ | UtVec v => _ | _ => None end).
    destruct (fir_filter_diag_closed y theta Uy Uth "constant" (y 0%nat) n N) as [x [U [Hok _]]]; auto.
    - unfold Uy, fast_path in *. destruct sn; simpl in *; auto.
      destruct full; [discriminate|]. destruct Ut; try discriminate; destruct blow; try discriminate; simpl in Hf;
        rewrite orb_false_r in Hf; apply String.eqb_eq in Hf; auto.
    - unfold Uth. destruct Ut; simpl in *; auto.
    - rewrite Hok. simpl bind. eexists; reflexivity. }
  (* general path *)
  assert (Gen : fast_path sn Ut blow kind full = false -> noise_fits n sn kind ->
     if match Ut with UtMat _ | UtNone => true | _ => false end
     then exists r, FIRuncFilter ydt tdt y sn theta Ut shift blow kind full = Ok r
     else FIRuncFilter ydt tdt y sn theta Ut shift blow kind full = Err ValueError).
  { intros Hf Hfit. unfold FIRuncFilter. rewrite Hf.
    destruct (noise_cov_spec n sn kind Hfit) as [M [HM [Mr [Mc Me]]]].
    rewrite Hy, HM. simpl bind.
    destruct blow as [bl|].
    - specialize (Hb bl eq_refl).
      destruct (fir_filter_const y bl M UtNone n (alen bl) Hy eq_refl Hn Hb Mr Mc I)
        as [yl [Ul [Hokl [Lxl [Url [Ucl _]]]]]].
      rewrite Hokl. simpl bind.
      destruct Ut; try (rewrite (fir_filter_nonmatrix yl theta Ul _ n N) by (simpl; auto); reflexivity).
      + destruct (fir_filter_const yl theta Ul UtNone n N Lxl Ht Hn HN Url Ucl I) as [x [U [Hok _]]].
        rewrite Hok. simpl bind. destruct full; eexists; reflexivity.
      + destruct (fir_filter_const yl theta Ul (UtMat m) n N Lxl Ht Hn HN Url Ucl HU) as [x [U [Hok _]]].
        rewrite Hok. simpl bind. destruct full; eexists; reflexivity.
    - destruct Ut; try (rewrite (fir_filter_nonmatrix y theta M _ n N) by (simpl; auto); reflexivity).
      + destruct (fir_filter_const y theta M UtNone n N Hy Ht Hn HN Mr Mc I) as [x [U [Hok _]]].
        rewrite Hok. simpl bind. destruct full; eexists; reflexivity.
      + destruct (fir_filter_const y theta M (UtMat m) n N Hy Ht Hn HN Mr Mc HU) as [x [U [Hok _]]].
        rewrite Hok. simpl bind. destruct full; eexists; reflexivity. }
  assert (GenErr : forall e, fast_path sn Ut blow kind full = false -> noise_cov n sn kind = Err e ->
     FIRuncFilter ydt tdt y sn theta Ut shift blow kind full = Err e).
  { intros e Hf He. unfold FIRuncFilter. rewrite Hf, Hy, He. reflexivity. }
  destruct sn as [|s|v|m| |]; simpl.
  - destruct full, blow, Ut; simpl; try (apply GenErr; reflexivity); apply Fast; unfold fast_path; simpl; apply orb_true_r.
  - destruct full, blow, Ut; simpl;
     try (apply Fast; unfold fast_path; simpl; apply orb_true_r);
     try (apply (Gen eq_refl I)).
  - simpl in Hs. destruct (String.eqb_spec kind "diag").
    + subst kind.
      destruct full, blow, Ut; simpl;
       try (apply Fast; reflexivity);
       try (apply (Gen eq_refl (or_introl (conj eq_refl (Hs eq_refl))))).
    + assert (Hf : fast_path (NsVec v) Ut blow kind full = false).
      { unfold fast_path. apply String.eqb_neq in n0. rewrite n0. simpl. now rewrite andb_false_r. }
      destruct (String.eqb_spec kind "corr").
      * specialize (Gen Hf (or_intror e)). destruct Ut; simpl in *; exact Gen.
      * apply GenErr; [exact Hf|]. simpl. apply String.eqb_neq in n0, n1. rewrite n0, n1. reflexivity.
  - assert (Hf : fast_path (NsMat m) Ut blow kind full = false).
    { unfold fast_path. rewrite andb_false_r. reflexivity. }
    specialize (Gen Hf Hs). destruct Ut; simpl in *; exact Gen.
  - apply GenErr; [|reflexivity]. unfold fast_path. now rewrite andb_false_r.
  - apply GenErr; [|reflexivity]. unfold fast_path. now rewrite andb_false_r.
Qed.

(** ** C07 for white or point-wise noise *)
Lemma pointwise_psd ydt tdt y sn theta Ut kind n N :
  alen y = n -> alen theta = N -> (1 <= n)%nat -> (2 <= N)%nat ->
  noise_pointwise n sn kind -> sn <> NsNone -> coeff_matrix N Ut -> psd N (coeff_cov Ut) ->
  exists x U, FIRuncFilter ydt tdt y sn theta Ut 0 None kind true = Ok (x, FullU U) /\ psd n U.
Proof.
  intros Hy Ht Hn HN Hs Hne HU HP.
  assert (F : noise_fits n sn kind). { destruct sn; simpl in *; auto; try tauto; congruence. }
  destruct (FIR_general ydt tdt y sn theta Ut kind n N) as [x [U [H1 [_ [_ [_ [E1 F1]]]]]]]; auto.
  exists x, U. split; [assumption|].
  apply (psd_ext n (gen_cov n N theta (continued (N - 1) (y 0%nat) y) Ut (stat_cont n (N - 1) (sig_cov sn kind)))).
  { intros; now rewrite F1. }
  apply gen_cov_psd; auto; [lia|].
  apply (psd_ext _ (fun i j => if (i =? j)%nat then continued (N - 1) (point_std sn 0 * point_std sn 0)
                       (fun k => point_std sn k * point_std sn k) i else 0)).
  { intros i j Hi Hj.
    rewrite <- (stat_cont_diag n (N - 1) (fun k => point_std sn k * point_std sn k)) by (auto; lia).
    apply stat_cont_ext; auto; try lia.
    intros a b Ha Hb. symmetry. now apply sig_cov_pointwise with n. }
  apply psd_diagonal. intros. apply continued_nonneg; intros; apply sqr_nonneg.
Qed.
