(** Lemmas about FIRuncFilter: covariance of the general and the efficient path. *)
From Coq Require Import Reals List Arith ZArith Bool Lia Lra Psatz String.
From Verif Require Import Base Sums Stats StatsFacts M_Filter S_Filter P_Filter.
Import ListNotations.
Open Scope R_scope.

Lemma noise_cov_spec n sn kind : noise_fits n sn kind ->
  exists M, noise_cov n sn kind = Ok M /\ mrows M = n /\ mcols M = n /\
    forall i j, (i < n)%nat -> (j < n)%nat -> M i j = sig_cov sn kind i j.
Proof.
  intros H. destruct sn as [|s|v|m| |]; simpl in H; try contradiction.
  - eexists; split; [reflexivity|]. simpl. repeat split; auto.
  - destruct H as [[-> Hv]| ->].
    + eexists; split; [reflexivity|]. simpl. repeat split; auto.
    + eexists; split; [reflexivity|]. simpl. rewrite !trimOrPad_len. repeat split; auto.
      intros i j Hi Hj. destruct (Nat.leb_spec j i).
      * rewrite trimOrPad_get by lia. rewrite Nat.max_l, Nat.min_r by lia. reflexivity.
      * rewrite trimOrPad_get by lia. rewrite Nat.max_r, Nat.min_l by lia. reflexivity.
  - destruct H. eexists; split; [reflexivity|]. simpl. auto.
Qed.

Lemma stat_cont_ext n p U V i j : (1 <= n)%nat ->
  (forall a b, (a < n)%nat -> (b < n)%nat -> U a b = V a b) ->
  (i < n + p)%nat -> (j < n + p)%nat -> stat_cont n p U i j = stat_cont n p V i j.
Proof.
  intros Hn H Hi Hj. unfold stat_cont.
  destruct (Nat.leb_spec p i), (Nat.leb_spec p j); simpl andb; cbv iota; try (apply H; lia);
    destruct (Nat.leb_spec j i);
    match goal with |- context [(?a <? n)%nat] => destruct (Nat.ltb_spec a n) end;
    try reflexivity; apply H; lia.
Qed.

(** What the general path computes. *)
Definition gen_cov (n N : nat) (theta xt : nat -> R) (Ut : cunc) (V : nat -> nat -> R) (i j : nat) : R :=
  rsum N (fun a => rsum N (fun b =>
    theta a * theta b * V (i + (N - 1) - a)%nat (j + (N - 1) - b)%nat
    + coeff_cov Ut a b * (xt (i + (N - 1) - a)%nat * xt (j + (N - 1) - b)%nat)
    + coeff_cov Ut b a * V (i + (N - 1) - a)%nat (j + (N - 1) - b)%nat)).

Lemma fir_filter_const x theta Ux Ut n N :
  alen x = n -> alen theta = N -> (1 <= n)%nat -> (2 <= N)%nat ->
  mrows Ux = n -> mcols Ux = n -> ushape_ok N Ut ->
  exists y U, fir_filter x theta (Some Ux) Ut "constant" = Ok (y, U) /\
    alen y = n /\ mrows U = n /\ mcols U = n /\
    (forall i, (i < n)%nat -> y i = fir_value theta x i) /\
    (forall i j, (i < n)%nat -> (j < n)%nat ->
       U i j = gen_cov n N theta (continued (N - 1) (x 0%nat) x) Ut (stat_cont n (N - 1) Ux) i j).
Proof.
  intros Hx Ht Hn HN Hr Hc HUt.
  assert (Hh : history_value x "constant" = Ok (x 0%nat)).
  { unfold history_value. simpl. destruct (Nat.eqb_spec (alen x) 0); [lia|reflexivity]. }
  destruct (fir_filter_closed x theta (Some Ux) Ut "constant" (x 0%nat) n N)
    as [y [U [Hok [Ly [Rr [Rc [Ey EU]]]]]]]; auto.
  { simpl; auto. }
  exists y, U. repeat (split; [assumption|]). split.
  - intros i Hi. rewrite Ey by assumption. rewrite <- Ht. apply fir_outcome_value. lia.
  - intros i j Hi Hj. rewrite EU by assumption. unfold gen_cov, ext_cov. simpl.
    apply rsum_ext. intros a Ha. apply rsum_ext. intros b Hb.
    assert (Hco : forall a b, unc_or_zero Ut a b = coeff_cov Ut a b).
    { intros. destruct Ut; simpl in HUt; try contradiction; reflexivity. }
    rewrite !Hco. reflexivity.
Qed.

Lemma gen_cov_ext n N theta theta' xt xt' Ut V V' i j : (i < n)%nat -> (j < n)%nat -> (1 <= N)%nat ->
  (forall k, (k < N)%nat -> theta k = theta' k) ->
  (forall k, (k < n + (N - 1))%nat -> xt k = xt' k) ->
  (forall a b, (a < n + (N - 1))%nat -> (b < n + (N - 1))%nat -> V a b = V' a b) ->
  gen_cov n N theta xt Ut V i j = gen_cov n N theta' xt' Ut V' i j.
Proof.
  intros Hi Hj HN Hth Hx HV. unfold gen_cov. apply rsum_ext. intros a Ha. apply rsum_ext. intros b Hb.
  rewrite !Hth, !Hx, !HV by lia. reflexivity.
Qed.

(** General path, no low-pass. *)
Lemma FIR_general ydt tdt y sn theta Ut kind n N :
  alen y = n -> alen theta = N -> (1 <= n)%nat -> (2 <= N)%nat ->
  noise_fits n sn kind -> ushape_ok N Ut ->
  exists x U, FIRuncFilter ydt tdt y sn theta Ut 0 None kind true = Ok (x, FullU U) /\
    alen x = n /\ mrows U = n /\ mcols U = n /\
    (forall i, (i < n)%nat -> x i = fir_value theta y i) /\
    (forall i j, (i < n)%nat -> (j < n)%nat ->
       U i j = gen_cov n N theta (continued (N - 1) (y 0%nat) y) Ut
                 (stat_cont n (N - 1) (sig_cov sn kind)) i j).
Proof.
  intros Hy Ht Hn HN Hns HUt.
  destruct (noise_cov_spec n sn kind Hns) as [M [HM [Mr [Mc Me]]]].
  destruct (fir_filter_const y theta M Ut n N Hy Ht Hn HN Mr Mc HUt) as [x [U [Hok [Lx [Ur [Uc [Ex EU]]]]]]].
  exists x, U.
  assert (Hf : fast_path sn Ut None kind true = false) by reflexivity.
  unfold FIRuncFilter. rewrite Hf, Hy, HM. simpl bind. rewrite Hok. simpl bind.
  split; [reflexivity|]. repeat (split; [assumption|]).
  intros i j Hi Hj. rewrite EU by assumption. apply gen_cov_ext; auto; try lia.
  intros a b Ha Hb. apply stat_cont_ext; auto; lia.
Qed.

(** return_full_covariance only selects the presentation in the general path. *)
Lemma FIR_point_of_full ydt tdt y sn theta Ut shift blow kind :
  fast_path sn Ut blow kind false = false ->
  FIRuncFilter ydt tdt y sn theta Ut shift blow kind false =
  match FIRuncFilter ydt tdt y sn theta Ut shift blow kind true with
  | Ok (x, FullU U) => Ok (x, PointU (vmap (fun v => sqrt (Rabs v)) (diag_of U)))
  | Ok (x, PointU u) => Ok (x, PointU u)
  | Err e => Err e
  end.
Proof.
  intros Hf. unfold FIRuncFilter. rewrite Hf.
  assert (Hf' : fast_path sn Ut blow kind true = false) by reflexivity. rewrite Hf'.
  destruct (noise_cov (alen y) sn kind) as [M|e]; simpl bind; [|reflexivity].
  match goal with |- bind ?m _ = _ => destruct m as [[x1 U1]|e]; simpl bind; reflexivity end.
Qed.

(** Low-pass: cascade of two filterings. *)
Lemma FIR_cascade ydt tdt y sn theta Ut kind bl n N Nl :
  alen y = n -> alen theta = N -> alen bl = Nl -> (1 <= n)%nat -> (2 <= N)%nat -> (2 <= Nl)%nat ->
  noise_fits n sn kind -> ushape_ok N Ut ->
  exists ylow Ulow x U,
    FIRuncFilter ydt tdt y sn bl UtNone 0 None kind true = Ok (ylow, FullU Ulow) /\
    FIRuncFilter ydt tdt ylow (NsMat Ulow) theta Ut 0 None kind true = Ok (x, FullU U) /\
    FIRuncFilter ydt tdt y sn theta Ut 0 (Some bl) kind true = Ok (x, FullU U) /\
    alen ylow = n /\ mrows Ulow = n /\ mcols Ulow = n.
Proof.
  intros Hy Ht Hb Hn HN HNl Hns HUt.
  destruct (noise_cov_spec n sn kind Hns) as [M [HM [Mr [Mc Me]]]].
  destruct (fir_filter_const y bl M UtNone n Nl Hy Hb Hn HNl Mr Mc I)
    as [yl [Ul [Hokl [Lxl [Url [Ucl [Exl EUl]]]]]]].
  destruct (fir_filter_const yl theta Ul Ut n N Lxl Ht Hn HN Url Ucl HUt)
    as [x [U [Hok [Lx [Ur [Uc [Ex EU]]]]]]].
  exists yl, Ul, x, U.
  assert (Hf : forall sn ut b k, fast_path sn ut b k true = false) by reflexivity.
  unfold FIRuncFilter. rewrite !Hf, Hy, HM. simpl bind. rewrite Hokl. simpl bind. rewrite Hok.
  simpl bind. repeat split; auto.
Qed.

(** ** Exactness: covariance of independent finite-support signal and filter. *)
Lemma gen_cov_exact n N (theta xt : nat -> R) Ut V (dx dt : dist (nat -> R)) i j :
  (i < n)%nat -> (j < n)%nat -> (1 <= N)%nat ->
  is_prob dx -> is_prob dt ->
  has_mean (n + (N - 1)) dx xt -> has_cov (n + (N - 1)) dx V ->
  has_mean N dt theta -> has_cov N dt (coeff_cov Ut) ->
  Cov (indep dx dt) (fun o => fir_outcome N (snd o) (fst o) i)
                    (fun o => fir_outcome N (snd o) (fst o) j)
  = gen_cov n N theta xt Ut V i j.
Proof.
  intros Hi Hj HN P1 P2 M1 C1 M2 C2.
  pose proof (bilinear_cov (n + (N - 1)) N dx dt xt theta V (coeff_cov Ut) P1 P2 M1 M2 C1 C2
     (fun k => (i + (N - 1) - k)%nat) (fun k => (j + (N - 1) - k)%nat)) as H.
  unfold lin_comb in H. unfold fir_outcome. rewrite H by (intros; lia).
  unfold gen_cov. apply rsum_ext. intros a Ha. apply rsum_ext. intros b Hb.
  replace (coeff_cov Ut b a) with (coeff_cov Ut a b); [reflexivity|].
  rewrite <- !C2 by assumption. apply Cov_sym.
Qed.

Lemma fir_mean_exact n N (theta xt : nat -> R) (dx dt : dist (nat -> R)) i :
  (i < n)%nat -> (1 <= N)%nat ->
  has_mean (n + (N - 1)) dx xt -> has_mean N dt theta ->
  Ex (indep dx dt) (fun o => fir_outcome N (snd o) (fst o) i) = fir_outcome N theta xt i.
Proof.
  intros Hi HN M1 M2.
  pose proof (bilinear_mean (n + (N - 1)) N dx dt xt theta M1 M2
     (fun k => (i + (N - 1) - k)%nat)) as H.
  unfold lin_comb in H. unfold fir_outcome. rewrite H by (intros; lia). reflexivity.
Qed.

(** p.s.d. is preserved. *)
Lemma gen_cov_psd n N (theta xt : nat -> R) Ut V : (1 <= N)%nat ->
  psd (n + (N - 1)) V -> psd N (coeff_cov Ut) ->
  psd n (gen_cov n N theta xt Ut V).
Proof.
  intros HN HV HU.
  destruct (psd_realised _ xt V HV) as [dx [P1 [M1 C1]]].
  destruct (psd_realised _ theta _ HU) as [dt [P2 [M2 C2]]].
  apply (cov_psd n (indep dx dt) (fun i o => fir_outcome N (snd o) (fst o) i)).
  - now apply indep_prob.
  - intros i j Hi Hj. now apply gen_cov_exact.
Qed.

Lemma gen_cov_symm n N (theta xt : nat -> R) Ut V : (1 <= N)%nat ->
  symm (n + (N - 1)) V -> symm N (coeff_cov Ut) ->
  symm n (gen_cov n N theta xt Ut V).
Proof.
  intros HN HV HU i j Hi Hj. unfold gen_cov. rewrite rsum_swap. apply rsum_ext. intros a Ha.
  apply rsum_ext. intros b Hb. rewrite (HV (i + (N - 1) - b)%nat) by lia.
  rewrite (HU b a) by lia. ring.
Qed.

(** ** Efficient path versus general path *)
Lemma gen_cov_diag n N (theta xt u ut : nat -> R) Ut V i : (i < n)%nat -> (2 <= N)%nat ->
  (forall a b, (a < n + (N - 1))%nat -> (b < n + (N - 1))%nat -> V a b = if (a =? b)%nat then u a else 0) ->
  (forall a b, (a < N)%nat -> (b < N)%nat -> coeff_cov Ut a b = if (a =? b)%nat then ut a else 0) ->
  gen_cov n N theta xt Ut V i i =
  rsum N (fun a => theta a * theta a * u (i + (N - 1) - a)%nat
                   + ut a * (xt (i + (N - 1) - a)%nat * xt (i + (N - 1) - a)%nat)
                   + ut a * u (i + (N - 1) - a)%nat).
Proof.
  intros Hi HN HV HU. unfold gen_cov. apply rsum_ext. intros a Ha.
  rewrite (rsum_single N a); auto.
  - rewrite HV by lia. rewrite !HU by lia. rewrite !Nat.eqb_refl. reflexivity.
  - intros b Hb Hne. rewrite HV by lia. rewrite !HU by lia.
    destruct (Nat.eqb_spec (i + (N - 1) - a) (i + (N - 1) - b)); [lia|].
    destruct (Nat.eqb_spec a b); [lia|]. destruct (Nat.eqb_spec b a); [lia|]. ring.
Qed.

(** stationary continuation of a diagonal covariance *)
Lemma stat_cont_diag n p (u : nat -> R) i j : (1 <= n)%nat -> (i < n + p)%nat -> (j < n + p)%nat ->
  stat_cont n p (fun a b => if (a =? b)%nat then u a else 0) i j
  = if (i =? j)%nat then continued p (u 0%nat) u i else 0.
Proof.
  intros Hn Hi Hj. unfold stat_cont, continued.
  destruct (Nat.leb_spec p i), (Nat.leb_spec p j); simpl andb; cbv iota.
  - destruct (Nat.eqb_spec (i - p) (j - p)), (Nat.eqb_spec i j); try lia; try reflexivity.
    destruct (Nat.ltb_spec i p); [lia|]. reflexivity.
  - destruct (Nat.leb_spec j i); [|lia]. destruct (Nat.eqb_spec i j); [lia|].
    destruct (Nat.ltb_spec (i - j) n); [|reflexivity].
    destruct (Nat.eqb_spec (i - j) 0); [lia|reflexivity].
  - destruct (Nat.leb_spec j i); [lia|]. destruct (Nat.eqb_spec i j); [lia|].
    destruct (Nat.ltb_spec (j - i) n); [|reflexivity].
    destruct (Nat.eqb_spec 0 (j - i)); [lia|reflexivity].
  - destruct (Nat.ltb_spec i p); [|lia].
    destruct (Nat.leb_spec j i).
    + destruct (Nat.ltb_spec (i - j) n).
      * destruct (Nat.eqb_spec (i - j) 0), (Nat.eqb_spec i j); try lia; try reflexivity.
        now replace (i - j)%nat with 0%nat by lia.
      * destruct (Nat.eqb_spec i j); [lia|reflexivity].
    + destruct (Nat.eqb_spec i j); [lia|].
      destruct (Nat.ltb_spec (j - i) n); [|reflexivity].
      destruct (Nat.eqb_spec 0 (j - i)); [lia|reflexivity].
Qed.

(** point-wise description of a noise argument accepted by the efficient path *)
Definition point_std (sn : noise) (i : nat) : R :=
  match sn with NsFloat s => s | NsVec v => v i | _ => 0 end.
Definition fast_noise (n : nat) (sn : noise) (kind : string) : Prop :=
  match sn with
  | NsNone | NsFloat _ => True
  | NsVec v => kind = "diag"%string /\ alen v = n
  | _ => False
  end.
Definition fast_coeff (N : nat) (Ut : cunc) : Prop :=
  match Ut with UtNone => True | UtVec v => alen v = N | _ => False end.

Lemma fast_path_true n N sn Ut kind : fast_noise n sn kind -> fast_coeff N Ut ->
  fast_path sn Ut None kind false = true.
Proof.
  destruct sn; simpl; try contradiction; destruct Ut; simpl; try contradiction; intros; unfold fast_path;
    simpl; try reflexivity; try (destruct (kind =? "diag")%string; reflexivity);
    destruct H as [-> _]; reflexivity.
Qed.

Definition point_var (theta xt : nat -> R) (ut u : nat -> R) (N i : nat) : R :=
  rsum N (fun a => theta a * theta a * u (i + (N - 1) - a)%nat
                   + ut a * (xt (i + (N - 1) - a)%nat * xt (i + (N - 1) - a)%nat)
                   + ut a * u (i + (N - 1) - a)%nat).

Definition coeff_std (Ut : cunc) (a : nat) : R := match Ut with UtVec v => v a | _ => 0 end.

Lemma point_var_ext (theta theta' xt xt' ut ut' u u' : nat -> R) n N i : (i < n)%nat -> (1 <= N)%nat ->
  (forall k, (k < N)%nat -> theta k = theta' k) -> (forall k, (k < N)%nat -> ut k = ut' k) ->
  (forall k, (k <= i + (N - 1))%nat -> xt k = xt' k) ->
  (forall k, (k <= i + (N - 1))%nat -> u k = u' k) ->
  point_var theta xt ut u N i = point_var theta' xt' ut' u' N i.
Proof.
  intros Hi HN H1 H2 H3 H4. unfold point_var. apply rsum_ext. intros a Ha.
  rewrite H1, H2, H3, H4 by lia. reflexivity.
Qed.

Lemma FIR_fast y sn theta Ut shift kind n N :
  alen y = n -> alen theta = N -> (1 <= n)%nat -> (2 <= N)%nat ->
  fast_noise n sn kind -> fast_coeff N Ut ->
  exists x u, FIRuncFilter DFloat DFloat y sn theta Ut shift None kind false = Ok (x, PointU u) /\
    alen x = n /\ alen u = n /\
    (forall i, (i < n)%nat -> x i = fir_value theta y i) /\
    (forall i, (i < n)%nat ->
       u i = sqrt (Rabs (point_var theta (continued (N - 1) (y 0%nat) y)
                    (fun a => coeff_std Ut a * coeff_std Ut a)
                    (continued (N - 1) (point_std sn 0 * point_std sn 0)
                       (fun k => point_std sn k * point_std sn k)) N i))).
Proof.
  intros Hy Ht Hn HN Hsn HUt.
  unfold FIRuncFilter. rewrite (fast_path_true n N) by assumption.
  set (Uy := match sn with NsFloat s => _ | NsVec v => _ | _ => None end).
  set (Uth := match Ut with UtFloat u => _ | UtVec v => _ | _ => None end).
  assert (Hh : history_value y "constant" = Ok (y 0%nat)).
  { unfold history_value. simpl. destruct (Nat.eqb_spec (alen y) 0); [lia|reflexivity]. }
  destruct (fir_filter_diag_closed y theta Uy Uth "constant" (y 0%nat) n N)
    as [x [U [Hok [Lx [LU [Ex EU]]]]]]; auto.
  { destruct sn; simpl in *; auto; tauto. }
  { destruct Ut; simpl in *; auto; tauto. }
  rewrite Hok. simpl bind. exists x, (vmap (fun v => sqrt (Rabs v)) U).
  split; [reflexivity|]. split; [assumption|]. split; [exact LU|]. split.
  - intros i Hi. rewrite Ex by assumption. rewrite <- Ht. apply fir_outcome_value. lia.
  - intros i Hi. simpl. rewrite EU by assumption. do 2 f_equal. unfold point_var.
    apply rsum_ext. intros a Ha.
    assert (H1 : vec_or_zero Uth a = coeff_std Ut a * coeff_std Ut a).
    { unfold Uth. destruct Ut; simpl in *; try contradiction; unfold Rsqr; ring. }
    assert (H2 : forall k, ext_var "constant" (N - 1) (vec_or_zero Uy) k =
       continued (N - 1) (point_std sn 0 * point_std sn 0) (fun k => point_std sn k * point_std sn k) k).
    { intros k. unfold ext_var, continued. simpl. unfold Uy.
      destruct sn; simpl in *; try contradiction; unfold Rsqr; destruct (k <? N - 1)%nat; ring. }
    rewrite H1, H2. reflexivity.
Qed.
