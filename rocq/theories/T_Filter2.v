(** FIRuncFilter and convolve_unc: superposition (C128), time invariance (C129), larger
    uncertainties in give larger uncertainties out (C130), exactly known inputs (C131).
    Model: M_Filter.v.  Vocabulary: Stats.v, S_Filter.v, S_Conv.v, S_Order.v. *)
From Coq Require Import Reals List Arith ZArith Bool Lia Lra Psatz String.
From Verif Require Import Base Sums Stats StatsFacts M_Filter S_Filter S_Conv S_Order
  P_Filter P_Filter2 P_Filter3 P_Conv P_Jac T_Filter.
Import ListNotations.
Open Scope R_scope.

(** ** C128 *)
(** The estimate is linear in the signal: whatever uncertainties, low-pass and options are used
    for the three calls. *)
Theorem C128_superposition : forall ydt tdt a y1 b y2 theta blow kind full
    sn1 sn2 sn3 Ut1 Ut2 Ut3 x1 x2 x3 u1 u2 u3,
  alen y2 = alen y1 ->
  FIRuncFilter ydt tdt y1 sn1 theta Ut1 0 blow kind full = Ok (x1, u1) ->
  FIRuncFilter ydt tdt y2 sn2 theta Ut2 0 blow kind full = Ok (x2, u2) ->
  FIRuncFilter ydt tdt (superposed a y1 b y2) sn3 theta Ut3 0 blow kind full = Ok (x3, u3) ->
  alen x3 = alen y1 /\ forall n, (n < alen y1)%nat -> x3 n = a * x1 n + b * x2 n.
Proof.
  intros ydt tdt a y1 b y2 theta blow kind full sn1 sn2 sn3 Ut1 Ut2 Ut3 x1 x2 x3 u1 u2 u3 Hl H1 H2 H3.
  destruct (C01_fir_estimate _ _ _ _ _ _ _ _ _ _ _ H1) as [L1 E1].
  destruct (C01_fir_estimate _ _ _ _ _ _ _ _ _ _ _ H2) as [L2 E2].
  destruct (C01_fir_estimate _ _ _ _ _ _ _ _ _ _ _ H3) as [L3 E3].
  split; [exact L3|]. intros n Hn. rewrite (E1 n Hn), (E2 n) by lia.
  rewrite (E3 n) by exact Hn.
  assert (LIN : forall th (p q : nat -> R) N m, fir_value th (mkArr N (fun i => a * p i + b * q i)) m =
    a * fir_value th (mkArr N p) m + b * fir_value th (mkArr N q) m).
  { intros th p q N m. unfold fir_value. rewrite <- !rsum_scal, <- rsum_plus. apply rsum_ext.
    intros k Hk. cbn [aget]. destruct (k <=? m)%nat; ring. }
  assert (EXT : forall th N (p q : vec) m, (m < N)%nat -> (forall i, (i < N)%nat -> p i = q i) ->
    fir_value th p m = fir_value th q m).
  { intros th N p q m Hm Hpq. unfold fir_value. apply rsum_ext. intros k Hk.
    destruct (Nat.leb_spec k m); rewrite Hpq by lia; reflexivity. }
  destruct blow as [bl|].
  - rewrite (EXT theta (alen y1) _ (mkArr (alen y1) (fun i => a * fir_value bl y1 i + b * fir_value bl y2 i)));
      [|exact Hn|].
    + rewrite LIN. rewrite Hl. reflexivity.
    + intros i Hi. cbn [aget]. unfold superposed.
      rewrite (LIN bl y1 y2 (alen y1) i). f_equal; f_equal; apply EXT with (alen y1); auto.
  - unfold superposed. rewrite (LIN theta y1 y2). f_equal; f_equal; apply EXT with (alen y1); auto.
Qed.
(** ... and linear in the filter. *)
Theorem C128_superposition_of_filters : forall ydt tdt a theta1 b theta2 y kind full
    sn1 sn2 sn3 Ut1 Ut2 Ut3 x1 x2 x3 u1 u2 u3,
  alen theta2 = alen theta1 ->
  FIRuncFilter ydt tdt y sn1 theta1 Ut1 0 None kind full = Ok (x1, u1) ->
  FIRuncFilter ydt tdt y sn2 theta2 Ut2 0 None kind full = Ok (x2, u2) ->
  FIRuncFilter ydt tdt y sn3 (superposed a theta1 b theta2) Ut3 0 None kind full = Ok (x3, u3) ->
  forall n, (n < alen y)%nat -> x3 n = a * x1 n + b * x2 n.
Proof.
  intros ydt tdt a t1 b t2 y kind full sn1 sn2 sn3 Ut1 Ut2 Ut3 x1 x2 x3 u1 u2 u3 Hl H1 H2 H3 n Hn.
  rewrite (proj2 (C01_fir_estimate _ _ _ _ _ _ _ _ _ _ _ H1) n Hn),
    (proj2 (C01_fir_estimate _ _ _ _ _ _ _ _ _ _ _ H2) n Hn),
    (proj2 (C01_fir_estimate _ _ _ _ _ _ _ _ _ _ _ H3) n Hn).
  unfold fir_value, superposed. cbn [alen aget]. rewrite Hl, <- !rsum_scal, <- rsum_plus.
  apply rsum_ext. intros k Hk. ring.
Qed.

Lemma gen_cov_none n N theta xt xt' V i j :
  gen_cov n N theta xt UtNone V i j = gen_cov n N theta xt' UtNone V i j.
Proof. unfold gen_cov. cbn [coeff_cov]. apply rsum_ext. intros a Ha. apply rsum_ext. intros b Hb. ring. Qed.

(** With exactly known coefficients the uncertainty does not depend on the signal: full
    covariance, with and without low-pass ... *)
Theorem C128_uncertainty_without_signal : forall ydt tdt y y' sn theta kind blow n,
  alen y = n -> alen y' = n -> (1 <= n)%nat -> (2 <= alen theta)%nat -> noise_fits n sn kind ->
  (forall bl, blow = Some bl -> (2 <= alen bl)%nat) ->
  exists x U x' U',
    FIRuncFilter ydt tdt y sn theta UtNone 0 blow kind true = Ok (x, FullU U) /\
    FIRuncFilter ydt tdt y' sn theta UtNone 0 blow kind true = Ok (x', FullU U') /\
    forall i j, (i < n)%nat -> (j < n)%nat -> U i j = U' i j.
Proof.
  intros ydt tdt y y' sn theta kind blow n Hy Hy' Hn HN Hs Hb.
  assert (BASE : forall ys ys' sa sb th, alen ys = n -> alen ys' = n -> (2 <= alen th)%nat ->
     noise_fits n sa kind -> noise_fits n sb kind ->
     (forall i j, (i < n)%nat -> (j < n)%nat -> sig_cov sa kind i j = sig_cov sb kind i j) ->
     exists x U x' U', FIRuncFilter ydt tdt ys sa th UtNone 0 None kind true = Ok (x, FullU U) /\
       FIRuncFilter ydt tdt ys' sb th UtNone 0 None kind true = Ok (x', FullU U') /\
       forall i j, (i < n)%nat -> (j < n)%nat -> U i j = U' i j).
  { intros ys ys' sa sb th A B C D E F.
    destruct (FIR_general ydt tdt ys sa th UtNone kind n (alen th)) as [x [U [H1 [_ [_ [_ [_ F1]]]]]]];
      auto; try exact I.
    destruct (FIR_general ydt tdt ys' sb th UtNone kind n (alen th)) as [x' [U' [H2 [_ [_ [_ [_ F2]]]]]]];
      auto; try exact I.
    exists x, U, x', U'. split; [exact H1|]. split; [exact H2|]. intros i j Hi Hj.
    rewrite F1, F2 by assumption. rewrite (gen_cov_none _ _ _ _ (continued (alen th - 1) (ys' 0%nat) ys')).
    apply gen_cov_ext; auto; try lia. intros p q Hp Hq. apply stat_cont_ext; auto. }
  destruct blow as [bl|]; [|now apply BASE].
  specialize (Hb bl eq_refl).
  destruct (FIR_cascade ydt tdt y sn theta UtNone kind bl n (alen theta) (alen bl))
    as (yl & Ul & x & U & A1 & A2 & A3 & A4 & A5 & A6); auto; try exact I.
  destruct (FIR_cascade ydt tdt y' sn theta UtNone kind bl n (alen theta) (alen bl))
    as (yl' & Ul' & x' & U' & B1 & B2 & B3 & B4 & B5 & B6); auto; try exact I.
  destruct (BASE y y' sn sn bl) as (z1 & W1 & z2 & W2 & C1 & C2 & C3); auto.
  rewrite A1 in C1. inversion C1; subst z1 W1. rewrite B1 in C2. inversion C2; subst z2 W2.
  destruct (BASE yl yl' (NsMat Ul) (NsMat Ul') theta) as (z1 & W1 & z2 & W2 & D1 & D2 & D3); auto;
    try (split; assumption).
  rewrite A2 in D1. inversion D1; subst z1 W1. rewrite B2 in D2. inversion D2; subst z2 W2.
  exists x, U, x', U'. auto.
Qed.
(** ... and point-wise. *)
Theorem C128_pointwise_without_signal : forall y y' sn theta kind n,
  alen y = n -> alen y' = n -> (1 <= n)%nat -> (2 <= alen theta)%nat -> noise_pointwise n sn kind ->
  exists x u x' u',
    FIRuncFilter DFloat DFloat y sn theta UtNone 0 None kind false = Ok (x, PointU u) /\
    FIRuncFilter DFloat DFloat y' sn theta UtNone 0 None kind false = Ok (x', PointU u') /\
    forall i, (i < n)%nat -> u i = u' i.
Proof.
  intros y y' sn theta kind n Hy Hy' Hn HN Hs. apply noise_pointwise_fast in Hs.
  destruct (FIR_fast y sn theta UtNone 0 kind n (alen theta)) as [x [u [H1 [_ [_ [_ F1]]]]]]; auto; try exact I.
  destruct (FIR_fast y' sn theta UtNone 0 kind n (alen theta)) as [x' [u' [H2 [_ [_ [_ F2]]]]]]; auto; try exact I.
  exists x, u, x', u'. split; [exact H1|]. split; [exact H2|]. intros i Hi.
  rewrite F1, F2 by assumption. do 2 f_equal. unfold point_var. cbn [coeff_std]. apply rsum_ext.
  intros a Ha. ring.
Qed.
Example C128_example : exists x U x' U',
  FIRuncFilter DFloat DFloat ex_y (NsFloat 1) ex_th UtNone 0 (Some ex_th) "diag" true = Ok (x, FullU U) /\
  FIRuncFilter DFloat DFloat (superposed 2 ex_y 3 ex_th) (NsFloat 1) ex_th UtNone 0 (Some ex_th) "diag" true
    = Ok (x', FullU U') /\
  x 1%nat = 1 /\ x' 1%nat = -4 /\ U 0%nat 1%nat = U' 0%nat 1%nat.
Proof.
  destruct (C128_uncertainty_without_signal DFloat DFloat ex_y (superposed 2 ex_y 3 ex_th) (NsFloat 1) ex_th
    "diag" (Some ex_th) 2) as (x & U & x' & U' & A & B & C); try reflexivity; try (simpl; lia); try exact I.
  { intros bl E. inversion E. simpl; lia. }
  exists x, U, x', U'. split; [exact A|]. split; [exact B|].
  rewrite (proj2 (C01_fir_estimate _ _ _ _ _ _ _ _ _ _ _ A) 1%nat) by (simpl; lia).
  rewrite (proj2 (C01_fir_estimate _ _ _ _ _ _ _ _ _ _ _ B) 1%nat) by (simpl; lia).
  split; [unfold fir_value; simpl; lra|]. split; [unfold fir_value; simpl; lra|]. apply C; lia.
Qed.
Print Assumptions C128_superposition.
Print Assumptions C128_superposition_of_filters.
Print Assumptions C128_uncertainty_without_signal.
Print Assumptions C128_pointwise_without_signal.

(** ** C129 *)
(** autocovariance of stationary noise *)
Definition stat_acf (sn : noise) (l : nat) : R :=
  match sn with
  | NsFloat s => if (l =? 0)%nat then s * s else 0
  | NsVec v => if (l <? alen v)%nat then v l else 0
  | _ => 0
  end.
Lemma stat_cont_stationary n P sn kind i j :
  (exists s, sn = NsFloat s) \/ (exists v, sn = NsVec v /\ kind = "corr"%string /\ (alen v <= n)%nat) ->
  (1 <= n)%nat -> (i < n + P)%nat -> (j < n + P)%nat ->
  stat_cont n P (sig_cov sn kind) i j = stat_acf sn (Nat.max i j - Nat.min i j).
Proof.
  intros [[s ->]|(v & -> & -> & Hv)] Hn Hi Hj; unfold stat_cont, sig_cov, stat_acf.
  - destruct (Nat.leb_spec P i), (Nat.leb_spec P j); simpl andb; cbv iota;
      repeat match goal with |- context [(?a =? ?b)%nat] => destruct (Nat.eqb_spec a b) end;
      repeat match goal with |- context [(?a <=? ?b)%nat] => destruct (Nat.leb_spec a b) end;
      repeat match goal with |- context [(?a <? ?b)%nat] => destruct (Nat.ltb_spec a b) end;
      try reflexivity; lia.
  - simpl String.eqb. cbv iota zeta. destruct (Nat.leb_spec P i), (Nat.leb_spec P j); simpl andb; cbv iota.
    + replace (Nat.max (i - P) (j - P) - Nat.min (i - P) (j - P))%nat
        with (Nat.max i j - Nat.min i j)%nat by lia. reflexivity.
    + destruct (Nat.leb_spec j i); [|lia].
      replace (Nat.max (i - j) 0 - Nat.min (i - j) 0)%nat with (Nat.max i j - Nat.min i j)%nat by lia.
      replace (i - j)%nat with (Nat.max i j - Nat.min i j)%nat by lia.
      destruct (Nat.ltb_spec (Nat.max i j - Nat.min i j) n); [reflexivity|].
      destruct (Nat.ltb_spec (Nat.max i j - Nat.min i j) (alen v)); [lia|reflexivity].
    + destruct (Nat.leb_spec j i); [lia|].
      replace (Nat.max 0 (j - i) - Nat.min 0 (j - i))%nat with (Nat.max i j - Nat.min i j)%nat by lia.
      replace (j - i)%nat with (Nat.max i j - Nat.min i j)%nat by lia.
      destruct (Nat.ltb_spec (Nat.max i j - Nat.min i j) n); [reflexivity|].
      destruct (Nat.ltb_spec (Nat.max i j - Nat.min i j) (alen v)); [lia|reflexivity].
    + destruct (Nat.leb_spec j i).
      * replace (Nat.max (i - j) 0 - Nat.min (i - j) 0)%nat with (Nat.max i j - Nat.min i j)%nat by lia.
        replace (i - j)%nat with (Nat.max i j - Nat.min i j)%nat by lia.
        destruct (Nat.ltb_spec (Nat.max i j - Nat.min i j) n); [reflexivity|].
        destruct (Nat.ltb_spec (Nat.max i j - Nat.min i j) (alen v)); [lia|reflexivity].
      * replace (Nat.max 0 (j - i) - Nat.min 0 (j - i))%nat with (Nat.max i j - Nat.min i j)%nat by lia.
        replace (j - i)%nat with (Nat.max i j - Nat.min i j)%nat by lia.
        destruct (Nat.ltb_spec (Nat.max i j - Nat.min i j) n); [reflexivity|].
        destruct (Nat.ltb_spec (Nat.max i j - Nat.min i j) (alen v)); [lia|reflexivity].
Qed.
Lemma delayed_continued p (y : vec) P k :
  continued P (delayed p y 0%nat) (delayed p y) (p + k) = continued P (y 0%nat) y k.
Proof.
  unfold continued, delayed. cbn [aget]. unfold continued.
  destruct (Nat.ltb_spec (p + k) P), (Nat.ltb_spec k P); try lia.
  - destruct (Nat.ltb_spec 0 p); [reflexivity|]. now replace (0 - p)%nat with 0%nat by lia.
  - destruct (Nat.ltb_spec (p + k - P) p); [|lia]. reflexivity.
  - destruct (Nat.ltb_spec (p + k - P) p); [|f_equal; lia]. lia.
Qed.
Lemma delayed_value theta p y m : fir_value theta (delayed p y) (p + m) = fir_value theta y m.
Proof.
  unfold fir_value. apply rsum_ext. intros k Hk. f_equal. unfold delayed, continued. cbn [aget].
  destruct (Nat.leb_spec k (p + m)), (Nat.leb_spec k m); try lia.
  - destruct (Nat.ltb_spec (p + m - k) p); [lia|]. f_equal; lia.
  - destruct (Nat.ltb_spec (p + m - k) p); [reflexivity|]. lia.
  - destruct (Nat.ltb_spec 0 p); [reflexivity|]. now replace (0 - p)%nat with 0%nat by lia.
Qed.

(** Stationary noise: a signal that starts [p] samples later gives the same output and the
    same covariance, [p] samples later. *)
Theorem C129_time_invariant_full : forall ydt tdt y sn theta Ut kind n N p,
  alen y = n -> alen theta = N -> (1 <= n)%nat -> (2 <= N)%nat -> coeff_matrix N Ut ->
  (exists s, sn = NsFloat s) \/ (exists v, sn = NsVec v /\ kind = "corr"%string /\ (alen v <= n)%nat) ->
  exists x U x' U',
    FIRuncFilter ydt tdt y sn theta Ut 0 None kind true = Ok (x, FullU U) /\
    FIRuncFilter ydt tdt (delayed p y) sn theta Ut 0 None kind true = Ok (x', FullU U') /\
    alen x' = (p + n)%nat /\ mrows U' = (p + n)%nat /\ mcols U' = (p + n)%nat /\
    forall i j, (i < n)%nat -> (j < n)%nat ->
      x' (p + i)%nat = x i /\ U' (p + i)%nat (p + j)%nat = U i j.
Proof.
  intros ydt tdt y sn theta Ut kind n N p Hy Ht Hn HN HU Hs.
  assert (Hs' : (exists s, sn = NsFloat s) \/
      (exists v, sn = NsVec v /\ kind = "corr"%string /\ (alen v <= p + n)%nat)).
  { destruct Hs as [?|(v & ? & ? & ?)]; [auto|right; exists v; repeat split; auto; lia]. }
  assert (F1 : noise_fits n sn kind) by (destruct Hs as [[s ->]|(v & -> & -> & _)]; simpl; auto).
  assert (F2 : noise_fits (p + n) sn kind) by (destruct Hs as [[s ->]|(v & -> & -> & _)]; simpl; auto).
  destruct (FIR_general ydt tdt y sn theta Ut kind n N) as [x [U [H1 [_ [_ [_ [E1 G1]]]]]]]; auto.
  destruct (FIR_general ydt tdt (delayed p y) sn theta Ut kind (p + n) N)
    as [x' [U' [H2 [A1 [A2 [A3 [E2 G2]]]]]]]; auto; try lia.
  { unfold delayed; simpl; lia. }
  exists x, U, x', U'. split; [exact H1|]. split; [exact H2|]. split; [exact A1|].
  split; [exact A2|]. split; [exact A3|]. intros i j Hi Hj. split.
  - rewrite E1, E2 by lia. apply delayed_value.
  - rewrite G1, G2 by lia. unfold gen_cov. apply rsum_ext. intros a Ha. apply rsum_ext. intros b Hb.
    replace (p + i + (N - 1) - a)%nat with (p + (i + (N - 1) - a))%nat by lia.
    replace (p + j + (N - 1) - b)%nat with (p + (j + (N - 1) - b))%nat by lia.
    rewrite !delayed_continued, !stat_cont_stationary by (auto; lia).
    match goal with |- context [stat_acf sn (Nat.max (p + ?q) (p + ?r) - _)] =>
      replace (Nat.max (p + q) (p + r) - Nat.min (p + q) (p + r))%nat
        with (Nat.max q r - Nat.min q r)%nat by lia end.
    reflexivity.
Qed.
(** Point-wise uncertainties: white noise (or none), and standard uncertainties that are
    delayed with the signal. *)
Theorem C129_time_invariant_pointwise : forall y sn sn' theta Ut kind n N p,
  alen y = n -> alen theta = N -> (1 <= n)%nat -> (2 <= N)%nat -> coeff_pointwise N Ut ->
  noise_pointwise n sn kind ->
  sn' = match sn with NsVec v => NsVec (delayed p v) | s => s end ->
  exists x u x' u',
    FIRuncFilter DFloat DFloat y sn theta Ut 0 None kind false = Ok (x, PointU u) /\
    FIRuncFilter DFloat DFloat (delayed p y) sn' theta Ut 0 None kind false = Ok (x', PointU u') /\
    alen x' = (p + n)%nat /\ alen u' = (p + n)%nat /\
    forall i, (i < n)%nat -> x' (p + i)%nat = x i /\ u' (p + i)%nat = u i.
Proof.
  intros y sn sn' theta Ut kind n N p Hy Ht Hn HN HU Hs ->. apply coeff_pointwise_fast in HU.
  apply noise_pointwise_fast in Hs.
  destruct (FIR_fast y sn theta Ut 0 kind n N) as [x [u [H1 [_ [_ [E1 G1]]]]]]; auto.
  destruct (FIR_fast (delayed p y) (match sn with NsVec v => NsVec (delayed p v) | s => s end) theta Ut 0 kind (p + n) N)
    as [x' [u' [H2 [A1 [A2 [E2 G2]]]]]]; auto; try lia.
  { unfold delayed; simpl; lia. }
  { destruct sn; simpl in *; auto. destruct Hs; split; auto. }
  exists x, u, x', u'. split; [exact H1|]. split; [exact H2|]. split; [exact A1|]. split; [exact A2|].
  intros i Hi. split; [rewrite E1, E2 by lia; apply delayed_value|].
  rewrite G1, G2 by lia. do 2 f_equal. unfold point_var. apply rsum_ext. intros a Ha.
  replace (p + i + (N - 1) - a)%nat with (p + (i + (N - 1) - a))%nat by lia.
  rewrite !delayed_continued.
  assert (E : forall k,
     continued (N - 1) (point_std (match sn with NsVec v => NsVec (delayed p v) | s => s end) 0 *
                        point_std (match sn with NsVec v => NsVec (delayed p v) | s => s end) 0)
       (fun k => point_std (match sn with NsVec v => NsVec (delayed p v) | s => s end) k *
                 point_std (match sn with NsVec v => NsVec (delayed p v) | s => s end) k) (p + k)
     = continued (N - 1) (point_std sn 0 * point_std sn 0) (fun k => point_std sn k * point_std sn k) k).
  { intros k. destruct sn as [|s|v|m| |]; simpl point_std;
      try (unfold continued; destruct (_ <? _)%nat, (_ <? _)%nat; reflexivity).
    pose proof (delayed_continued p v (N - 1) k) as D. unfold delayed, continued in D |- *. cbn [aget] in D |- *.
    revert D. destruct (Nat.ltb_spec (p + k) (N - 1)), (Nat.ltb_spec k (N - 1)); try lia; intros D;
      rewrite D; reflexivity. }
  rewrite !E. reflexivity.
Qed.
Example C129_example : exists x U x' U',
  FIRuncFilter DFloat DFloat ex_y (NsVec (of_list [2; 1])) ex_th ex_Ut 0 None "corr" true = Ok (x, FullU U) /\
  FIRuncFilter DFloat DFloat (delayed 3 ex_y) (NsVec (of_list [2; 1])) ex_th ex_Ut 0 None "corr" true = Ok (x', FullU U') /\
  alen x' = 5%nat /\ x' 4%nat = 1 /\ U' 4%nat 4%nat = 8 /\ U' 3%nat 4%nat = U 0%nat 1%nat.
Proof.
  destruct (C129_time_invariant_full DFloat DFloat ex_y (NsVec (of_list [2; 1])) ex_th ex_Ut "corr" 2 2 3)
    as (x & U & x' & U' & A & B & L & _ & _ & C); try reflexivity; try (simpl; lia); try (split; reflexivity).
  { right. eexists. repeat split. simpl; lia. }
  destruct (FIR_general DFloat DFloat ex_y (NsVec (of_list [2; 1])) ex_th ex_Ut "corr" 2 2)
    as [z [W [H [_ [_ [_ [E G]]]]]]]; try reflexivity; try lia; try (split; reflexivity).
  { right. reflexivity. }
  rewrite A in H. inversion H; subst z W.
  exists x, U, x', U'. split; [exact A|]. split; [exact B|]. split; [exact L|].
  destruct (C 1%nat 1%nat ltac:(lia) ltac:(lia)) as [C1 C2].
  destruct (C 0%nat 1%nat ltac:(lia) ltac:(lia)) as [_ C3]. cbn [Nat.add] in C1, C2, C3.
  split; [rewrite C1, E by lia; unfold fir_value; simpl; lra|].
  split; [rewrite C2, G by lia; unfold gen_cov, stat_cont, continued, sig_cov; simpl; lra|exact C3].
Qed.
Print Assumptions C129_time_invariant_full.
Print Assumptions C129_time_invariant_pointwise.

(** ** C130 *)
Lemma gen_cov_difference n N theta xt Ut Ut' V V' i j :
  gen_cov n N theta xt Ut' V' i j - gen_cov n N theta xt Ut V i j =
  gen_cov n N theta (fun _ => 0) (UtMat (mkMat N N (coeff_cov Ut'))) (fun a b => V' a b - V a b) i j
  + gen_cov n N (fun _ => 0) xt (UtMat (mkMat N N (fun a b => coeff_cov Ut' a b - coeff_cov Ut a b))) V i j.
Proof.
  unfold gen_cov. rewrite <- rsum_minus, <- rsum_plus. apply rsum_ext. intros a Ha.
  rewrite <- rsum_minus, <- rsum_plus. apply rsum_ext. intros b Hb.
  cbn [coeff_cov mget]. ring.
Qed.

(** A larger covariance of the signal and of the coefficients gives a larger covariance of
    the output (in the order of covariance matrices), in particular larger variances. *)
Theorem C130_fir_full : forall ydt tdt y sn sn' theta Ut Ut' kind kind' n N,
  alen y = n -> alen theta = N -> (1 <= n)%nat -> (2 <= N)%nat ->
  noise_fits n sn kind -> noise_fits n sn' kind' -> coeff_matrix N Ut -> coeff_matrix N Ut' ->
  psd (n + (N - 1)) (stat_cont n (N - 1) (sig_cov sn kind)) -> psd N (coeff_cov Ut') ->
  at_most (n + (N - 1)) (stat_cont n (N - 1) (sig_cov sn kind)) (stat_cont n (N - 1) (sig_cov sn' kind')) ->
  at_most N (coeff_cov Ut) (coeff_cov Ut') ->
  exists x U x' U',
    FIRuncFilter ydt tdt y sn theta Ut 0 None kind true = Ok (x, FullU U) /\
    FIRuncFilter ydt tdt y sn' theta Ut' 0 None kind' true = Ok (x', FullU U') /\
    at_most n U U' /\
    forall i, (i < n)%nat -> x i = x' i /\ U i i <= U' i i.
Proof.
  intros ydt tdt y sn sn' theta Ut Ut' kind kind' n N Hy Ht Hn HN F1 F2 C1 C2 P1 P2 O1 O2.
  destruct (FIR_general ydt tdt y sn theta Ut kind n N) as [x [U [H1 [_ [_ [_ [E1 G1]]]]]]]; auto.
  destruct (FIR_general ydt tdt y sn' theta Ut' kind' n N) as [x' [U' [H2 [_ [_ [_ [E2 G2]]]]]]]; auto.
  exists x, U, x', U'. split; [exact H1|]. split; [exact H2|].
  assert (O : at_most n U U').
  { unfold at_most. eapply psd_ext; [|eapply psd_plus; [eapply (gen_cov_psd n N theta (fun _ => 0)); [lia|exact O1|]|
      eapply (gen_cov_psd n N (fun _ => 0) (continued (N - 1) (y 0%nat) y)); [lia|exact P1|]]].
    - intros i j Hi Hj. rewrite G1, G2 by assumption. symmetry. apply gen_cov_difference.
    - exact P2.
    - exact O2. }
  split; [exact O|]. intros i Hi. split; [rewrite E1, E2 by assumption; reflexivity|].
  pose proof (psd_diag n _ i O Hi) as D. cbn beta in D. lra.
Qed.
(** Point-wise: larger standard uncertainties of samples and coefficients. *)
Theorem C130_fir_pointwise : forall y sn sn' theta Ut Ut' kind kind' n N,
  alen y = n -> alen theta = N -> (1 <= n)%nat -> (2 <= N)%nat ->
  noise_pointwise n sn kind -> noise_pointwise n sn' kind' -> coeff_pointwise N Ut -> coeff_pointwise N Ut' ->
  (forall i, (i < n)%nat -> sig_cov sn kind i i <= sig_cov sn' kind' i i) ->
  (forall k, (k < N)%nat -> coeff_cov Ut k k <= coeff_cov Ut' k k) ->
  exists x u x' u',
    FIRuncFilter DFloat DFloat y sn theta Ut 0 None kind false = Ok (x, PointU u) /\
    FIRuncFilter DFloat DFloat y sn' theta Ut' 0 None kind' false = Ok (x', PointU u') /\
    forall i, (i < n)%nat -> x i = x' i /\ 0 <= u i <= u' i.
Proof.
  intros y sn sn' theta Ut Ut' kind kind' n N Hy Ht Hn HN F1 F2 C1 C2 O1 O2.
  assert (SQ : forall s k i, noise_pointwise n s k -> sig_cov s k i i = point_std s i * point_std s i).
  { intros s k i Hs. destruct s; simpl in *; try contradiction; rewrite ?Nat.eqb_refl; try ring.
    destruct Hs as [-> _]. simpl. rewrite ?Nat.eqb_refl. reflexivity. }
  assert (SC : forall c k, coeff_pointwise N c -> coeff_cov c k k = coeff_std c k * coeff_std c k).
  { intros c k Hc. destruct c; simpl in *; try contradiction; rewrite ?Nat.eqb_refl; ring. }
  destruct (FIR_fast y sn theta Ut 0 kind n N) as [x [u [H1 [_ [_ [E1 G1]]]]]];
    auto using noise_pointwise_fast, coeff_pointwise_fast.
  destruct (FIR_fast y sn' theta Ut' 0 kind' n N) as [x' [u' [H2 [_ [_ [E2 G2]]]]]];
    auto using noise_pointwise_fast, coeff_pointwise_fast.
  exists x, u, x', u'. split; [exact H1|]. split; [exact H2|]. intros i Hi.
  split; [rewrite E1, E2 by assumption; reflexivity|].
  rewrite G1, G2 by assumption. split; [apply sqrt_pos|]. apply sqrt_le_1_alt.
  assert (CONT : forall s k q, noise_pointwise n s k -> (q < n + (N - 1))%nat ->
     0 <= continued (N - 1) (point_std s 0 * point_std s 0) (fun k => point_std s k * point_std s k) q).
  { intros s k q Hs Hq. unfold continued. destruct (_ <? _)%nat; apply Rle_0_sqr. }
  assert (MON : forall q, (q < n + (N - 1))%nat ->
     continued (N - 1) (point_std sn 0 * point_std sn 0) (fun k => point_std sn k * point_std sn k) q <=
     continued (N - 1) (point_std sn' 0 * point_std sn' 0) (fun k => point_std sn' k * point_std sn' k) q).
  { intros q Hq. unfold continued.
    destruct (Nat.ltb_spec q (N - 1)); rewrite <- (SQ _ _ _ F1), <- (SQ _ _ _ F2); apply O1; lia. }
  assert (Z : forall a, 0 <= a * a) by (intros; apply Rle_0_sqr).
  rewrite !Rabs_pos_eq.
  - unfold point_var. apply rsum_le. intros a Ha.
    pose proof (MON (i + (N - 1) - a)%nat ltac:(lia)) as M1.
    pose proof (CONT sn kind (i + (N - 1) - a)%nat F1 ltac:(lia)) as M0.
    pose proof (O2 a Ha) as M2. rewrite (SC _ _ C1), (SC _ _ C2) in M2.
    apply Rplus_le_compat; [apply Rplus_le_compat|].
    + apply Rmult_le_compat_l; [apply Z|exact M1].
    + apply Rmult_le_compat_r; [apply Z|exact M2].
    + apply Rmult_le_compat; auto.
  - unfold point_var. apply rsum_nonneg. intros a Ha.
    pose proof (CONT sn' kind' (i + (N - 1) - a)%nat F2 ltac:(lia)) as M0.
    apply Rplus_le_le_0_compat; [apply Rplus_le_le_0_compat|]; apply Rmult_le_pos; auto; apply Z.
  - unfold point_var. apply rsum_nonneg. intros a Ha.
    pose proof (CONT sn kind (i + (N - 1) - a)%nat F1 ltac:(lia)) as M0.
    apply Rplus_le_le_0_compat; [apply Rplus_le_le_0_compat|]; apply Rmult_le_pos; auto; apply Z.
Qed.

(** Convolution of two uncertain signals. *)
Lemma ext_conv_psd n1 N n s g (x1 x2 : nat -> R) U1 U2 :
  (forall k a, g k = Some a -> (a < n1)%nat) -> (1 <= N)%nat ->
  psd n1 U1 -> psd N U2 ->
  psd n (fun i j => ext_conv_cov N g x1 U1 x2 U2 (s + i) (s + j)).
Proof.
  intros Hg HN HU1 HU2.
  destruct (psd_realised _ x1 U1 HU1) as [d1 [P1 [M1 C1]]].
  destruct (psd_realised _ x2 U2 HU2) as [d2 [P2 [M2 C2]]].
  apply (cov_psd n (indep d1 d2) (fun i o => fir_outcome N (snd o) (extsig g (fst o)) (s + i)%nat)).
  - now apply indep_prob.
  - intros i j Hi Hj.
    apply (ext_conv_exact n1 N (s + n) g x1 x2 U1 U2 d1 d2); auto; try lia.
    intros k a _ Hk. now apply (Hg k).
Qed.
Lemma extcov_minus g U U' i j : extcov g (fun a b => U' a b - U a b) i j = extcov g U' i j - extcov g U i j.
Proof. unfold extcov. destruct (g i), (g j); ring. Qed.
Lemma ext_conv_difference N g x1 U1 U1' x2 U2 U2' i j :
  ext_conv_cov N g x1 U1' x2 U2' i j - ext_conv_cov N g x1 U1 x2 U2 i j =
  ext_conv_cov N g (fun _ => 0) (fun a b => U1' a b - U1 a b) x2 U2' i j
  + ext_conv_cov N g x1 U1 (fun _ => 0) (fun a b => U2' a b - U2 a b) i j.
Proof.
  unfold ext_conv_cov. rewrite <- rsum_minus, <- rsum_plus. apply rsum_ext. intros a Ha.
  rewrite <- rsum_minus, <- rsum_plus. apply rsum_ext. intros b Hb. rewrite extcov_minus.
  replace (extsig g (fun _ : nat => 0) (i + (N - 1) - a)) with 0
    by (unfold extsig; destruct (g _); reflexivity). ring.
Qed.
Lemma ext_conv_mono n1 N n s g (x1 x2 : nat -> R) U1 U1' U2 U2' :
  (forall k a, g k = Some a -> (a < n1)%nat) -> (1 <= N)%nat ->
  psd n1 U1 -> psd N U2' -> at_most n1 U1 U1' -> at_most N U2 U2' ->
  at_most n (fun i j => ext_conv_cov N g x1 U1 x2 U2 (s + i) (s + j))
            (fun i j => ext_conv_cov N g x1 U1' x2 U2' (s + i) (s + j)).
Proof.
  intros Hg HN P1 P2 O1 O2. unfold at_most.
  eapply psd_ext; [|eapply psd_plus;
    [exact (ext_conv_psd n1 N n s g (fun _ => 0) x2 _ _ Hg HN O1 P2)|
     exact (ext_conv_psd n1 N n s g x1 (fun _ => 0) _ _ Hg HN P1 O2)]].
  intros i j Hi Hj. symmetry. apply ext_conv_difference.
Qed.
Lemma at_most_diag n U V i : at_most n U V -> (i < n)%nat -> U i i <= V i i.
Proof. intros O Hi. pose proof (psd_diag n _ i O Hi) as D. cbn beta in D. lra. Qed.
Lemma at_most_ext n U V U' V' :
  (forall i j, (i < n)%nat -> (j < n)%nat -> U i j = U' i j) ->
  (forall i j, (i < n)%nat -> (j < n)%nat -> V i j = V' i j) ->
  at_most n U V -> at_most n U' V'.
Proof. intros H1 H2 O. unfold at_most. eapply psd_ext; [|exact O]. intros i j Hi Hj. cbn beta. now rewrite H1, H2. Qed.
Lemma at_most_psd n U V : at_most n U V -> psd n U -> psd n V.
Proof.
  intros O P. eapply psd_ext; [|eapply psd_plus; [exact P|exact O]]. intros i j Hi Hj. cbn beta. ring.
Qed.

(** All six modes: larger covariances of both signals give a larger covariance of the
    convolution. *)
Theorem C130_convolution : forall x1 U1 U1' x2 U2 U2' mode n1 n2,
  alen x1 = n1 -> alen x2 = n2 -> (2 <= n1)%nat -> (2 <= n2)%nat ->
  opt_square n1 U1 -> opt_square n2 U2 -> opt_square n1 U1' -> opt_square n2 U2' ->
  (numpy_mode mode \/ ndimage_mode mode) ->
  psd n1 (opt_cov U1) -> psd n2 (opt_cov U2) ->
  at_most n1 (opt_cov U1) (opt_cov U1') -> at_most n2 (opt_cov U2) (opt_cov U2') ->
  exists y U y' U',
    convolve_unc x1 U1 x2 U2 mode = Ok (y, U) /\ convolve_unc x1 U1' x2 U2' mode = Ok (y', U') /\
    mrows U' = mrows U /\ at_most (mrows U) U U' /\
    forall i, (i < mrows U)%nat -> y i = y' i /\ U i i <= U' i i.
Proof.
  intros x1 U1 U1' x2 U2 U2' mode n1 n2 H1 H2 Hn1 Hn2 S1 S2 S1' S2' Hm P1 P2 O1 O2.
  assert (NP : forall x1 U1 U1' x2 U2 U2' n1 n2,
    alen x1 = n1 -> alen x2 = n2 -> (2 <= n2)%nat -> (n2 <= n1)%nat ->
    opt_square n1 U1 -> opt_square n2 U2 -> opt_square n1 U1' -> opt_square n2 U2' -> numpy_mode mode ->
    psd n1 (opt_cov U1) -> psd n2 (opt_cov U2) ->
    at_most n1 (opt_cov U1) (opt_cov U1') -> at_most n2 (opt_cov U2) (opt_cov U2') ->
    exists y U y' U',
      convolve_unc x1 U1 x2 U2 mode = Ok (y, U) /\ convolve_unc x1 U1' x2 U2' mode = Ok (y', U') /\
      mrows U' = mrows U /\ at_most (mrows U) U U' /\
      forall i, (i < mrows U)%nat -> y i = y' i /\ U i i <= U' i i).
  { clear. intros x1 U1 U1' x2 U2 U2' n1 n2 H1 H2 Hn2 Hle S1 S2 S1' S2' Hm P1 P2 O1 O2.
    destruct (np_conv_noswap x1 U1 x2 U2 mode n1 n2) as (y & U & A & L1 & L2 & L3 & E); auto.
    destruct (np_conv_noswap x1 U1' x2 U2' mode n1 n2) as (y' & U' & A' & L1' & L2' & L3' & E'); auto.
    exists y, U, y', U'. split; [exact A|]. split; [exact A'|]. split; [congruence|].
    assert (O : at_most (mrows U) U U').
    { rewrite L2. eapply at_most_ext; [| |apply (ext_conv_mono n1 n2 (np_conv_len mode n1 n2)
        (np_conv_start mode n1 n2) (shiftg (n2 - 1) (zp n1)) x1 x2 (opt_cov U1) (opt_cov U1') (opt_cov U2) (opt_cov U2'))].
      - intros i j Hi Hj. cbn beta. destruct (E i j Hi Hj) as [_ ->]. unfold np_closed.
        now rewrite !(Nat.add_comm (np_conv_start mode n1 n2)).
      - intros i j Hi Hj. cbn beta. destruct (E' i j Hi Hj) as [_ ->]. unfold np_closed.
        now rewrite !(Nat.add_comm (np_conv_start mode n1 n2)).
      - intros k a. apply zp_in.
      - lia.
      - exact P1.
      - exact (at_most_psd _ _ _ O2 P2).
      - exact O1.
      - exact O2. }
    split; [exact O|]. intros i Hi. split; [|now apply (at_most_diag (mrows U))].
    rewrite L2 in Hi. destruct (E i i Hi Hi) as [-> _]. destruct (E' i i Hi Hi) as [-> _]. reflexivity. }
  destruct Hm as [Hm|Hm].
  - destruct (le_lt_dec n2 n1) as [Hle|Hlt]; [now apply (NP _ _ _ _ _ _ n1 n2)|].
    rewrite (convolve_swap x1 U1 x2 U2), (convolve_swap x1 U1' x2 U2') by (auto; lia).
    apply (NP _ _ _ _ _ _ n2 n1); auto; lia.
  - destruct (convolve_nd_closed x1 U1 x2 U2 mode n1 n2) as (y & U & A & L1 & L2 & L3 & E); auto; try lia.
    destruct (convolve_nd_closed x1 U1' x2 U2' mode n1 n2) as (y' & U' & A' & L1' & L2' & L3' & E'); auto; try lia.
    exists y, U, y', U'. split; [exact A|]. split; [exact A'|]. split; [congruence|].
    assert (O : at_most (mrows U) U U').
    { rewrite L2. eapply at_most_ext; [| |apply (ext_conv_mono n1 n2 n1 n2
        (shiftg (n2 - 1) (ndg mode n1 ((n2 + 1) / 2))) x1 x2 (opt_cov U1) (opt_cov U1') (opt_cov U2) (opt_cov U2'))].
      - intros i j Hi Hj. cbn beta. now destruct (E i j Hi Hj) as [_ ->].
      - intros i j Hi Hj. cbn beta. now destruct (E' i j Hi Hj) as [_ ->].
      - intros k a. apply nd_in. lia.
      - lia.
      - exact P1.
      - exact (at_most_psd _ _ _ O2 P2).
      - exact O1.
      - exact O2. }
    split; [exact O|]. intros i Hi. split; [|now apply (at_most_diag (mrows U))].
    rewrite L2 in Hi. destruct (E i i Hi Hi) as [-> _]. destruct (E' i i Hi Hi) as [-> _]. reflexivity.
Qed.

(** identity-like matrices for the examples *)
Lemma psd_diagonal n (d : nat -> R) : (forall i, (i < n)%nat -> 0 <= d i) ->
  psd n (fun i j => if (i =? j)%nat then d i else 0).
Proof.
  intros Hd. split.
  - intros i j Hi Hj. destruct (Nat.eqb_spec i j), (Nat.eqb_spec j i); subst; auto; lia.
  - intros v. unfold quad. apply rsum_nonneg. intros i Hi.
    rewrite (rsum_single n i); [|exact Hi|intros j Hj Hne; destruct (Nat.eqb_spec i j); [lia|ring]].
    rewrite Nat.eqb_refl. replace (v i * d i * v i) with (d i * (v i * v i)) by ring.
    apply Rmult_le_pos; [now apply Hd|apply Rle_0_sqr].
Qed.
Example C130_fir_example : exists x U x' U',
  FIRuncFilter DFloat DFloat ex_y (NsFloat 1) ex_th UtNone 0 None "diag" true = Ok (x, FullU U) /\
  FIRuncFilter DFloat DFloat ex_y (NsFloat 2) ex_th ex_Ut 0 None "corr" true = Ok (x', FullU U') /\
  at_most 2 U U' /\ U 1%nat 1%nat = 2 /\ U' 1%nat 1%nat = 16.
Proof.
  assert (SC : forall s k, psd 3 (stat_cont 2 1 (sig_cov (NsFloat s) k))).
  { intros s k. eapply psd_ext; [|apply (psd_diagonal 3 (fun _ => s * s)); intros; apply Rle_0_sqr].
    intros i j Hi Hj. unfold stat_cont, sig_cov. below i Hi; below j Hj; reflexivity. }
  destruct (C130_fir_full DFloat DFloat ex_y (NsFloat 1) (NsFloat 2) ex_th UtNone ex_Ut "diag" "corr" 2 2)
    as (x & U & x' & U' & A & B & O & _); try reflexivity; try lia; try exact I; try (split; reflexivity).
  - apply SC.
  - eapply psd_ext; [|apply (psd_diagonal 2 (fun i => if (i =? 0)%nat then 1 else 0));
      intros i _; destruct (i =? 0)%nat; lra].
    intros i j Hi Hj. below i Hi; below j Hj; reflexivity.
  - unfold at_most. eapply psd_ext; [|apply (psd_diagonal 3 (fun _ => 3)); intros; lra].
    intros i j Hi Hj. unfold stat_cont, sig_cov. below i Hi; below j Hj; simpl; lra.
  - unfold at_most. eapply psd_ext; [|apply (psd_diagonal 2 (fun i => if (i =? 0)%nat then 1 else 0));
      intros i _; destruct (i =? 0)%nat; lra].
    intros i j Hi Hj. below i Hi; below j Hj; simpl; lra.
  - destruct (FIR_general DFloat DFloat ex_y (NsFloat 1) ex_th UtNone "diag" 2 2)
      as [z [W [H [_ [_ [_ [_ G]]]]]]]; try reflexivity; try lia; try exact I.
    rewrite A in H. inversion H; subst z W.
    destruct (FIR_general DFloat DFloat ex_y (NsFloat 2) ex_th ex_Ut "corr" 2 2)
      as [z [W [H' [_ [_ [_ [_ G']]]]]]]; try reflexivity; try lia; try exact I; try (split; reflexivity).
    rewrite B in H'. inversion H'; subst z W.
    exists x, U, x', U'. split; [exact A|]. split; [exact B|]. split; [exact O|].
    rewrite G, G' by lia. unfold gen_cov, stat_cont, continued, sig_cov; simpl. split; lra.
Qed.
Example C130_fir_pointwise_example : exists x u x' u',
  FIRuncFilter DFloat DFloat ex_y (NsVec (of_list [1; -2])) ex_th UtNone 0 None "diag" false = Ok (x, PointU u) /\
  FIRuncFilter DFloat DFloat ex_y (NsFloat 2) ex_th (UtVec (of_list [1; 0])) 0 None "x" false = Ok (x', PointU u') /\
  u 1%nat <= u' 1%nat.
Proof.
  destruct (C130_fir_pointwise ex_y (NsVec (of_list [1; -2])) (NsFloat 2) ex_th UtNone (UtVec (of_list [1; 0]))
    "diag" "x" 2 2) as (x & u & x' & u' & A & B & E); try reflexivity; try lia; try exact I; try (split; reflexivity).
  - intros i Hi. below i Hi; simpl; lra.
  - intros i Hi. below i Hi; simpl; lra.
  - exists x, u, x', u'. split; [exact A|]. split; [exact B|]. apply (E 1%nat). lia.
Qed.
Example C130_convolution_example : exists y U y' U',
  convolve_unc ex_y None ex_th (Some ones22) "reflect" = Ok (y, U) /\
  convolve_unc ex_y (Some ones22) ex_th (Some ones22) "reflect" = Ok (y', U') /\ at_most (mrows U) U U'.
Proof.
  assert (Z : psd 2 (fun _ _ : nat => 0)).
  { eapply psd_ext; [|apply (psd_diagonal 2 (fun _ => 0)); intros; lra]. intros i j _ _. cbn beta. destruct (i =? j)%nat; reflexivity. }
  destruct (C130_convolution ex_y None (Some ones22) ex_th (Some ones22) (Some ones22) "reflect" 2 2)
    as (y & U & y' & U' & A & B & _ & O & _); try reflexivity; try lia; try exact I; try (split; reflexivity).
  - right; right; left; reflexivity.
  - exact Z.
  - apply ones22_psd.
  - unfold at_most. eapply psd_ext; [|apply ones22_psd]. intros. simpl. ring.
  - unfold at_most. eapply psd_ext; [|exact Z]. intros. cbn beta. ring.
  - exists y, U, y', U'. auto.
Qed.
Print Assumptions C130_fir_full.
Print Assumptions C130_fir_pointwise.
Print Assumptions C130_convolution.

(** ** C131 *)
(** Exactly known samples and coefficients give an exactly known output: no uncertainty is
    invented. *)
Theorem C131_fir_full : forall ydt tdt y sn theta Ut kind n N,
  alen y = n -> alen theta = N -> (1 <= n)%nat -> (2 <= N)%nat ->
  noise_fits n sn kind -> coeff_matrix N Ut ->
  all_zero n (sig_cov sn kind) -> all_zero N (coeff_cov Ut) ->
  exists x U, FIRuncFilter ydt tdt y sn theta Ut 0 None kind true = Ok (x, FullU U) /\ all_zero n U.
Proof.
  intros ydt tdt y sn theta Ut kind n N Hy Ht Hn HN F C Z1 Z2.
  destruct (FIR_general ydt tdt y sn theta Ut kind n N) as [x [U [H1 [_ [_ [_ [_ G]]]]]]]; auto.
  exists x, U. split; [exact H1|]. intros i j Hi Hj. rewrite G by assumption. unfold gen_cov.
  apply rsum_zero. intros a Ha. apply rsum_zero. intros b Hb. rewrite (Z2 a b), (Z2 b a) by assumption.
  replace (stat_cont n (N - 1) (sig_cov sn kind) (i + (N - 1) - a) (j + (N - 1) - b)) with 0; [ring|].
  symmetry. rewrite (stat_cont_ext n (N - 1) _ (fun _ _ => 0)) by (auto; lia).
  unfold stat_cont. repeat match goal with |- context [if ?c then _ else _] => destruct c end; reflexivity.
Qed.
Theorem C131_fir_pointwise : forall y sn theta Ut kind n N,
  alen y = n -> alen theta = N -> (1 <= n)%nat -> (2 <= N)%nat ->
  noise_pointwise n sn kind -> coeff_pointwise N Ut ->
  all_zero n (sig_cov sn kind) -> all_zero N (coeff_cov Ut) ->
  exists x u, FIRuncFilter DFloat DFloat y sn theta Ut 0 None kind false = Ok (x, PointU u) /\
    alen u = n /\ forall i, (i < n)%nat -> u i = 0.
Proof.
  intros y sn theta Ut kind n N Hy Ht Hn HN F C Z1 Z2.
  destruct (FIR_fast y sn theta Ut 0 kind n N) as [x [u [H1 [_ [L [_ G]]]]]];
    auto using noise_pointwise_fast, coeff_pointwise_fast.
  exists x, u. split; [exact H1|]. split; [exact L|]. intros i Hi. rewrite G by assumption.
  rewrite <- sqrt_0. f_equal. rewrite <- Rabs_R0. f_equal. unfold point_var.
  apply rsum_zero. intros a Ha.
  assert (E1 : coeff_std Ut a * coeff_std Ut a = 0).
  { pose proof (Z2 a a Ha Ha) as Z. destruct Ut; simpl in *; try contradiction; try ring.
    now rewrite Nat.eqb_refl in Z. }
  assert (E2 : forall q, (q < n)%nat -> point_std sn q * point_std sn q = 0).
  { intros q Hq. pose proof (Z1 q q Hq Hq) as Z. destruct sn; simpl in *; try contradiction; try ring.
    - now rewrite Nat.eqb_refl in Z.
    - destruct F as [-> _]. simpl in Z. now rewrite Nat.eqb_refl in Z. }
  assert (E3 : continued (N - 1) (point_std sn 0 * point_std sn 0)
     (fun k : nat => point_std sn k * point_std sn k) (i + (N - 1) - a) = 0).
  { unfold continued. destruct (Nat.ltb_spec (i + (N - 1) - a) (N - 1)); apply E2; lia. }
  rewrite E1, E3. ring.
Qed.
Theorem C131_convolution : forall x1 U1 x2 U2 mode n1 n2,
  alen x1 = n1 -> alen x2 = n2 -> (2 <= n1)%nat -> (2 <= n2)%nat ->
  opt_square n1 U1 -> opt_square n2 U2 -> (numpy_mode mode \/ ndimage_mode mode) ->
  all_zero n1 (opt_cov U1) -> all_zero n2 (opt_cov U2) ->
  exists y U, convolve_unc x1 U1 x2 U2 mode = Ok (y, U) /\ mrows U = alen y /\ all_zero (mrows U) U.
Proof.
  intros x1 U1 x2 U2 mode n1 n2 H1 H2 Hn1 Hn2 S1 S2 Hm Z1 Z2.
  assert (Z : forall N g a x1 U1 x2 U2 i j, (forall k q, g k = Some q -> (q < a)%nat) ->
     all_zero a U1 -> all_zero N U2 -> ext_conv_cov N g x1 U1 x2 U2 i j = 0).
  { clear. intros N g a x1 U1 x2 U2 i j Hg Z1 Z2. unfold ext_conv_cov. apply rsum_zero. intros p Hp.
    apply rsum_zero. intros q Hq. rewrite (Z2 p q), (Z2 q p) by assumption.
    replace (extcov g U1 (i + (N - 1) - p) (j + (N - 1) - q)) with 0; [ring|].
    unfold extcov. destruct (g (i + (N - 1) - p)%nat) as [r|] eqn:Er; [|reflexivity].
    destruct (g (j + (N - 1) - q)%nat) as [t|] eqn:Et; [|reflexivity].
    symmetry. apply Z1; eauto. }
  destruct Hm as [Hm|Hm].
  - destruct (le_lt_dec n2 n1) as [Hle|Hlt].
    + destruct (np_conv_noswap x1 U1 x2 U2 mode n1 n2) as (y & U & A & L1 & L2 & L3 & E); auto.
      exists y, U. split; [exact A|]. split; [congruence|]. rewrite L2. intros i j Hi Hj.
      destruct (E i j Hi Hj) as [_ ->]. unfold np_closed. apply (Z _ _ n1); auto. intros k q. apply zp_in.
    + rewrite (convolve_swap x1 U1 x2 U2) by (auto; lia).
      destruct (np_conv_noswap x2 U2 x1 U1 mode n2 n1) as (y & U & A & L1 & L2 & L3 & E); auto; try lia.
      exists y, U. split; [exact A|]. split; [congruence|]. rewrite L2. intros i j Hi Hj.
      destruct (E i j Hi Hj) as [_ ->]. unfold np_closed. apply (Z _ _ n2); auto. intros k q. apply zp_in.
  - destruct (convolve_nd_closed x1 U1 x2 U2 mode n1 n2) as (y & U & A & L1 & L2 & L3 & E); auto; try lia.
    exists y, U. split; [exact A|]. split; [congruence|]. rewrite L2. intros i j Hi Hj.
    destruct (E i j Hi Hj) as [_ ->]. apply (Z _ _ n1); auto. intros k q. apply nd_in. lia.
Qed.
Example C131_fir_example : exists x U,
  FIRuncFilter DFloat DFloat ex_y (NsFloat 0) ex_th (UtMat (of_rows [[0; 0]; [0; 0]])) 0 None "diag" true
    = Ok (x, FullU U) /\ x 1%nat = 1 /\ U 0%nat 1%nat = 0.
Proof.
  destruct (C131_fir_full DFloat DFloat ex_y (NsFloat 0) ex_th (UtMat (of_rows [[0; 0]; [0; 0]])) "diag" 2 2)
    as (x & U & A & Z); try reflexivity; try lia; try exact I; try (split; reflexivity).
  - intros i j Hi Hj. below i Hi; below j Hj; simpl; lra.
  - intros i j Hi Hj. below i Hi; below j Hj; reflexivity.
  - exists x, U. split; [exact A|].
    rewrite (proj2 (C01_fir_estimate _ _ _ _ _ _ _ _ _ _ _ A) 1%nat) by (simpl; lia).
    split; [unfold fir_value; simpl; lra|apply Z; lia].
Qed.
Example C131_convolution_example : exists y U,
  convolve_unc ex_y None ex_th (Some (of_rows [[0; 0]; [0; 0]])) "valid" = Ok (y, U) /\ all_zero (mrows U) U.
Proof.
  destruct (C131_convolution ex_y None ex_th (Some (of_rows [[0; 0]; [0; 0]])) "valid" 2 2)
    as (y & U & A & _ & Z); try reflexivity; try lia; try exact I; try (split; reflexivity).
  - left. right. left. reflexivity.
  - intros i j Hi Hj. below i Hi; below j Hj; reflexivity.
  - eauto.
Qed.
Print Assumptions C131_fir_full.
Print Assumptions C131_fir_pointwise.
Print Assumptions C131_convolution.
