(** Harmonic signals (C168, C169) and zero padding (C170) in the frequency domain and through FIR filters.
    Models: M_DFT.v, M_Filter.v.  Vocabulary: S_DFT.v, S_Filter.v, lines_of (T_Parseval.v). *)
From Coq Require Import Reals List Arith ZArith Bool Lia Lra Psatz String.
From Verif Require Import Base Sums Stats StatsFacts M_Filter S_Filter S_Conv P_Filter P_Filter2 P_Filter3 P_Conv
  M_DFT S_Jac S_DFT P_Jac P_Trig P_DFT P_AmpPhase P_iDFT P_Deconv T_Filter T_DFT T_AmpPhase T_Parseval T_ConvThm T_Delay T_Superpose.
Import ListNotations.
Open Scope R_scope.

Lemma same_angle p q : - PI < p <= PI -> - PI < q <= PI -> cos p = cos q -> sin p = sin q -> p = q.
Proof.
  intros Hp Hq Hc Hs.
  assert (C : cos (p - q) = 1) by (rewrite cos_minus, Hc, Hs; pose proof (sin2_cos2 q) as S; unfold Rsqr in S; lra).
  assert (S : sin ((p - q) / 2) = 0).
  { pose proof (cos_2a_sin ((p - q) / 2)) as D. replace (2 * ((p - q) / 2)) with (p - q) in D by field. rewrite C in D. nra. }
  destruct (Rtotal_order p q) as [L|[E|G]]; [|exact E|].
  - pose proof (sin_lt_0_var ((p - q) / 2)). lra.
  - pose proof (sin_gt_0 ((p - q) / 2)). lra.
Qed.
(** Sum of the squares of the coefficients of one row. *)
Lemma coeff_norm n k : (1 <= n)%nat -> (2 * k <= n)%nat -> let h := (n / 2 + 1)%nat in
  rsum n (fun m => dft_coeff n h k m * dft_coeff n h k m) = INR n / lines_of n k /\
  rsum n (fun m => dft_coeff n h (h + k) m * dft_coeff n h (h + k) m) = INR n * (1 - / lines_of n k).
Proof.
  intros Hn Hk h.
  assert (Hkh : (k < h)%nat) by (unfold h; pose proof (Nat.div_mod n 2 ltac:(lia)); pose proof (Nat.mod_upper_bound n 2 ltac:(lia)); lia).
  assert (Hc : forall m, dft_coeff n h k m = cos (ang n k m)) by (intros m; unfold dft_coeff; apply Nat.ltb_lt in Hkh; rewrite Hkh; reflexivity).
  assert (Hs : forall m, dft_coeff n h (h + k) m = - sin (ang n k m)).
  { intros m. unfold dft_coeff. replace (h + k <? h)%nat with false by (symmetry; apply Nat.ltb_ge; lia). replace (h + k - h)%nat with k by lia. reflexivity. }
  assert (T : rsum n (fun m => cos (ang n k m) * cos (ang n k m)) + rsum n (fun m => sin (ang n k m) * sin (ang n k m)) = INR n).
  { rewrite <- rsum_plus. rewrite (rsum_ext n _ (fun _ => 1)), rsum_const; [ring|]. intros m _. pose proof (sin2_cos2 (ang n k m)) as S. unfold Rsqr in S. lra. }
  assert (D : rsum n (fun m => cos (ang n k m) * cos (ang n k m)) - rsum n (fun m => sin (ang n k m) * sin (ang n k m)) = INR n * (2 / lines_of n k - 1)).
  { rewrite <- rsum_minus. rewrite (rsum_ext n _ (fun m => cos (ang n k m + ang n k m))) by (intros m _; rewrite cos_plus; reflexivity).
    unfold lines_of. destruct (Nat.eqb_spec k 0) as [->|K0]; cbn [orb].
    - rewrite (rsum_ext n _ (fun _ => 1)), rsum_const; [field|]. intros m _. unfold ang. simpl INR. unfold Rdiv. rewrite !Rmult_0_r, !Rmult_0_l, Rplus_0_r. apply cos_0.
    - destruct (Nat.eqb_spec (2 * k) n) as [E|E].
      + rewrite (rsum_ext n _ (fun _ => 1)), rsum_const; [field|]. intros m _. rewrite ang_plus. replace (k + k)%nat with n by lia.
        replace (2 * PI * INR n * INR m / INR n) with (0 + 2 * INR m * PI) by (field; apply not_0_INR; lia). rewrite cos_period. apply cos_0.
      + rewrite (rsum_ext n _ (fun m => cos (2 * PI * INR (k + k) * INR m / INR n))) by (intros m _; rewrite ang_plus; reflexivity).
        rewrite cos_sum_zero by lia. field. }
  rewrite (rsum_ext n _ (fun m => cos (ang n k m) * cos (ang n k m))) by (intros m _; rewrite !Hc; reflexivity).
  rewrite (rsum_ext n (fun m => dft_coeff n h (h + k) m * _) (fun m => sin (ang n k m) * sin (ang n k m))) by (intros m _; rewrite !Hs; ring).
  assert (L : lines_of n k <> 0) by (unfold lines_of; destruct ((k =? 0) || (2 * k =? n))%nat; lra).
  split; [replace (INR n / lines_of n k) with ((INR n + INR n * (2 / lines_of n k - 1)) / 2) by (field; exact L)|
          replace (INR n * (1 - / lines_of n k)) with ((INR n - INR n * (2 / lines_of n k - 1)) / 2) by (field; exact L)]; lra.
Qed.

(** A sum of harmonics with whole numbers k of periods in n samples, amplitudes A k and phases p k (lines of frequency 0 and of half the
    sampling rate have no sine part). *)
Definition harmonics (n : nat) (A p : nat -> R) (m : nat) : R := rsum (n / 2 + 1) (fun k => A k * cos (2 * PI * INR k * INR m / INR n + p k)).
Definition proper_phases (n : nat) (p : nat -> R) : Prop := forall k, (k = 0 \/ 2 * k = n)%nat -> sin (p k) = 0.

Lemma half_bound n k : (k < n / 2 + 1)%nat <-> (2 * k <= n)%nat.
Proof. pose proof (Nat.div_mod n 2 ltac:(lia)). pose proof (Nat.mod_upper_bound n 2 ltac:(lia)). lia. Qed.
Lemma lines_of_pos n k : 0 < lines_of n k.
Proof. unfold lines_of. destruct ((k =? 0) || (2 * k =? n))%nat; lra. Qed.
Lemma harmonics_map n A p k : (1 <= n)%nat -> proper_phases n p -> let h := (n / 2 + 1)%nat in (k < h)%nat ->
  dft_map n h n (harmonics n A p) k = INR n / lines_of n k * (A k * cos (p k)) /\
  dft_map n h n (harmonics n A p) (h + k) = INR n / lines_of n k * (A k * sin (p k)).
Proof.
  intros Hn Hp h Hk.
  assert (X : forall m, harmonics n A p m = rsum h (fun l => A l * cos (p l) * dft_coeff n h l m + A l * sin (p l) * dft_coeff n h (h + l) m)).
  { intros m. unfold harmonics. fold h. apply rsum_ext. intros l Hl. unfold dft_coeff.
    replace (l <? h)%nat with true by (symmetry; now apply Nat.ltb_lt).
    replace (h + l <? h)%nat with false by (symmetry; apply Nat.ltb_ge; lia). replace (h + l - h)%nat with l by lia. rewrite cos_plus. ring. }
  assert (M : forall i, dft_map n h n (harmonics n A p) i =
     rsum h (fun l => A l * cos (p l) * rsum n (fun m => dft_coeff n h i m * dft_coeff n h l m) + A l * sin (p l) * rsum n (fun m => dft_coeff n h i m * dft_coeff n h (h + l) m))).
  { intros i. unfold dft_map. rewrite (rsum_ext n _ (fun m => rsum h (fun l => A l * cos (p l) * (dft_coeff n h i m * dft_coeff n h l m) + A l * sin (p l) * (dft_coeff n h i m * dft_coeff n h (h + l) m)))).
    2:{ intros m _. rewrite X, <- rsum_scal. apply rsum_ext. intros l _. ring. }
    rewrite rsum_swap. apply rsum_ext. intros l _. rewrite <- !rsum_scal, <- rsum_plus. reflexivity. }
  pose proof (proj1 (half_bound n k) Hk) as Hk2. destruct (coeff_norm n k Hn Hk2) as [N1 N2]. fold h in N1, N2.
  assert (O : forall i j, (i < 2 * h)%nat -> (j < 2 * h)%nat -> i <> j -> rsum n (fun m => dft_coeff n h i m * dft_coeff n h j m) = 0) by (intros; now apply dft_orth).
  rewrite !M. split.
  - rewrite (rsum_single h k); [|exact Hk|].
    + rewrite N1. rewrite (O k (h + k)%nat) by lia. ring.
    + intros l Hl Hne. rewrite (O k l), (O k (h + l)%nat) by lia. ring.
  - rewrite (rsum_single h k); [|exact Hk|].
    + rewrite N2. rewrite (O (h + k)%nat k) by lia.
      unfold lines_of. destruct (Nat.eqb_spec k 0) as [E|E]; cbn [orb]; [rewrite (Hp k) by auto; field|].
      destruct (Nat.eqb_spec (2 * k) n) as [F|F]; [rewrite (Hp k) by auto; field|field].
    + intros l Hl Hne. rewrite (O (h + k)%nat l), (O (h + k)%nat (h + l)%nat) by lia. ring.
Qed.

(** Every harmonic appears in its own line, with n/2 times (frequency 0 and half the sampling rate: n times) its amplitude, and its phase. *)
Theorem C168_lines : forall n A p x Ux CxCos CxSin rc o, let h := (n / 2 + 1)%nat in
  (1 <= n)%nat -> alen x = n -> (forall m, (m < n)%nat -> x m = harmonics n A p m) -> proper_phases n p ->
  GUM_DFT x Ux None None CxCos CxSin rc None = Ok o ->
  alen (dft_F o) = (2 * h)%nat /\
  forall k, (k < h)%nat -> dft_F o k = INR n / lines_of n k * (A k * cos (p k)) /\
    dft_F o (h + k)%nat = INR n / lines_of n k * (A k * sin (p k)).
Proof.
  intros n A p x Ux Cc Cs rc o h Hn Hl Hx Hp E.
  destruct (C22_dft_estimate _ _ _ _ _ _ _ _ E) as (_ & L & F). change (dft_len (alen x) None) with (alen x) in L, F. rewrite Hl in L, F. fold h in L, F.
  split; [exact L|]. intros k Hk. destruct (harmonics_map n A p k Hn Hp Hk) as [M1 M2]. fold h in M1, M2.
  rewrite !F by lia. rewrite <- M1, <- M2. unfold dft_map. split; apply rsum_ext; intros m Hm; cbn [win]; rewrite Hx by assumption; ring.
Qed.
(** White noise of variance u: all lines are uncorrelated, real and imaginary parts have the variance n u / 2; at frequency 0 and half the sampling rate the
    real part has the variance n u and the imaginary part, which is always 0, none. *)
Theorem C168_white_noise : forall x u rc, let n := alen x in let h := (n / 2 + 1)%nat in (1 <= n)%nat ->
  exists o, GUM_DFT x (SuFloat u) None None None None rc None = Ok o /\
    (forall k, (k < h)%nat -> fun_U (dft_U o) k k = INR n * u / lines_of n k /\
       fun_U (dft_U o) (h + k)%nat (h + k)%nat = INR n * u * (1 - / lines_of n k)) /\
    forall i j, (i < 2 * h)%nat -> (j < 2 * h)%nat -> i <> j -> fun_U (dft_U o) i j = 0.
Proof.
  intros x u rc n h Hn.
  destruct (dft_plain x (SuFloat u) rc) as (o & E & _ & _ & _ & _ & HV); try exact Hn; [exact I|intros a b _ _; cbn; rewrite Nat.eqb_sym; reflexivity|].
  fold n h in HV.
  assert (W : forall i j, (i < 2 * h)%nat -> (j < 2 * h)%nat -> fun_U (dft_U o) i j = u * rsum n (fun m => dft_coeff n h i m * dft_coeff n h j m)).
  { intros i j Hi Hj. rewrite HV by assumption. unfold sandwich. rewrite <- rsum_scal. apply rsum_ext. intros a Ha.
    rewrite (rsum_single n a); auto; cbn [sig_U].
    - rewrite Nat.eqb_refl. ring.
    - intros b _ Hb. apply Nat.neq_sym, Nat.eqb_neq in Hb. rewrite Hb. ring. }
  exists o. split; [exact E|]. split.
  - intros k Hk. destruct (coeff_norm n k Hn (proj1 (half_bound n k) Hk)) as [N1 N2]. fold h in N1, N2.
    rewrite !W, N1, N2 by lia. unfold Rdiv. split; ring.
  - intros i j Hi Hj Hne. rewrite W by assumption. unfold h. rewrite dft_orth by assumption. ring.
Qed.
(** Amplitudes and phases are recovered; with white noise of variance u, amplitudes have the variance n u / 2 and phases the variance 2 u / (n A^2), and they are
    uncorrelated. *)
Theorem C168_amp_phase : forall n A p x u, let h := (n / 2 + 1)%nat in
  (1 <= n)%nat -> alen x = n -> (forall m, (m < n)%nat -> x m = harmonics n A p m) -> proper_phases n p ->
  (forall k, (k < h)%nat -> 0 < A k /\ - PI < p k <= PI) ->
  exists A' P' U, Time2AmpPhase x (SuFloat u) = Ok (A', P', U) /\ alen A' = h /\ alen P' = h /\ dense_shape (2 * h) U /\
    (forall k, (k < h)%nat -> A' k = INR n / lines_of n k * A k /\ P' k = p k /\
       dense U k k = INR n * u / lines_of n k /\
       dense U (h + k)%nat (h + k)%nat = if ((k =? 0) || (2 * k =? n))%nat then 0 else 2 * u / (INR n * A k ^ 2)) /\
    forall i j, (i < 2 * h)%nat -> (j < 2 * h)%nat -> i <> j -> dense U i j = 0.
Proof.
  intros n A p x u h Hn Hl Hx Hp Hap.
  assert (Hy : symm (alen x) (sig_U (SuFloat u))) by (intros a b _ _; cbn; rewrite Nat.eqb_sym; reflexivity).
  destruct (C168_white_noise x u false) as (o & E & V & W); [rewrite Hl; exact Hn|]. rewrite Hl in V, W. fold h in V, W.
  destruct (dft_plain x (SuFloat u) false) as (o' & E' & _ & _ & Hf & Hsy & _); try (exact I || exact Hy); [rewrite Hl; exact Hn|].
  rewrite E in E'. injection E' as <-. rewrite Hl in Hf, Hsy. fold h in Hf, Hsy.
  destruct (C168_lines n A p x (SuFloat u) None None false o Hn Hl Hx Hp E) as [LF F]. fold h in LF, F.
  assert (Hn0 : 0 < INR n) by (apply lt_0_INR; lia).
  assert (Hc : forall k, 0 < INR n / lines_of n k) by (intros k; apply Rdiv_lt_0_compat; [exact Hn0|apply lines_of_pos]).
  assert (AM : forall k, (k < h)%nat -> amp (dft_F o k) (dft_F o (h + k)%nat) = INR n / lines_of n k * A k).
  { intros k Hk. destruct (F k Hk) as [-> ->]. unfold amp. destruct (Hap k Hk) as [HA _].
    replace (_ + _) with (Rsqr (INR n / lines_of n k * A k) * (Rsqr (cos (p k)) + Rsqr (sin (p k)))) by (unfold Rsqr; ring).
    rewrite Rplus_comm with (r1 := Rsqr (cos (p k))), sin2_cos2, Rmult_1_r. apply sqrt_Rsqr. apply Rmult_le_pos; [left; apply Hc|lra]. }
  assert (Apos : forall k, (k < h)%nat -> 0 < INR n / lines_of n k * A k) by (intros k Hk; apply Rmult_lt_0_compat; [apply Hc|now apply Hap]).
  destruct (DFT2AmpPhase_run (dft_F o) (dft_U o) false h) as (A' & P' & U & E2 & LA & LP & HA & HP & Sh & HU); auto; [unfold h; lia|].
  exists A', P', U. split; [unfold Time2AmpPhase; rewrite E; exact E2|]. repeat (split; [assumption|]).
  assert (T : forall k, (k < h)%nat -> dft_F o k = amp (dft_F o k) (dft_F o (h + k)%nat) * cos (p k) /\ dft_F o (h + k)%nat = amp (dft_F o k) (dft_F o (h + k)%nat) * sin (p k)).
  { intros k Hk. rewrite !AM by assumption. destruct (F k Hk) as [-> ->]. split; ring. }
  assert (K : forall k l (a b c d : R), (k < h)%nat -> (l < h)%nat -> term4 h (fun_U (dft_U o)) a b k c d l =
     if (k =? l)%nat then INR n * u / lines_of n k * (a * c) + INR n * u * (1 - / lines_of n k) * (b * d) else 0).
  { intros k l a b c d Hk Hl'. unfold term4. destruct (Nat.eqb_spec k l) as [<-|Hne].
    - destruct (V k Hk) as [-> ->]. rewrite !W by lia. ring.
    - rewrite !W by lia. ring. }
  split.
  - intros k Hk. split; [rewrite HA; now apply AM|]. split; [|split].
    + rewrite HP. destruct (arctan2_polar (dft_F o k) (dft_F o (h + k)%nat)) as (C1 & C2 & C3); [rewrite AM by assumption; now apply Apos|].
      destruct (T k Hk) as [T1 T2]. pose proof (AM k Hk) as AMk. pose proof (Apos k Hk) as Ak.
      assert (N0 : amp (dft_F o k) (dft_F o (h + k)%nat) <> 0) by (rewrite AMk; lra).
      apply same_angle; [exact C3|now apply Hap| |]; apply Rmult_eq_reg_l with (amp (dft_F o k) (dft_F o (h + k)%nat)); try exact N0; congruence.
    + rewrite HU by lia. rewrite S4_term by lia. rewrite base_lo, ap_al_lo, ap_be_lo by assumption. rewrite K by assumption. rewrite Nat.eqb_refl.
      destruct (F k Hk) as [F1 F2]. rewrite AM by assumption. rewrite F1, F2. pose proof (Apos k Hk) as Ak. destruct (Hap k Hk) as [HAk _].
      pose proof (lines_of_pos n k) as HLk.
      replace (INR n / lines_of n k * (A k * cos (p k)) / (INR n / lines_of n k * A k)) with (cos (p k)) by (field; repeat split; lra).
      replace (INR n / lines_of n k * (A k * sin (p k)) / (INR n / lines_of n k * A k)) with (sin (p k)) by (field; repeat split; lra).
      pose proof (sin2_cos2 (p k)) as SC. unfold Rsqr in SC.
      unfold lines_of. destruct (Nat.eqb_spec k 0) as [E0|E0]; cbn [orb]; [rewrite (Hp k) in * by auto; replace (cos (p k) * cos (p k)) with 1 by lra; field|].
      destruct (Nat.eqb_spec (2 * k) n) as [E1|E1]; [rewrite (Hp k) in * by auto; replace (cos (p k) * cos (p k)) with 1 by lra; field|].
      replace (cos (p k) * cos (p k)) with (1 - sin (p k) * sin (p k)) by lra. field.
    + rewrite HU by lia. rewrite S4_term by lia. rewrite base_hi, ap_al_hi, ap_be_hi. rewrite K by assumption. rewrite Nat.eqb_refl.
      destruct (F k Hk) as [F1 F2]. rewrite AM by assumption. rewrite F1, F2. pose proof (Apos k Hk) as Ak. destruct (Hap k Hk) as [HAk _].
      pose proof (lines_of_pos n k) as HLk.
      replace (- (INR n / lines_of n k * (A k * sin (p k))) / (INR n / lines_of n k * A k) ^ 2) with (- (lines_of n k * sin (p k) / (INR n * A k))) by (field; repeat split; lra).
      replace (INR n / lines_of n k * (A k * cos (p k)) / (INR n / lines_of n k * A k) ^ 2) with (lines_of n k * cos (p k) / (INR n * A k)) by (field; repeat split; lra).
      pose proof (sin2_cos2 (p k)) as SC. unfold Rsqr in SC.
      unfold lines_of. destruct (Nat.eqb_spec k 0) as [E0|E0]; cbn [orb]; [rewrite (Hp k) by auto; field; split; lra|].
      destruct (Nat.eqb_spec (2 * k) n) as [E1|E1]; [rewrite (Hp k) by auto; field; split; lra|].
      transitivity (2 * u / (INR n * A k ^ 2) * (sin (p k) * sin (p k) + cos (p k) * cos (p k))); [field; split; lra|]. rewrite SC. ring.
  - assert (Hb : forall i, (i < 2 * h)%nat -> exists k, (k < h)%nat /\ (i = k \/ i = (h + k)%nat)).
    { intros i Hi. destruct (Nat.lt_ge_cases i h); [exists i; auto|exists (i - h)%nat; split; [lia|right; lia]]. }
    assert (Z : forall k, (k < h)%nat -> dense U k (h + k)%nat = 0).
    { intros k Hk. rewrite HU by lia. rewrite S4_term by lia. rewrite base_lo, base_hi, ap_al_lo, ap_be_lo, ap_al_hi, ap_be_hi by assumption. rewrite K by assumption. rewrite Nat.eqb_refl.
      destruct (F k Hk) as [F1 F2]. rewrite AM by assumption. rewrite F1, F2. pose proof (Apos k Hk) as Ak. destruct (Hap k Hk) as [HAk _].
      pose proof (lines_of_pos n k) as HLk. unfold lines_of in *.
      destruct (Nat.eqb_spec k 0) as [E0|E0]; cbn [orb] in *; [rewrite (Hp k) by auto; field; split; lra|].
      destruct (Nat.eqb_spec (2 * k) n) as [E1|E1]; [rewrite (Hp k) by auto; field; split; lra|]. field; split; lra. }
    assert (Y : forall i j, (i < 2 * h)%nat -> (j < 2 * h)%nat -> dense U i j = dense U j i) by (intros i j Hi Hj; rewrite !HU by assumption; now apply S4_symm).
    intros i j Hi Hj Hne. destruct (Hb i Hi) as (k & Hk & Ek), (Hb j Hj) as (l & Hl' & El).
    destruct (Nat.eq_dec k l) as [<-|D].
    + destruct Ek as [-> | ->], El as [-> | ->]; try congruence; [now apply Z|]. rewrite Y by lia. now apply Z.
    + rewrite HU by assumption. rewrite S4_term by assumption.
      replace (base h i) with k by (destruct Ek as [-> | ->]; [now rewrite base_lo|now rewrite base_hi]).
      replace (base h j) with l by (destruct El as [-> | ->]; [now rewrite base_lo|now rewrite base_hi]).
      rewrite K by assumption. apply Nat.eqb_neq in D. rewrite D. reflexivity.
Qed.
(** 1 + 2 cos(2 pi m / 4 + pi / 2) + 1/2 (-1)^m with white noise: the line of one period has amplitude 4 and phase pi / 2. *)
Example C168_example : exists A' P' U,
  let p := fun k => if (k =? 1)%nat then PI / 2 else 0 in
  let A := fun k => match k with O => 1 | S O => 2 | _ => 1 / 2 end in
  Time2AmpPhase (mkArr 4 (harmonics 4 A p)) (SuFloat 1) = Ok (A', P', U) /\
  harmonics 4 A p 1 = -3 / 2 /\ A' 1%nat = 4 /\ P' 1%nat = PI / 2 /\ dense U 1 1 = 2 /\ dense U 4 4 = 1 / 8.
Proof.
  set (p := fun k => if (k =? 1)%nat then PI / 2 else 0). set (A := fun k => match k with O => 1 | S O => 2 | _ => 1 / 2 end).
  pose proof PI_RGT_0 as HPI.
  destruct (C168_amp_phase 4 A p (mkArr 4 (harmonics 4 A p)) 1) as (A' & P' & U & E & _ & _ & _ & V & _); auto; try lia.
  { intros k [-> | Hk]; unfold p; [apply sin_0|]. replace k with 2%nat by lia. apply sin_0. }
  { intros [|[|[|k]]] Hk; [| | |cbn in Hk; lia]; unfold A, p; cbn [Nat.eqb]; lra. }
  exists A', P', U. cbv zeta. split; [exact E|]. destruct (V 1%nat ltac:(cbn; lia)) as (V1 & V2 & V3 & V4). split.
  { unfold harmonics. cbn [Nat.div Nat.divmod fst Nat.add rsum]. unfold A, p. cbn [Nat.eqb].
    replace (2 * PI * INR 0 * INR 1 / INR 4 + 0) with 0 by (simpl; field).
    replace (2 * PI * INR 1 * INR 1 / INR 4 + PI / 2) with PI by (simpl; field).
    replace (2 * PI * INR 2 * INR 1 / INR 4 + 0) with PI by (simpl; field). rewrite cos_0, cos_PI. lra. }
  split; [rewrite V1; unfold lines_of, A; simpl; field|]. split; [exact V2|].
  split; [rewrite V3; unfold lines_of; simpl; field|]. cbn [Nat.div Nat.divmod fst Nat.add] in V4. rewrite V4. unfold A. simpl. field.
Qed.

(** ** FIR filters *)
(** Frequency response of the filter b at angular frequency w per sample. *)
Definition resp_re (b : vec) (w : R) : R := rsum (alen b) (fun k => b k * cos (w * INR k)).
Definition resp_im (b : vec) (w : R) : R := - rsum (alen b) (fun k => b k * sin (w * INR k)).
(** After the first N - 1 samples a harmonic input gives a harmonic output, multiplied by the modulus and delayed by the phase of the frequency response. *)
Theorem C169_harmonic : forall ydt tdt y sn b Ut kind full x u A w p G t,
  (forall m, (m < alen y)%nat -> y m = A * cos (w * INR m + p)) ->
  G * cos t = resp_re b w -> G * sin t = resp_im b w ->
  FIRuncFilter ydt tdt y sn b Ut 0 None kind full = Ok (x, u) ->
  alen x = alen y /\ forall i, (i < alen y)%nat -> (alen b <= i + 1)%nat -> x i = A * G * cos (w * INR i + p + t).
Proof.
  intros ydt tdt y sn b Ut kind full x u A w p G t Hy Hc Hs E.
  destruct (C01_fir_estimate _ _ _ _ _ _ _ _ _ _ _ E) as [L V]. split; [exact L|]. intros i Hi HN. rewrite V by assumption. unfold fir_value.
  rewrite (rsum_ext (alen b) _ (fun k => A * cos (w * INR i + p) * (b k * cos (w * INR k)) + A * sin (w * INR i + p) * (b k * sin (w * INR k)))).
  2:{ intros k Hk. replace (k <=? i)%nat with true by (symmetry; apply Nat.leb_le; lia). rewrite Hy by lia.
      rewrite minus_INR by lia. replace (w * (INR i - INR k) + p) with ((w * INR i + p) - w * INR k) by ring. rewrite cos_minus. ring. }
  rewrite rsum_plus, !rsum_scal. fold (resp_re b w). replace (rsum (alen b) (fun k => b k * sin (w * INR k))) with (- resp_im b w) by (unfold resp_im; ring).
  rewrite <- Hc, <- Hs. rewrite (cos_plus (w * INR i + p) t). ring.
Qed.
(** A constant input gives a constant output from the first sample on, and the uncertainty of the coefficients acts like that of their sum. *)
Theorem C169_constant : forall ydt tdt y c b U kind N,
  (forall m, (m < alen y)%nat -> y m = c) -> (1 <= alen y)%nat -> alen b = N -> (2 <= N)%nat -> mrows U = N -> mcols U = N ->
  exists x V, FIRuncFilter ydt tdt y (NsFloat 0) b (UtMat U) 0 None kind true = Ok (x, FullU V) /\ alen x = alen y /\
    forall i, (i < alen y)%nat -> x i = c * rsum N b /\
      forall j, (j < alen y)%nat -> V i j = c ^ 2 * rsum N (fun k => rsum N (fun l => U k l)).
Proof.
  intros ydt tdt y c b U kind N Hy Hn Hb HN Hr Hc.
  destruct (FIR_general ydt tdt y (NsFloat 0) b (UtMat U) kind (alen y) N) as (x & V & E & Lx & _ & _ & X & W); auto; [exact I|split; assumption|].
  exists x, V. split; [exact E|]. split; [exact Lx|]. intros i Hi. split.
  - rewrite X by assumption. unfold fir_value. rewrite Hb, <- rsum_scal. apply rsum_ext. intros k Hk.
    destruct (Nat.leb_spec k i); rewrite Hy by lia; ring.
  - intros j Hj. rewrite W by assumption. unfold gen_cov. rewrite <- rsum_scal. apply rsum_ext. intros k Hk. rewrite <- rsum_scal. apply rsum_ext. intros l Hl.
    assert (Z : forall a b, stat_cont (alen y) (N - 1) (sig_cov (NsFloat 0) kind) a b = 0).
    { intros a d. unfold stat_cont, sig_cov.
      repeat match goal with |- context [if ?t then _ else _] => destruct t end; ring. }
    rewrite Z. cbn [coeff_cov].
    assert (Y : forall a, (a < N - 1 + alen y)%nat -> continued (N - 1) (y 0%nat) y a = c).
    { intros a Ha. unfold continued. destruct (Nat.ltb_spec a (N - 1)); apply Hy; lia. }
    rewrite !Y by lia. ring.
Qed.
(** Average of two neighbours at a quarter of the sampling rate: modulus 1 / sqrt 2, phase - pi / 4. *)
Example C169_example : exists x V, FIRuncFilter DFloat DFloat (of_list [1; 0; -1; 0; 1]) (NsFloat 0) (of_list [1 / 2; 1 / 2]) (UtMat (of_rows [[1; 0]; [0; 1]])) 0 None "diag" true = Ok (x, FullU V) /\
  x 4%nat = 1 * sqrt (1 / 2) * cos (PI / 2 * INR 4 + 0 + - (PI / 4)).
Proof.
  destruct (FIR_general DFloat DFloat (of_list [1; 0; -1; 0; 1]) (NsFloat 0) (of_list [1 / 2; 1 / 2]) (UtMat (of_rows [[1; 0]; [0; 1]])) "diag" 5 2) as (x & V & E & _); auto; [exact I|split; reflexivity|].
  exists x, V. split; [exact E|].
  assert (Q : sqrt (1 / 2) * / sqrt 2 = 1 / 2).
  { rewrite <- sqrt_inv, <- sqrt_mult by lra. replace (1 / 2 * / 2) with (1 / 2 * (1 / 2)) by field. apply sqrt_square. lra. }
  refine (proj2 (C169_harmonic _ _ _ _ _ _ _ _ _ _ 1 (PI / 2) 0 (sqrt (1 / 2)) (- (PI / 4)) _ _ _ E) 4%nat _ _); cbn [alen of_list Datatypes.length]; try lia.
  - intros [|[|[|[|[|m]]]]] Hm; [| | | | |lia]; cbn [aget of_list nth]; rewrite Rplus_0_r.
    + simpl INR. rewrite Rmult_0_r, cos_0. ring.
    + simpl INR. rewrite Rmult_1_r, cos_PI2. ring.
    + replace (PI / 2 * INR 2) with PI by (simpl; field). rewrite cos_PI. ring.
    + replace (PI / 2 * INR 3) with (3 * (PI / 2)) by (simpl; field). rewrite cos_3PI2. ring.
    + replace (PI / 2 * INR 4) with (2 * PI) by (simpl; field). rewrite cos_2PI. ring.
  - rewrite cos_neg, cos_PI4. unfold Rdiv at 2. rewrite Rmult_1_l, Q. unfold resp_re. cbn [alen of_list Datatypes.length rsum aget nth].
    simpl INR. rewrite Rmult_0_r, Rmult_1_r, cos_0, cos_PI2. lra.
  - rewrite sin_neg, sin_PI4. unfold Rdiv at 2. rewrite Rmult_1_l, Ropp_mult_distr_r_reverse, Q. unfold resp_im. cbn [alen of_list Datatypes.length rsum aget nth].
    simpl INR. rewrite Rmult_0_r, Rmult_1_r, sin_0, sin_PI2. lra.
Qed.

(** ** Zero padding to a multiple of the length *)
Definition spread (n q i : nat) : nat := let h := (n / 2 + 1)%nat in if (i <? h)%nat then (q * i)%nat else (q * n / 2 + 1 + q * (i - h))%nat.
Lemma spread_lt n q i : (1 <= q)%nat -> (i < 2 * (n / 2 + 1))%nat -> (spread n q i < 2 * (q * n / 2 + 1))%nat.
Proof.
  intros Hq Hi. unfold spread.
  assert (K : forall k, (k < n / 2 + 1)%nat -> (q * k < q * n / 2 + 1)%nat) by (intros k Hk; apply half_bound; apply half_bound in Hk; nia).
  generalize dependent (q * n / 2 + 1)%nat. intros h' K. generalize dependent (n / 2 + 1)%nat. intros h Hi K.
  destruct (Nat.ltb_spec i h); [pose proof (K i H); lia|]. pose proof (K (i - h)%nat ltac:(lia)). lia.
Qed.
Lemma spread_coeff n q i m : (1 <= n)%nat -> (1 <= q)%nat -> (i < 2 * (n / 2 + 1))%nat ->
  dft_coeff (q * n) (q * n / 2 + 1) (spread n q i) m = dft_coeff n (n / 2 + 1) i m.
Proof.
  intros Hn Hq Hi. unfold spread, dft_coeff. pose proof (not_0_INR n ltac:(lia)). pose proof (not_0_INR q ltac:(lia)).
  assert (K : forall k, (k < n / 2 + 1)%nat -> (q * k < q * n / 2 + 1)%nat) by (intros k Hk; apply half_bound; apply half_bound in Hk; nia).
  destruct (Nat.ltb_spec i (n / 2 + 1)) as [L|L].
  - replace (q * i <? q * n / 2 + 1)%nat with true by (symmetry; apply Nat.ltb_lt; now apply K). f_equal. rewrite !mult_INR. field. auto.
  - replace (q * n / 2 + 1 + q * (i - (n / 2 + 1)) <? q * n / 2 + 1)%nat with false by (symmetry; apply Nat.ltb_ge; apply Nat.le_add_r).
    replace (q * n / 2 + 1 + q * (i - (n / 2 + 1)) - (q * n / 2 + 1))%nat with (q * (i - (n / 2 + 1)))%nat by (symmetry; apply minus_plus). f_equal. f_equal. rewrite !mult_INR. field. auto.
Qed.
Lemma spread_inj n q i j : (1 <= q)%nat -> (i < 2 * (n / 2 + 1))%nat -> (j < 2 * (n / 2 + 1))%nat -> spread n q i = spread n q j -> i = j.
Proof.
  intros Hq Hi Hj. unfold spread.
  assert (K : forall k, (k < n / 2 + 1)%nat -> (q * k < q * n / 2 + 1)%nat) by (intros k Hk; apply half_bound; apply half_bound in Hk; nia).
  generalize dependent (q * n / 2 + 1)%nat. intros h' K. generalize dependent (n / 2 + 1)%nat. intros h Hi Hj K.
  destruct (Nat.ltb_spec i h), (Nat.ltb_spec j h); intros E; try nia.
  - pose proof (K i H). nia.
  - pose proof (K j H0). nia.
Qed.
(** Padding a signal with zeros to q times its length puts q - 1 new lines between the lines; the old lines keep value and covariance. *)
Theorem C170_padding : forall x Ux q w rc, let n := alen x in let h := (n / 2 + 1)%nat in
  (1 <= n)%nat -> (1 <= q)%nat -> sig_fits n Ux -> symm n (sig_U Ux) -> win_fits n Ux w ->
  exists o o', GUM_DFT x Ux None w None None rc None = Ok o /\
    GUM_DFT x Ux (Some (Z.of_nat (q * n))) w None None rc None = Ok o' /\
    alen (dft_F o) = (2 * h)%nat /\ alen (dft_F o') = (2 * (q * n / 2 + 1))%nat /\
    forall i, (i < 2 * h)%nat -> dft_F o' (spread n q i) = dft_F o i /\
      forall j, (j < 2 * h)%nat -> fun_U (dft_U o') (spread n q i) (spread n q j) = fun_U (dft_U o) i j.
Proof.
  intros x Ux q w rc n h Hn Hq Hs Hy Hw.
  destruct (GUM_DFT_run x Ux None w rc None) as (o & E & L & F & V); auto; try exact I.
  destruct (GUM_DFT_run x Ux (Some (Z.of_nat (q * n))) w rc None) as (o' & E' & L' & F' & V'); auto; try exact I.
  { cbn [pad_fits]. fold n. nia. }
  { cbn [dft_len]. rewrite Nat2Z.id. nia. }
  cbv zeta in *. cbn [dft_len] in *. rewrite Nat2Z.id in *. unfold lines in L, F, V, L', F', V'. rewrite seq_length in L, F, V, L', F', V'. fold n in L, F, V, L', F', V'.
  set (h' := (q * n / 2 + 1)%nat) in *. fold h in L, F, V.
  assert (R : forall i, (i < 2 * h)%nat -> row h (seq 0 h) i = i) by (intros; now apply row_nomask).
  assert (R' : forall i, (i < 2 * h')%nat -> row h' (seq 0 h') i = i) by (intros; now apply row_nomask).
  assert (B : forall i, (i < 2 * h)%nat -> (spread n q i < 2 * h')%nat) by (intros; now apply spread_lt).
  exists o, o'. repeat (split; [assumption|]). intros i Hi. split.
  - rewrite F', F, R', R by auto. unfold dft_map. apply rsum_ext. intros m _. unfold h', h. rewrite spread_coeff by assumption. reflexivity.
  - assert (SW : forall U j, (j < 2 * h)%nat -> sandwich n (fun r m => dft_coeff (q * n) h' (row h' (seq 0 h') r) m) U (fun r m => dft_coeff (q * n) h' (row h' (seq 0 h') r) m) (spread n q i) (spread n q j)
        = sandwich n (fun r m => dft_coeff n h (row h (seq 0 h) r) m) U (fun r m => dft_coeff n h (row h (seq 0 h) r) m) i j).
    { intros U j Hj. unfold sandwich. rewrite !R', !R by auto. apply rsum_ext. intros a _. apply rsum_ext. intros b _. unfold h', h. rewrite !spread_coeff by assumption. reflexivity. }
    intros j Hj. unfold unc_ok in V, V'. destruct (dft_U o) as [v|M], (dft_U o') as [v'|M']; cbn [fun_U].
    + destruct V as (_ & _ & V), V' as (_ & _ & V'). destruct (Nat.eqb_spec i j) as [<-|D].
      * rewrite Nat.eqb_refl, V, V' by auto. now apply SW.
      * replace (spread n q i =? spread n q j)%nat with false; [reflexivity|]. symmetry. apply Nat.eqb_neq. intros X. apply D. now apply (spread_inj n q).
    + destruct V as [V _], V' as [V' _]. contradiction.
    + destruct V as [V _], V' as [V' _]. contradiction.
    + destruct V as (_ & _ & _ & V), V' as (_ & _ & _ & V'). rewrite V, V' by auto. now apply SW.
Qed.
Example C170_example : exists o o', GUM_DFT (of_list [1; 2]) (SuFloat 1) None None None None false None = Ok o /\
  GUM_DFT (of_list [1; 2]) (SuFloat 1) (Some 4%Z) None None None false None = Ok o' /\
  dft_F o 1%nat = -1 /\ dft_F o' 2%nat = -1 /\ fun_U (dft_U o') 2 2 = fun_U (dft_U o) 1 1.
Proof.
  destruct (C170_padding (of_list [1; 2]) (SuFloat 1) 2 None false) as (o & o' & E & E' & _ & _ & V); try exact I; try (cbn; lia).
  { intros a b _ _. cbn. rewrite Nat.eqb_sym. reflexivity. }
  exists o, o'. split; [exact E|]. split; [exact E'|].
  destruct (V 1%nat ltac:(cbn; lia)) as [V1 V2]. specialize (V2 1%nat ltac:(cbn; lia)).
  change (spread (alen (of_list [1; 2])) 2 1) with 2%nat in V1, V2.
  destruct (C22_dft_estimate _ _ _ _ _ _ _ _ E) as (_ & _ & F).
  assert (F1 : dft_F o 1%nat = -1).
  { rewrite F by (cbn; lia). unfold dft_map, dft_coeff. cbn [dft_len alen of_list Datatypes.length Nat.div Nat.divmod fst Nat.add Nat.ltb Nat.leb rsum win aget nth].
    replace (2 * PI * INR 1 * INR 0 / INR 2) with 0 by (simpl; field). replace (2 * PI * INR 1 * INR 1 / INR 2) with PI by (simpl; field).
    rewrite cos_0, cos_PI. ring. }
  rewrite V1. auto.
Qed.

(** A scalar variance means independent samples of equal variance, also with zero padding (C171): the variances do, ... *)
Theorem C171_scalar_variances_partial : forall x u z w rc, let n := alen x in (1 <= n)%nat -> (Z.of_nat n <= z)%Z -> match w with Some v => alen v = n | None => True end ->
  exists o o', GUM_DFT x (SuFloat u) (Some z) w None None rc None = Ok o /\
    GUM_DFT x (SuMat (mkMat n n (fun i j => if (i =? j)%nat then u else 0))) (Some z) w None None rc None = Ok o' /\
    alen (dft_F o) = alen (dft_F o') /\
    (forall i, (i < alen (dft_F o))%nat -> dft_F o i = dft_F o' i /\ fun_U (dft_U o) i i = fun_U (dft_U o') i i) /\
    (w <> None -> forall i j, (i < alen (dft_F o))%nat -> (j < alen (dft_F o))%nat -> fun_U (dft_U o) i j = fun_U (dft_U o') i j).
Proof.
  intros x u z w rc n Hn Hz Hw.
  set (D := mkMat n n (fun i j => if (i =? j)%nat then u else 0)).
  assert (Hy : symm n (fun i j => if (i =? j)%nat then u else 0)) by (intros a b _ _; rewrite Nat.eqb_sym; reflexivity).
  assert (W1 : win_fits n (SuFloat u) w) by (destruct w; cbn; auto). assert (W2 : win_fits n (SuMat D) w) by (destruct w; cbn; auto).
  assert (Hl : (1 <= dft_len n (Some z))%nat) by (cbn [dft_len]; lia).
  destruct (GUM_DFT_run x (SuFloat u) (Some z) w rc None) as (o & E & L & F & V); auto; try exact I.
  destruct (GUM_DFT_run x (SuMat D) (Some z) w rc None) as (o' & E' & L' & F' & V'); auto; try exact I; [split; reflexivity|].
  cbv zeta in *. fold n in L, F, V, L', F', V'.
  exists o, o'. split; [exact E|]. split; [exact E'|]. split; [congruence|]. rewrite L. split.
  - intros i Hi. split; [rewrite F, F' by assumption; reflexivity|].
    rewrite (run_U _ _ _ _ _ _ _ i i V), (run_U _ _ _ _ _ _ _ i i V') by auto. reflexivity.
  - intros Hw' i j Hi Hj.
    rewrite (run_U _ _ _ _ _ _ _ i j V) by tauto. rewrite (run_U _ _ _ _ _ _ _ i j V') by (auto; right; cbn; tauto). reflexivity.
Qed.
(** ... but the covariances of the padded lines are left out: one sample, padded with one zero, gives two equal lines. *)
Theorem C171_scalar_refuted : exists x o o',
  GUM_DFT x (SuFloat 1) (Some 2%Z) None None None false None = Ok o /\
  GUM_DFT x (SuMat (mkMat (alen x) (alen x) (fun i j => if (i =? j)%nat then 1 else 0))) (Some 2%Z) None None None false None = Ok o' /\
  dft_F o 0%nat = 3 /\ dft_F o 1%nat = 3 /\ fun_U (dft_U o) 0 1 = 0 /\ fun_U (dft_U o') 0 1 = 1.
Proof.
  set (x := of_list [3]).
  destruct (GUM_DFT_run x (SuFloat 1) (Some 2%Z) None false None) as (o & E & L & F & V); try exact I; [intros a b _ _; cbn; rewrite Nat.eqb_sym; reflexivity|cbn; lia|cbn; lia|].
  destruct (GUM_DFT_run x (SuMat (mkMat 1 1 (fun i j => if (i =? j)%nat then 1 else 0))) (Some 2%Z) None false None) as (o' & E' & L' & F' & V'); try exact I; [split; reflexivity|intros a b _ _; cbn; rewrite Nat.eqb_sym; reflexivity|cbn; lia|cbn; lia|].
  cbv zeta in *. exists x, o, o'. split; [exact E|]. split; [exact E'|].
  change (dft_len (alen x) (Some 2%Z)) with 2%nat in *. change (Datatypes.length (lines 2 None)) with 2%nat in *.
  assert (C1 : forall i, (i < 2)%nat -> dft_coeff 2 2 i 0 = 1).
  { intros [|[|i]] Hi; [| |lia]; unfold dft_coeff; cbn [Nat.ltb Nat.leb]; simpl INR; unfold Rdiv; rewrite Rmult_0_r, Rmult_0_l; apply cos_0. }
  assert (FF : forall i, (i < 2)%nat -> dft_F o i = 3).
  { intros i Hi. rewrite F by lia. replace (row (2 / 2 + 1) (lines 2 None) i) with i by (symmetry; apply (row_nomask 2 i); cbn; lia).
    unfold dft_map. change (2 / 2 + 1)%nat with 2%nat. change (alen x) with 1%nat. cbn [rsum win]. rewrite C1 by assumption. cbn. ring. }
  split; [now apply FF; lia|]. split; [now apply FF; lia|]. split.
  - unfold unc_ok in V. destruct (dft_U o) as [v|M]; [reflexivity|]. destruct V as [V _]. exfalso. apply V. split; [exact I|reflexivity].
  - rewrite (run_U _ _ _ _ _ _ _ 0 1 V') by (try lia; right; cbn; tauto).
    unfold sandwich. change (2 / 2 + 1)%nat with 2%nat. change (alen x) with 1%nat. cbn [rsum].
    replace (row 2 (lines 2 None) 0) with 0%nat by (symmetry; apply (row_nomask 2 0); cbn; lia).
    replace (row 2 (lines 2 None) 1) with 1%nat by (symmetry; apply (row_nomask 2 1); cbn; lia).
    rewrite !C1 by lia. cbn. ring.
Qed.
Example C171_example : exists o o', let x := of_list [1; 2] in
  GUM_DFT x (SuFloat 1) (Some 3%Z) None None None false None = Ok o /\
  GUM_DFT x (SuMat (mkMat (alen x) (alen x) (fun i j => if (i =? j)%nat then 1 else 0))) (Some 3%Z) None None None false None = Ok o' /\
  fun_U (dft_U o) 1 1 = fun_U (dft_U o') 1 1.
Proof.
  destruct (C171_scalar_variances_partial (of_list [1; 2]) 1 3 None false) as (o & o' & E & E' & L & V & _); try exact I; try (cbn; lia).
  exists o, o'. cbv zeta. split; [exact E|]. split; [exact E'|].
  destruct (C22_dft_estimate _ _ _ _ _ _ _ _ E) as (_ & LF & _). apply V. rewrite LF. cbn. lia.
Qed.

Print Assumptions C168_lines.
Print Assumptions C168_white_noise.
Print Assumptions C168_amp_phase.
Print Assumptions C169_harmonic.
Print Assumptions C169_constant.
Print Assumptions C170_padding.
Print Assumptions C171_scalar_variances_partial.
Print Assumptions C171_scalar_refuted.
