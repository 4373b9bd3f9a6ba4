(** A circular delay changes phases only (C154). *)
From Coq Require Import Reals List Arith ZArith Bool Lia Lra Psatz String.
From Verif Require Import Base Sums Stats StatsFacts M_Filter S_Filter S_Conv P_Filter P_Filter2 P_Filter3 P_Conv
  M_DFT S_Jac S_DFT P_Jac P_Trig P_DFT P_AmpPhase P_Deconv T_DFT T_AmpPhase T_ConvThm.
Import ListNotations.
Open Scope R_scope.

Lemma cos_sin_turns x z : cos (x + 2 * PI * IZR z) = cos x /\ sin (x + 2 * PI * IZR z) = sin x.
Proof.
  destruct (Z_le_gt_dec 0 z) as [Hz|Hz].
  - rewrite <- (Z2Nat.id z Hz), <- INR_IZR_INZ. replace (2 * PI * INR (Z.to_nat z)) with (2 * INR (Z.to_nat z) * PI) by ring.
    split; [apply cos_period|apply sin_period].
  - assert (E : IZR z = - INR (Z.to_nat (- z))).
    { rewrite INR_IZR_INZ, Z2Nat.id by lia. rewrite opp_IZR. ring. }
    rewrite E. set (j := Z.to_nat (- z)).
    split.
    + rewrite <- (cos_period (x + 2 * PI * - INR j) j). f_equal. ring.
    + rewrite <- (sin_period (x + 2 * PI * - INR j) j). f_equal. ring.
Qed.
(** numpy.roll(range(n), s): where the sample at m came from *)
Lemma roll_idx_turn n s m : (1 <= n)%nat -> exists z, IZR (Z.of_nat m) = INR (roll_idx n s m) + IZR s + INR n * IZR z.
Proof.
  intros Hn. exists ((Z.of_nat m - s) / Z.of_nat n)%Z. unfold roll_idx.
  pose proof (Z.mod_pos_bound (Z.of_nat m - s) (Z.of_nat n) ltac:(lia)).
  rewrite !INR_IZR_INZ, Z2Nat.id by lia. rewrite <- mult_IZR, <- !plus_IZR. f_equal.
  pose proof (Z.div_mod (Z.of_nat m - s) (Z.of_nat n) ltac:(lia)). lia.
Qed.
Lemma dft_coeff_roll n h s k m : (1 <= n)%nat -> (k < h)%nat ->
  let p := roll_idx n s m in let phi := 2 * PI * INR k * IZR s / INR n in
  dft_coeff n h k m = cos phi * dft_coeff n h k p + sin phi * dft_coeff n h (h + k) p /\
  dft_coeff n h (h + k) m = cos phi * dft_coeff n h (h + k) p - sin phi * dft_coeff n h k p.
Proof.
  intros Hn Hk p phi. unfold dft_coeff. destruct (Nat.ltb_spec k h); [|lia]. destruct (Nat.ltb_spec (h + k) h); [lia|].
  replace (h + k - h)%nat with k by lia.
  destruct (roll_idx_turn n s m Hn) as (z & Hz). fold p in Hz. rewrite <- INR_IZR_INZ in Hz.
  assert (INR n <> 0) by (apply not_0_INR; lia).
  assert (E : 2 * PI * INR k * INR m / INR n = 2 * PI * INR k * INR p / INR n + phi + 2 * PI * IZR (Z.of_nat k * z)).
  { rewrite mult_IZR, <- INR_IZR_INZ, Hz. unfold phi. field. assumption. }
  rewrite E. destruct (cos_sin_turns (2 * PI * INR k * INR p / INR n + phi) (Z.of_nat k * z)) as [-> ->].
  rewrite cos_plus, sin_plus. split; ring.
Qed.
Lemma rsum_roll n s f : (1 <= n)%nat -> rsum n (fun m => f (roll_idx n s m)) = rsum n f.
Proof.
  intros Hn.
  rewrite (rsum_ext n (fun m => f (roll_idx n s m)) (fun m => rsum n (fun p => if (p =? roll_idx n s m)%nat then f p else 0))).
  2:{ intros m Hm. rewrite (rsum_single n (roll_idx n s m)); [rewrite Nat.eqb_refl; reflexivity|now apply roll_idx_lt|].
      intros p _ Hp. destruct (Nat.eqb_spec p (roll_idx n s m)); [contradiction|reflexivity]. }
  rewrite rsum_swap. apply rsum_ext. intros p Hp.
  rewrite (rsum_single n (roll_idx n (- s) p)).
  - rewrite roll_idx_add by exact Hn. replace (s + - s)%Z with 0%Z by lia. rewrite roll_idx_0, Nat.eqb_refl by exact Hp. reflexivity.
  - now apply roll_idx_lt.
  - intros m Hm Hne. destruct (Nat.eqb_spec p (roll_idx n s m)) as [E|]; [|reflexivity].
    exfalso. apply Hne. rewrite E, roll_idx_add by exact Hn. replace (- s + s)%Z with 0%Z by lia. symmetry. now apply roll_idx_0.
Qed.
Lemma rsum_roll_ext n s f g : (1 <= n)%nat -> (forall m, (m < n)%nat -> f m = g (roll_idx n s m)) -> rsum n f = rsum n g.
Proof. intros Hn H. rewrite <- (rsum_roll n s g Hn). now apply rsum_ext. Qed.

(** The uncertainty of the rolled signal. *)
Definition roll_unc (U : sunc) (s : Z) : sunc :=
  match U with SuFloat u => SuFloat u | SuVec v => SuVec (roll v s) | SuMat M => SuMat (roll2 M s s) end.
Lemma roll_unc_ok n U s : (1 <= n)%nat -> sig_fits n U -> symm n (sig_U U) ->
  sig_fits n (roll_unc U s) /\ symm n (sig_U (roll_unc U s)) /\
  forall a b, (a < n)%nat -> (b < n)%nat -> sig_U (roll_unc U s) a b = sig_U U (roll_idx n s a) (roll_idx n s b).
Proof.
  intros Hn Hf Hs.
  assert (E : forall a b, (a < n)%nat -> (b < n)%nat -> sig_U (roll_unc U s) a b = sig_U U (roll_idx n s a) (roll_idx n s b)).
  { intros a b Ha Hb. destruct U as [u|v|M]; cbn [roll_unc sig_U].
    - assert (Ei : (a =? b)%nat = (roll_idx n s a =? roll_idx n s b)%nat).
      { destruct (Nat.eqb_spec a b); [subst; symmetry; apply Nat.eqb_refl|]. symmetry. apply Nat.eqb_neq. intros E. apply n0.
        rewrite <- (roll_idx_0 n a Ha), <- (roll_idx_0 n b Hb). replace 0%Z with (- s + s)%Z by lia.
        rewrite <- !roll_idx_add by exact Hn. now rewrite E. }
      rewrite Ei. reflexivity.
    - assert (Ei : (a =? b)%nat = (roll_idx n s a =? roll_idx n s b)%nat).
      { destruct (Nat.eqb_spec a b); [subst; symmetry; apply Nat.eqb_refl|]. symmetry. apply Nat.eqb_neq. intros E. apply n0.
        rewrite <- (roll_idx_0 n a Ha), <- (roll_idx_0 n b Hb). replace 0%Z with (- s + s)%Z by lia.
        rewrite <- !roll_idx_add by exact Hn. now rewrite E. }
      rewrite Ei. simpl in Hf. unfold roll. cbn [aget]. rewrite Hf. reflexivity.
    - simpl in Hf. destruct Hf as [Hr Hc]. unfold roll2. cbn [mget]. rewrite Hr, Hc. reflexivity. }
  split. { destruct U; simpl in *; auto. }
  split; [|exact E]. intros a b Ha Hb. rewrite !E by assumption. apply Hs; now apply roll_idx_lt.
Qed.

(** row i of the combined Jacobian of amplitude and phase *)
Definition ap_row (n h : nat) (F : nat -> R) (i m : nat) : R :=
  ap_al h F i * dft_coeff n h (base h i) m + ap_be h F i * dft_coeff n h (h + base h i) m.
Lemma ap_row_roll n h s (F F' : nat -> R) i m : (1 <= n)%nat -> (i < 2 * h)%nat ->
  (forall k, (k < h)%nat -> let phi := 2 * PI * INR k * IZR s / INR n in
     F' k = cos phi * F k + sin phi * F (h + k)%nat /\ F' (h + k)%nat = cos phi * F (h + k)%nat - sin phi * F k) ->
  ap_row n h F' i m = ap_row n h F i (roll_idx n s m).
Proof.
  intros Hn Hi HF. pose proof (base_lt h i Hi) as Hb. unfold ap_row, ap_al, ap_be. set (k := base h i) in *.
  destruct (HF k Hb) as [E1 E2]. cbv zeta in E1, E2.
  destruct (dft_coeff_roll n h s k m Hn Hb) as [D1 D2]. cbv zeta in D1, D2.
  set (phi := 2 * PI * INR k * IZR s / INR n) in *. pose proof (sin2_cos2 phi) as S2. unfold Rsqr in S2.
  assert (EA : amp (F' k) (F' (h + k)%nat) = amp (F k) (F (h + k)%nat)).
  { unfold amp. f_equal. rewrite E1, E2.
    replace ((cos phi * F k + sin phi * F (h + k)%nat) * (cos phi * F k + sin phi * F (h + k)%nat)
      + (cos phi * F (h + k)%nat - sin phi * F k) * (cos phi * F (h + k)%nat - sin phi * F k))
      with ((sin phi * sin phi + cos phi * cos phi) * (F k * F k + F (h + k)%nat * F (h + k)%nat)) by ring.
    rewrite S2. ring. }
  rewrite EA, D1, D2, E1, E2. set (a := amp _ _). set (p := roll_idx n s m).
  destruct (i <? h)%nat.
  - transitivity ((sin phi * sin phi + cos phi * cos phi) *
      (F k / a * dft_coeff n h k p + F (h + k)%nat / a * dft_coeff n h (h + k) p)); [unfold Rdiv; ring|].
    rewrite S2. ring.
  - transitivity ((sin phi * sin phi + cos phi * cos phi) *
      (- F (h + k)%nat / a ^ 2 * dft_coeff n h k p + F k / a ^ 2 * dft_coeff n h (h + k) p)); [unfold Rdiv; ring|].
    rewrite S2. ring.
Qed.
Lemma dft_map_roll n h s (x : vec) k : alen x = n -> (1 <= n)%nat -> (k < h)%nat ->
  let phi := 2 * PI * INR k * IZR s / INR n in let F := dft_map n h n x in let F' := dft_map n h n (roll x s) in
  F' k = cos phi * F k + sin phi * F (h + k)%nat /\ F' (h + k)%nat = cos phi * F (h + k)%nat - sin phi * F k.
Proof.
  intros Hx Hn Hk phi F F'. unfold F', F, dft_map.
  rewrite (rsum_roll_ext n s (fun m => dft_coeff n h k m * roll x s m)
    (fun p => cos phi * (dft_coeff n h k p * x p) + sin phi * (dft_coeff n h (h + k) p * x p)) Hn).
  2:{ intros m _. destruct (dft_coeff_roll n h s k m Hn Hk) as [-> _]. unfold roll. cbn [aget]. rewrite Hx. unfold phi. ring. }
  rewrite (rsum_roll_ext n s (fun m => dft_coeff n h (h + k) m * roll x s m)
    (fun p => cos phi * (dft_coeff n h (h + k) p * x p) + - (sin phi * (dft_coeff n h k p * x p))) Hn).
  2:{ intros m _. destruct (dft_coeff_roll n h s k m Hn Hk) as [_ ->]. unfold roll. cbn [aget]. rewrite Hx. unfold phi. ring. }
  rewrite !rsum_plus, rsum_opp, !rsum_scal. split; ring.
Qed.

(** Amplitudes, their uncertainties, the uncertainties of the phases and all covariances of a circularly
    delayed signal (np.roll by s samples, the uncertainty along with it) are those of the signal itself; the phase
    of line k decreases by 2 pi k s / n. *)
Theorem C154_delay : forall (x : vec) Ux s,
  let n := alen x in let h := (n / 2 + 1)%nat in
  sig_fits n Ux -> symm n (sig_U Ux) -> (1 <= n)%nat ->
  (forall k, (k < h)%nat -> 0 < amp (dft_map n h n x k) (dft_map n h n x (h + k)%nat)) ->
  exists A P U A' P' U', Time2AmpPhase x Ux = Ok (A, P, U) /\ Time2AmpPhase (roll x s) (roll_unc Ux s) = Ok (A', P', U') /\
    alen A = h /\ alen A' = h /\ alen P = h /\ alen P' = h /\ dense_shape (2 * h) U /\ dense_shape (2 * h) U' /\
    (forall k, (k < h)%nat -> A' k = A k /\
       cos (P' k) = cos (P k - 2 * PI * INR k * IZR s / INR n) /\ sin (P' k) = sin (P k - 2 * PI * INR k * IZR s / INR n)) /\
    (forall i j, (i < 2 * h)%nat -> (j < 2 * h)%nat -> dense U' i j = dense U i j).
Proof.
  intros x Ux s n h Hs Hy Hn Ha.
  destruct (roll_unc_ok n Ux s Hn Hs Hy) as (Hs' & Hy' & HU).
  destruct (dft_plain x Ux false Hs Hy Hn) as (o & E & HL & HF & Hf & Hsy & HV). fold n h in HL, HF, Hf, Hsy, HV.
  destruct (dft_plain (roll x s) (roll_unc Ux s) false Hs' Hy' Hn) as (o' & E' & HL' & HF' & Hf' & Hsy' & HV').
  change (alen (roll x s)) with n in HL', HF', Hf', Hsy', HV'. fold h in HL', HF', Hf', Hsy', HV'.
  destruct (DFT2AmpPhase_run (dft_F o) (dft_U o) false h) as (A & P & U & E1 & LA & LP & EA & EP & Sh & EU); auto; [unfold h; lia|].
  destruct (DFT2AmpPhase_run (dft_F o') (dft_U o') false h) as (A' & P' & U' & E1' & LA' & LP' & EA' & EP' & Sh' & EU'); auto; [unfold h; lia|].
  assert (HR : forall k, (k < h)%nat -> let phi := 2 * PI * INR k * IZR s / INR n in
     dft_F o' k = cos phi * dft_F o k + sin phi * dft_F o (h + k)%nat /\
     dft_F o' (h + k)%nat = cos phi * dft_F o (h + k)%nat - sin phi * dft_F o k).
  { intros k Hk. cbv zeta. rewrite !HF, !HF' by lia. apply (dft_map_roll n h s x k eq_refl Hn Hk). }
  exists A, P, U, A', P', U'.
  split; [unfold Time2AmpPhase; rewrite E; exact E1|]. split; [unfold Time2AmpPhase; rewrite E'; exact E1'|].
  repeat (split; [assumption|]). split.
  - intros k Hk. destruct (HR k Hk) as [R1 R2]. cbv zeta in R1, R2.
    set (phi := 2 * PI * INR k * IZR s / INR n) in *. pose proof (sin2_cos2 phi) as S2. unfold Rsqr in S2.
    assert (Eamp : amp (dft_F o' k) (dft_F o' (h + k)%nat) = amp (dft_F o k) (dft_F o (h + k)%nat)).
    { unfold amp. f_equal. rewrite R1, R2.
      match goal with |- ?l = ?r => replace l with ((sin phi * sin phi + cos phi * cos phi) * r) by ring end.
      rewrite S2. ring. }
    assert (Hp : 0 < amp (dft_F o k) (dft_F o (h + k)%nat)) by (rewrite !HF by lia; apply Ha, Hk).
    split; [rewrite EA, EA'; exact Eamp|]. rewrite EP, EP'.
    destruct (arctan2_polar (dft_F o k) (dft_F o (h + k)%nat) Hp) as (C1 & C2 & _).
    rewrite <- Eamp in Hp. destruct (arctan2_polar (dft_F o' k) (dft_F o' (h + k)%nat) Hp) as (C1' & C2' & _).
    rewrite Eamp in C1', C2', Hp. set (a := amp (dft_F o k) (dft_F o (h + k)%nat)) in *.
    rewrite cos_minus, sin_minus.
    split; apply (Rmult_eq_reg_l a); try lra.
    + rewrite C1', R1. transitivity (cos phi * (a * cos (arctan2 (dft_F o (h + k)%nat) (dft_F o k))) + sin phi * (a * sin (arctan2 (dft_F o (h + k)%nat) (dft_F o k)))); [|ring].
      rewrite C1, C2. reflexivity.
    + rewrite C2', R2. transitivity (cos phi * (a * sin (arctan2 (dft_F o (h + k)%nat) (dft_F o k))) - sin phi * (a * cos (arctan2 (dft_F o (h + k)%nat) (dft_F o k)))); [|ring].
      rewrite C1, C2. reflexivity.
  - intros i j Hi Hj. rewrite EU, EU' by assumption. rewrite !S4_term by assumption.
    rewrite (term4_sandwich n h (dft_coeff n h) (sig_U Ux) (fun_U (dft_U o))) by (auto using base_lt).
    rewrite (term4_sandwich n h (dft_coeff n h) (sig_U (roll_unc Ux s)) (fun_U (dft_U o'))) by (auto using base_lt).
    apply (rsum_roll_ext n s _ (fun m => rsum n (fun p => ap_row n h (dft_F o) i m * sig_U Ux m p * ap_row n h (dft_F o) j p)) Hn).
    intros m Hm.
    apply (rsum_roll_ext n s _ (fun p => ap_row n h (dft_F o) i (roll_idx n s m) * sig_U Ux (roll_idx n s m) p * ap_row n h (dft_F o) j p) Hn).
    intros p Hp. rewrite HU by assumption.
    rewrite <- (ap_row_roll n h s (dft_F o) (dft_F o') i m Hn Hi HR), <- (ap_row_roll n h s (dft_F o) (dft_F o') j p Hn Hj HR).
    reflexivity.
Qed.
(** [1; 2] delayed by one sample, with individual variances: the amplitude at the Nyquist frequency is 1 for both, its
    variance the same and the phase turned by pi (cos from -1 to 1). *)
Example C154_example : exists A P U A' P' U',
  Time2AmpPhase (of_list [1; 2]) (SuVec (of_list [1; 3])) = Ok (A, P, U) /\
  Time2AmpPhase (roll (of_list [1; 2]) 1) (SuVec (roll (of_list [1; 3]) 1)) = Ok (A', P', U') /\
  A' 1%nat = A 1%nat /\ cos (P' 1%nat) = - cos (P 1%nat) /\ dense U' 1 1 = dense U 1 1.
Proof.
  assert (D : dft_map 2 2 2 (of_list [1; 2]) 0 = 3 /\ dft_map 2 2 2 (of_list [1; 2]) 1 = -1 /\
     dft_map 2 2 2 (of_list [1; 2]) 2 = 0 /\ dft_map 2 2 2 (of_list [1; 2]) 3 = 0).
  { unfold dft_map, dft_coeff. simpl.
    replace (2 * PI * 0 * 0 / (1 + 1)) with 0 by lra. replace (2 * PI * 0 * 1 / (1 + 1)) with 0 by lra.
    replace (2 * PI * 1 * 0 / (1 + 1)) with 0 by lra. replace (2 * PI * 1 * 1 / (1 + 1)) with PI by lra.
    rewrite cos_0, sin_0, cos_PI, sin_PI. repeat split; ring. }
  destruct D as [D0 [D1 [D2 D3]]].
  assert (A3 : amp 3 0 = 3) by (unfold amp; replace (3 * 3 + 0 * 0) with (3 * 3) by ring; apply sqrt_square; lra).
  assert (A1 : amp (-1) 0 = 1) by (unfold amp; replace (-1 * -1 + 0 * 0) with 1 by ring; apply sqrt_1).
  destruct (C154_delay (of_list [1; 2]) (SuVec (of_list [1; 3])) 1) as
    (A & P & U & A' & P' & U' & E & E' & _ & _ & _ & _ & _ & _ & H1 & H2).
  { reflexivity. }
  { intros a b _ _; simpl; rewrite (Nat.eqb_sym b a). destruct (Nat.eqb_spec a b); [subst|]; reflexivity. }
  { simpl; lia. }
  { intros [|[|k]] Hk; try (simpl in Hk; lia).
    - change (0 < amp (dft_map 2 2 2 (of_list [1; 2]) 0) (dft_map 2 2 2 (of_list [1; 2]) 2)). rewrite D0, D2, A3. lra.
    - change (0 < amp (dft_map 2 2 2 (of_list [1; 2]) 1) (dft_map 2 2 2 (of_list [1; 2]) 3)). rewrite D1, D3, A1. lra. }
  exists A, P, U, A', P', U'. split; [exact E|]. split; [exact E'|].
  destruct (H1 1%nat) as (B1 & B2 & _); [simpl; lia|]. split; [exact B1|]. split.
  - rewrite B2. change (alen (of_list [1; 2])) with 2%nat. replace (2 * PI * INR 1 * 1 / INR 2) with PI by (simpl; lra).
    rewrite cos_minus, cos_PI, sin_PI. ring.
  - apply H2; simpl; lia.
Qed.
Print Assumptions C154_delay.
