(** Gain and phase of an exactly known response act on amplitudes and phases; phases count modulo a
    full turn: theorems C186.  Model: M_DFT.v.  Vocabulary: S_DFT.v, Stats.v. *)
From Coq Require Import Reals List Arith ZArith Bool Lia Lra Psatz FunctionalExtensionality.
From Verif Require Import Base Sums Stats StatsFacts M_DFT S_Jac S_DFT P_Jac P_Trig P_DFT P_iDFT
  P_Deriv P_AmpPhase P_APTime P_Deconv P_T2AP T_AmpPhase T_Product T_Delay.
Import ListNotations.
Open Scope R_scope.

(** ** C186 *)
(** The stacked response G has the gains g and the phases phi. *)
Definition gain_phase (h : nat) (G g phi : nat -> R) : Prop :=
  forall k, (k < h)%nat -> G k = g k * cos (phi k) /\ G (h + k)%nat = g k * sin (phi k).
(** Factor on the i-th of (amplitudes, phases). *)
Definition on_amp (h : nat) (g : nat -> R) (i : nat) : R := if (i <? h)%nat then g i else 1.

Lemma amp_turn g p x y : 0 < g -> amp (g * (x * cos p - y * sin p)) (g * (x * sin p + y * cos p)) = g * amp x y.
Proof.
  intros Hg. unfold amp. pose proof (sin2_cos2 p) as S2. unfold Rsqr in S2.
  replace (g * (x * cos p - y * sin p) * (g * (x * cos p - y * sin p)) + g * (x * sin p + y * cos p) * (g * (x * sin p + y * cos p)))
    with (g * g * ((x * x + y * y) * (sin p * sin p + cos p * cos p))) by ring.
  rewrite S2, Rmult_1_r, sqrt_mult by nra. now rewrite sqrt_square by lra.
Qed.

Section Rows.
Variables (h : nat) (Y G g phi : nat -> R).
Hypothesis HG : gain_phase h G g phi.
Hypothesis Hg : forall k, (k < h)%nat -> 0 < g k.
Hypothesis Ha : forall k, (k < h)%nat -> 0 < amp (Y k) (Y (h + k)%nat).
Lemma ap_rows_turned (F' : nat -> R) i : (i < 2 * h)%nat -> (forall i, (i < 2 * h)%nat -> F' i = cmul_map h Y G i) ->
  let k := base h i in
  ap_al h F' i * G k + ap_be h F' i * G (h + k)%nat = on_amp h g i * ap_al h Y i /\
  ap_al h F' i * - G (h + k)%nat + ap_be h F' i * G k = on_amp h g i * ap_be h Y i.
Proof using All.
  intros Hi HF k. pose proof (base_lt h i Hi) as Hk. fold k in Hk.
  destruct (HG k Hk) as [G1 G2]. specialize (Hg k Hk). specialize (Ha k Hk).
  assert (E1 : F' k = g k * (Y k * cos (phi k) - Y (h + k)%nat * sin (phi k))).
  { rewrite HF by lia. unfold cmul_map. replace (k <? h)%nat with true by (symmetry; now apply Nat.ltb_lt). rewrite G1, G2. ring. }
  assert (E2 : F' (h + k)%nat = g k * (Y k * sin (phi k) + Y (h + k)%nat * cos (phi k))).
  { rewrite HF by lia. unfold cmul_map. rewrite hi_false. replace (h + k - h)%nat with k by lia. rewrite G1, G2. ring. }
  unfold ap_al, ap_be. fold k. rewrite E1, E2, amp_turn, G1, G2 by exact Hg.
  assert (OA : on_amp h g i = if (i <? h)%nat then g k else 1).
  { unfold on_amp, k, base. now destruct (i <? h)%nat. }
  rewrite OA. set (a := amp _ _) in *. pose proof (sin2_cos2 (phi k)) as S2. unfold Rsqr in S2.
  destruct (i <? h)%nat.
  - split.
    + transitivity (g k * (Y k / a) * (sin (phi k) * sin (phi k) + cos (phi k) * cos (phi k))); [field; lra|rewrite S2; ring].
    + transitivity (g k * (Y (h + k)%nat / a) * (sin (phi k) * sin (phi k) + cos (phi k) * cos (phi k))); [field; lra|rewrite S2; ring].
  - split.
    + transitivity (- Y (h + k)%nat / a ^ 2 * (sin (phi k) * sin (phi k) + cos (phi k) * cos (phi k))); [field; lra|rewrite S2; ring].
    + transitivity (Y k / a ^ 2 * (sin (phi k) * sin (phi k) + cos (phi k) * cos (phi k))); [field; lra|rewrite S2; ring].
Qed.
End Rows.

(** Two rows of the covariance of a product, for any rows (a, b), (c, d). *)
Lemma term4_mul h (G : nat -> R) U a b k c d l : (k < h)%nat -> (l < h)%nat ->
  term4 h (S4 h (mul_al h G) (mul_be h G) U) a b k c d l =
  term4 h U (a * G k + b * G (h + k)%nat) (a * - G (h + k)%nat + b * G k) k
            (c * G l + d * G (h + l)%nat) (c * - G (h + l)%nat + d * G l) l.
Proof.
  intros Hk Hl. unfold term4 at 1. rewrite !S4_term by lia. rewrite !base_hi, !base_lo by assumption.
  unfold term4, mul_al, mul_be. rewrite !hi_false.
  replace (k <? h)%nat with true by (symmetry; now apply Nat.ltb_lt). replace (l <? h)%nat with true by (symmetry; now apply Nat.ltb_lt).
  replace (h + k - h)%nat with k by lia. replace (h + l - h)%nat with l by lia. ring.
Qed.
Lemma term4_ext h U V a b k c d l : (k < h)%nat -> (l < h)%nat ->
  (forall i j, (i < 2 * h)%nat -> (j < 2 * h)%nat -> U i j = V i j) -> term4 h U a b k c d l = term4 h V a b k c d l.
Proof. intros Hk Hl H. unfold term4. rewrite !H by lia. reflexivity. Qed.

(** Amplitude and phase of a spectrum Z = Y G with covariance S4 .. U. *)
Lemma turned h (Y Z : vec) (G g phi : nat -> R) UY UZ ks : (1 <= h)%nat ->
  alen Y = (2 * h)%nat -> alen Z = (2 * h)%nat -> mrows UY = (2 * h)%nat -> mcols UY = (2 * h)%nat ->
  mrows UZ = (2 * h)%nat -> mcols UZ = (2 * h)%nat ->
  symm (2 * h) (fun i j => UY i j) -> gain_phase h G g phi -> (forall k, (k < h)%nat -> 0 < g k) ->
  (forall k, (k < h)%nat -> 0 < amp (Y k) (Y (h + k)%nat)) ->
  (forall i, (i < 2 * h)%nat -> Z i = cmul_map h Y G i) ->
  (forall i j, (i < 2 * h)%nat -> (j < 2 * h)%nat -> UZ i j = S4 h (mul_al h G) (mul_be h G) (fun a b => UY a b) i j) ->
  exists A P V A' P' V', DFT2AmpPhase Y (FuMat UY) ks = Ok (A, P, V) /\ DFT2AmpPhase Z (FuMat UZ) ks = Ok (A', P', V') /\
    alen A = h /\ alen P = h /\ alen A' = h /\ alen P' = h /\ dense_shape (2 * h) V /\ dense_shape (2 * h) V' /\
    (forall k, (k < h)%nat -> A' k = g k * A k /\ cos (P' k) = cos (P k + phi k) /\ sin (P' k) = sin (P k + phi k)) /\
    (forall i j, (i < 2 * h)%nat -> (j < 2 * h)%nat -> dense V' i j = on_amp h g i * on_amp h g j * dense V i j).
Proof.
  intros Hh LY LZ R1 C1 R2 C2 Hs HG Hg Ha HZ HU.
  destruct (DFT2AmpPhase_run Y (FuMat UY) ks h) as (A & P & V & E1 & LA & LP & EA & EP & Sh & EV); auto; [split; assumption|].
  assert (Hs' : symm (2 * h) (fun_U (FuMat UZ))).
  { intros i j Hi Hj. cbn [fun_U]. rewrite !HU by assumption. now apply S4_symm. }
  destruct (DFT2AmpPhase_run Z (FuMat UZ) ks h) as (A' & P' & V' & E1' & LA' & LP' & EA' & EP' & Sh' & EV'); auto; [split; assumption|].
  exists A, P, V, A', P', V'. repeat (split; [assumption|]). split.
  - intros k Hk. destruct (HG k Hk) as [G1 G2]. specialize (Hg k Hk). specialize (Ha k Hk).
    assert (Z1 : Z k = g k * (Y k * cos (phi k) - Y (h + k)%nat * sin (phi k))).
    { rewrite HZ by lia. unfold cmul_map. replace (k <? h)%nat with true by (symmetry; now apply Nat.ltb_lt). rewrite G1, G2. ring. }
    assert (Z2 : Z (h + k)%nat = g k * (Y k * sin (phi k) + Y (h + k)%nat * cos (phi k))).
    { rewrite HZ by lia. unfold cmul_map. rewrite hi_false. replace (h + k - h)%nat with k by lia. rewrite G1, G2. ring. }
    assert (EZ : amp (Z k) (Z (h + k)%nat) = g k * amp (Y k) (Y (h + k)%nat)) by (rewrite Z1, Z2; now apply amp_turn).
    split; [rewrite EA, EA'; exact EZ|]. rewrite EP, EP'.
    destruct (arctan2_polar (Y k) (Y (h + k)%nat) Ha) as (K1 & K2 & _).
    assert (Hz : 0 < amp (Z k) (Z (h + k)%nat)) by (rewrite EZ; now apply Rmult_lt_0_compat).
    destruct (arctan2_polar (Z k) (Z (h + k)%nat) Hz) as (K1' & K2' & _).
    rewrite EZ in K1', K2'. set (a := amp (Y k) (Y (h + k)%nat)) in *.
    set (t := arctan2 (Y (h + k)%nat) (Y k)) in *. set (t' := arctan2 (Z (h + k)%nat) (Z k)) in *.
    assert (Hga : g k * a <> 0) by (apply Rgt_not_eq, Rmult_lt_0_compat; assumption).
    rewrite cos_plus, sin_plus. split; apply (Rmult_eq_reg_l (g k * a)); auto.
    + rewrite K1', Z1, <- K1, <- K2. ring.
    + rewrite K2', Z2, <- K1, <- K2. ring.
  - intros i j Hi Hj. rewrite EV, EV', !S4_term by assumption.
    pose proof (base_lt h i Hi) as Bi. pose proof (base_lt h j Hj) as Bj.
    rewrite (term4_ext h (fun_U (FuMat UZ)) (S4 h (mul_al h G) (mul_be h G) (fun a b => UY a b))) by assumption.
    rewrite term4_mul by assumption.
    destruct (ap_rows_turned h Y G g phi HG Hg Ha Z i Hi HZ) as [X1 X2]. destruct (ap_rows_turned h Y G g phi HG Hg Ha Z j Hj HZ) as [X3 X4].
    rewrite X1, X2, X3, X4. unfold term4. cbn [fun_U]. ring.
Qed.

(** Multiplying by an exactly known response with positive gains g and phases phi multiplies the amplitudes by g, adds
    phi to the phases (as angles), multiplies the uncertainties of the amplitudes by g, and leaves the uncertainties of the
    phases and all correlations as they are. *)
Theorem C186_multiply : forall (Y G : vec) UY g phi h ks, (1 <= h)%nat ->
  alen Y = (2 * h)%nat -> alen G = (2 * h)%nat -> mrows UY = (2 * h)%nat -> mcols UY = (2 * h)%nat ->
  symm (2 * h) (fun i j => UY i j) -> gain_phase h G g phi -> (forall k, (k < h)%nat -> 0 < g k) ->
  (forall k, (k < h)%nat -> 0 < amp (Y k) (Y (h + k)%nat)) ->
  exists Z UZ A P V A' P' V', DFT_multiply Y G (SuMat UY) None = Ok (Z, UZ) /\
    DFT2AmpPhase Y (FuMat UY) ks = Ok (A, P, V) /\ DFT2AmpPhase Z (FuMat UZ) ks = Ok (A', P', V') /\
    alen A = h /\ alen P = h /\ alen A' = h /\ alen P' = h /\ dense_shape (2 * h) V /\ dense_shape (2 * h) V' /\
    (forall k, (k < h)%nat -> A' k = g k * A k /\ cos (P' k) = cos (P k + phi k) /\ sin (P' k) = sin (P k + phi k)) /\
    (forall i j, (i < 2 * h)%nat -> (j < 2 * h)%nat -> dense V' i j = on_amp h g i * on_amp h g j * dense V i j).
Proof.
  intros Y G UY g phi h ks Hh LY LG R1 C1 Hs HG Hg Ha.
  destruct (DFT_multiply_run Y G UY None h) as (Z & UZ & E & LZ & R2 & C2 & HZ & HU); auto; [exact I|intros i j _ _; reflexivity|].
  destruct (turned h Y Z G g phi UY UZ ks) as (A & P & V & A' & P' & V' & H); auto.
  { intros i j Hi Hj. rewrite HU by assumption. rewrite (S4_null h _ _ (opt_U None)) by reflexivity. ring. }
  exists Z, UZ, A, P, V, A', P', V'. split; [exact E|exact H].
Qed.

(** Dividing by it divides the amplitudes and their uncertainties by g and subtracts phi from the phases. *)
Theorem C186_deconv : forall (H Y : vec) UY g phi h ks, (1 <= h)%nat ->
  alen Y = (2 * h)%nat -> alen H = (2 * h)%nat -> mrows UY = (2 * h)%nat -> mcols UY = (2 * h)%nat ->
  symm (2 * h) (fun i j => UY i j) -> gain_phase h H g phi -> (forall k, (k < h)%nat -> 0 < g k) ->
  (forall k, (k < h)%nat -> 0 < amp (Y k) (Y (h + k)%nat)) ->
  exists X UX A P V A' P' V', DFT_deconv H Y (ApMat (zeros2 (2 * h) (2 * h))) (ApMat UY) = Ok (X, UX) /\
    DFT2AmpPhase Y (FuMat UY) ks = Ok (A, P, V) /\ DFT2AmpPhase X (FuMat UX) ks = Ok (A', P', V') /\
    alen A = h /\ alen P = h /\ alen A' = h /\ alen P' = h /\ dense_shape (2 * h) V /\ dense_shape (2 * h) V' /\
    (forall k, (k < h)%nat -> A' k = A k / g k /\ cos (P' k) = cos (P k - phi k) /\ sin (P' k) = sin (P k - phi k)) /\
    (forall i j, (i < 2 * h)%nat -> (j < 2 * h)%nat -> dense V' i j = dense V i j / (on_amp h g i * on_amp h g j)).
Proof.
  intros H Y UY g phi h ks Hh LY LH R1 C1 Hs HG Hg Ha.
  destruct (DFT_deconv_run H Y (ApMat (zeros2 (2 * h) (2 * h))) (ApMat UY) h) as (X & UX & E & LX & R2 & C2 & HX & HU); auto;
    [exact I|split; reflexivity|split; assumption|intros i j _ _; reflexivity|].
  assert (HR : gain_phase h (rcp h H) (fun k => / g k) (fun k => - phi k)).
  { intros k Hk. destruct (HG k Hk) as [G1 G2]. specialize (Hg k Hk). pose proof (sin2_cos2 (phi k)) as S2. unfold Rsqr in S2.
    unfold rcp, nrm. rewrite hi_false. replace (k <? h)%nat with true by (symmetry; now apply Nat.ltb_lt).
    replace (h + k - h)%nat with k by lia. rewrite G1, G2, cos_neg, sin_neg.
    replace (g k * cos (phi k) * (g k * cos (phi k)) + g k * sin (phi k) * (g k * sin (phi k)))
      with (g k * g k * (sin (phi k) * sin (phi k) + cos (phi k) * cos (phi k))) by ring.
    rewrite S2. split; field; lra. }
  destruct (turned h Y X (rcp h H) (fun k => / g k) (fun k => - phi k) UY UX ks) as (A & P & V & A' & P' & V' & E1 & E2 & L1 & L2 & L3 & L4 & S1 & S2 & HA & HV); auto.
  { intros k Hk. apply Rinv_0_lt_compat. auto. }
  { intros i Hi. rewrite HX by exact Hi. now apply cdiv_rcp. }
  { intros i j Hi Hj. rewrite HU by assumption. rewrite (S4_null h _ _ (ap_U (ApMat (zeros2 (2 * h) (2 * h))))) by reflexivity.
    rewrite S4_dy by assumption. apply Rplus_0_r. }
  exists X, UX, A, P, V, A', P', V'. repeat (split; [assumption|]). split.
  - intros k Hk. destruct (HA k Hk) as (K1 & K2 & K3). split; [rewrite K1; unfold Rdiv; ring|]. split; assumption.
  - intros i j Hi Hj. rewrite HV by assumption.
    assert (O : forall i, (i < 2 * h)%nat -> on_amp h g i <> 0 /\ on_amp h (fun k => / g k) i = / on_amp h g i).
    { intros a Ha'. unfold on_amp. destruct (Nat.ltb_spec a h) as [L|L]; [|split; [lra|field]].
      specialize (Hg a L). split; [lra|reflexivity]. }
    destruct (O i Hi) as [O1 ->]. destruct (O j Hj) as [O2 ->]. field. auto.
Qed.

(** The other way round, without any condition on gains and amplitudes: amplitudes multiplied by g (possibly negative or
    zero), phases with phi added, and the covariances to match give the spectrum multiplied by G, values and covariances. *)
Theorem C186_real_imag : forall (A P A' P' G : vec) UAP UAP' g phi h ks, (1 <= h)%nat ->
  alen A = h -> alen P = h -> alen A' = h -> alen P' = h -> alen G = (2 * h)%nat ->
  mrows UAP = (2 * h)%nat -> mcols UAP = (2 * h)%nat -> mrows UAP' = (2 * h)%nat -> mcols UAP' = (2 * h)%nat ->
  symm (2 * h) (fun i j => UAP i j) -> gain_phase h G g phi ->
  (forall k, (k < h)%nat -> A' k = g k * A k /\ P' k = P k + phi k) ->
  (forall i j, (i < 2 * h)%nat -> (j < 2 * h)%nat -> UAP' i j = on_amp h g i * on_amp h g j * UAP i j) ->
  exists F U F' U' Z UZ, AmpPhase2DFT A P (ApMat UAP) ks = Ok (F, UDense U) /\ AmpPhase2DFT A' P' (ApMat UAP') ks = Ok (F', UDense U') /\
    DFT_multiply F G (SuMat U) None = Ok (Z, UZ) /\
    alen F' = (2 * h)%nat /\ alen Z = (2 * h)%nat /\ mrows U' = (2 * h)%nat /\ mcols U' = (2 * h)%nat /\
    mrows UZ = (2 * h)%nat /\ mcols UZ = (2 * h)%nat /\
    (forall i, (i < 2 * h)%nat -> F' i = Z i) /\
    (forall i j, (i < 2 * h)%nat -> (j < 2 * h)%nat -> U' i j = UZ i j).
Proof.
  intros A P A' P' G UAP UAP' g phi h ks Hh LA LP LA' LP' LG R1 C1 R2 C2 Hs HG HA HU.
  assert (Hs' : symm (2 * h) (ap_U (ApMat UAP'))).
  { intros i j Hi Hj. cbn [ap_U]. rewrite !HU, (Hs i j) by assumption. ring. }
  destruct (AmpPhase2DFT_run A P (ApMat UAP) ks h) as (F & D & E & LF & HF & Sh & HD); auto; [split; assumption|].
  destruct (AmpPhase2DFT_run A' P' (ApMat UAP') ks h) as (F' & D' & E' & LF' & HF' & Sh' & HD'); auto; [split; assumption|].
  assert (dn : forall A P M D F, AmpPhase2DFT A P (ApMat M) ks = Ok (F, D) -> exists U, D = UDense U).
  { clear. intros A P M D F. unfold AmpPhase2DFT. cbv zeta.
    repeat match goal with |- context [if ?c then _ else _] => destruct c end; try (intros E; discriminate E).
    repeat match goal with |- context [bind ?m _] => destruct m; cbn [bind]; try (intros E; discriminate E) end.
    intros E. injection E as _ <-. eauto. }
  destruct (dn _ _ _ _ _ E) as [U ->]. destruct (dn _ _ _ _ _ E') as [U' ->]. cbn [dense_shape dense sparse_error] in *.
  destruct Sh as [RU CU]. destruct Sh' as [RU' CU'].
  assert (HsU : symm (2 * h) (fun i j => U i j)).
  { intros i j Hi Hj. rewrite !HD by assumption. f_equal. now apply S4_symm. }
  destruct (DFT_multiply_run F G U None h) as (Z & UZ & E3 & LZ & RZ & CZ & HZ & HUZ); auto; [exact I|intros i j _ _; reflexivity|].
  exists F, U, F', U', Z, UZ. repeat (split; [assumption|]).
  assert (Rk : forall k, (k < h)%nat -> stk A P k = A k /\ stk A P (h + k)%nat = P k /\ stk A' P' k = g k * A k /\ stk A' P' (h + k)%nat = P k + phi k).
  { intros k Hk. destruct (HA k Hk) as [K1 K2]. rewrite (stk_lo A P h), (stk_hi A P h), (stk_lo A' P' h), (stk_hi A' P' h) by assumption. auto. }
  assert (C : forall i, (i < 2 * h)%nat -> exists k, (k < h)%nat /\ (i = k \/ i = h + k)%nat).
  { intros a Ha. destruct (Nat.lt_ge_cases a h); [exists a | exists (a - h)%nat]; lia. }
  split.
  - intros i Hi. rewrite HF', HZ by exact Hi. destruct (C i Hi) as [k [Hk Ei]].
    destruct (HG k Hk) as [G1 G2]. destruct (Rk k Hk) as (K1 & K2 & K3 & K4).
    assert (Tk : (k <? h)%nat = true) by now apply Nat.ltb_lt.
    assert (F1 : F k = A k * cos (P k)) by (rewrite HF by lia; unfold to_real_imag; rewrite Tk, K1, K2; reflexivity).
    assert (F2 : F (h + k)%nat = A k * sin (P k)).
    { rewrite HF by lia. unfold to_real_imag. rewrite hi_false. replace (h + k - h)%nat with k by lia. rewrite K1, K2. reflexivity. }
    unfold to_real_imag, cmul_map. destruct Ei as [-> | ->]; rewrite ?Tk, ?hi_false; replace (h + k - h)%nat with k by lia;
      rewrite K3, K4, F1, F2, G1, G2, ?cos_plus, ?sin_plus; ring.
  - intros i j Hi Hj. rewrite HD', HUZ by assumption.
    rewrite (S4_null h _ _ (opt_U None)) by reflexivity. rewrite Rplus_0_r, Rplus_0_r, !S4_term by assumption.
    destruct (C i Hi) as [k [Hk Ei]]. destruct (C j Hj) as [l [Hl Ej]].
    assert (Bi : base h i = k) by (destruct Ei as [-> | ->]; [now apply base_lo|apply base_hi]).
    assert (Bj : base h j = l) by (destruct Ej as [-> | ->]; [now apply base_lo|apply base_hi]).
    rewrite Bi, Bj. clear Bi Bj. unfold term4. rewrite !HD, !S4_term by lia. rewrite !base_lo, !base_hi by assumption.
    unfold term4. cbn [ap_U]. rewrite !HU by lia.
    assert (O : forall k, (k < h)%nat -> on_amp h g k = g k /\ on_amp h g (h + k) = 1).
    { intros a Ha. unfold on_amp. rewrite hi_false. replace (a <? h)%nat with true by (symmetry; now apply Nat.ltb_lt). auto. }
    destruct (O k Hk) as [-> ->]. destruct (O l Hl) as [-> ->].
    destruct (HG k Hk) as [G1 G2]. destruct (Rk k Hk) as (K1 & K2 & K3 & K4).
    destruct (HG l Hl) as [G3 G4]. destruct (Rk l Hl) as (J1 & J2 & J3 & J4).
    unfold mul_al, mul_be.
    assert (Tk : (k <? h)%nat = true) by now apply Nat.ltb_lt. assert (Tl : (l <? h)%nat = true) by now apply Nat.ltb_lt.
    assert (Sk : (h + k - h)%nat = k) by lia. assert (Sl : (h + l - h)%nat = l) by lia.
    destruct Ei as [-> | ->]; destruct Ej as [-> | ->]; rewrite ?ri_al_hi, ?ri_be_hi, ?ri_al_lo, ?ri_be_lo by assumption;
      rewrite ?hi_false, ?Tk, ?Tl, ?Sk, ?Sl, K1, K2, K3, K4, J1, J2, J3, J4, G1, G2, G3, G4, !cos_plus, !sin_plus; ring.
Qed.

(** Full turns added to the phases change nothing: neither results nor exceptions. *)
Definition turns (P : vec) (z : nat -> Z) : vec := mkArr (alen P) (fun k => P k + 2 * PI * IZR (z k)).
Theorem C186_full_turns : forall (A P : vec) UAP ks z,
  AmpPhase2DFT A (turns P z) UAP ks = AmpPhase2DFT A P UAP ks /\
  AmpPhase2Time A (turns P z) UAP = AmpPhase2Time A P UAP.
Proof.
  intros A P UAP ks z.
  assert (C : (fun k => cos (turns P z k)) = fun k => cos (P k)).
  { extensionality k. apply cos_sin_turns. }
  assert (S : (fun k => sin (turns P z k)) = fun k => sin (P k)).
  { extensionality k. apply cos_sin_turns. }
  assert (C' : forall k, cos (turns P z k) = cos (P k)) by (intros; apply cos_sin_turns).
  assert (S' : forall k, sin (turns P z k) = sin (P k)) by (intros; apply cos_sin_turns).
  assert (AC : (fun k => A k * cos (turns P z k)) = fun k => A k * cos (P k)) by (extensionality k; now rewrite C').
  assert (AS : (fun k => A k * sin (turns P z k)) = fun k => A k * sin (P k)) by (extensionality k; now rewrite S').
  assert (NS : (fun k => - A k * sin (turns P z k)) = fun k => - A k * sin (P k)) by (extensionality k; now rewrite S').
  assert (Cp : forall k t, cos (turns P z k + t) = cos (P k + t)).
  { intros k t. change (turns P z k) with (P k + 2 * PI * IZR (z k)).
    replace (P k + 2 * PI * IZR (z k) + t) with (P k + t + 2 * PI * IZR (z k)) by ring. apply cos_sin_turns. }
  assert (Sp : forall k t, sin (turns P z k + t) = sin (P k + t)).
  { intros k t. change (turns P z k) with (P k + 2 * PI * IZR (z k)).
    replace (P k + 2 * PI * IZR (z k) + t) with (P k + t + 2 * PI * IZR (z k)) by ring. apply cos_sin_turns. }
  split.
  - unfold AmpPhase2DFT. change (alen (turns P z)) with (alen P). rewrite AC, AS, C, S, NS. reflexivity.
  - unfold AmpPhase2Time. change (alen (turns P z)) with (alen P). rewrite AC, AS.
    assert (E1 : forall N, apt_Cc N A (turns P z) = apt_Cc N A P).
    { intros N. unfold apt_Cc. f_equal. extensionality n. extensionality k. change (alen (turns P z)) with (alen P). now rewrite !Cp, C'. }
    assert (E2 : forall N, apt_Cs N A (turns P z) = apt_Cs N A P).
    { intros N. unfold apt_Cs. f_equal. extensionality n. extensionality k. change (alen (turns P z)) with (alen P). now rewrite !Sp, S'. }
    rewrite E1, E2. reflexivity.
Qed.

(** One line 3 + 4i with variances 25 and 50 and covariance 25, multiplied by 2i: gain 2, phase pi/2.  The amplitude
    becomes 10 and its variance four times as large. *)
Definition ex_gU : mat := of_rows [[25; 25]; [25; 50]].
Lemma ex_gU_symm : symm 2 (fun i j => ex_gU i j).
Proof. intros [|[|i]] [|[|j]] Hi Hj; try lia; reflexivity. Qed.
Lemma ex_gain : gain_phase 1 (of_list [0; 2]) (fun _ => 2) (fun _ => PI / 2).
Proof. intros [|k] Hk; [|lia]. rewrite cos_PI2, sin_PI2. cbn. lra. Qed.
Example C186_multiply_example : exists Z UZ A P V A' P' V',
  DFT_multiply (of_list [3; 4]) (of_list [0; 2]) (SuMat ex_gU) None = Ok (Z, UZ) /\
  DFT2AmpPhase (of_list [3; 4]) (FuMat ex_gU) false = Ok (A, P, V) /\ DFT2AmpPhase Z (FuMat UZ) false = Ok (A', P', V') /\
  A 0%nat = 5 /\ A' 0%nat = 10 /\ dense V' 0 0 = 4 * dense V 0 0 /\ dense V' 1 1 = dense V 1 1 /\ Z 0%nat = -8.
Proof.
  destruct (C186_multiply (of_list [3; 4]) (of_list [0; 2]) ex_gU (fun _ => 2) (fun _ => PI / 2) 1 false)
    as (Z & UZ & A & P & V & A' & P' & V' & E0 & E1 & E2 & L1 & L2 & L3 & L4 & S1 & S2 & HA & HV); try reflexivity; try lia.
  - exact ex_gU_symm.
  - exact ex_gain.
  - intros k _. lra.
  - intros [|k] Hk; [|lia]. cbn. rewrite amp34. lra.
  - exists Z, UZ, A, P, V, A', P', V'. split; [exact E0|]. split; [exact E1|]. split; [exact E2|].
    destruct (DFT2AmpPhase_run (of_list [3; 4]) (FuMat ex_gU) false 1) as (B & Q & W & E & _ & _ & EA & _); auto; [split; reflexivity|exact ex_gU_symm|].
    assert (A5 : A 0%nat = 5).
    { rewrite E in E1. injection E1 as <- <- <-. rewrite EA. cbn. exact amp34. }
    split; [exact A5|]. destruct (HA 0%nat) as [-> _]; [lia|]. rewrite A5. split; [lra|].
    rewrite (HV 0%nat 0%nat), (HV 1%nat 1%nat) by lia. unfold on_amp. cbn [Nat.ltb Nat.leb]. split; [ring|]. split; [ring|].
    destruct (DFT_multiply_run (of_list [3; 4]) (of_list [0; 2]) ex_gU None 1) as (Z0 & U0 & E3 & _ & _ & _ & HZ & _); try reflexivity;
      [exact ex_gU_symm|intros i j _ _; reflexivity|].
    rewrite E3 in E0. injection E0 as <- <-. rewrite HZ by lia. unfold cmul_map. cbn. lra.
Qed.
Example C186_deconv_example : exists X UX A P V A' P' V',
  DFT_deconv (of_list [0; 2]) (of_list [3; 4]) (ApMat (zeros2 2 2)) (ApMat ex_gU) = Ok (X, UX) /\
  DFT2AmpPhase (of_list [3; 4]) (FuMat ex_gU) true = Ok (A, P, V) /\ DFT2AmpPhase X (FuMat UX) true = Ok (A', P', V') /\
  A' 0%nat = A 0%nat / 2 /\ dense V' 0 1 = dense V 0 1 / 2 /\ cos (P' 0%nat) = sin (P 0%nat).
Proof.
  destruct (C186_deconv (of_list [0; 2]) (of_list [3; 4]) ex_gU (fun _ => 2) (fun _ => PI / 2) 1 true)
    as (X & UX & A & P & V & A' & P' & V' & E0 & E1 & E2 & L1 & L2 & L3 & L4 & S1 & S2 & HA & HV); try reflexivity; try lia.
  - exact ex_gU_symm.
  - exact ex_gain.
  - intros k _. lra.
  - intros [|k] Hk; [|lia]. cbn. rewrite amp34. lra.
  - exists X, UX, A, P, V, A', P', V'. split; [exact E0|]. split; [exact E1|]. split; [exact E2|].
    destruct (HA 0%nat) as (K1 & K2 & _); [lia|]. split; [exact K1|].
    rewrite (HV 0%nat 1%nat) by lia. unfold on_amp. cbn [Nat.ltb Nat.leb]. split; [field|].
    rewrite K2, cos_minus, cos_PI2, sin_PI2. ring.
Qed.
(** Amplitude -5 at phase pi is amplitude 5 at phase 0, if the covariances with the amplitude change their sign. *)
Example C186_real_imag_example : exists F U F' U' Z UZ,
  AmpPhase2DFT (of_list [5]) (of_list [0]) (ApMat ex_gU) false = Ok (F, UDense U) /\
  AmpPhase2DFT (of_list [-5]) (of_list [PI]) (ApMat (of_rows [[25; -25]; [-25; 50]])) false = Ok (F', UDense U') /\
  DFT_multiply F (of_list [1; 0]) (SuMat U) None = Ok (Z, UZ) /\ F' 0%nat = Z 0%nat /\ U' 0%nat 1%nat = UZ 0%nat 1%nat.
Proof.
  destruct (C186_real_imag (of_list [5]) (of_list [0]) (of_list [-5]) (of_list [PI]) (of_list [1; 0]) ex_gU
     (of_rows [[25; -25]; [-25; 50]]) (fun _ => -1) (fun _ => PI) 1 false)
    as (F & U & F' & U' & Z & UZ & E0 & E1 & E2 & _ & _ & _ & _ & _ & _ & HF & HU); try reflexivity; try lia.
  - exact ex_gU_symm.
  - intros [|k] Hk; [|lia]. rewrite cos_PI, sin_PI. cbn. lra.
  - intros [|k] Hk; [|lia]. cbn. lra.
  - intros [|[|i]] [|[|j]] Hi Hj; try lia; unfold on_amp; cbn; lra.
  - exists F, U, F', U', Z, UZ. repeat (split; [assumption|]). split; [apply HF|apply HU]; lia.
Qed.
Example C186_full_turns_example :
  AmpPhase2DFT (of_list [5]) (turns (of_list [1]) (fun _ => 3%Z)) (ApMat ex_gU) true
  = AmpPhase2DFT (of_list [5]) (of_list [1]) (ApMat ex_gU) true /\
  turns (of_list [1]) (fun _ => 3%Z) 0%nat = 1 + 6 * PI.
Proof. split; [apply C186_full_turns|]. cbn. ring. Qed.
Print Assumptions C186_multiply.
Print Assumptions C186_deconv.
Print Assumptions C186_real_imag.
Print Assumptions C186_full_turns.
