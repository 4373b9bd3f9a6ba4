(** Opposite polarity of a signal: amplitudes and covariance as before, phases half a turn further;
    signals read backwards: opposite phases (C200).
    Model: M_DFT.v.  Vocabulary: S_DFT.v, S_Order.v. *)
From Coq Require Import Reals List Arith ZArith Bool Lia Lra Psatz.
From Verif Require Import Base Sums Stats StatsFacts M_DFT S_Jac S_DFT S_Order P_Jac P_Trig P_DFT P_iDFT
  P_Deriv P_AmpPhase P_APTime P_Deconv T_DFT T_AmpPhase T_Order T_T2APOrder T_Superpose.
Import ListNotations.
Open Scope R_scope.

Definition opposite (x : vec) : vec := mkArr (alen x) (fun n => - x n).

Lemma amp_opp a b : amp (- a) (- b) = amp a b.
Proof. unfold amp. f_equal. ring. Qed.

Lemma arctan2_opp x y : 0 < amp x y -> arctan2 (- y) (- x) = arctan2 y x + PI \/ arctan2 (- y) (- x) = arctan2 y x - PI.
Proof.
  intros H. unfold arctan2.
  assert (Q : x <> 0 -> - y / - x = y / x) by (intros; field; assumption).
  destruct (Rlt_dec 0 x), (Rlt_dec 0 (- x)), (Rlt_dec (- x) 0), (Rlt_dec x 0); try lra;
    try (rewrite Q by lra; destruct (Rle_dec 0 (- y)); lra); try (rewrite Q by lra; destruct (Rle_dec 0 y); lra).
  assert (x = 0) by lra. subst x.
  destruct (Rlt_dec 0 y), (Rlt_dec 0 (- y)), (Rlt_dec (- y) 0), (Rlt_dec y 0); try lra.
  exfalso. assert (y = 0) by lra. subst y. unfold amp in H. replace (0 * 0 + 0 * 0) with 0 in H by ring. rewrite sqrt_0 in H. lra.
Qed.

(** ** C200 *)
Theorem C200_polarity : forall (x : vec) Ux n h,
  alen x = n -> (1 <= n)%nat -> h = (n / 2 + 1)%nat -> sig_fits n Ux -> symm n (sig_U Ux) ->
  (forall k, (k < h)%nat -> 0 < amp (dft_map n h n x k) (dft_map n h n x (h + k)%nat)) ->
  exists A P U A' P' U', Time2AmpPhase x Ux = Ok (A, P, U) /\ Time2AmpPhase (opposite x) Ux = Ok (A', P', U') /\
    alen A = h /\ alen P = h /\ alen A' = h /\ alen P' = h /\ dense_shape (2 * h) U /\ dense_shape (2 * h) U' /\
    (forall k, (k < h)%nat -> A' k = A k /\ (P' k = P k + PI \/ P' k = P k - PI)) /\
    forall i j, (i < 2 * h)%nat -> (j < 2 * h)%nat -> dense U' i j = dense U i j.
Proof.
  intros x Ux n h Hl Hn Hh Hf Hs Ha. subst n.
  destruct (dft_plain x Ux false) as [o [E [HL [HF [Ho [Hsy HV]]]]]]; auto.
  destruct (dft_plain (opposite x) Ux false) as [o' [E' [HL' [HF' [Ho' [Hsy' HV']]]]]]; auto.
  change (alen (opposite x)) with (alen x) in *. rewrite <- Hh in *.
  destruct (DFT2AmpPhase_run (dft_F o) (dft_U o) false h) as (A & P & U & D & LA & LP & HA & HP & Sh & HU); auto; [lia|].
  destruct (DFT2AmpPhase_run (dft_F o') (dft_U o') false h) as (A' & P' & U' & D' & LA' & LP' & HA' & HP' & Sh' & HU'); auto; [lia|].
  assert (FE : forall k, (k < 2 * h)%nat -> dft_F o' k = - dft_F o k).
  { intros k Hk. rewrite HF, HF' by assumption. unfold dft_map. rewrite <- rsum_opp. apply rsum_ext. intros m _.
    unfold opposite. cbn [aget]. ring. }
  assert (Ha' : forall k, (k < h)%nat -> 0 < amp (dft_F o k) (dft_F o (h + k)%nat)).
  { intros k Hk. rewrite !HF by lia. now apply Ha. }
  exists A, P, U, A', P', U'.
  split; [unfold Time2AmpPhase; rewrite E; exact D|]. split; [unfold Time2AmpPhase; rewrite E'; exact D'|].
  repeat (split; [assumption|]). split.
  - intros k Hk. rewrite HA, HA', HP, HP', !FE by lia. split; [apply amp_opp|]. apply arctan2_opp. now apply Ha'.
  - intros i j Hi Hj. rewrite HU, HU' by assumption. rewrite !S4_term by assumption. unfold term4.
    pose proof (base_lt h i Hi). pose proof (base_lt h j Hj).
    assert (K : forall k, (k < 2 * h)%nat -> ap_al h (dft_F o') k = - ap_al h (dft_F o) k /\ ap_be h (dft_F o') k = - ap_be h (dft_F o) k).
    { intros k Hk. pose proof (base_lt h k Hk). unfold ap_al, ap_be. cbv zeta. rewrite !FE, amp_opp by lia. unfold Rdiv.
      destruct (k <? h)%nat; split; ring. }
    destruct (K i Hi) as [-> ->]. destruct (K j Hj) as [-> ->].
    rewrite !HV, !HV' by lia. ring.
Qed.

(** A signal read backwards (cyclically): same amplitudes, opposite phases (up to full turns),
    covariances of amplitudes with phases of opposite sign. *)
Theorem C200_reversed : forall (x : vec) Ux n h,
  alen x = n -> (1 <= n)%nat -> h = (n / 2 + 1)%nat -> sig_fits n Ux -> symm n (sig_U Ux) ->
  (forall k, (k < h)%nat -> 0 < amp (dft_map n h n x k) (dft_map n h n x (h + k)%nat)) ->
  exists A P U A' P' U', Time2AmpPhase x Ux = Ok (A, P, U) /\ Time2AmpPhase (turned x) (turned_unc Ux) = Ok (A', P', U') /\
    alen A = h /\ alen P = h /\ alen A' = h /\ alen P' = h /\ dense_shape (2 * h) U /\ dense_shape (2 * h) U' /\
    (forall k, (k < h)%nat -> A' k = A k /\ cos (P' k) = cos (- P k) /\ sin (P' k) = sin (- P k)) /\
    forall i j, (i < 2 * h)%nat -> (j < 2 * h)%nat -> dense U' i j = sign_at h i * sign_at h j * dense U i j.
Proof.
  intros x Ux n h Hl Hn Hh Hf Hs Ha. subst n.
  destruct (turned_unc_ok (alen x) Ux Hf Hs) as (Hf' & Hs' & _).
  destruct (C164_reversed x Ux false Hf Hs Hn) as (o & o' & E & E' & _ & _ & FE & UE).
  destruct (dft_plain x Ux false) as [o1 [E1 [HL [HF [Ho [Hsy _]]]]]]; auto.
  destruct (dft_plain (turned x) (turned_unc Ux) false) as [o2 [E2 [HL' [_ [Ho' [Hsy' _]]]]]]; auto.
  change (alen (turned x)) with (alen x) in *. rewrite <- Hh in *.
  rewrite E in E1. inversion E1; subst o1. rewrite E' in E2. inversion E2; subst o2. clear E1 E2.
  destruct (DFT2AmpPhase_run (dft_F o) (dft_U o) false h) as (A & P & U & D & LA & LP & HA & HP & Sh & HU); auto; [lia|].
  destruct (DFT2AmpPhase_run (dft_F o') (dft_U o') false h) as (A' & P' & U' & D' & LA' & LP' & HA' & HP' & Sh' & HU'); auto; [lia|].
  assert (Ha' : forall k, (k < h)%nat -> 0 < amp (dft_F o k) (dft_F o (h + k)%nat)).
  { intros k Hk. rewrite !HF by lia. now apply Ha. }
  assert (AE : forall a b, amp a (- b) = amp a b) by (intros; unfold amp; f_equal; ring).
  exists A, P, U, A', P', U'.
  split; [unfold Time2AmpPhase; rewrite E; exact D|]. split; [unfold Time2AmpPhase; rewrite E'; exact D'|].
  repeat (split; [assumption|]). split.
  - intros k Hk. destruct (FE k Hk) as [F1 F2]. rewrite HA, HA', HP, HP', F1, F2, AE. split; [reflexivity|].
    pose proof (Ha' k Hk) as H0. set (u := dft_F o k) in *. set (v := dft_F o (h + k)%nat) in *.
    destruct (arctan2_polar u v H0) as [C1 [S1 _]]. destruct (arctan2_polar u (- v)) as [C2 [S2 _]]; [now rewrite AE|].
    rewrite AE in C2, S2. rewrite cos_neg, sin_neg. split; apply (Rmult_eq_reg_l (amp u v)); try lra.
  - intros i j Hi Hj. rewrite HU, HU' by assumption. rewrite !S4_term by assumption. unfold term4.
    pose proof (base_lt h i Hi) as Bi. pose proof (base_lt h j Hj) as Bj.
    assert (K : forall k, (k < 2 * h)%nat -> ap_al h (dft_F o') k = sign_at h k * ap_al h (dft_F o) k /\
                                             ap_be h (dft_F o') k = - sign_at h k * ap_be h (dft_F o) k).
    { intros k Hk. destruct (FE (base h k) (base_lt h k Hk)) as [F1 F2]. unfold ap_al, ap_be, sign_at. cbv zeta. rewrite F1, F2, AE. unfold Rdiv.
      destruct (k <? h)%nat; split; ring. }
    destruct (K i Hi) as [-> ->]. destruct (K j Hj) as [-> ->].
    assert (L : forall k, (k < h)%nat -> sign_at h k = 1 /\ sign_at h (h + k) = -1).
    { intros k Hk. unfold sign_at. destruct (Nat.ltb_spec k h); [|lia]. destruct (Nat.ltb_spec (h + k) h); [lia|]. now split. }
    rewrite !UE by lia. destruct (L _ Bi) as [-> ->]. destruct (L _ Bj) as [-> ->]. ring.
Qed.

(** The signal (-1, -2) has the amplitudes of (1, 2) and the same variance of the phase. *)
Example C200_example : exists A P U A' P' U',
  Time2AmpPhase (of_list [1; 2]) (SuVec (of_list [1; 4])) = Ok (A, P, U) /\
  Time2AmpPhase (opposite (of_list [1; 2])) (SuVec (of_list [1; 4])) = Ok (A', P', U') /\
  A' 1%nat = A 1%nat /\ cos (P' 1%nat) = - cos (P 1%nat) /\ dense U' 3 3 = dense U 3 3.
Proof.
  destruct (C200_polarity (of_list [1; 2]) (SuVec (of_list [1; 4])) 2 2)
    as (A & P & U & A' & P' & U' & E & E' & _ & _ & _ & _ & _ & _ & F & G); auto.
  { reflexivity. }
  { apply (diag_symm 2 (of_list [1; 4])). }
  { exact two_lines_pos. }
  exists A, P, U, A', P', U'. split; [exact E|]. split; [exact E'|].
  destruct (F 1%nat) as [-> [-> | ->]]; [lia| |]; (split; [reflexivity|]; split; [|apply G; lia]).
  - apply neg_cos.
  - rewrite cos_minus, cos_PI, sin_PI. ring.
Qed.
(** Two samples read backwards are the same signal; three samples: the last two exchanged. *)
Example C200_reversed_example : exists A P U A' P' U',
  Time2AmpPhase (of_list [1; 2]) (SuVec (of_list [1; 4])) = Ok (A, P, U) /\
  Time2AmpPhase (turned (of_list [1; 2])) (turned_unc (SuVec (of_list [1; 4]))) = Ok (A', P', U') /\
  A' 1%nat = A 1%nat /\ sin (P' 1%nat) = - sin (P 1%nat) /\ dense U' 3 3 = dense U 3 3 /\ dense U' 1 3 = - dense U 1 3.
Proof.
  destruct (C200_reversed (of_list [1; 2]) (SuVec (of_list [1; 4])) 2 2)
    as (A & P & U & A' & P' & U' & E & E' & _ & _ & _ & _ & _ & _ & F & G); auto.
  { reflexivity. }
  { apply (diag_symm 2 (of_list [1; 4])). }
  { exact two_lines_pos. }
  exists A, P, U, A', P', U'. split; [exact E|]. split; [exact E'|].
  destruct (F 1%nat) as [-> [_ ->]]; [lia|]. split; [reflexivity|]. split; [apply sin_neg|].
  rewrite !G by lia. unfold sign_at. cbn [Nat.ltb Nat.leb]. split; ring.
Qed.
