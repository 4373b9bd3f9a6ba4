(** A linear phase delays the signal put together by AmpPhase2Time (C198).
    Model: M_DFT.v.  Vocabulary: S_DFT.v. *)
From Coq Require Import Reals List Arith ZArith Bool Lia Lra Psatz.
From Verif Require Import Base Sums Stats StatsFacts M_DFT S_Jac S_DFT S_Order P_Jac P_Trig P_DFT P_iDFT
  P_Deriv P_AmpPhase P_APTime P_Deconv T_DFT T_AmpPhase.
Import ListNotations.
Open Scope R_scope.

(** Phases lowered by 2 pi k d / N; cyclic delay by d samples. *)
Definition delayed_phases (N d : nat) (P : vec) : vec :=
  mkArr (alen P) (fun k => P k - 2 * PI * INR k * INR d / INR N).
Definition later (N d n : nat) : nat := ((n + d) mod N)%nat.

(** Full turns do not matter. *)
Lemma cs_turn x y k : x = y + 2 * INR k * PI -> cos y = cos x /\ sin y = sin x.
Proof. intros ->. now rewrite cos_period, sin_period. Qed.

Lemma delay_coeff N d (A P : vec) n j : Nat.Even N -> (2 <= N)%nat -> alen A = (N / 2 + 1)%nat -> alen P = (N / 2 + 1)%nat ->
  apt_coeff N A (delayed_phases N d P) (later N d n) j = apt_coeff N A P n j.
Proof.
  intros [p Hp] HN HA HP.
  assert (HN2 : (N / 2)%nat = p) by (rewrite Hp, Nat.mul_comm; apply Nat.div_mul; lia).
  assert (HNR : INR N <> 0) by (apply not_0_INR; lia).
  pose proof (Nat.div_mod (n + d) N ltac:(lia)) as DM. fold (later N d n) in DM. set (q := ((n + d) / N)%nat) in *.
  assert (DR : INR n + INR d = INR N * INR q + INR (later N d n)).
  { rewrite <- mult_INR, <- !plus_INR. now f_equal. }
  assert (Mid : forall k, cos (delayed_phases N d P k + INR k * beta_dft N (later N d n)) = cos (P k + INR k * beta_dft N n) /\
                          sin (delayed_phases N d P k + INR k * beta_dft N (later N d n)) = sin (P k + INR k * beta_dft N n)).
  { intros k. apply cs_turn with (k := (k * q)%nat). unfold delayed_phases, beta_dft. cbn [aget]. rewrite mult_INR.
    replace (INR n) with (INR N * INR q + INR (later N d n) - INR d) by lra. field. exact HNR. }
  assert (Last : cos (delayed_phases N d P p + PI * INR (later N d n)) = cos (P p + PI * INR n) /\
                 sin (delayed_phases N d P p + PI * INR (later N d n)) = sin (P p + PI * INR n)).
  { apply cs_turn with (k := (p * q)%nat). unfold delayed_phases. cbn [aget]. rewrite mult_INR.
    assert (E : INR N = 2 * INR p) by (rewrite Hp, mult_INR; reflexivity).
    replace (INR n) with (INR N * INR q + INR (later N d n) - INR d) by lra. rewrite E in *. field.
    intro Z. apply HNR. rewrite Z. ring. }
  assert (First : delayed_phases N d P 0%nat = P 0%nat).
  { unfold delayed_phases. cbn [aget]. replace (INR 0%nat) with 0 by reflexivity. unfold Rdiv. ring. }
  unfold apt_coeff, apt_Cc, apt_Cs. cbv zeta. cbn [mget]. change (alen (delayed_phases N d P)) with (alen P).
  rewrite HA, HP, HN2. replace (p + 1 - 1)%nat with p by lia. rewrite First. destruct Last as [-> ->].
  f_equal. destruct (j <? p + 1)%nat.
  - destruct (Mid j) as [-> _]. reflexivity.
  - destruct (Mid (j - (p + 1))%nat) as [_ ->]. reflexivity.
Qed.

(** The signal is the sum of its lines: amplitude times sensitivity. *)
Lemma apt_sum N (A P : vec) h n : Nat.Even N -> (2 <= N)%nat -> h = (N / 2 + 1)%nat -> alen A = h -> alen P = h ->
  idft_map N (to_real_imag h (stk A P)) n = rsum h (fun k => A k * apt_coeff N A P n k).
Proof.
  intros He HN Hh HA HP. rewrite idft_map_linear by (auto; lia).
  assert (H2 : (N + 2 = h + h)%nat).
  { destruct He as [p Hp]. assert ((N / 2)%nat = p) by (rewrite Hp, Nat.mul_comm; apply Nat.div_mul; lia). lia. }
  try (replace (2 * (N / 2 + 1))%nat with (h + h)%nat by lia); try rewrite H2; try rewrite <- Hh;
    try (replace (2 * h)%nat with (h + h)%nat by lia).
  rewrite rsum_app, <- rsum_plus. apply rsum_ext. intros k Hk.
  destruct (apt_chain N A P n k h) as [-> _]; auto; [lia|].
  unfold to_real_imag. replace (k <? h)%nat with true by (symmetry; now apply Nat.ltb_lt).
  replace (h + k <? h)%nat with false by (symmetry; apply Nat.ltb_ge; lia).
  replace (h + k - h)%nat with k by lia. rewrite (stk_lo A P h), (stk_hi A P h) by auto. ring.
Qed.

(** ** C198 *)
Theorem C198_delay : forall (A P : vec) UAP N h d,
  Nat.Even N -> (2 <= N)%nat -> h = (N / 2 + 1)%nat -> alen A = h -> alen P = h ->
  ap_fits (2 * h) UAP -> symm (2 * h) (ap_U UAP) -> dia_full UAP ->
  exists x V x' V', AmpPhase2Time A P UAP = Ok (x, V) /\ AmpPhase2Time A (delayed_phases N d P) UAP = Ok (x', V') /\
    alen x = N /\ alen x' = N /\
    forall n m, (n < N)%nat -> (m < N)%nat ->
      x' (later N d n) = x n /\ V' (later N d n) (later N d m) = V n m.
Proof.
  intros A P UAP N h d He HN Hh HA HP Hf Hs Hd.
  destruct (AmpPhase2Time_run A P UAP N h) as [x [V [E [Lx [_ [_ [Hx HV]]]]]]]; auto.
  destruct (AmpPhase2Time_run A (delayed_phases N d P) UAP N h) as [x' [V' [E' [Lx' [_ [_ [Hx' HV']]]]]]]; auto.
  assert (K : forall n j, apt_coeff N A (delayed_phases N d P) (later N d n) j = apt_coeff N A P n j).
  { intros n j. apply delay_coeff; auto; congruence. }
  exists x, V, x', V'. repeat (split; [assumption|]). intros n m Hn Hm.
  assert (Hl : (later N d n < N)%nat) by (apply Nat.mod_upper_bound; lia). split.
  - rewrite Hx, Hx' by assumption. rewrite !apt_sum by auto. apply rsum_ext. intros k _. now rewrite K.
  - rewrite HV, HV'. unfold sandwich, cross.
    f_equal; [|f_equal]; apply rsum_ext; intros a _; apply rsum_ext; intros b _; now rewrite !K.
Qed.

(** Two samples 1, 2 delayed by one sample: 2, 1. *)
Example C198_example : exists x V x' V',
  AmpPhase2Time (of_list [3; 1]) (of_list [0; PI]) (ApVec (of_list [1; 1; 0; 0])) = Ok (x, V) /\
  AmpPhase2Time (of_list [3; 1]) (delayed_phases 2 1 (of_list [0; PI])) (ApVec (of_list [1; 1; 0; 0])) = Ok (x', V') /\
  x' 1%nat = 1 /\ x' 0%nat = 2 /\ V' 1%nat 1%nat = / 2.
Proof.
  destruct C33_example as [x0 [V0 [E0 [X0 [X1 W0]]]]].
  destruct (C198_delay (of_list [3; 1]) (of_list [0; PI]) (ApVec (of_list [1; 1; 0; 0])) 2 2 1)
    as [x [V [x' [V' [E [E' [_ [_ F]]]]]]]]; simpl; auto; [exists 1%nat; lia| |].
  { apply (diag_symm 4 (of_list [1; 1; 0; 0])). }
  rewrite E0 in E. inversion E; subst x V. exists x0, V0, x', V'. split; [exact E0|]. split; [exact E'|].
  destruct (F 0%nat 0%nat) as [A0 B0]; try lia. destruct (F 1%nat 1%nat) as [A1 _]; try lia.
  unfold later in *. cbn in A0, B0, A1. rewrite A0, A1, B0. auto.
Qed.
