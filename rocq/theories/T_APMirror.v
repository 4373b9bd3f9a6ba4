(** Opposite phases reverse the signal, opposite polarity (C199).
    Model: M_DFT.v.  Vocabulary: S_DFT.v. *)
From Coq Require Import Reals List Arith ZArith Bool Lia Lra Psatz.
From Verif Require Import Base Sums Stats StatsFacts M_DFT S_Jac S_DFT S_Order P_Jac P_Trig P_DFT P_iDFT
  P_Deriv P_AmpPhase P_APTime P_Deconv T_DFT T_AmpPhase T_APDelay.
Import ListNotations.
Open Scope R_scope.

(** Phases with opposite sign; phases half a turn further; sample n counted backwards;
    sign of the j-th entry of amplitudes (first h) and phases if the phases change sign. *)
Definition opposite_phases (P : vec) : vec := mkArr (alen P) (fun k => - P k).
Definition half_turn (P : vec) : vec := mkArr (alen P) (fun k => P k + PI).
Definition backwards (N n : nat) : nat := ((N - n) mod N)%nat.
Definition psign (h j : nat) : R := if (j <? h)%nat then 1 else -1.

Lemma psign_sq h j : psign h j * psign h j = 1.
Proof. unfold psign. destruct (j <? h)%nat; ring. Qed.

Lemma mirror_coeff N (A P : vec) n j : Nat.Even N -> (2 <= N)%nat -> (n < N)%nat ->
  alen A = (N / 2 + 1)%nat -> alen P = (N / 2 + 1)%nat ->
  apt_coeff N A (opposite_phases P) (backwards N n) j = psign (N / 2 + 1) j * apt_coeff N A P n j.
Proof.
  intros [p Hp] HN Hn HA HP.
  assert (HN2 : (N / 2)%nat = p) by (rewrite Hp, Nat.mul_comm; apply Nat.div_mul; lia).
  assert (HNR : INR N <> 0) by (apply not_0_INR; lia).
  pose proof (Nat.div_mod (N - n) N ltac:(lia)) as DM. fold (backwards N n) in DM. set (q := ((N - n) / N)%nat) in *.
  assert (DM' : (N + 0 = N * q + backwards N n + n)%nat) by lia.
  assert (Q : (q <= 1)%nat) by (apply Nat.lt_succ_r, Nat.div_lt_upper_bound; lia).
  assert (DR : INR n + INR (backwards N n) = INR N * INR (1 - q)).
  { rewrite <- mult_INR, <- plus_INR. f_equal. destruct q as [|[|q']]; simpl; lia. }
  set (r := (1 - q)%nat) in *.
  assert (Mid : forall k, cos (opposite_phases P k + INR k * beta_dft N (backwards N n)) = cos (P k + INR k * beta_dft N n) /\
                          sin (opposite_phases P k + INR k * beta_dft N (backwards N n)) = - sin (P k + INR k * beta_dft N n)).
  { intros k. rewrite <- (cos_neg (P k + _)), <- (sin_neg (P k + _)).
    destruct (cs_turn (opposite_phases P k + INR k * beta_dft N (backwards N n)) (- (P k + INR k * beta_dft N n)) (k * r)) as [-> ->]; auto.
    unfold opposite_phases, beta_dft. cbn [aget]. rewrite mult_INR.
    replace (INR (backwards N n)) with (INR N * INR r - INR n) by lra. field. exact HNR. }
  assert (Last : cos (opposite_phases P p + PI * INR (backwards N n)) = cos (P p + PI * INR n) /\
                 sin (opposite_phases P p + PI * INR (backwards N n)) = - sin (P p + PI * INR n)).
  { rewrite <- (cos_neg (P p + _)), <- (sin_neg (P p + _)).
    destruct (cs_turn (opposite_phases P p + PI * INR (backwards N n)) (- (P p + PI * INR n)) (p * r)) as [-> ->]; auto.
    unfold opposite_phases. cbn [aget]. rewrite mult_INR.
    assert (E : INR N = 2 * INR p) by (rewrite Hp, mult_INR; reflexivity).
    replace (INR (backwards N n)) with (INR N * INR r - INR n) by lra. rewrite E. ring. }
  assert (First : cos (opposite_phases P 0%nat) = cos (P 0%nat) /\ sin (opposite_phases P 0%nat) = - sin (P 0%nat)).
  { unfold opposite_phases. cbn [aget]. now rewrite cos_neg, sin_neg. }
  unfold apt_coeff, apt_Cc, apt_Cs, psign. cbv zeta. cbn [mget]. change (alen (opposite_phases P)) with (alen P).
  rewrite HA, HP, HN2. replace (p + 1 - 1)%nat with p by lia. destruct Last as [-> ->]. destruct First as [-> ->].
  unfold Rdiv. rewrite <- Rmult_assoc. f_equal. destruct (j <? p + 1)%nat.
  - destruct (Mid j) as [-> _]. ring.
  - destruct (Mid (j - (p + 1))%nat) as [_ ->].
    destruct ((1 <=? j - (p + 1))%nat && (j - (p + 1) <? p)%nat)%bool; [ring|]. destruct (j - (p + 1) =? p)%nat; ring.
Qed.

Lemma turn_coeff N (A P : vec) n j : Nat.Even N -> (2 <= N)%nat ->
  alen A = (N / 2 + 1)%nat -> alen P = (N / 2 + 1)%nat ->
  apt_coeff N A (half_turn P) n j = - apt_coeff N A P n j.
Proof.
  intros He HN HA HP.
  assert (T : forall k y, cos (half_turn P k + y) = - cos (P k + y) /\ sin (half_turn P k + y) = - sin (P k + y)).
  { intros k y. unfold half_turn. cbn [aget]. replace (P k + PI + y) with (P k + y + PI) by ring. now rewrite neg_cos, neg_sin. }
  assert (Z : cos (half_turn P 0%nat) = - cos (P 0%nat) /\ sin (half_turn P 0%nat) = - sin (P 0%nat)).
  { unfold half_turn. cbn [aget]. now rewrite neg_cos, neg_sin. }
  unfold apt_coeff, apt_Cc, apt_Cs. cbv zeta. cbn [mget]. change (alen (half_turn P)) with (alen P).
  destruct Z as [-> ->]. unfold Rdiv. rewrite Ropp_mult_distr_l. f_equal.
  destruct (T (alen P - 1)%nat (PI * INR n)) as [-> ->].
  destruct (j <? N / 2 + 1)%nat.
  - destruct (T j (INR j * beta_dft N n)) as [-> _].
    destruct ((1 <=? j)%nat && (j <? N / 2)%nat)%bool; [ring|]. destruct (j =? N / 2 + 1 - 1)%nat; ring.
  - set (i := (j - (N / 2 + 1))%nat). destruct (T i (INR i * beta_dft N n)) as [_ ->].
    destruct ((1 <=? i)%nat && (i <? N / 2)%nat)%bool; [ring|]. destruct (i =? N / 2 + 1 - 1)%nat; ring.
Qed.

(** ** C199 *)
(** Opposite phases (and thus opposite covariances of amplitudes with phases):
    the signal read backwards. *)
Theorem C199_reversed : forall (A P : vec) UAP UAP' N h,
  Nat.Even N -> (2 <= N)%nat -> h = (N / 2 + 1)%nat -> alen A = h -> alen P = h ->
  ap_fits (2 * h) UAP -> symm (2 * h) (ap_U UAP) -> dia_full UAP ->
  ap_fits (2 * h) UAP' -> symm (2 * h) (ap_U UAP') -> dia_full UAP' ->
  (forall a b, (a < 2 * h)%nat -> (b < 2 * h)%nat -> ap_U UAP' a b = psign h a * psign h b * ap_U UAP a b) ->
  exists x V x' V', AmpPhase2Time A P UAP = Ok (x, V) /\ AmpPhase2Time A (opposite_phases P) UAP' = Ok (x', V') /\
    alen x = N /\ alen x' = N /\
    forall n m, (n < N)%nat -> (m < N)%nat ->
      x' (backwards N n) = x n /\ V' (backwards N n) (backwards N m) = V n m.
Proof.
  intros A P UAP UAP' N h He HN Hh HA HP Hf Hs Hd Hf' Hs' Hd' HU.
  destruct (AmpPhase2Time_run A P UAP N h) as [x [V [E [Lx [_ [_ [Hx HV]]]]]]]; auto.
  destruct (AmpPhase2Time_run A (opposite_phases P) UAP' N h) as [x' [V' [E' [Lx' [_ [_ [Hx' HV']]]]]]]; auto.
  assert (K : forall n j, (n < N)%nat -> apt_coeff N A (opposite_phases P) (backwards N n) j = psign h j * apt_coeff N A P n j).
  { intros n j Hn. rewrite Hh. apply mirror_coeff; auto; congruence. }
  exists x, V, x', V'. repeat (split; [assumption|]). intros n m Hn Hm.
  assert (Hl : (backwards N n < N)%nat) by (apply Nat.mod_upper_bound; lia). split.
  - rewrite Hx, Hx' by assumption. rewrite !(apt_sum N A _ h) by auto. apply rsum_ext. intros k Hk. rewrite K by assumption.
    unfold psign. replace (k <? h)%nat with true by (symmetry; now apply Nat.ltb_lt). ring.
  - assert (S : forall u v s t w, s * s = 1 -> t * t = 1 -> s * u * (s * t * w) * (t * v) = u * w * v).
    { intros u v s t w H1 H2. replace (s * u * (s * t * w) * (t * v)) with ((s * s) * (t * t) * (u * w * v)) by ring. rewrite H1, H2. ring. }
    rewrite HV, HV'. unfold sandwich, cross.
    f_equal; [|f_equal]; apply rsum_ext; intros a Ha; apply rsum_ext; intros b Hb;
      rewrite !K, HU by (assumption || lia); apply S; apply psign_sq.
Qed.

(** All phases half a turn further: opposite signal, same covariance. *)
Theorem C199_polarity : forall (A P : vec) UAP N h,
  Nat.Even N -> (2 <= N)%nat -> h = (N / 2 + 1)%nat -> alen A = h -> alen P = h ->
  ap_fits (2 * h) UAP -> symm (2 * h) (ap_U UAP) -> dia_full UAP ->
  exists x V x' V', AmpPhase2Time A P UAP = Ok (x, V) /\ AmpPhase2Time A (half_turn P) UAP = Ok (x', V') /\
    alen x = N /\ alen x' = N /\
    (forall n, (n < N)%nat -> x' n = - x n) /\
    (forall n m, (n < N)%nat -> (m < N)%nat -> V' n m = V n m).
Proof.
  intros A P UAP N h He HN Hh HA HP Hf Hs Hd.
  destruct (AmpPhase2Time_run A P UAP N h) as [x [V [E [Lx [_ [_ [Hx HV]]]]]]]; auto.
  destruct (AmpPhase2Time_run A (half_turn P) UAP N h) as [x' [V' [E' [Lx' [_ [_ [Hx' HV']]]]]]]; auto.
  assert (K : forall n j, apt_coeff N A (half_turn P) n j = - apt_coeff N A P n j).
  { intros n j. apply turn_coeff; auto; congruence. }
  exists x, V, x', V'. repeat (split; [assumption|]). split.
  - intros n Hn. rewrite Hx, Hx' by assumption. rewrite !(apt_sum N A _ h) by auto. rewrite <- rsum_opp.
    apply rsum_ext. intros k _. rewrite K. ring.
  - intros n m Hn Hm. rewrite HV, HV'. unfold sandwich, cross.
    f_equal; [|f_equal]; apply rsum_ext; intros a _; apply rsum_ext; intros b _; rewrite !K; ring.
Qed.

(** Two samples 1, 2 with opposite polarity: -1, -2, with unchanged variances. *)
Example C199_example : exists x V x' V',
  AmpPhase2Time (of_list [3; 1]) (of_list [0; PI]) (ApVec (of_list [1; 1; 0; 0])) = Ok (x, V) /\
  AmpPhase2Time (of_list [3; 1]) (half_turn (of_list [0; PI])) (ApVec (of_list [1; 1; 0; 0])) = Ok (x', V') /\
  x' 0%nat = -1 /\ x' 1%nat = -2 /\ V' 0%nat 0%nat = / 2.
Proof.
  destruct C33_example as [x0 [V0 [E0 [X0 [X1 W0]]]]].
  destruct (C199_polarity (of_list [3; 1]) (of_list [0; PI]) (ApVec (of_list [1; 1; 0; 0])) 2 2)
    as [x [V [x' [V' [E [E' [_ [_ [F G]]]]]]]]]; simpl; auto; [exists 1%nat; lia| |].
  { apply (diag_symm 4 (of_list [1; 1; 0; 0])). }
  rewrite E0 in E. inversion E; subst x V. exists x0, V0, x', V'. split; [exact E0|]. split; [exact E'|].
  rewrite !F, G by lia. rewrite X0, X1, W0. repeat split; lra.
Qed.
(** Four samples read backwards: first sample kept, the others exchanged. *)
Example C199_example_backwards : map (backwards 4) [0; 1; 2; 3]%nat = [0; 3; 2; 1]%nat.
Proof. reflexivity. Qed.
