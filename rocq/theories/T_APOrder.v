(** Amplitudes and phases to time: larger uncertainties, exactly known lines, other units (C196).
    Model: M_DFT.v.  Vocabulary: Stats.v, S_DFT.v, S_Order.v. *)
From Coq Require Import Reals List Arith ZArith Bool Lia Lra Psatz.
From Verif Require Import Base Sums Stats StatsFacts M_DFT S_Jac S_DFT S_Order P_Jac P_Trig P_DFT P_iDFT
  P_Deriv P_AmpPhase P_APTime P_Deconv T_DFT T_AmpPhase T_Order.
Import ListNotations.
Open Scope R_scope.

(** ** C196 *)
(** The reported matrix need not be symmetric (C34); order is stated for its symmetric part. *)
Definition symmetric_part (V : nat -> nat -> R) (i j : nat) : R := (V i j + V j i) / 2.

Theorem C196_order : forall (A P : vec) UAP UAP' N h,
  Nat.Even N -> (2 <= N)%nat -> h = (N / 2 + 1)%nat -> alen A = h -> alen P = h ->
  ap_fits (2 * h) UAP -> ap_fits (2 * h) UAP' -> dia_full UAP -> dia_full UAP' ->
  symm (2 * h) (ap_U UAP) -> at_most (2 * h) (ap_U UAP) (ap_U UAP') ->
  exists x V x' V', AmpPhase2Time A P UAP = Ok (x, V) /\ AmpPhase2Time A P UAP' = Ok (x', V') /\
    alen x = N /\ alen x' = N /\ (forall n, (n < N)%nat -> x n = x' n /\ V n n <= V' n n) /\
    at_most N (symmetric_part V) (symmetric_part V').
Proof.
  intros A P UAP UAP' N h He HN Hh HA HP Hf Hf' Hd Hd' Hs O.
  assert (Hs' : symm (2 * h) (ap_U UAP')).
  { intros i j Hi Hj. destruct O as [Os _]. specialize (Os i j Hi Hj). cbn beta in Os.
    rewrite (Hs i j Hi Hj) in Os. lra. }
  destruct (AmpPhase2Time_run A P UAP N h) as [x [V [E [Lx [_ [_ [Hx HV]]]]]]]; auto.
  destruct (AmpPhase2Time_run A P UAP' N h) as [x' [V' [E' [Lx' [_ [_ [Hx' HV']]]]]]]; auto.
  pose proof (sandwich_mono N (2 * h) (apt_coeff N A P) _ _ O) as M.
  exists x, V, x', V'. repeat (split; [assumption|]). split.
  - intros n Hn. split; [now rewrite Hx, Hx'|]. rewrite HV, HV'. pose proof (at_most_le N _ _ n M Hn). lra.
  - eapply at_most_eq; [| |exact M]; intros i j Hi Hj; unfold symmetric_part; rewrite ?HV, ?HV'.
    + rewrite (sandwich_symm _ _ _ j i) by assumption. field.
    + rewrite (sandwich_symm _ _ _ j i) by assumption. field.
Qed.

Theorem C196_exact : forall (A P : vec) UAP N h,
  Nat.Even N -> (2 <= N)%nat -> h = (N / 2 + 1)%nat -> alen A = h -> alen P = h ->
  ap_fits (2 * h) UAP -> dia_full UAP -> all_zero (2 * h) (ap_U UAP) ->
  exists x V, AmpPhase2Time A P UAP = Ok (x, V) /\ mrows V = N /\ mcols V = N /\ all_zero N V.
Proof.
  intros A P UAP N h He HN Hh HA HP Hf Hd Z.
  destruct (AmpPhase2Time_run A P UAP N h) as [x [V [E [_ [R1 [R2 [_ HV]]]]]]]; auto using zero_symm.
  exists x, V. repeat (split; [assumption|]). intros i j _ _. rewrite HV, sandwich_zero by exact Z.
  assert (X : forall n m, cross h (apt_coeff N A P) (ap_U UAP) n m = 0).
  { intros n m. unfold cross. apply rsum_zero; intros a Ha. apply rsum_zero; intros b Hb. rewrite Z by lia. ring. }
  rewrite !X. ring.
Qed.

(** Amplitudes times c (of either sign): the signal is multiplied by c, its covariance by c^2. *)
Theorem C196_units : forall c (A P : vec) UAP UAP' N h,
  Nat.Even N -> (2 <= N)%nat -> h = (N / 2 + 1)%nat -> alen A = h -> alen P = h ->
  ap_fits (2 * h) UAP -> ap_fits (2 * h) UAP' -> dia_full UAP -> dia_full UAP' -> symm (2 * h) (ap_U UAP) ->
  (forall i j, (i < 2 * h)%nat -> (j < 2 * h)%nat -> ap_U UAP' i j = unit_of h c i * unit_of h c j * ap_U UAP i j) ->
  exists x V x' V', AmpPhase2Time A P UAP = Ok (x, V) /\ AmpPhase2Time (rescaled c A) P UAP' = Ok (x', V') /\
    alen x = N /\ alen x' = N /\
    forall n m, (n < N)%nat -> (m < N)%nat -> x' n = c * x n /\ V' n m = c ^ 2 * V n m.
Proof.
  intros c A P UAP UAP' N h He HN Hh HA HP Hf Hf' Hd Hd' Hs HU.
  destruct (AmpPhase2Time_run A P UAP N h) as [x [V [E [Lx [_ [_ [Hx HV]]]]]]]; auto.
  destruct (AmpPhase2Time_run (rescaled c A) P UAP' N h) as [x' [V' [E' [Lx' [_ [_ [Hx' HV']]]]]]]; auto.
  { intros i j Hi Hj. rewrite !HU by assumption. rewrite (Hs i j Hi Hj). ring. }
  exists x, V, x', V'. repeat (split; [assumption|]).
  assert (T : forall n k, (k < 2 * h)%nat -> apt_coeff N (rescaled c A) P n k * unit_of h c k = c * apt_coeff N A P n k).
  { intros n k Hk. unfold apt_coeff, unit_of. rewrite <- Hh. destruct (Nat.ltb_spec k h).
    - unfold apt_Cc. cbn [mget]. unfold Rdiv. ring.
    - unfold apt_Cs. cbv zeta. cbn [mget]. change (alen (rescaled c A)) with (alen A). unfold rescaled. cbn [aget].
      destruct (_ && _)%bool; [|destruct (_ =? _)%nat]; unfold Rdiv; ring. }
  assert (Q : forall n m i j, (i < 2 * h)%nat -> (j < 2 * h)%nat ->
    apt_coeff N (rescaled c A) P n i * ap_U UAP' i j * apt_coeff N (rescaled c A) P m j
    = c ^ 2 * (apt_coeff N A P n i * ap_U UAP i j * apt_coeff N A P m j)).
  { intros n m i j Hi Hj. rewrite HU by assumption.
    transitivity ((apt_coeff N (rescaled c A) P n i * unit_of h c i) * ap_U UAP i j * (apt_coeff N (rescaled c A) P m j * unit_of h c j));
      [ring|]. rewrite !T by assumption. ring. }
  intros n m Hn Hm. split.
  - rewrite Hx, Hx' by assumption. rewrite !idft_map_linear by (auto; lia). rewrite <- rsum_scal. apply rsum_ext. intros k Hk.
    assert (G : to_real_imag h (stk (rescaled c A) P) k = c * to_real_imag h (stk A P) k).
    { assert (LO : forall q, (q < h)%nat -> stk (rescaled c A) P q = c * stk A P q).
      { intros q Hq. rewrite !(stk_lo _ P h) by auto. reflexivity. }
      assert (HI : forall q, stk (rescaled c A) P (h + q) = stk A P (h + q)).
      { intros q. rewrite !(stk_hi _ P h) by auto. reflexivity. }
      assert (Hk2 : (k < 2 * h)%nat).
      { destruct He as [p Hp]. assert ((N / 2)%nat = p) by (rewrite Hp, Nat.mul_comm; apply Nat.div_mul; lia). lia. }
      unfold to_real_imag. destruct (Nat.ltb_spec k h).
      - rewrite LO, HI by assumption. ring.
      - rewrite LO by lia. replace k with (h + (k - h))%nat at 2 4 by lia. rewrite HI. ring. }
    rewrite G. ring.
  - rewrite HV, HV'.
    assert (C : forall a b, cross h (apt_coeff N (rescaled c A) P) (ap_U UAP') a b = c ^ 2 * cross h (apt_coeff N A P) (ap_U UAP) a b).
    { intros a b. unfold cross. rewrite <- rsum_scal. apply rsum_ext. intros i Hi. rewrite <- rsum_scal. apply rsum_ext. intros j Hj.
      apply Q; lia. }
    rewrite !C. unfold sandwich. rewrite !Rmult_plus_distr_l, Rmult_minus_distr_l. f_equal.
    rewrite <- rsum_scal. apply rsum_ext. intros i Hi. rewrite <- rsum_scal. apply rsum_ext. intros j Hj. now apply Q.
Qed.

(** Two samples with uncertain amplitudes; the same in a unit a third as large. *)
Example C196_example : exists x V x' V',
  AmpPhase2Time (of_list [3; 1]) (of_list [0; PI]) (ApVec (of_list [1; 1; 0; 0])) = Ok (x, V) /\
  AmpPhase2Time (rescaled 3 (of_list [3; 1])) (of_list [0; PI]) (ApVec (of_list [9; 9; 0; 0])) = Ok (x', V') /\
  x 0%nat = 1 /\ x' 0%nat = 3 /\ V 0%nat 0%nat = / 2 /\ V' 0%nat 0%nat = 9 / 2.
Proof.
  destruct C33_example as [x0 [V0 [E0 [X0 [_ W0]]]]].
  destruct (C196_units 3 (of_list [3; 1]) (of_list [0; PI]) (ApVec (of_list [1; 1; 0; 0])) (ApVec (of_list [9; 9; 0; 0])) 2 2)
    as [x [V [x' [V' [E [E' [_ [_ F]]]]]]]]; simpl; auto; [exists 1%nat; lia| | |].
  { apply (diag_symm 4 (of_list [1; 1; 0; 0])). }
  { intros [|[|[|[|i]]]] [|[|[|[|j]]]] Hi Hj; try lia; unfold unit_of; simpl; ring. }
  rewrite E0 in E. inversion E; subst x V. exists x0, V0, x', V'. split; [exact E0|]. split; [exact E'|].
  destruct (F 0%nat 0%nat) as [-> ->]; try lia. rewrite X0, W0. repeat split; lra.
Qed.
(** Twice the variances of the amplitudes. *)
Example C196_order_example : exists x V x' V',
  AmpPhase2Time (of_list [3; 1]) (of_list [0; PI]) (ApVec (of_list [1; 1; 0; 0])) = Ok (x, V) /\
  AmpPhase2Time (of_list [3; 1]) (of_list [0; PI]) (ApVec (of_list [2; 2; 0; 0])) = Ok (x', V') /\
  V 0%nat 0%nat <= V' 0%nat 0%nat.
Proof.
  destruct (C196_order (of_list [3; 1]) (of_list [0; PI]) (ApVec (of_list [1; 1; 0; 0])) (ApVec (of_list [2; 2; 0; 0])) 2 2)
    as [x [V [x' [V' [E [E' [_ [_ [F _]]]]]]]]]; simpl; auto; [exists 1%nat; lia| | |].
  { apply (diag_symm 4 (of_list [1; 1; 0; 0])). }
  { split.
    - intros [|[|[|[|i]]]] [|[|[|[|j]]]] Hi Hj; try lia; reflexivity.
    - intros v. unfold quad. cbn. match goal with |- 0 <= ?q => replace q with (v 0%nat ^ 2 + v 1%nat ^ 2) by ring end.
      pose proof (pow2_ge_0 (v 0%nat)). pose proof (pow2_ge_0 (v 1%nat)). lra. }
  exists x, V, x', V'. split; [exact E|]. split; [exact E'|]. apply F. lia.
Qed.
Example C196_exact_example : exists x V,
  AmpPhase2Time (of_list [3; 1]) (of_list [0; PI]) (ApVec (of_list [0; 0; 0; 0])) = Ok (x, V) /\ V 0%nat 1%nat = 0.
Proof.
  destruct (C196_exact (of_list [3; 1]) (of_list [0; PI]) (ApVec (of_list [0; 0; 0; 0])) 2 2)
    as [x [V [E [_ [_ F]]]]]; simpl; auto; [exists 1%nat; lia| |].
  { intros [|[|[|[|i]]]] [|[|[|[|j]]]] Hi Hj; try lia; reflexivity. }
  exists x, V. split; [exact E|]. apply F; lia.
Qed.
Print Assumptions C196_order.
Print Assumptions C196_exact.
Print Assumptions C196_units.
