(** Signals to amplitudes and phases: larger uncertainties, exactly known signals, other units (C197).
    Model: M_DFT.v.  Vocabulary: Stats.v, S_DFT.v, S_Order.v. *)
From Coq Require Import Reals List Arith ZArith Bool Lia Lra Psatz.
From Verif Require Import Base Sums Stats StatsFacts M_DFT S_Jac S_DFT S_Order P_Jac P_Trig P_DFT P_iDFT
  P_Deriv P_AmpPhase P_APTime P_Deconv T_DFT T_AmpPhase T_Order.
Import ListNotations.
Open Scope R_scope.

(** ** C197 *)
Theorem C197_order : forall (x : vec) Ux Ux' n h,
  alen x = n -> (1 <= n)%nat -> h = (n / 2 + 1)%nat -> sig_fits n Ux -> sig_fits n Ux' ->
  symm n (sig_U Ux) -> at_most n (sig_U Ux) (sig_U Ux') ->
  (forall k, (k < h)%nat -> 0 < amp (dft_map n h n x k) (dft_map n h n x (h + k)%nat)) ->
  exists A P U A' P' U', Time2AmpPhase x Ux = Ok (A, P, U) /\ Time2AmpPhase x Ux' = Ok (A', P', U') /\
    alen A = h /\ alen P = h /\ alen A' = h /\ alen P' = h /\
    (forall k, (k < h)%nat -> A k = A' k /\ P k = P' k) /\
    dense_shape (2 * h) U /\ dense_shape (2 * h) U' /\ at_most (2 * h) (dense U) (dense U').
Proof.
  intros x Ux Ux' n h Hl Hn Hh Hf Hf' Hs O Hnz. subst n.
  assert (Hs' : symm (alen x) (sig_U Ux')).
  { intros i j Hi Hj. destruct O as [Os _]. specialize (Os i j Hi Hj). cbn beta in Os.
    rewrite (Hs i j Hi Hj) in Os. lra. }
  destruct (dft_plain x Ux false) as [o [E [HL [HF [Ho [Hsy HV]]]]]]; auto.
  destruct (dft_plain x Ux' false) as [o' [E' [HL' [HF' [Ho' [Hsy' HV']]]]]]; auto.
  rewrite <- Hh in *.
  destruct (DFT2AmpPhase_run (dft_F o) (dft_U o) false h) as (A & P & U & D & LA & LP & HA & HP & Sh & HU); auto; [lia|].
  destruct (DFT2AmpPhase_run (dft_F o') (dft_U o') false h) as (A' & P' & U' & D' & LA' & LP' & HA' & HP' & Sh' & HU'); auto; [lia|].
  assert (FE : forall k, (k < 2 * h)%nat -> dft_F o' k = dft_F o k) by (intros k Hk; now rewrite HF, HF').
  exists A, P, U, A', P', U'.
  split; [unfold Time2AmpPhase; rewrite E; exact D|]. split; [unfold Time2AmpPhase; rewrite E'; exact D'|].
  repeat (split; [assumption|]). split; [|split; [exact Sh|split; [exact Sh'|]]].
  - intros k Hk. rewrite HA, HA', HP, HP', !FE by lia. auto.
  - assert (M : at_most (2 * h) (fun_U (dft_U o)) (fun_U (dft_U o'))).
    { eapply at_most_eq; [| |exact (sandwich_mono (2 * h) (alen x) (fun r m => dft_coeff (alen x) h r m) _ _ O)];
        intros i j Hi Hj; symmetry; [now apply HV|now apply HV']. }
    eapply at_most_eq; [| |exact (sandwich_mono (2 * h) (2 * h) (Kl h (ap_al h (dft_F o)) (ap_be h (dft_F o))) _ _ M)];
      intros i j Hi Hj; symmetry; [now apply HU|]. rewrite HU' by assumption.
    change (S4 h (ap_al h (dft_F o')) (ap_be h (dft_F o')) (fun_U (dft_U o')) i j
            = S4 h (ap_al h (dft_F o)) (ap_be h (dft_F o)) (fun_U (dft_U o')) i j).
    rewrite !S4_term by assumption. unfold term4, ap_al, ap_be. cbv zeta.
    pose proof (base_lt h i Hi). pose proof (base_lt h j Hj). rewrite !FE by lia. reflexivity.
Qed.

Theorem C197_exact : forall (x : vec) Ux n h,
  alen x = n -> (1 <= n)%nat -> h = (n / 2 + 1)%nat -> sig_fits n Ux -> all_zero n (sig_U Ux) ->
  (forall k, (k < h)%nat -> 0 < amp (dft_map n h n x k) (dft_map n h n x (h + k)%nat)) ->
  exists A P U, Time2AmpPhase x Ux = Ok (A, P, U) /\ dense_shape (2 * h) U /\ all_zero (2 * h) (dense U).
Proof.
  intros x Ux n h Hl Hn Hh Hf Z Hnz. subst n.
  destruct (dft_plain x Ux false) as [o [E [HL [HF [Ho [_ HV]]]]]]; auto using zero_symm. rewrite <- Hh in *.
  destruct (C131_amp_phase (dft_F o) (dft_U o) false h) as (A & P & U & D & Sh & ZU); auto; [lia| | |].
  { intros i j Hi Hj. rewrite HV by assumption. now apply sandwich_zero. }
  { intros k Hk. rewrite !HF by lia. intro Q. specialize (Hnz k Hk). unfold amp in Hnz. match type of Hnz with 0 < sqrt ?e => replace e with 0 in Hnz by lra end. rewrite sqrt_0 in Hnz. lra. }
  exists A, P, U. split; [unfold Time2AmpPhase; rewrite E; exact D|]. now split.
Qed.

(** The signal in another unit (c > 0), no line vanishing: amplitudes and their uncertainties are
    multiplied by c, phases and their uncertainties stay the same. *)
Theorem C197_units : forall c (x : vec) Ux n h, 0 < c ->
  alen x = n -> (1 <= n)%nat -> h = (n / 2 + 1)%nat -> sig_fits n Ux -> symm n (sig_U Ux) ->
  (forall k, (k < h)%nat -> 0 < amp (dft_map n h n x k) (dft_map n h n x (h + k)%nat)) ->
  exists A P U A' P' U', Time2AmpPhase x Ux = Ok (A, P, U) /\
    Time2AmpPhase (rescaled c x) (rescaled_sig c Ux) = Ok (A', P', U') /\
    alen A = h /\ alen A' = h /\ (forall k, (k < h)%nat -> A' k = c * A k /\ P' k = P k) /\
    forall i j, (i < 2 * h)%nat -> (j < 2 * h)%nat ->
      dense U' i j = unit_of h c i * unit_of h c j * dense U i j.
Proof.
  intros c x Ux n h Hc Hl Hn Hh Hf Hs Ha. subst n.
  destruct (dft_plain x Ux false) as [o [E [HL [HF [Ho [Hsy HV]]]]]]; auto.
  destruct (dft_plain (rescaled c x) (rescaled_sig c Ux) false) as [o' [E' [HL' [HF' [Ho' [Hsy' HV']]]]]]; auto.
  { destruct Ux; exact Hf. }
  { intros i j Hi Hj. rewrite !rescaled_sig_U. f_equal. now apply Hs. }
  change (alen (rescaled c x)) with (alen x) in *. rewrite <- Hh in *.
  destruct (DFT2AmpPhase_run (dft_F o) (dft_U o) false h) as (A & P & U & D & LA & LP & HA & HP & Sh & HU); auto; [lia|].
  destruct (DFT2AmpPhase_run (dft_F o') (dft_U o') false h) as (A' & P' & U' & D' & LA' & LP' & HA' & HP' & Sh' & HU'); auto; [lia|].
  assert (FE : forall k, (k < 2 * h)%nat -> dft_F o' k = c * dft_F o k).
  { intros k Hk. rewrite HF, HF' by assumption. unfold dft_map. rewrite <- rsum_scal. apply rsum_ext. intros m _.
    unfold rescaled. cbn [aget]. ring. }
  assert (Ha' : forall k, (k < h)%nat -> 0 < amp (dft_F o k) (dft_F o (h + k)%nat)).
  { intros k Hk. rewrite !HF by lia. now apply Ha. }
  exists A, P, U, A', P', U'.
  split; [unfold Time2AmpPhase; rewrite E; exact D|]. split; [unfold Time2AmpPhase; rewrite E'; exact D'|].
  repeat (split; [assumption|]). split.
  - intros k Hk. rewrite HA, HA', HP, HP', !FE by lia. split; [now apply amp_scaled|now apply arctan2_scaled].
  - intros i j Hi Hj. rewrite HU, HU' by assumption. apply S4_units with (c := c); auto.
    + intros a b Hp Hq. rewrite HV, HV' by assumption. apply sandwich_scaled. intros p q _ _. apply rescaled_sig_U.
    + intros k Hk. destruct (ap_scaled h (dft_F o) c k Hc Ha' Hk) as [<- <-].
      pose proof (base_lt h k Hk). unfold ap_al, ap_be. cbv zeta. rewrite !FE by lia. split; reflexivity.
Qed.

(** The signal (1, 2): lines 3 and -1. *)
Lemma two_lines : dft_map 2 2 2 (of_list [1; 2]) 0 = 3 /\ dft_map 2 2 2 (of_list [1; 2]) 1 = -1 /\
   dft_map 2 2 2 (of_list [1; 2]) 2 = 0 /\ dft_map 2 2 2 (of_list [1; 2]) 3 = 0.
Proof.
  unfold dft_map, dft_coeff. simpl.
  repeat match goal with
  | |- context [cos ?e] => first [replace e with 0 by field | replace e with PI by field]; rewrite ?cos_0, ?cos_PI
  | |- context [sin ?e] => first [replace e with 0 by field | replace e with PI by field]; rewrite ?sin_0, ?sin_PI
  end. repeat split; lra.
Qed.
Lemma two_lines_pos : forall k, (k < 2)%nat -> 0 < amp (dft_map 2 2 2 (of_list [1; 2]) k) (dft_map 2 2 2 (of_list [1; 2]) (2 + k)%nat).
Proof.
  destruct two_lines as [E0 [E1 [E2 E3]]].
  intros [|[|k]] Hk; try lia; cbn [Nat.add]; rewrite ?E0, ?E1, ?E2, ?E3; unfold amp; apply sqrt_lt_R0; lra.
Qed.
Example C197_example : exists A P U A' P' U',
  Time2AmpPhase (of_list [1; 2]) (SuVec (of_list [1; 4])) = Ok (A, P, U) /\
  Time2AmpPhase (rescaled 3 (of_list [1; 2])) (rescaled_sig 3 (SuVec (of_list [1; 4]))) = Ok (A', P', U') /\
  A' 0%nat = 3 * A 0%nat /\ P' 1%nat = P 1%nat /\ dense U' 0 0 = 9 * dense U 0 0 /\ dense U' 2 2 = dense U 2 2.
Proof.
  destruct (C197_units 3 (of_list [1; 2]) (SuVec (of_list [1; 4])) 2 2) as (A & P & U & A' & P' & U' & E & E' & _ & _ & F & G);
    auto; try lra.
  { reflexivity. }
  { apply (diag_symm 2 (of_list [1; 4])). }
  { exact two_lines_pos. }
  exists A, P, U, A', P', U'. split; [exact E|]. split; [exact E'|].
  destruct (F 0%nat) as [-> _]; [lia|]. destruct (F 1%nat) as [_ ->]; [lia|]. rewrite !G by lia.
  unfold unit_of. simpl. repeat split; lra.
Qed.
Example C197_order_example : exists A P U A' P' U',
  Time2AmpPhase (of_list [1; 2]) (SuVec (of_list [1; 4])) = Ok (A, P, U) /\
  Time2AmpPhase (of_list [1; 2]) (SuVec (of_list [2; 4])) = Ok (A', P', U') /\ dense U 0 0 <= dense U' 0 0.
Proof.
  destruct (C197_order (of_list [1; 2]) (SuVec (of_list [1; 4])) (SuVec (of_list [2; 4])) 2 2)
    as (A & P & U & A' & P' & U' & E & E' & _ & _ & _ & _ & _ & _ & _ & O); auto; try reflexivity.
  { apply (diag_symm 2 (of_list [1; 4])). }
  { split.
    - intros [|[|i]] [|[|j]] Hi Hj; try lia; reflexivity.
    - intros v. unfold quad. cbn. match goal with |- 0 <= ?q => replace q with (v 0%nat ^ 2) by ring end. apply pow2_ge_0. }
  { exact two_lines_pos. }
  exists A, P, U, A', P', U'. split; [exact E|]. split; [exact E'|]. apply (at_most_le 4); [exact O|lia].
Qed.
Example C197_exact_example : exists A P U,
  Time2AmpPhase (of_list [1; 2]) (SuFloat 0) = Ok (A, P, U) /\ dense U 1 1 = 0.
Proof.
  destruct (C197_exact (of_list [1; 2]) (SuFloat 0) 2 2) as (A & P & U & E & _ & Z); auto; try exact I.
  { intros i j _ _. cbn. destruct (i =? j)%nat; reflexivity. }
  { exact two_lines_pos. }
  exists A, P, U. split; [exact E|]. apply Z; lia.
Qed.
Print Assumptions C197_order.
Print Assumptions C197_exact.
Print Assumptions C197_units.
