(** Conjugate lines and opposite phases (C204).  Model: M_DFT.v.  Vocabulary: S_DFT.v, T_Conj.v (conj_lines, conj_cov). *)
From Coq Require Import Reals List Arith ZArith Bool Lia Lra Psatz.
From Verif Require Import Base Sums Stats StatsFacts M_DFT S_Jac S_DFT S_Order P_Jac P_Trig P_DFT P_iDFT
  P_Deriv P_AmpPhase P_APTime P_Deconv T_DFT T_AmpPhase T_APDelay T_APMirror T_Conj.
Import ListNotations.
Open Scope R_scope.

(** ** C204 *)
(** Spectrum to amplitudes and phases. *)
Theorem C204_amp_phase : forall (F F' : vec) UF UF' ks h,
  alen F = (2 * h)%nat -> alen F' = (2 * h)%nat -> (1 <= h)%nat -> fun_fits (2 * h) UF -> fun_fits (2 * h) UF' ->
  symm (2 * h) (fun_U UF) -> (forall k, (k < h)%nat -> F k ^ 2 + F (h + k)%nat ^ 2 <> 0) ->
  conj_lines h F F' -> conj_cov h (fun_U UF) (fun_U UF') ->
  exists A P U A' P' U', DFT2AmpPhase F UF ks = Ok (A, P, U) /\ DFT2AmpPhase F' UF' ks = Ok (A', P', U') /\
    alen A = h /\ alen P = h /\ alen A' = h /\ alen P' = h /\ dense_shape (2 * h) U /\ dense_shape (2 * h) U' /\
    (forall k, (k < h)%nat -> A' k = A k /\ (P' k = - P k \/ (P k = PI /\ P' k = PI))) /\
    conj_cov h (dense U) (dense U').
Proof.
  intros F F' UF UF' ks h LF LF' Hh Ff Ff' Sy Hnz CF CU.
  destruct (DFT2AmpPhase_run F UF ks h) as (A & P & U & D & LA & LP & HA & HP & Sh & HU); auto.
  destruct (DFT2AmpPhase_run F' UF' ks h) as (A' & P' & U' & D' & LA' & LP' & HA' & HP' & Sh' & HU'); auto.
  { exact (conj_symm h _ _ CU Sy). }
  assert (AE : forall a b, amp a (- b) = amp a b) by (intros; unfold amp; f_equal; ring).
  exists A, P, U, A', P', U'. repeat (split; [assumption|]). split.
  - intros k Hk. rewrite HA, HA', HP, HP', (conj_lo h F F' k), (conj_hi h F F' k), AE by assumption. split; [reflexivity|].
    specialize (Hnz k Hk). set (u := F k) in *. set (v := F (h + k)%nat) in *.
    assert (Q : - v / u = - (v / u)) by (unfold Rdiv; ring). unfold arctan2. rewrite Q, atan_opp.
    destruct (Rlt_dec 0 u); [left; reflexivity|]. destruct (Rlt_dec u 0).
    + destruct (Rle_dec 0 v), (Rle_dec 0 (- v)); try lra.
      right. assert (Z : v = 0) by lra. rewrite Z. replace (0 / u) with 0 by (unfold Rdiv; ring). rewrite atan_0. lra.
    + destruct (Rlt_dec 0 v), (Rlt_dec 0 (- v)), (Rlt_dec v 0), (Rlt_dec (- v) 0); lra.
  - intros i j Hi Hj. rewrite HU, HU' by assumption. apply conj_S4; auto.
    apply halves. intros k Hk. rewrite csign_lo, csign_hi by assumption. unfold ap_al, ap_be, base. cbv zeta.
    destruct (Nat.ltb_spec k h); [|lia]. rewrite hi_false. replace (h + k - h)%nat with k by lia.
    rewrite (conj_lo h F F' k), (conj_hi h F F' k), AE by assumption. unfold Rdiv. repeat split; ring.
Qed.

(** Amplitudes and phases to the spectrum. *)
Theorem C204_real_imag : forall (A P : vec) UAP UAP' ks h,
  alen A = h -> alen P = h -> (1 <= h)%nat -> not_dia UAP -> not_dia UAP' -> ap_fits (2 * h) UAP -> ap_fits (2 * h) UAP' ->
  symm (2 * h) (ap_U UAP) -> conj_cov h (ap_U UAP) (ap_U UAP') ->
  exists F U F' U', AmpPhase2DFT A P UAP ks = Ok (F, U) /\ AmpPhase2DFT A (opposite_phases P) UAP' ks = Ok (F', U') /\
    alen F = (2 * h)%nat /\ alen F' = (2 * h)%nat /\ dense_shape (2 * h) U /\ dense_shape (2 * h) U' /\
    conj_lines h F F' /\ conj_cov h (dense U) (dense U').
Proof.
  intros A P UAP UAP' ks h LA LP Hh N N' Fu Fu' Sy CU.
  destruct (AmpPhase2DFT_run A P UAP ks h) as (F & U & E & LF & HF & Sh & HU); auto.
  destruct (AmpPhase2DFT_run A (opposite_phases P) UAP' ks h) as (F' & U' & E' & LF' & HF' & Sh' & HU'); auto.
  { exact (conj_symm h _ _ CU Sy). }
  exists F, U, F', U'. repeat (split; [assumption|]). split.
  - unfold conj_lines. apply halves. intros k Hk. rewrite !HF, !HF', csign_lo, csign_hi by lia. unfold to_real_imag.
    destruct (Nat.ltb_spec k h); [|lia]. rewrite hi_false. replace (h + k - h)%nat with k by lia.
    rewrite !(stk_hi A P h), !(stk_hi A (opposite_phases P) h), !(stk_lo A P h), !(stk_lo A (opposite_phases P) h) by assumption. unfold opposite_phases. cbn [aget]. rewrite cos_neg, sin_neg. split; ring.
  - intros i j Hi Hj. rewrite HU, HU' by assumption.
    replace (sparse_error h A P UAP i j) with 0 by (destruct UAP; [reflexivity|reflexivity|destruct N]).
    replace (sparse_error h A (opposite_phases P) UAP' i j) with 0 by (destruct UAP'; [reflexivity|reflexivity|destruct N']).
    rewrite (conj_S4 h (ri_al h (stk A P)) (ri_be h (stk A P)) (ri_al h (stk A (opposite_phases P))) (ri_be h (stk A (opposite_phases P)))
               (ap_U UAP) (ap_U UAP') i j Hi Hj CU); [ring|].
    apply halves. intros k Hk. rewrite csign_lo, csign_hi by assumption.
    rewrite !ri_al_lo, !ri_al_hi, !ri_be_lo, !ri_be_hi, !(stk_hi A P h), !(stk_hi A (opposite_phases P) h), !(stk_lo A P h), !(stk_lo A (opposite_phases P) h) by assumption.
    unfold opposite_phases. cbn [aget]. rewrite cos_neg, sin_neg. repeat split; ring.
Qed.

(** The lines 1 + i and 1 - i. *)
Example C204_example : exists A P U A' P' U',
  DFT2AmpPhase (of_list [1; 1]) (FuVec (of_list [1; 2])) false = Ok (A, P, U) /\
  DFT2AmpPhase (of_list [1; -1]) (FuVec (of_list [1; 2])) false = Ok (A', P', U') /\
  A' 0%nat = A 0%nat /\ cos (P' 0%nat) = cos (P 0%nat) /\ dense U' 0 1 = - dense U 0 1 /\ dense U' 1 1 = dense U 1 1.
Proof.
  destruct (C204_amp_phase (of_list [1; 1]) (of_list [1; -1]) (FuVec (of_list [1; 2])) (FuVec (of_list [1; 2])) false 1)
    as (A & P & U & A' & P' & U' & E & E' & _ & _ & _ & _ & _ & _ & G & C); auto; try reflexivity.
  { apply (diag_symm 2 (of_list [1; 2])). }
  { intros [|k] Hk; try lia; cbn; lra. }
  { intros [|[|i]] Hi; try lia; unfold csign; cbn; ring. }
  { intros [|[|i]] [|[|j]] Hi Hj; try lia; unfold csign; cbn; ring. }
  exists A, P, U, A', P', U'. split; [exact E|]. split; [exact E'|].
  destruct (G 0%nat) as [-> Hp]; [lia|]. split; [reflexivity|].
  split; [destruct Hp as [-> | [-> ->]]; [apply cos_neg|reflexivity]|].
  rewrite (C 0%nat 1%nat), (C 1%nat 1%nat) by lia. unfold csign. cbn [Nat.ltb Nat.leb]. split; ring.
Qed.
Example C204_real_imag_example : exists F U F' U',
  AmpPhase2DFT (of_list [2]) (of_list [1]) (ApVec (of_list [1; 2])) false = Ok (F, U) /\
  AmpPhase2DFT (of_list [2]) (opposite_phases (of_list [1])) (ApVec (of_list [1; 2])) false = Ok (F', U') /\
  F' 0%nat = F 0%nat /\ F' 1%nat = - F 1%nat /\ dense U' 0 1 = - dense U 0 1 /\ dense U' 1 1 = dense U 1 1.
Proof.
  destruct (C204_real_imag (of_list [2]) (of_list [1]) (ApVec (of_list [1; 2])) (ApVec (of_list [1; 2])) false 1)
    as (F & U & F' & U' & E & E' & _ & _ & _ & _ & G & C); auto; try reflexivity; try exact I.
  { apply (diag_symm 2 (of_list [1; 2])). }
  { intros [|[|i]] [|[|j]] Hi Hj; try lia; unfold csign; cbn; ring. }
  exists F, U, F', U'. split; [exact E|]. split; [exact E'|].
  rewrite (G 0%nat), (G 1%nat), (C 0%nat 1%nat), (C 1%nat 1%nat) by lia. unfold csign. cbn [Nat.ltb Nat.leb]. repeat split; ring.
Qed.
