(** Broadcast and rejected arguments of the filter fits (C71, C73, C106). *)
From Coq Require Import Reals List Arith ZArith Bool Lra Lia.
From Verif Require Import Base Sums Cplx M_Fit S_Fit P_LinAlg P_Fit T_Fit.
Import ListNotations.
Open Scope R_scope.

(** One response value stands for the same value at all frequencies. *)
Definition everywhere {A} (v : A) (n : nat) : arr A := mkArr n (fun _ => v).
Theorem C71_single_response : forall lstsq (H : arr C) N tau f Fs Wt, alen H = 1%nat -> alen f <> 1%nat ->
  LSFIR lstsq H N tau f Fs Wt = LSFIR lstsq (everywhere (H 0%nat) (alen f)) N tau f Fs Wt /\
  invLSFIR lstsq H N tau f Fs Wt = invLSFIR lstsq (everywhere (H 0%nat) (alen f)) N tau f Fs Wt.
Proof.
  intros lstsq H N tau f Fs Wt L Hf. unfold LSFIR, invLSFIR.
  assert (E : delayed H f Fs tau = delayed (everywhere (H 0%nat) (alen f)) f Fs tau).
  { unfold delayed. cbn [alen aget everywhere]. rewrite L, Nat.eqb_refl, (Nat.eqb_refl (alen f)).
    destruct (Nat.eqb_spec 1 (alen f)); [lia|]. reflexivity. }
  rewrite E. auto.
Qed.
(** The filters [1, 0] and the response 1, given once for two frequencies. *)
Example C71_single_response_ex : exists b,
  invLSFIR lstsq_ref (mkArr 1 (fun _ => C1)) 1 0 (of_list [1; 2]) 8 WtNone = Ok b /\ alen b = 2%nat.
Proof.
  destruct (C71_single_response lstsq_ref (mkArr 1 (fun _ => C1)) 1 0 (of_list [1; 2]) 8 WtNone eq_refl ltac:(cbn; lia)) as [_ ->].
  destruct (C71_least_squares lstsq_ref (everywhere C1 2) 1 0 (of_list [1; 2]) 8 (fun _ => C1)) as (b & E & L & _).
  - apply lstsq_ref_exact.
  - reflexivity.
  - intros i _. cbn [everywhere aget]. rewrite Rmult_0_r, Ropp_0, cis_0. apply cmul_1_l.
  - exists b. auto.
Qed.
Theorem C73_weight_lengths : forall lstsq (H : arr C) N tau f Fs v,
  (alen v <> alen f -> alen v <> 1%nat ->
     LSFIR lstsq H N tau f Fs (WtVec v) = Err ValueError /\ invLSFIR lstsq H N tau f Fs (WtVec v) = Err ValueError) /\
  (alen v = 1%nat -> alen f <> 1%nat ->
     LSFIR lstsq H N tau f Fs (WtVec v) = LSFIR lstsq H N tau f Fs (WtVec (everywhere (v 0%nat) (alen f))) /\
     invLSFIR lstsq H N tau f Fs (WtVec v) = invLSFIR lstsq H N tau f Fs (WtVec (everywhere (v 0%nat) (alen f)))).
Proof.
  intros lstsq H N tau f Fs v. split.
  - intros H1 H2. unfold LSFIR, invLSFIR, fir_design. apply Nat.eqb_neq in H1, H2. rewrite H1, H2. auto.
  - intros L Hf. unfold LSFIR, invLSFIR, fir_design. cbn [alen aget everywhere]. rewrite L, Nat.eqb_refl, (Nat.eqb_refl (alen f)).
    destruct (Nat.eqb_spec 1 (alen f)); [lia|]. auto.
Qed.
Example C73_weight_lengths_ex lstsq : LSFIR lstsq (mkArr 2 (fun _ => C1)) 1 0 (of_list [1; 2]) 8 (WtVec (of_list [1; 1; 1])) = Err ValueError.
Proof. apply C73_weight_lengths; cbn; lia. Qed.
Theorem C106_response_lengths : forall lstsq roots fuel (H : arr C) Nb Na f Fs tau just,
  (alen H <> alen f -> alen H <> 1%nat ->
     LSIIR lstsq roots fuel H Nb Na f Fs tau just = Some (Err ValueError) /\
     invLSIIR lstsq roots fuel H Nb Na f Fs tau just = Some (Err ValueError)) /\
  (alen H = 1%nat -> alen f <> 1%nat ->
     LSIIR lstsq roots fuel H Nb Na f Fs tau just
       = LSIIR lstsq roots fuel (everywhere (H 0%nat) (alen f)) Nb Na f Fs tau just /\
     invLSIIR lstsq roots fuel H Nb Na f Fs tau just
       = invLSIIR lstsq roots fuel (everywhere (H 0%nat) (alen f)) Nb Na f Fs tau just).
Proof.
  intros lstsq roots fuel H Nb Na f Fs tau just. split.
  - intros H1 H2. unfold LSIIR, invLSIIR, iir_values. apply Nat.eqb_neq in H1, H2. rewrite H1, H2. auto.
  - intros L Hf. unfold LSIIR, invLSIIR, iir_values. cbn [alen aget everywhere]. rewrite L, Nat.eqb_refl, (Nat.eqb_refl (alen f)).
    destruct (Nat.eqb_spec 1 (alen f)); [lia|]. auto.
Qed.
Example C106_response_lengths_ex lstsq roots :
  LSIIR lstsq roots 50 (mkArr 3 (fun _ => C1)) 1 1 (of_list [1; 2]) 8 0 true = Some (Err ValueError) /\
  LSIIR lstsq roots 50 (mkArr 1 (fun _ => C1)) 1 1 (of_list [1; 2]) 8 0 true
  = LSIIR lstsq roots 50 (mkArr 2 (fun _ => C1)) 1 1 (of_list [1; 2]) 8 0 true.
Proof. split; apply C106_response_lengths; cbn; lia. Qed.
Print Assumptions C71_single_response.
Print Assumptions C73_weight_lengths.
Print Assumptions C106_response_lengths.
