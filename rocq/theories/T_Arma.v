(** ARMA as a filter of its noise: superposition, causality, delays, mean, first order
    processes (C178, C179).  Model: M_Noise.v. *)
From Coq Require Import String.
From Coq Require Import Reals List Arith ZArith Bool Lra Lia.
From Verif Require Import Base Sums Stats StatsFacts P_Trig M_Interp P_Interp Cplx M_Noise S_Noise P_Noise T_Noise.
Import ListNotations.
Open Scope R_scope.
Local Notation length := Datatypes.length.

(** ** C178 *)
Theorem C178_superposition : forall (w w1 w2 : vec) a b phi theta n,
  alen w1 = alen w -> alen w2 = alen w -> (forall i, (i < alen w)%nat -> w i = a * w1 i + b * w2 i) ->
  (n < alen w)%nat -> ARMA w phi theta n = a * ARMA w1 phi theta n + b * ARMA w2 phi theta n.
Proof.
  intros w w1 w2 a b phi theta n L1 L2 H. induction n as [n IH] using lt_wf_ind. intros Hn.
  rewrite (ARMA_rec w phi theta n Hn), (ARMA_rec w1 phi theta n), (ARMA_rec w2 phi theta n) by lia. cbv zeta.
  set (mp := Nat.min (alen (coef_vec phi)) n). set (mq := Nat.min (alen (coef_vec theta)) n).
  rewrite (rsum_ext mp _ (fun j => a * (coef_vec phi (mp - 1 - j)%nat * ARMA w1 phi theta (n - S j)%nat)
      + b * (coef_vec phi (mp - 1 - j)%nat * ARMA w2 phi theta (n - S j)%nat))).
  2:{ intros j Hj. rewrite IH by lia. ring. }
  rewrite (rsum_ext mq _ (fun j => a * (coef_vec theta (mq - 1 - j)%nat * w1 (n - S j)%nat)
      + b * (coef_vec theta (mq - 1 - j)%nat * w2 (n - S j)%nat))).
  2:{ intros j Hj. rewrite H by lia. ring. }
  rewrite !rsum_plus, !rsum_scal, H by lia. ring.
Qed.
(** The first values do not depend on the noise drawn later, nor on the length. *)
Theorem C178_causal : forall (w w' : vec) phi theta n,
  (n < alen w)%nat -> (n < alen w')%nat -> (forall i, (i <= n)%nat -> w i = w' i) ->
  ARMA w phi theta n = ARMA w' phi theta n.
Proof.
  intros w w' phi theta n. induction n as [n IH] using lt_wf_ind. intros Hn Hn' H.
  rewrite (ARMA_rec w phi theta n Hn), (ARMA_rec w' phi theta n Hn'). cbv zeta.
  f_equal; [f_equal|].
  - apply H. lia.
  - apply rsum_ext. intros j Hj. f_equal. apply IH; try lia. intros i Hi. apply H. lia.
  - apply rsum_ext. intros j Hj. f_equal. apply H. lia.
Qed.
(** Noise of mean 0 gives values of mean 0. *)
Theorem C178_mean : forall N (d : dist (nat -> R)) phi theta n,
  has_mean N d (fun _ => 0) -> (n < N)%nat -> Ex d (fun w => ARMA (mkArr N w) phi theta n) = 0.
Proof.
  intros N d phi theta n H. induction n as [n IH] using lt_wf_ind. intros Hn.
  set (mp := Nat.min (alen (coef_vec phi)) n). set (mq := Nat.min (alen (coef_vec theta)) n).
  rewrite (Ex_ext d _ (fun w => w n + rsum mp (fun j => coef_vec phi (mp - 1 - j)%nat * ARMA (mkArr N w) phi theta (n - S j)%nat)
        + rsum mq (fun j => coef_vec theta (mq - 1 - j)%nat * w (n - S j)%nat))).
  2:{ intros w. apply (ARMA_rec (mkArr N w) phi theta n Hn). }
  rewrite !Ex_plus, !Ex_rsum, H by assumption. rewrite !rsum_zero; [ring| |].
  - intros j Hj. rewrite Ex_scal, H by lia. ring.
  - intros j Hj. rewrite Ex_scal, IH by lia. ring.
Qed.

(** ** C179

    The noise starts one sample later. *)
Definition later (w : vec) : vec := mkArr (S (alen w)) (fun i => match i with O => 0 | S j => w j end).
(** First order: so does the result. *)
Theorem C179_delay_partial : forall (w : vec) phi theta n,
  (alen (coefficients phi) <= 1)%nat -> (alen (coefficients theta) <= 1)%nat -> (n < alen w)%nat ->
  ARMA (later w) phi theta 0%nat = 0 /\ ARMA (later w) phi theta (S n) = ARMA w phi theta n.
Proof.
  intros w phi theta n Hp Hq Hn. change coefficients with coef_vec in *.
  assert (Z : ARMA (later w) phi theta 0%nat = 0).
  { rewrite ARMA_rec by (cbn; lia). cbv zeta. rewrite !Nat.min_0_r. cbn. ring. }
  split; [exact Z|]. revert Hn. induction n as [n IH] using lt_wf_ind. intros Hn.
  rewrite (ARMA_rec (later w) phi theta (S n)) by (cbn; lia). rewrite (ARMA_rec w phi theta n Hn). cbv zeta.
  cbn [later aget].
  destruct n as [|n].
  - rewrite !Nat.min_0_r. cbn [rsum].
    rewrite !rsum_zero; [ring| |].
    + intros j Hj. assert (j = 0%nat) by lia. subst j. cbn. ring.
    + intros j Hj. assert (j = 0%nat) by lia. subst j. cbn [Nat.sub]. rewrite Z. ring.
  - replace (Nat.min (alen (coef_vec phi)) (S (S n))) with (Nat.min (alen (coef_vec phi)) (S n)) by lia.
    replace (Nat.min (alen (coef_vec theta)) (S (S n))) with (Nat.min (alen (coef_vec theta)) (S n)) by lia.
    f_equal; [f_equal|]; apply rsum_ext; intros j Hj; f_equal.
    + replace (S (S n) - S j)%nat with (S (S n - S j)) by lia. apply IH; lia.
    + replace (S (S n) - S j)%nat with (S (S n - S j)) by lia. reflexivity.
Qed.
(** Second order: it does not (the second value uses phi[0] for the last value, all later
    ones use phi[-1]). *)
Theorem C179_delay_refuted : exists (w : vec) phi theta n, (n < alen w)%nat /\
  ARMA (later w) phi theta (S n) <> ARMA w phi theta n.
Proof.
  exists (of_list [1; 0]), (CoVec (of_list [1/2; 1/4])), (CoNum 0), 1%nat. split; [cbn; lia|].
  unfold ARMA. cbn. unfold arma_step. cbn. lra.
Qed.

(** First order autoregression: closed form, variance and covariance for white noise. *)
Lemma ar1_closed (w : vec) phi n : (n < alen w)%nat ->
  ARMA w (CoNum phi) (CoNum 0) n = rsum (S n) (fun j => phi ^ (n - j) * w j).
Proof.
  intros Hn. induction n as [|n IH].
  - rewrite ARMA_rec by assumption. cbv zeta. rewrite !Nat.min_0_r. cbn. ring.
  - rewrite ARMA_rec by assumption. cbv zeta.
    change (alen (coef_vec (CoNum phi))) with 1%nat. change (alen (coef_vec (CoNum 0))) with 1%nat.
    replace (Nat.min 1 (S n)) with 1%nat by lia.
    assert (E : rsum (S (S n)) (fun j => phi ^ (S n - j) * w j) = phi * rsum (S n) (fun j => phi ^ (n - j) * w j) + w (S n)).
    { change (rsum (S (S n)) (fun j => phi ^ (S n - j) * w j)) with (rsum (S n) (fun j => phi ^ (S n - j) * w j) + phi ^ (S n - S n) * w (S n)).
      rewrite Nat.sub_diag, <- rsum_scal. f_equal; [|cbn; ring]. apply rsum_ext. intros j Hj.
      replace (S n - j)%nat with (S (n - j)) by lia. cbn [pow]. ring. }
    rewrite E, <- IH by lia. cbn [rsum]. replace (S n - 1)%nat with n by lia.
    cbn [coef_vec aget Nat.sub]. change (of_list [phi] 0%nat) with phi. change (of_list [0] 0%nat) with 0. ring.
Qed.
Theorem C178_first_order : forall N (d : dist (nat -> R)) phi sigma n,
  has_cov N d (fun i j => if (i =? j)%nat then sigma ^ 2 else 0) -> (n < N)%nat ->
  let e w := ARMA (mkArr N w) (CoNum phi) (CoNum 0) n in
  Cov d e e = sigma ^ 2 * rsum (S n) (fun k => (phi ^ 2) ^ k) /\
  (phi ^ 2 < 1 -> Cov d e e = sigma ^ 2 * (1 - (phi ^ 2) ^ S n) / (1 - phi ^ 2)) /\
  (forall m, (n + m < N)%nat ->
     Cov d e (fun w => ARMA (mkArr N w) (CoNum phi) (CoNum 0) (n + m)%nat) = phi ^ m * Cov d e e).
Proof.
  intros N d phi sigma n HC Hn e.
  assert (K : forall m, (n + m < N)%nat ->
    Cov d e (fun w => ARMA (mkArr N w) (CoNum phi) (CoNum 0) (n + m)%nat)
    = phi ^ m * (sigma ^ 2 * rsum (S n) (fun k => (phi ^ 2) ^ k))).
  { intros m Hm. unfold e.
    rewrite (Cov_ext d _ _ (fun w => rsum (S n) (fun j => phi ^ (n - j) * w j))
       (fun w => rsum (S (n + m)) (fun j => phi ^ (n + m - j) * w j))) by (intros; now apply ar1_closed).
    rewrite (Cov_linear d (S n) (S (n + m)) (fun j => phi ^ (n - j)) (fun j => phi ^ (n + m - j)) (fun j w => w j) (fun j w => w j)).
    rewrite (rsum_rev (S n) (fun k => (phi ^ 2) ^ k)), <- !rsum_scal. apply rsum_ext. intros i Hi.
    rewrite (rsum_single (S (n + m)) i).
    - rewrite HC by lia. rewrite Nat.eqb_refl. replace (S n - 1 - i)%nat with (n - i)%nat by lia.
      replace (n + m - i)%nat with (m + (n - i))%nat by lia. rewrite pow_add, <- pow_mult.
      replace (2 * (n - i))%nat with (n - i + (n - i))%nat by lia. rewrite pow_add. ring.
    - lia.
    - intros j Hj Hne. rewrite HC by lia. destruct (Nat.eqb_spec i j); [congruence|]. ring. }
  assert (E : Cov d e e = sigma ^ 2 * rsum (S n) (fun k => (phi ^ 2) ^ k)).
  { specialize (K 0%nat). rewrite Nat.add_0_r in K. fold e in K. rewrite K by assumption. cbn [pow]. ring. }
  split; [exact E|]. split.
  - intros Hp. rewrite E. unfold Rdiv. rewrite Rmult_assoc. f_equal.
    assert (G : forall m, rsum m (fun k => (phi ^ 2) ^ k) * (1 - phi ^ 2) = 1 - (phi ^ 2) ^ m).
    { induction m as [|m IH]; [cbn; ring|]. cbn [rsum]. rewrite Rmult_plus_distr_r, IH. cbn [pow]. ring. }
    rewrite <- (G (S n)). field. lra.
  - intros m Hm. rewrite K, E by assumption. reflexivity.
Qed.

(** Concrete cases. *)
Example C178_superposition_example :
  ARMA (of_list [2; 3; 4]) (CoNum (1/2)) (CoNum (1/3)) 2%nat
  = 2 * ARMA (of_list [1; 0; 2]) (CoNum (1/2)) (CoNum (1/3)) 2%nat + 3 * ARMA (of_list [0; 1; 0]) (CoNum (1/2)) (CoNum (1/3)) 2%nat.
Proof.
  apply C178_superposition; [reflexivity|reflexivity| |cbn; lia].
  intros i Hi. cbn in Hi. destruct i as [|[|[|i]]]; [| | |lia]; cbn; ring.
Qed.
Example C179_delay_example :
  ARMA (later (of_list [1; 0; 0])) (CoNum (1/2)) (CoNum 0) 3%nat = ARMA (of_list [1; 0; 0]) (CoNum (1/2)) (CoNum 0) 2%nat.
Proof. apply C179_delay_partial; cbn; lia. Qed.
Example C178_causal_example :
  ARMA (of_list [1; 2; 5; 6]) (CoVec (of_list [1/2; 1/4])) (CoNum 1) 1%nat = ARMA (of_list [1; 2]) (CoVec (of_list [1/2; 1/4])) (CoNum 1) 1%nat.
Proof.
  apply C178_causal; [cbn; lia|cbn; lia|]. intros i Hi. destruct i as [|[|i]]; [| |lia]; reflexivity.
Qed.
(** Two tosses of a coin as noise of standard deviation 1 and mean 0. *)
Definition two_tosses : dist (nat -> R) :=
  [(1/4, fun i => match i with O => 1 | _ => 1 end); (1/4, fun i => match i with O => 1 | _ => -1 end);
   (1/4, fun i => match i with O => -1 | _ => 1 end); (1/4, fun i => match i with O => -1 | _ => -1 end)].
Lemma two_tosses_mean : has_mean 2 two_tosses (fun _ => 0).
Proof. intros i Hi. destruct i as [|[|i]]; [| |lia]; cbn; lra. Qed.
Lemma two_tosses_cov : has_cov 2 two_tosses (fun i j => if (i =? j)%nat then 1 ^ 2 else 0).
Proof.
  intros i j Hi Hj. destruct i as [|[|i]]; destruct j as [|[|j]]; try lia; unfold Cov; cbn; lra.
Qed.
Example C178_mean_example :
  Ex two_tosses (fun w => ARMA (mkArr 2 w) (CoNum (1/2)) (CoNum (1/3)) 1%nat) = 0.
Proof. apply C178_mean; [exact two_tosses_mean|lia]. Qed.
Example C178_first_order_example :
  let e w := ARMA (mkArr 2 w) (CoNum (1/2)) (CoNum 0) 1%nat in Cov two_tosses e e = 5/4.
Proof.
  intros e. destruct (C178_first_order 2 two_tosses (1/2) 1 1%nat two_tosses_cov ltac:(lia)) as [H _].
  unfold e. rewrite H. cbn. lra.
Qed.
Print Assumptions C178_superposition.
Print Assumptions C178_causal.
Print Assumptions C178_mean.
Print Assumptions C179_delay_partial.
Print Assumptions C179_delay_refuted.
Print Assumptions C178_first_order.
