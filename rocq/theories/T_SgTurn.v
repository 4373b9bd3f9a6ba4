(** Smoothing a signal that is read backwards, or only a piece of it (C166).  Model: M_FilterStuff.v (savitzky_golay).
    Vocabulary: window_design, left_inverse, normal_equations (T_FilterStuff.v). *)
From Coq Require Import Reals String List Arith ZArith Lia Lra Psatz Permutation Bool.
From Verif Require Import Base Sums Cplx S_Poly S_MC S_DFT M_DFT M_FilterStuff P_Poly P_Deriv P_AmpPhase P_FStuff P_FStuff2 T_FilterStuff.
Import ListNotations.
Local Notation length := Datatypes.length.
Open Scope R_scope.

Lemma neg_pow x n : (- x) ^ n = (-1) ^ n * x ^ n.
Proof. replace (- x) with (-1 * x) by ring. apply Rpow_mult_distr. Qed.
Lemma one_pow n : (-1) ^ n * (-1) ^ n = 1.
Proof. rewrite <- Rpow_mult_distr. replace (-1 * -1) with 1 by ring. apply pow1. Qed.

(** Two solutions of the normal equations of a matrix with a left inverse are the same. *)
Lemma normal_unique (P Q B : mat) : left_inverse P B -> normal_equations P B -> normal_equations Q B ->
  forall e j, (e < mcols B)%nat -> (j < mrows B)%nat -> P e j = Q e j.
Proof.
  intros HL HP HQ e j He Hj. set (n := mrows B) in *. set (m := mcols B) in *.
  set (v := fun f => P f j - Q f j). set (Bv := fun k => rsum m (fun f => B k f * v f)).
  assert (G : forall e, (e < m)%nat -> rsum n (fun k => B k e * Bv k) = 0).
  { intros e0 He0. pose proof (HP e0 j He0 Hj) as X. pose proof (HQ e0 j He0 Hj) as Y. fold n m in X, Y.
    rewrite (rsum_ext n _ (fun k => B k e0 * rsum m (fun f => B k f * P f j) - B k e0 * rsum m (fun f => B k f * Q f j))).
    - rewrite rsum_minus, X, Y. ring.
    - intros k _. unfold Bv, v. rewrite <- Rmult_minus_distr_l, <- rsum_minus. f_equal. apply rsum_ext. intros; ring. }
  assert (S0 : rsum n (fun k => Bv k * Bv k) = 0).
  { rewrite (rsum_ext n _ (fun k => rsum m (fun f => v f * (B k f * Bv k)))).
    - rewrite rsum_swap. apply rsum_zero. intros f Hf. rewrite rsum_scal, G by assumption. ring.
    - intros k _. unfold Bv at 1. rewrite <- rsum_scal_r. apply rsum_ext. intros; ring. }
  assert (Z : forall k, (k < n)%nat -> Bv k = 0).
  { intros k Hk. pose proof (rsum_nonneg_zero n (fun k => Bv k * Bv k) (fun i _ => Rle_0_sqr (Bv i)) S0 k Hk) as Q0. cbv beta in Q0. nra. }
  assert (V : v e = 0).
  { transitivity (rsum n (fun k => P e k * Bv k)).
    - rewrite (rsum_ext n _ (fun k => rsum m (fun f => v f * (P e k * B k f)))).
      + rewrite rsum_swap. rewrite (rsum_ext m _ (fun f => if (f =? e)%nat then v f else 0)).
        * symmetry. now apply (rsum_delta m e v).
        * intros f Hf. rewrite rsum_scal. unfold n. rewrite (HL e f He Hf). rewrite Nat.eqb_sym. destruct (f =? e)%nat; ring.
      + intros k _. unfold Bv. rewrite <- rsum_scal. apply rsum_ext. intros; ring.
    - apply rsum_zero. intros k Hk. rewrite Z by assumption. ring. }
  unfold v in V. lra.
Qed.
(** The weights of row d are even or odd with d. *)
Lemma window_parity h o (P B : mat) : window_design h o B -> left_inverse P B -> normal_equations P B ->
  forall e j, (e < o + 1)%nat -> (j < 2 * h + 1)%nat -> P e (2 * h - j)%nat = (-1) ^ e * P e j.
Proof.
  intros HW HL HN e j He Hj. destruct HW as (Hr & Hc & HB).
  assert (BB : forall k f, (k < 2 * h + 1)%nat -> (f < o + 1)%nat -> B (2 * h - k)%nat f = (-1) ^ f * B k f).
  { intros k f Hk Hf. rewrite !HB by lia. rewrite <- neg_pow. f_equal. rewrite minus_INR by lia. rewrite mult_INR. simpl (INR 2). ring. }
  set (Q := mkMat (o + 1) (2 * h + 1) (fun f i => (-1) ^ f * P f (2 * h - i)%nat)).
  assert (HQ : normal_equations Q B).
  { intros f i Hf Hi. rewrite Hr, Hc in *. cbn [Q mget].
    pose proof (HN f (2 * h - i)%nat ltac:(rewrite Hc; lia) ltac:(rewrite Hr; lia)) as X. rewrite Hr, Hc in X.
    rewrite BB in X by lia. rewrite rsum_rev.
    apply (Rmult_eq_reg_l ((-1) ^ f)); [|apply pow_nonzero; lra]. rewrite <- X, <- rsum_scal. apply rsum_ext. intros k Hk.
    replace (2 * h + 1 - 1 - k)%nat with (2 * h - k)%nat by lia. rewrite (BB k f) by lia.
    rewrite <- !Rmult_assoc, one_pow, Rmult_1_l. f_equal. apply rsum_ext. intros g Hg. rewrite (BB k g) by lia.
    transitivity ((-1) ^ g * (-1) ^ g * (B k g * P g (2 * h - i)%nat)); [ring|]. rewrite one_pow. ring. }
  pose proof (normal_unique P Q B HL HN HQ e j ltac:(rewrite Hc; lia) ltac:(rewrite Hr; lia)) as X. cbn [Q mget] in X.
  rewrite X, <- Rmult_assoc, one_pow. ring.
Qed.
Lemma sg_value pinv y w o d delta s h i : savitzky_golay pinv y w o d delta = Ok s -> Z.abs_nat w = (2 * h + 1)%nat ->
  (h <= i)%nat -> (i + h < alen y)%nat ->
  s i = rsum (2 * h + 1) (fun j => sg_weights pinv h (Z.abs_nat o) d delta j * y (i - h + j)%nat).
Proof.
  intros E0 Hw Hi H0. destruct (sg_inv _ _ _ _ _ _ _ E0) as [h' [W [O1 [D1 [_ Eys]]]]].
  assert (h' = h) by lia. subst h'.
  destruct (sg_conv (sg_weights pinv h (Z.abs_nat o) d delta) h y eq_refl ltac:(lia)) as [_ Vy].
  rewrite Eys, Vy by lia. apply rsum_ext. intros j Hj. f_equal.
  replace (i + j)%nat with (h + (i - h + j))%nat by lia. apply sg_pad_mid; lia.
Qed.

(** Away from the ends (half a window) the smoothed signal read backwards is the smoothed signal; derivatives of odd order change their sign. *)
Theorem C166_backwards_partial : forall pinv (y : vec) w o d delta s s' h i,
  (forall B, window_design h (Z.abs_nat o) B -> left_inverse (pinv B) B /\ normal_equations (pinv B) B) ->
  Z.abs_nat w = (2 * h + 1)%nat ->
  savitzky_golay pinv y w o d delta = Ok s ->
  savitzky_golay pinv (mkArr (alen y) (fun k => y (alen y - 1 - k)%nat)) w o d delta = Ok s' ->
  (h <= i)%nat -> (i + h < alen y)%nat ->
  s' (alen y - 1 - i)%nat = (-1) ^ d * s i.
Proof.
  intros pinv y w o d delta s s' h i HP Hw E E' Hi Hih.
  destruct (sg_inv _ _ _ _ _ _ _ E) as [h' [W [O1 [D1 [_ _]]]]]. assert (h' = h) by lia. subst h'.
  rewrite (sg_value _ _ _ _ _ _ _ h _ E' Hw) by (cbn [alen]; lia). rewrite (sg_value _ _ _ _ _ _ _ h _ E Hw) by lia.
  rewrite <- rsum_scal, rsum_rev. apply rsum_ext. intros j Hj. cbn [sg_weights aget alen].
  replace (2 * h + 1 - 1 - j)%nat with (2 * h - j)%nat by lia.
  destruct (HP _ (sg_window h (Z.abs_nat o))) as [HL HN].
  rewrite (window_parity h (Z.abs_nat o) _ _ (sg_window h (Z.abs_nat o)) HL HN d j) by lia.
  replace (alen y - 1 - (alen y - 1 - i - h + (2 * h - j)))%nat with (i - h + j)%nat by lia. unfold Rdiv. ring.
Qed.
(** At the ends this is wrong: the signal is continued below its first and above its last value, whatever its slope. *)
Theorem C166_backwards_refuted : exists pinv (y : vec) s s',
  (forall B, window_design 1 1 B -> left_inverse (pinv B) B /\ normal_equations (pinv B) B) /\
  savitzky_golay pinv y 3 1 0 1 = Ok s /\
  savitzky_golay pinv (mkArr (alen y) (fun k => y (alen y - 1 - k)%nat)) 3 1 0 1 = Ok s' /\
  s 2%nat = 2 /\ s' 0%nat = 4 / 3.
Proof.
  exists pinv31, (of_list [0; 1; 2]),
    (conv1_valid (reversed_arr (sg_weights pinv31 1 1 0 1)) (sg_pad 1 (of_list [0; 1; 2]))),
    (conv1_valid (reversed_arr (sg_weights pinv31 1 1 0 1)) (sg_pad 1 (mkArr 3 (fun k => of_list [0; 1; 2] (3 - 1 - k)%nat)))).
  split.
  { intros B HB. destruct C94_ex as [H1 [H2 _]]. split; [now apply H1|now apply H2]. }
  split; [reflexivity|]. split; [reflexivity|].
  split; cbn; unfold Rabs; repeat match goal with |- context [Rcase_abs ?x] => destruct (Rcase_abs x); try lra end; lra.
Qed.
(** The value depends on the samples of its window only: other signals, also of another length, that agree there, give the same. *)
Theorem C166_local : forall pinv (y z : vec) w o d delta s s' h i i',
  Z.abs_nat w = (2 * h + 1)%nat ->
  savitzky_golay pinv y w o d delta = Ok s -> savitzky_golay pinv z w o d delta = Ok s' ->
  (h <= i)%nat -> (i + h < alen y)%nat -> (h <= i')%nat -> (i' + h < alen z)%nat ->
  (forall j, (j < 2 * h + 1)%nat -> z (i' - h + j)%nat = y (i - h + j)%nat) -> s' i' = s i.
Proof.
  intros pinv y z w o d delta s s' h i i' Hw E E' Hi Hih Hi' Hih' Hyz.
  rewrite (sg_value _ _ _ _ _ _ _ h _ E' Hw), (sg_value _ _ _ _ _ _ _ h _ E Hw) by assumption.
  apply rsum_ext. intros j Hj. rewrite Hyz by assumption. reflexivity.
Qed.

Example C166_example : exists s s', savitzky_golay pinv31 (of_list [0; 1; 2; 4]) 3 1 1 1 = Ok s /\
  savitzky_golay pinv31 (mkArr 4 (fun k => of_list [0; 1; 2; 4] (4 - 1 - k)%nat)) 3 1 1 1 = Ok s' /\ s 2%nat = 3 / 2 /\ s' 1%nat = - (3 / 2).
Proof.
  exists (conv1_valid (reversed_arr (sg_weights pinv31 1 1 1 1)) (sg_pad 1 (of_list [0; 1; 2; 4]))).
  exists (conv1_valid (reversed_arr (sg_weights pinv31 1 1 1 1)) (sg_pad 1 (mkArr 4 (fun k => of_list [0; 1; 2; 4] (4 - 1 - k)%nat)))).
  split; [reflexivity|]. split; [reflexivity|]. 
  assert (V : conv1_valid (reversed_arr (sg_weights pinv31 1 1 1 1)) (sg_pad 1 (of_list [0; 1; 2; 4])) 2%nat = 3 / 2).
  { etransitivity; [apply (sg_value pinv31 (of_list [0; 1; 2; 4]) 3 1 1 1 _ 1 2 eq_refl eq_refl); cbn; lia|]. cbn. lra. }
  split; [exact V|].
  etransitivity; [exact (C166_backwards_partial pinv31 (of_list [0; 1; 2; 4]) 3 1 1 1 _ _ 1 2
    ltac:(intros B HB; destruct C94_ex as [H1 [H2 _]]; split; [now apply H1|now apply H2]) eq_refl eq_refl eq_refl ltac:(lia) ltac:(cbn; lia))|].
  etransitivity; [apply f_equal; exact V|]. cbn. lra.
Qed.
(** The window around 3 in [0; 1; 3; 4; 9] and in [1; 3; 4]. *)
Example C166_local_example : exists s s', savitzky_golay pinv31 (of_list [0; 1; 3; 4; 9]) 3 1 0 1 = Ok s /\
  savitzky_golay pinv31 (of_list [1; 3; 4]) 3 1 0 1 = Ok s' /\ s' 1%nat = s 2%nat.
Proof.
  eexists _, _. split; [reflexivity|]. split; [reflexivity|].
  apply (C166_local pinv31 (of_list [0; 1; 3; 4; 9]) (of_list [1; 3; 4]) 3 1 0 1 _ _ 1 2 1 eq_refl eq_refl eq_refl); try (cbn; lia).
  intros [|[|[|j]]] Hj; try lia; reflexivity.
Qed.
Print Assumptions C166_backwards_partial.
Print Assumptions C166_backwards_refuted.
Print Assumptions C166_local.
