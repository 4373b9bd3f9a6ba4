(** savitzky_golay at the ends of the signal (C94).  Model: M_FilterStuff.v. *)
From Coq Require Import Reals List Arith ZArith Bool Lia Lra Psatz.
From Verif Require Import Base Sums Cplx M_DFT M_FilterStuff S_Poly P_Poly P_FStuff P_FStuff2 T_FilterStuff.
Import ListNotations.
Open Scope R_scope.

Lemma sg_pad_rising h (y : vec) a b t : (h + 1 <= alen y)%nat -> 0 <= b ->
  (forall i, (i < alen y)%nat -> y i = a + b * INR i) -> (t < h + alen y + h)%nat ->
  sg_pad h y t = a + b * (INR t - INR h).
Proof.
  intros Hh Hb Hy Ht. unfold sg_pad. cbn [aget]. rewrite Nat.min_l by lia.
  destruct (Nat.ltb_spec t h).
  - rewrite !Hy by lia. rewrite minus_INR by lia. cbn [INR].
    pose proof (lt_INR _ _ H). rewrite Rabs_right by nra. ring.
  - destruct (Nat.ltb_spec t (h + alen y)).
    + rewrite Hy by lia. rewrite minus_INR by lia. ring.
    + rewrite !Hy by lia. rewrite Rabs_left1.
      * rewrite !minus_INR by lia. cbn [INR]. ring.
      * assert (INR (alen y - 2 - (t - h - alen y)) <= INR (alen y - 1)) by (apply le_INR; lia). nra.
Qed.
(** A straight line that does not fall is returned as it is, up to the first and the last sample. *)
Theorem C94_rising_lines : forall pinv y w o delta ys h a b i,
  savitzky_golay pinv y w o 0 delta = Ok ys -> Z.abs_nat w = (2 * h + 1)%nat -> (1 <= Z.abs_nat o)%nat ->
  (forall B, window_design h (Z.abs_nat o) B -> left_inverse (pinv B) B) ->
  (h + 1 <= alen y)%nat -> 0 <= b -> (forall i, (i < alen y)%nat -> y i = a + b * INR i) ->
  (i < alen y)%nat -> ys i = y i.
Proof.
  intros pinv y w o delta ys h a b i E Hw Ho HP Hh Hb Hy Hi. specialize (HP _ (sg_window h (Z.abs_nat o))).
  destruct (sg_inv _ _ _ _ _ _ _ E) as [h1 [W [O1 [D1 [_ Eys]]]]]. assert (h1 = h) by lia. subst h1.
  set (m := sg_weights pinv h (Z.abs_nat o) 0 delta) in *.
  destruct (sg_conv m h y eq_refl Hh) as [_ V]. rewrite Eys, V by auto.
  assert (M : forall e, (e <= 1)%nat -> rsum (2 * h + 1) (fun j => m j * (INR j - INR h) ^ e) = if (0 =? e)%nat then 1 else 0).
  { intros e He. pose proof (HP 0%nat e ltac:(cbn; lia) ltac:(cbn; lia)) as Q.
    transitivity (rsum (2 * h + 1) (fun j => pinv (sg_design h (Z.abs_nat o)) 0%nat j * (INR j - INR h) ^ e)); [|exact Q].
    apply rsum_ext. intros j _. unfold m, sg_weights. cbn [aget pow fact]. change (INR 1) with 1. field. }
  pose proof (M 0%nat ltac:(lia)) as M0. pose proof (M 1%nat ltac:(lia)) as M1. cbn [Nat.eqb] in M0, M1.
  rewrite (rsum_ext _ _ (fun j => (a + b * INR i) * (m j * (INR j - INR h) ^ 0) + b * (m j * (INR j - INR h) ^ 1))).
  - rewrite rsum_plus, !rsum_scal, M0, M1, Hy by assumption. ring.
  - intros j Hj. rewrite (sg_pad_rising h y a b) by (auto; lia). rewrite plus_INR. ring.
Qed.
Example C94_rising_example : exists ys,
  savitzky_golay pinv31 (of_list [5; 7; 9]) 3 1 0 1 = Ok ys /\ ys 0%nat = 5 /\ ys 2%nat = 9.
Proof.
  exists (conv1_valid (reversed_arr (sg_weights pinv31 1 1 0 1)) (sg_pad 1 (of_list [5; 7; 9]))).
  assert (E : savitzky_golay pinv31 (of_list [5; 7; 9]) 3 1 0 1 =
    Ok (conv1_valid (reversed_arr (sg_weights pinv31 1 1 0 1)) (sg_pad 1 (of_list [5; 7; 9])))) by reflexivity.
  split; [exact E|].
  assert (L : forall i, (i < 3)%nat -> (of_list [5; 7; 9] : vec) i = 5 + 2 * INR i).
  { intros [|[|[|i]]] Hi; try lia; cbn; ring. }
  split; (rewrite (C94_rising_lines pinv31 (of_list [5; 7; 9]) 3 1 1 _ 1 5 2 _ E);
    [reflexivity|reflexivity|cbn; lia|apply C94_ex|cbn; lia|lra|exact L|cbn; lia]).
Qed.
Print Assumptions C94_rising_lines.
