(** Scale and offset of the white noise in power_law_noise (C146). *)
From Coq Require Import String.
From Coq Require Import Reals List Arith Lia Lra ZArith Bool Psatz.
From Verif Require Import Base Sums P_Trig M_Noise P_Noise T_Noise.
Import ListNotations.
Open Scope R_scope.

(** ** C146 *)
Section AffineInput.
Variables (w w' : vec) (a b : R).
Hypothesis Hl : alen w' = alen w.
Hypothesis Hv : forall i, (i < alen w)%nat -> w' i = a * w i + b.
Lemma rfft_re_affine k : (0 < k < alen w)%nat -> rfft_re w' k = a * rfft_re w k.
Proof.
  intros Hk. unfold rfft_re. rewrite Hl.
  rewrite (rsum_ext (alen w) _ (fun m => a * (w m * cos (2 * PI * INR k * INR m / INR (alen w)))
            + b * cos (2 * PI * INR k * INR m / INR (alen w)))) by (intros m Hm; rewrite Hv by exact Hm; ring).
  rewrite rsum_plus, !rsum_scal, cos_sum_zero by exact Hk. ring.
Qed.
Lemma rfft_im_affine k : (0 < k < alen w)%nat -> rfft_im w' k = a * rfft_im w k.
Proof.
  intros Hk. unfold rfft_im. rewrite Hl.
  rewrite (rsum_ext (alen w) _ (fun m => a * - (w m * sin (2 * PI * INR k * INR m / INR (alen w)))
            + (- b) * sin (2 * PI * INR k * INR m / INR (alen w)))) by (intros m Hm; rewrite Hv by exact Hm; ring).
  rewrite rsum_plus, !rsum_scal, sin_sum_zero by lia. ring.
Qed.
Lemma rfft_re_affine0 : rfft_re w' 0 = a * rfft_re w 0 + b * INR (alen w).
Proof.
  unfold rfft_re. rewrite Hl.
  assert (Z : forall m, cos (2 * PI * INR 0 * INR m / INR (alen w)) = 1).
  { intros m. replace (2 * PI * INR 0 * INR m / INR (alen w)) with 0 by (cbn [INR]; unfold Rdiv; ring). apply cos_0. }
  rewrite (rsum_ext (alen w) _ (fun m => a * (w m * cos (2 * PI * INR 0 * INR m / INR (alen w))) + b))
    by (intros m Hm; rewrite Hv, Z by exact Hm; ring).
  rewrite rsum_plus, !rsum_scal, rsum_const. ring.
Qed.
Lemma coloured_affine alpha : (1 <= alen w)%nat -> exists c, forall i,
  coloured w' alpha i = a * coloured w alpha i + c.
Proof.
  intros HN. exists (b * Rpower (linspace0 (alen w / 2 + 1) 0 + 1) (alpha / 2)). intros i.
  assert (Pn : INR (alen w) <> 0) by (apply not_0_INR; lia).
  unfold coloured. cbn [aget]. rewrite Hl. unfold irfft_at.
  pose proof (Nat.div_mod (alen w) 2 ltac:(lia)) as Hd.
  match goal with |- _ * (_ + ?s') = a * (_ * (_ + ?s)) + _ => assert (S : s' = a * s) end.
  { rewrite <- rsum_scal. apply rsum_ext. intros j Hj. cbv zeta.
    rewrite rfft_re_affine, rfft_im_affine by (split; [lia|]; destruct (Nat.eq_dec (alen w) 1); [|lia];
      rewrite e in Hj; cbn in Hj; lia).
    destruct (2 * S j =? alen w)%nat; ring. }
  rewrite S, rfft_re_affine0. field. exact Pn.
Qed.
End AffineInput.

(** Scaled and shifted input: the same result, for a negative factor mirrored at the mean;
    the same errors, nan in the same cases. *)
Theorem C146_scale_offset : forall draw w w' a b c mean std,
  a <> 0 -> alen w' = alen w -> (forall i, (i < alen w)%nat -> w' i = a * w i + b) ->
  match power_law_noise draw None (Some w) c mean std, power_law_noise draw None (Some w') c mean std with
  | Ok (Some y), Ok (Some y') => alen y' = alen y /\ alen y = alen w /\
      forall i, (i < alen w)%nat -> (0 < a -> y' i = y i) /\ (a < 0 -> y' i = 2 * mean - y i)
  | Ok None, Ok None => True
  | Err e, Err e' => e' = e
  | _, _ => False
  end.
Proof.
  intros draw w w' a b c mean std Ha Hl Hv.
  rewrite (noise_run draw None (Some w) _ _ _ w eq_refl), (noise_run draw None (Some w') _ _ _ w' eq_refl).
  destruct (get_alpha c) as [alpha|e]; cbn [bind]; [|reflexivity]. rewrite Hl.
  destruct (Nat.eqb_spec (alen w) 0); [reflexivity|]. cbv zeta.
  destruct (coloured_affine w w' a b Hl Hv alpha ltac:(lia)) as [k K].
  set (f := coloured w alpha) in *. set (f' := coloured w' alpha) in *.
  assert (Lf : alen f = alen w) by reflexivity. assert (Lf' : alen f' = alen w) by exact Hl.
  assert (Pn : 0 < INR (alen w)) by (apply lt_0_INR; lia).
  assert (M : np_mean f' = a * np_mean f + k).
  { unfold np_mean. rewrite Lf, Lf'. rewrite (rsum_ext _ f' (fun i => a * f i + k)) by (intros; apply K).
    rewrite rsum_plus, rsum_scal, rsum_const. field. lra. }
  assert (S : np_std f' = Rabs a * np_std f).
  { unfold np_std. rewrite Lf, Lf', <- (sqrt_Rsqr_abs a), <- sqrt_mult_alt by apply Rle_0_sqr. f_equal.
    rewrite (rsum_ext _ _ (fun i => Rsqr a * (f i - np_mean f) ^ 2)) by (intros; rewrite K, M; unfold Rsqr; ring).
    rewrite rsum_scal. field. lra. }
  assert (Pa : Rabs a <> 0) by (apply Rabs_no_R0; exact Ha).
  destruct (Req_EM_T (np_std f) 0) as [Z|Z]; destruct (Req_EM_T (np_std f') 0) as [Z'|Z'].
  - exact I.
  - apply Z'. rewrite S, Z. ring.
  - apply Z. rewrite S in Z'. apply Rmult_integral in Z'. tauto.
  - cbn [alen aget]. split; [congruence|]. split; [exact Lf|]. intros i Hi. rewrite K, M, S. split; intros Sa.
    + rewrite Rabs_pos_eq by lra. field. lra.
    + rewrite Rabs_left by exact Sa. field. lra.
Qed.
(** Three samples, doubled and shifted by 5 (same noise), negated (mirrored at 7). *)
Example C146_example : forall draw, exists y,
  power_law_noise draw None (Some (of_list [0; 1; 3])) (ColName "pink") 7 2 = Ok (Some y) /\
  (exists y', power_law_noise draw None (Some (of_list [5; 7; 11])) (ColName "pink") 7 2 = Ok (Some y') /\ y' 2%nat = y 2%nat) /\
  (exists y', power_law_noise draw None (Some (of_list [0; -1; -3])) (ColName "pink") 7 2 = Ok (Some y') /\ y' 2%nat = 14 - y 2%nat).
Proof.
  intros draw.
  destruct (C60_returns draw None (Some (of_list [0; 1; 3])) (ColName "pink") 7 2 (of_list [0; 1; 3]) (-1)) as [K _].
  - reflexivity.
  - cbn. do 3 right. left. auto.
  - cbn; lia.
  - destruct K as [y E].
    { intros K. specialize (K 0%nat 1%nat ltac:(cbn; lia) ltac:(cbn; lia)). cbn in K. lra. }
    exists y. split; [exact E|]. split.
    + pose proof (C146_scale_offset draw (of_list [0; 1; 3]) (of_list [5; 7; 11]) 2 5 (ColName "pink") 7 2 ltac:(lra) eq_refl) as T.
      rewrite E in T. clear E. destruct power_law_noise as [[y'|]|e].
      * exists y'. split; [reflexivity|]. apply T; [|cbn; lia|lra].
        intros [|[|[|i]]] Hi; cbn in Hi |- *; try lra; lia.
      * exfalso. apply T. intros [|[|[|i]]] Hi; cbn in Hi |- *; try lra; lia.
      * exfalso. apply T. intros [|[|[|i]]] Hi; cbn in Hi |- *; try lra; lia.
    + pose proof (C146_scale_offset draw (of_list [0; 1; 3]) (of_list [0; -1; -3]) (-1) 0 (ColName "pink") 7 2 ltac:(lra) eq_refl) as T.
      rewrite E in T. clear E. destruct power_law_noise as [[y'|]|e].
      * exists y'. split; [reflexivity|]. replace (14 - y 2%nat) with (2 * 7 - y 2%nat) by ring. apply T; [|cbn; lia|lra].
        intros [|[|[|i]]] Hi; cbn in Hi |- *; try lra; lia.
      * exfalso. apply T. intros [|[|[|i]]] Hi; cbn in Hi |- *; try lra; lia.
      * exfalso. apply T. intros [|[|[|i]]] Hi; cbn in Hi |- *; try lra; lia.
Qed.
Print Assumptions C146_scale_offset.
