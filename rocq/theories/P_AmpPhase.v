(** Lemmas for DFT2AmpPhase, AmpPhase2DFT: derivatives and block algebra. *)
From Coq Require Import Reals List Arith ZArith Lia Lra Psatz Bool.
From Verif Require Import Base Sums Stats StatsFacts S_Jac P_Jac P_Deriv M_DFT S_DFT P_Trig P_DFT P_iDFT.
Import ListNotations.
Open Scope R_scope.

(** ** amplitude and argument *)
Lemma amp_pos_sq x y : 0 < amp x y -> 0 < x * x + y * y.
Proof.
  unfold amp. intros H. destruct (Rlt_le_dec 0 (x * x + y * y)); auto.
  rewrite sqrt_neg_0 in H by assumption. lra.
Qed.
Lemma amp_sq x y : amp x y * amp x y = x * x + y * y.
Proof. unfold amp. apply sqrt_sqrt. nra. Qed.
Lemma amp_nonneg x y : 0 <= amp x y.
Proof. apply sqrt_pos. Qed.
Lemma amp_model x y : sqrt (x ^ 2 + y ^ 2) = amp x y.
Proof. unfold amp. f_equal. ring. Qed.

Lemma atan_polar t : cos (atan t) = / sqrt (1 + t * t) /\ sin (atan t) = t / sqrt (1 + t * t).
Proof. split; [rewrite cos_atan; unfold Rsqr, Rdiv; ring | apply sin_atan]. Qed.

Lemma amp_scale x y : x <> 0 -> amp x y = Rabs x * sqrt (1 + y / x * (y / x)).
Proof.
  intros H. unfold amp. rewrite <- sqrt_Rsqr_abs. rewrite <- sqrt_mult_alt by apply Rle_0_sqr.
  f_equal. unfold Rsqr. field. auto.
Qed.

Lemma sqrt_1_pos t : 0 < sqrt (1 + t * t).
Proof. apply sqrt_lt_R0. nra. Qed.

Lemma cos_pi_minus' a : cos (PI - a) = - cos a.
Proof. rewrite cos_minus, cos_PI, sin_PI. ring. Qed.
Lemma sin_pi_minus' a : sin (PI - a) = sin a.
Proof. rewrite sin_minus, cos_PI, sin_PI. ring. Qed.

Lemma arctan2_polar x y : 0 < amp x y ->
  amp x y * cos (arctan2 y x) = x /\ amp x y * sin (arctan2 y x) = y /\
  - PI < arctan2 y x <= PI.
Proof.
  intros H. pose proof PI_RGT_0 as HPI. unfold arctan2.
  pose proof (atan_bound (y / x)) as Hb. pose proof (atan_polar (y / x)) as [Hc Hs].
  pose proof (sqrt_1_pos (y / x)) as Hq.
  destruct (Rlt_dec 0 x).
  { rewrite Hc, Hs, amp_scale, Rabs_right by lra.
    set (q := sqrt (1 + y / x * (y / x))) in *.
    repeat split; [field; lra | field; lra | lra | lra]. }
  destruct (Rlt_dec x 0).
  { destruct (Rle_dec 0 y).
    - rewrite neg_cos, neg_sin, Hc, Hs, amp_scale, Rabs_left by lra.
      set (q := sqrt (1 + y / x * (y / x))) in *.
      split; [field; lra|]. split; [field; lra|]. split; [lra|].
      destruct (Req_dec y 0) as [->|Hy].
      + unfold Rdiv. rewrite Rmult_0_l, atan_0. lra.
      + assert (y / x < 0). { assert (/ x < 0) by now apply Rinv_lt_0_compat. unfold Rdiv. nra. }
        assert (atan (y / x) < atan 0) by now apply atan_increasing. rewrite atan_0 in *. lra.
    - replace (atan (y / x) - PI) with (- (PI - atan (y/x))) by ring.
      rewrite cos_neg, sin_neg, cos_pi_minus', sin_pi_minus', Hc, Hs, amp_scale, Rabs_left by lra.
      set (q := sqrt (1 + y / x * (y / x))) in *.
      split; [field; lra|]. split; [field; lra|].
      assert (0 < y / x).
      { replace (y / x) with ((- y) / (- x)) by (field; lra). apply Rdiv_lt_0_compat; lra. }
      assert (atan 0 < atan (y / x)) by now apply atan_increasing. rewrite atan_0 in *. lra. }
  assert (x = 0) by lra. subst x.
  assert (Hy : amp 0 y = Rabs y).
  { unfold amp. rewrite <- sqrt_Rsqr_abs. f_equal. unfold Rsqr. ring. }
  rewrite Hy in *. destruct (Rlt_dec 0 y).
  { rewrite cos_PI2, sin_PI2, Rabs_right by lra. repeat split; lra. }
  destruct (Rlt_dec y 0).
  { rewrite cos_neg, sin_neg, cos_PI2, sin_PI2, Rabs_left by lra. repeat split; lra. }
  assert (y = 0) by lra. subst y. rewrite Rabs_R0 in H. lra.
Qed.

Lemma amp_dx x y : 0 < amp x y -> derivable_pt_lim (fun t => amp t y) x (x / amp x y).
Proof.
  intros H. unfold amp at 1. eapply dl_eq; [dl|].
  - cbv beta. now apply amp_pos_sq.
  - cbv beta. fold (amp x y). field. lra.
Qed.
Lemma amp_dy x y : 0 < amp x y -> derivable_pt_lim (fun t => amp x t) y (y / amp x y).
Proof.
  intros H. unfold amp at 1. eapply dl_eq; [dl|].
  - cbv beta. now apply amp_pos_sq.
  - cbv beta. fold (amp x y). field. lra.
Qed.

Lemma arg_dx p x y : 0 < amp x y -> off_cut p x y ->
  derivable_pt_lim (fun t => arg p t y) x (- y / amp x y ^ 2).
Proof.
  intros H Hc. unfold arg. cbv zeta. unfold off_cut in Hc.
  assert (HD : derivable_pt_lim (fun t => amp t y + (t * cos p + y * sin p)) x (x / amp x y + cos p)).
  { eapply dl_eq; [apply dl_plus; [now apply amp_dx | dl]|]. cbv beta. ring. }
  eapply dl_eq.
  { apply dl_plus; [apply dl_const|]. apply dl_mult; [apply dl_const|]. apply dl_atan.
    apply (dl_div (fun t => y * cos p - t * sin p) (fun t => amp t y + (t * cos p + y * sin p))).
    - cbv beta. lra.
    - dl.
    - exact HD. }
  cbv beta.
  set (r := amp x y) in *.
  assert (Hr : r * r = x * x + y * y) by apply amp_sq.
  set (c := cos p) in *. set (s := sin p) in *.
  assert (Hcs : s * s + c * c = 1) by (pose proof (sin2_cos2 p) as E; unfold Rsqr in E; exact E).
  set (D := r + (x * c + y * s)) in *.
  assert (Hden : D * D + (y * c - x * s) * (y * c - x * s) = 2 * r * D).
  { unfold D. nra. }
  replace (1 + ((y * c - x * s) / D) ^ 2) with (2 * r / D).
  2:{ apply (Rmult_eq_reg_r (D * D)); [|nra].
      replace (2 * r / D * (D * D)) with (2 * r * D) by (field; lra).
      rewrite <- Hden. field. lra. }
  assert (HK : ((- s) * D - (x / r + c) * (y * c - x * s)) * (r * r * D) / (r * D) = - y * D).
  { replace (((- s) * D - (x / r + c) * (y * c - x * s)) * (r * r * D) / (r * D))
      with (- y * D - s * (r * r - (x * x + y * y)) - r * y * (s * s + c * c - 1))
      by (unfold D; field; fold D; repeat split; lra).
    rewrite Hr, Hcs. ring. }
  assert (Hpos : 0 < r * r * D) by (apply Rmult_lt_0_compat; [apply Rmult_lt_0_compat|]; lra).
  apply (Rmult_eq_reg_r (r * r * D)); [|lra].
  replace (- y / r ^ 2 * (r * r * D)) with (- y * D) by (field; lra).
  rewrite <- HK. field. repeat split; lra.
Qed.
Lemma arg_dy p x y : 0 < amp x y -> off_cut p x y ->
  derivable_pt_lim (fun t => arg p x t) y (x / amp x y ^ 2).
Proof.
  intros H Hc. unfold arg. cbv zeta. unfold off_cut in Hc.
  assert (HD : derivable_pt_lim (fun t => amp x t + (x * cos p + t * sin p)) y (y / amp x y + sin p)).
  { eapply dl_eq; [apply dl_plus; [now apply amp_dy | dl]|]. cbv beta. ring. }
  eapply dl_eq.
  { apply dl_plus; [apply dl_const|]. apply dl_mult; [apply dl_const|]. apply dl_atan.
    apply (dl_div (fun t => t * cos p - x * sin p) (fun t => amp x t + (x * cos p + t * sin p))).
    - cbv beta. lra.
    - dl.
    - exact HD. }
  cbv beta.
  set (r := amp x y) in *.
  assert (Hr : r * r = x * x + y * y) by apply amp_sq.
  set (c := cos p) in *. set (s := sin p) in *.
  assert (Hcs : s * s + c * c = 1) by (pose proof (sin2_cos2 p) as E; unfold Rsqr in E; exact E).
  set (D := r + (x * c + y * s)) in *.
  assert (Hden : D * D + (y * c - x * s) * (y * c - x * s) = 2 * r * D).
  { unfold D. nra. }
  replace (1 + ((y * c - x * s) / D) ^ 2) with (2 * r / D).
  2:{ apply (Rmult_eq_reg_r (D * D)); [|nra].
      replace (2 * r / D * (D * D)) with (2 * r * D) by (field; lra).
      rewrite <- Hden. field. lra. }
  assert (HK : (c * D - (y / r + s) * (y * c - x * s)) * (r * r * D) / (r * D) = x * D).
  { replace ((c * D - (y / r + s) * (y * c - x * s)) * (r * r * D) / (r * D))
      with (x * D + c * (r * r - (x * x + y * y)) + r * x * (s * s + c * c - 1))
      by (unfold D; field; fold D; repeat split; lra).
    rewrite Hr, Hcs. ring. }
  assert (Hpos : 0 < r * r * D) by (apply Rmult_lt_0_compat; [apply Rmult_lt_0_compat|]; lra).
  apply (Rmult_eq_reg_r (r * r * D)); [|lra].
  replace (x / r ^ 2 * (r * r * D)) with (x * D) by (field; lra).
  rewrite <- HK. field. repeat split; lra.
Qed.

(** The branch around direction p does describe x+iy, and there is always one. *)
Lemma arg_own_direction x y p : amp x y * cos p = x -> amp x y * sin p = y -> 0 < amp x y ->
  arg p x y = p /\ off_cut p x y.
Proof.
  intros H1 H2 H. set (r := amp x y) in *. unfold arg, off_cut. fold r.
  assert (Hcs : sin p * sin p + cos p * cos p = 1) by (pose proof (sin2_cos2 p) as E; unfold Rsqr in E; exact E).
  assert (E1 : y * cos p - x * sin p = 0) by (rewrite <- H1, <- H2; ring).
  assert (E2 : x * cos p + y * sin p = r).
  { rewrite <- H1, <- H2. replace (r * cos p * cos p + r * sin p * sin p) with (r * (sin p * sin p + cos p * cos p)) by ring.
    rewrite Hcs. ring. }
  rewrite E1, E2. split; [|lra]. unfold Rdiv. rewrite Rmult_0_l, atan_0. ring.
Qed.

(** ** Assembling covariance matrices of line-wise maps *)
Definition S4 (h : nat) (al be : nat -> R) (U : nat -> nat -> R) (i j : nat) : R :=
  sandwich (2 * h) (Kl h al be) U (Kl h al be) i j.

(** product of row (a,b) of line k and row (c,d) of line l *)
Definition term4 (h : nat) (U : nat -> nat -> R) (a b : R) (k : nat) (c d : R) (l : nat) : R :=
  a * U k l * c + a * U k (h + l)%nat * d + b * U (h + k)%nat l * c + b * U (h + k)%nat (h + l)%nat * d.

Lemma S4_term h al be U i j : (i < 2 * h)%nat -> (j < 2 * h)%nat ->
  S4 h al be U i j = term4 h U (al i) (be i) (base h i) (al j) (be j) (base h j).
Proof. intros. unfold S4, term4. now rewrite sandwich_Kl. Qed.

Lemma S4_symm h al be U i j : symm (2 * h) U -> S4 h al be U i j = S4 h al be U j i.
Proof. intros. unfold S4. now apply sandwich_symm. Qed.

Lemma dense_blocks h al be U U11 U12 U22 :
  mrows U11 = h -> mcols U11 = h -> mrows U12 = h -> mcols U12 = h -> mrows U22 = h -> mcols U22 = h ->
  symm (2 * h) U ->
  (forall k l, (k < h)%nat -> (l < h)%nat -> U11 k l = term4 h U (al k) (be k) k (al l) (be l) l) ->
  (forall k l, (k < h)%nat -> (l < h)%nat ->
     U12 k l = term4 h U (al k) (be k) k (al (h + l)%nat) (be (h + l)%nat) l) ->
  (forall k l, (k < h)%nat -> (l < h)%nat ->
     U22 k l = term4 h U (al (h + k)%nat) (be (h + k)%nat) k (al (h + l)%nat) (be (h + l)%nat) l) ->
  exists M, stack4 U11 U12 (transp U12) U22 = Ok M /\ mrows M = (2 * h)%nat /\ mcols M = (2 * h)%nat /\
    forall i j, (i < 2 * h)%nat -> (j < 2 * h)%nat -> M i j = S4 h al be U i j.
Proof.
  intros r1 c1 r2 c2 r3 c3 Hs E11 E12 E22.
  destruct (stack4_ok U11 U12 (transp U12) U22 h h) as [M [EM [MR [MC MV]]]]; simpl; auto; try congruence.
  exists M. split; [exact EM|]. simpl in MR. split; [lia|]. split; [lia|].
  intros i j Hi Hj. rewrite MV.
  assert (Hb : forall i, (i < 2 * h)%nat -> (h <= i)%nat -> exists k, i = (h + k)%nat /\ (k < h)%nat).
  { intros a Ha Hh. exists (a - h)%nat. lia. }
  destruct (Nat.ltb_spec i h) as [Li|Li], (Nat.ltb_spec j h) as [Lj|Lj].
  - rewrite S4_term, !base_lo by lia. now apply E11.
  - destruct (Hb j Hj Lj) as [l [-> Hl]]. replace (h + l - h)%nat with l by lia.
    rewrite S4_term, base_lo, base_hi by lia. now apply E12.
  - destruct (Hb i Hi Li) as [k [-> Hk]]. replace (h + k - h)%nat with k by lia.
    rewrite S4_symm by exact Hs. rewrite S4_term, base_lo, base_hi by lia. simpl. now apply E12.
  - destruct (Hb j Hj Lj) as [l [-> Hl]]. destruct (Hb i Hi Li) as [k [-> Hk]].
    replace (h + l - h)%nat with l by lia. replace (h + k - h)%nat with k by lia.
    rewrite S4_term, !base_hi by lia. now apply E22.
Qed.

(** Covariances that only relate entries of the same line. *)
Definition linewise (h : nat) (U : nat -> nat -> R) : Prop :=
  forall i j, (i < 2 * h)%nat -> (j < 2 * h)%nat -> base h i <> base h j -> U i j = 0.

Lemma dia_blocks h al be U (U11 U12 U22 : vec) :
  alen U11 = h -> alen U12 = h -> alen U22 = h -> symm (2 * h) U -> linewise h U ->
  (forall k, (k < h)%nat -> U11 k = term4 h U (al k) (be k) k (al k) (be k) k) ->
  (forall k, (k < h)%nat -> U12 k = term4 h U (al k) (be k) k (al (h + k)%nat) (be (h + k)%nat) k) ->
  (forall k, (k < h)%nat -> U22 k = term4 h U (al (h + k)%nat) (be (h + k)%nat) k (al (h + k)%nat) (be (h + k)%nat) k) ->
  forall i j, (i < 2 * h)%nat -> (j < 2 * h)%nat ->
    dia_toarray (mkDia h (cat U11 U22) U12 U12) i j = S4 h al be U i j.
Proof.
  intros L1 L2 L3 Hs Hl E11 E12 E22 i j Hi Hj.
  assert (Hb : forall i, (i < 2 * h)%nat -> (h <= i)%nat -> exists k, i = (h + k)%nat /\ (k < h)%nat).
  { intros a Ha Hh. exists (a - h)%nat. lia. }
  unfold dia_toarray. cbn [mget dia_half dia_main dia_up dia_lo].
  destruct (Nat.eqb_spec i j) as [->|Hne].
  - unfold cat. simpl. rewrite L1. destruct (Nat.ltb_spec j h) as [Lj|Lj].
    + rewrite S4_term, !base_lo by lia. now apply E11.
    + destruct (Hb j Hj Lj) as [l [-> Hl']]. replace (h + l - h)%nat with l by lia.
      rewrite S4_term, !base_hi by lia. now apply E22.
  - destruct (Nat.eqb_spec j (i + h)) as [->|Hn1].
    + rewrite S4_term by lia. rewrite (base_lo h i) by lia. replace (i + h)%nat with (h + i)%nat by lia.
      rewrite base_hi. apply E12. lia.
    + destruct (Nat.eqb_spec i (j + h)) as [->|Hn2].
      * rewrite S4_symm by exact Hs. rewrite S4_term by lia. rewrite (base_lo h j) by lia.
        replace (j + h)%nat with (h + j)%nat by lia. rewrite base_hi. apply E12. lia.
      * rewrite S4_term by lia. unfold term4.
        pose proof (base_lt h i Hi). pose proof (base_lt h j Hj).
        assert (base h i <> base h j).
        { unfold base in *. destruct (Nat.ltb_spec i h), (Nat.ltb_spec j h); lia. }
        assert (Z : forall a b, (a = base h i \/ a = h + base h i)%nat -> (b = base h j \/ b = h + base h j)%nat -> U a b = 0).
        { intros a b Ha Hb'. apply Hl; [lia|lia|].
          assert (base h a = base h i) as -> by (destruct Ha as [-> | ->]; rewrite ?base_hi, ?(base_lo h (base h i)) by assumption; reflexivity).
          assert (base h b = base h j) as -> by (destruct Hb' as [-> | ->]; rewrite ?base_hi, ?(base_lo h (base h j)) by assumption; reflexivity).
          assumption. }
        rewrite !Z by auto. ring.
Qed.

Lemma diag_linewise h (v : vec) : linewise h (fun i j => if (i =? j)%nat then v i else 0).
Proof.
  intros i j Hi Hj Hb. destruct (Nat.eqb_spec i j); [subst; contradiction|reflexivity].
Qed.

Lemma diag_symm n (v : vec) : symm n (fun i j => if (i =? j)%nat then v i else 0).
Proof.
  intros i j _ _. rewrite (Nat.eqb_sym j i). destruct (Nat.eqb_spec i j); [subst|]; reflexivity.
Qed.

(** value of term4 for a diagonal covariance on one line *)
Lemma term4_diag h (v : vec) a b k c d : (k < h)%nat ->
  term4 h (fun i j => if (i =? j)%nat then v i else 0) a b k c d k = a * v k * c + b * v (h + k)%nat * d.
Proof.
  intros Hk. unfold term4. rewrite !Nat.eqb_refl.
  replace (k =? h + k)%nat with false by (symmetry; apply Nat.eqb_neq; lia).
  replace (h + k =? k)%nat with false by (symmetry; apply Nat.eqb_neq; lia). ring.
Qed.

(** Dense block computation: the four-term sums of the code. *)
Lemma blk_ok M h : mrows M = (2 * h)%nat -> mcols M = (2 * h)%nat ->
  blk11 M h = mkMat h h (fun i j => M i j) /\
  blk12 M h = mkMat h h (fun i j => M i (h + j)%nat) /\
  blk22 M h = mkMat h h (fun i j => M (h + i)%nat (h + j)%nat).
Proof.
  intros H1 H2. unfold blk11, blk12, blk22. rewrite !sub2_ok by lia. rewrite H1, H2.
  replace (2 * h - h)%nat with h by lia. rewrite Nat.sub_0_r. repeat split; reflexivity.
Qed.

Lemma sum4_blocks h (a b c d : vec) (M : mat) (U : nat -> nat -> R) :
  mrows M = (2 * h)%nat -> mcols M = (2 * h)%nat ->
  alen a = h -> alen b = h -> alen c = h -> alen d = h ->
  symm (2 * h) U -> (forall i j, M i j = U i j) ->
  exists S, sum4 (prod3 a (blk11 M h) c) (prod3 a (blk12 M h) d)
                 (prod3 b (transp (blk12 M h)) c) (prod3 b (blk22 M h) d) = Ok S /\
    mrows S = h /\ mcols S = h /\
    forall k l, (k < h)%nat -> (l < h)%nat -> S k l = term4 h U (a k) (b k) k (c l) (d l) l.
Proof.
  intros HM1 HM2 La Lb Lc Ld Hs HU.
  destruct (blk_ok M h HM1 HM2) as [E1 [E2 E3]]. rewrite E1, E2, E3. unfold transp.
  rewrite !prod3_ok by (simpl; lia).
  match goal with |- context [sum4 (Ok ?A) (Ok ?B) (Ok ?C) (Ok ?D)] =>
    destruct (sum4_ok A B C D h h) as [S [ES [SR [SC SV]]]]; simpl; auto end.
  exists S. split; [exact ES|]. split; [exact SR|]. split; [exact SC|].
  intros k l Hk Hl. rewrite SV. simpl. rewrite !HU. unfold term4.
  rewrite (Hs l (h + k)%nat) by lia. ring.
Qed.
(** Same with the middle terms in the other order. *)
Lemma sum4_blocks' h (a b c d : vec) (M : mat) (U : nat -> nat -> R) :
  mrows M = (2 * h)%nat -> mcols M = (2 * h)%nat ->
  alen a = h -> alen b = h -> alen c = h -> alen d = h ->
  symm (2 * h) U -> (forall i j, M i j = U i j) ->
  exists S, sum4 (prod3 a (blk11 M h) c) (prod3 b (transp (blk12 M h)) c)
                 (prod3 a (blk12 M h) d) (prod3 b (blk22 M h) d) = Ok S /\
    mrows S = h /\ mcols S = h /\
    forall k l, (k < h)%nat -> (l < h)%nat -> S k l = term4 h U (a k) (b k) k (c l) (d l) l.
Proof.
  intros HM1 HM2 La Lb Lc Ld Hs HU.
  destruct (blk_ok M h HM1 HM2) as [E1 [E2 E3]]. rewrite E1, E2, E3. unfold transp.
  rewrite !prod3_ok by (simpl; lia).
  match goal with |- context [sum4 (Ok ?A) (Ok ?B) (Ok ?C) (Ok ?D)] =>
    destruct (sum4_ok A B C D h h) as [S [ES [SR [SC SV]]]]; simpl; auto end.
  exists S. split; [exact ES|]. split; [exact SR|]. split; [exact SC|].
  intros k l Hk Hl. rewrite SV. simpl. rewrite !HU. unfold term4.
  rewrite (Hs l (h + k)%nat) by lia. ring.
Qed.

(** ** DFT2AmpPhase *)
Definition ap_al (h : nat) (F : nat -> R) (i : nat) : R :=
  let k := base h i in let x := F k in let y := F (h + k)%nat in
  if (i <? h)%nat then x / amp x y else - y / amp x y ^ 2.
Definition ap_be (h : nat) (F : nat -> R) (i : nat) : R :=
  let k := base h i in let x := F k in let y := F (h + k)%nat in
  if (i <? h)%nat then y / amp x y else x / amp x y ^ 2.

Lemma ap_al_lo h F k : (k < h)%nat -> ap_al h F k = F k / amp (F k) (F (h + k)%nat).
Proof. intros H. unfold ap_al. rewrite base_lo by assumption. apply Nat.ltb_lt in H. now rewrite H. Qed.
Lemma ap_be_lo h F k : (k < h)%nat -> ap_be h F k = F (h + k)%nat / amp (F k) (F (h + k)%nat).
Proof. intros H. unfold ap_be. rewrite base_lo by assumption. apply Nat.ltb_lt in H. now rewrite H. Qed.
Lemma ap_al_hi h F k : ap_al h F (h + k) = - F (h + k)%nat / amp (F k) (F (h + k)%nat) ^ 2.
Proof.
  unfold ap_al. rewrite base_hi. now replace (h + k <? h)%nat with false by (symmetry; apply Nat.ltb_ge; lia).
Qed.
Lemma ap_be_hi h F k : ap_be h F (h + k) = F k / amp (F k) (F (h + k)%nat) ^ 2.
Proof.
  unfold ap_be. rewrite base_hi. now replace (h + k <? h)%nat with false by (symmetry; apply Nat.ltb_ge; lia).
Qed.

Lemma half_2h h : (2 * h / 2)%nat = h.
Proof. rewrite Nat.mul_comm. apply Nat.div_mul. lia. Qed.

Lemma uf_check_ok M h : mrows M = (2 * h)%nat -> mcols M = (2 * h)%nat ->
  uf_check (diag_len (blk11 M h)) (diag_len (blk22 M h)) h = Ok h.
Proof.
  intros R1 C1. unfold uf_check, diag_len, blk11, blk22, sub2. cbn [mrows mcols]. rewrite R1, C1.
  replace (Nat.min (Nat.min h (2 * h) - 0) (Nat.min h (2 * h) - 0)) with h by lia.
  replace (Nat.min (Nat.min (2 * h) (2 * h) - h) (Nat.min (2 * h) (2 * h) - h)) with h by lia.
  unfold bdim. rewrite Nat.eqb_refl. cbn [bind]. now rewrite Nat.eqb_refl.
Qed.
Lemma DFT2AmpPhase_run (F : vec) UF ks h :
  alen F = (2 * h)%nat -> (1 <= h)%nat -> fun_fits (2 * h) UF -> symm (2 * h) (fun_U UF) ->
  exists A P U, DFT2AmpPhase F UF ks = Ok (A, P, U) /\ alen A = h /\ alen P = h /\
    (forall k, A k = amp (F k) (F (h + k)%nat)) /\
    (forall k, P k = arctan2 (F (h + k)%nat) (F k)) /\
    dense_shape (2 * h) U /\
    (forall i j, (i < 2 * h)%nat -> (j < 2 * h)%nat ->
       dense U i j = S4 h (ap_al h F) (ap_be h F) (fun_U UF) i j).
Proof.
  intros HF Hh Hf Hs. unfold DFT2AmpPhase. rewrite HF, half_2h, Nat.eqb_refl. simpl negb. cbv iota zeta.
  destruct UF as [v|M].
  - change (alen v = (2 * h)%nat) in Hf. rewrite Hf, Nat.eqb_refl.
    replace (h =? 0)%nat with false by (symmetry; apply Nat.eqb_neq; lia). cbn [negb andb orb].
    eexists. eexists. eexists. split; [reflexivity|]. split; [reflexivity|]. split; [reflexivity|].
    split; [intros; simpl; apply amp_model|]. split; [reflexivity|].
    assert (HD : forall i j, (i < 2 * h)%nat -> (j < 2 * h)%nat ->
       dia_toarray (mkDia h (cat (mkArr h (fun k => slice v 0 h k * (F k / amp (F k) (F (h + k)%nat)) ^ 2 +
              slice v h (2 * h) k * (F (h + k)%nat / amp (F k) (F (h + k)%nat)) ^ 2))
         (mkArr h (fun k => slice v 0 h k * (- F (h + k)%nat / amp (F k) (F (h + k)%nat) ^ 2) ^ 2 +
              slice v h (2 * h) k * (F k / amp (F k) (F (h + k)%nat) ^ 2) ^ 2)))
       (mkArr h (fun k => F k / amp (F k) (F (h + k)%nat) * slice v 0 h k * (- F (h + k)%nat / amp (F k) (F (h + k)%nat) ^ 2)
          + F (h + k)%nat / amp (F k) (F (h + k)%nat) * slice v h (2 * h) k * (F k / amp (F k) (F (h + k)%nat) ^ 2)))
       (mkArr h (fun k => F k / amp (F k) (F (h + k)%nat) * slice v 0 h k * (- F (h + k)%nat / amp (F k) (F (h + k)%nat) ^ 2)
          + F (h + k)%nat / amp (F k) (F (h + k)%nat) * slice v h (2 * h) k * (F k / amp (F k) (F (h + k)%nat) ^ 2)))) i j
       = S4 h (ap_al h F) (ap_be h F) (fun_U (FuVec v)) i j).
    { intros i j Hi Hj. change (fun_U (FuVec v)) with (fun i j => if (i =? j)%nat then v i else 0).
      apply dia_blocks; auto using diag_symm, diag_linewise; intros k Hk; rewrite (term4_diag h v) by assumption;
        rewrite ?ap_al_hi, ?ap_be_hi, ?ap_al_lo, ?ap_be_lo by assumption; simpl; ring. }
    unfold amp in HD. 
    assert (Hsq : forall x y, sqrt (x * x + y * y) = sqrt (x ^ 2 + y ^ 2)) by (intros; f_equal; ring).
    split; [destruct ks; simpl; auto|].
    intros i j Hi Hj. rewrite <- HD by assumption.
    destruct ks; unfold dense, dia_toarray, cat; cbn [mget dia_half dia_main dia_up dia_lo aget alen slice];
      simpl; rewrite ?Nat.eqb_refl; rewrite !Hsq; reflexivity.
  - destruct Hf as [HM1 HM2].
    set (A := mkArr h (fun k => sqrt (slice F 0 h k ^ 2 + slice F h (2 * h) k ^ 2))).
    set (aR := mkArr h (fun k => slice F 0 h k / A k)).
    set (aI := mkArr h (fun k => slice F h (2 * h) k / A k)).
    set (pR := mkArr h (fun k => - slice F h (2 * h) k / A k ^ 2)).
    set (pI := mkArr h (fun k => slice F 0 h k / A k ^ 2)).
    assert (EA : forall k, A k = amp (F k) (F (h + k)%nat)) by (intros; apply amp_model).
    assert (EaR : forall k, (k < h)%nat -> aR k = ap_al h F k)
      by (intros; rewrite ap_al_lo, <- EA by assumption; reflexivity).
    assert (EaI : forall k, (k < h)%nat -> aI k = ap_be h F k)
      by (intros; rewrite ap_be_lo, <- EA by assumption; reflexivity).
    assert (EpR : forall k, pR k = ap_al h F (h + k))
      by (intros; rewrite ap_al_hi, <- EA; reflexivity).
    assert (EpI : forall k, pI k = ap_be h F (h + k))
      by (intros; rewrite ap_be_hi, <- EA; reflexivity).
    destruct (sum4_blocks h aR aI aR aI M (fun_U (FuMat M))) as [U11 [E11 [R11 [C11 V11]]]]; auto.
    destruct (sum4_blocks h aR aI pR pI M (fun_U (FuMat M))) as [U12 [E12 [R12 [C12 V12]]]]; auto.
    destruct (sum4_blocks h pR pI pR pI M (fun_U (FuMat M))) as [U22 [E22 [R22 [C22 V22]]]]; auto.
    rewrite (uf_check_ok M h HM1 HM2), E11, E12, E22. cbv beta iota delta [bind].
    destruct (dense_blocks h (ap_al h F) (ap_be h F) (fun_U (FuMat M)) U11 U12 U22)
      as [S [ES [SR [SC SV]]]]; auto.
    { intros k l Hk Hl. rewrite V11, !EaR, !EaI by assumption. reflexivity. }
    { intros k l Hk Hl. rewrite V12, !EaR, !EaI, !EpR, !EpI by assumption. reflexivity. }
    { intros k l Hk Hl. rewrite V22, !EpR, !EpI by assumption. reflexivity. }
    rewrite ES. eexists. eexists. eexists. split; [reflexivity|]. split; [reflexivity|]. split; [reflexivity|].
    split; [exact EA|]. split; [reflexivity|]. split; [split; assumption|]. exact SV.
Qed.

Lemma to_amp_phase_jac h p s :
  (forall k, (k < h)%nat -> 0 < amp (s k) (s (h + k)%nat) /\ off_cut (p k) (s k) (s (h + k)%nat)) ->
  is_jac (2 * h) (2 * h) (to_amp_phase h p) s (Kl h (ap_al h s) (ap_be h s)).
Proof.
  intros H.
  apply (is_jac_ext _ _ (fun s i => (fun i x y => if (i <? h)%nat then amp x y else arg (p (i - h)%nat) x y)
                                  i (s (base h i)) (s (h + base h i)%nat))).
  - intros z i Hi. unfold to_amp_phase, base. destruct (Nat.ltb_spec i h); [reflexivity|].
    now replace (h + (i - h))%nat with i by lia.
  - apply (linewise_jac h (fun i x y => if (i <? h)%nat then amp x y else arg (p (i - h)%nat) x y)). intros i Hi. pose proof (base_lt h i Hi) as Hb. destruct (H _ Hb) as [H1 H2].
    unfold ap_al, ap_be. destruct (Nat.ltb_spec i h).
    + split; [now apply amp_dx | now apply amp_dy].
    + replace (i - h)%nat with (base h i) by (unfold base; apply Nat.ltb_ge in H0; now rewrite H0).
      split; [now apply arg_dx | now apply arg_dy].
Qed.

(** ** AmpPhase2DFT *)
Definition ri_al (h : nat) (s : nat -> R) (i : nat) : R :=
  if (i <? h)%nat then cos (s (h + base h i)%nat) else sin (s (h + base h i)%nat).
Definition ri_be (h : nat) (s : nat -> R) (i : nat) : R :=
  if (i <? h)%nat then - s (base h i) * sin (s (h + base h i)%nat)
  else s (base h i) * cos (s (h + base h i)%nat).
Lemma ri_al_lo h s k : (k < h)%nat -> ri_al h s k = cos (s (h + k)%nat).
Proof. intros H. unfold ri_al. rewrite base_lo by assumption. apply Nat.ltb_lt in H. now rewrite H. Qed.
Lemma ri_be_lo h s k : (k < h)%nat -> ri_be h s k = - s k * sin (s (h + k)%nat).
Proof. intros H. unfold ri_be. rewrite base_lo by assumption. apply Nat.ltb_lt in H. now rewrite H. Qed.
Lemma ri_al_hi h s k : ri_al h s (h + k) = sin (s (h + k)%nat).
Proof.
  unfold ri_al. rewrite base_hi. now replace (h + k <? h)%nat with false by (symmetry; apply Nat.ltb_ge; lia).
Qed.
Lemma ri_be_hi h s k : ri_be h s (h + k) = s k * cos (s (h + k)%nat).
Proof.
  unfold ri_be. rewrite base_hi. now replace (h + k <? h)%nat with false by (symmetry; apply Nat.ltb_ge; lia).
Qed.

Lemma to_real_imag_jac h s :
  is_jac (2 * h) (2 * h) (to_real_imag h) s (Kl h (ri_al h s) (ri_be h s)).
Proof.
  apply (is_jac_ext _ _ (fun s i => (fun i x y => if (i <? h)%nat then x * cos y else x * sin y)
                                  i (s (base h i)) (s (h + base h i)%nat))).
  - intros z i Hi. unfold to_real_imag, base. destruct (Nat.ltb_spec i h); [reflexivity|].
    now replace (h + (i - h))%nat with i by lia.
  - apply (linewise_jac h (fun i x y => if (i <? h)%nat then x * cos y else x * sin y)). intros i Hi. unfold ri_al, ri_be. destruct (Nat.ltb_spec i h).
    + split; (eapply dl_eq; [dl|]; cbv beta; ring).
    + split; (eapply dl_eq; [dl|]; cbv beta; ring).
Qed.

(** (A, P) stacked *)
Lemma stk_lo A P h k : alen A = h -> (k < h)%nat -> stk A P k = A k.
Proof. intros <- H. unfold stk, cat. simpl. apply Nat.ltb_lt in H. now rewrite H. Qed.
Lemma stk_hi A P h k : alen A = h -> stk A P (h + k)%nat = P k.
Proof.
  intros <-. unfold stk, cat. simpl.
  replace (alen A + k <? alen A)%nat with false by (symmetry; apply Nat.ltb_ge; lia). f_equal. lia.
Qed.

Lemma dia_linewise h d : dia_half d = h -> linewise h (dia_toarray d).
Proof.
  intros <- i j Hi Hj Hb. unfold dia_toarray. cbn [mget].
  unfold base in Hb.
  destruct (Nat.eqb_spec i j); [subst; contradiction|].
  destruct (Nat.eqb_spec j (i + dia_half d)).
  { destruct (Nat.ltb_spec i (dia_half d)), (Nat.ltb_spec j (dia_half d)); lia. }
  destruct (Nat.eqb_spec i (j + dia_half d)); [|reflexivity].
  destruct (Nat.ltb_spec i (dia_half d)), (Nat.ltb_spec j (dia_half d)); lia.
Qed.

Lemma dia_vals h d k : dia_half d = h -> (k < h)%nat ->
  dia_toarray d k k = dia_main d k /\ dia_toarray d k (h + k)%nat = dia_up d k /\
  dia_toarray d (h + k)%nat k = dia_lo d k /\ dia_toarray d (h + k)%nat (h + k)%nat = dia_main d (h + k)%nat.
Proof.
  intros <- Hk. unfold dia_toarray. cbn [mget]. rewrite !Nat.eqb_refl.
  replace (k =? dia_half d + k)%nat with false by (symmetry; apply Nat.eqb_neq; lia).
  replace (dia_half d + k =? k)%nat with false by (symmetry; apply Nat.eqb_neq; lia).
  replace (dia_half d + k =? k + dia_half d)%nat with true by (symmetry; apply Nat.eqb_eq; lia).
  replace (k =? dia_half d + k + dia_half d)%nat with false by (symmetry; apply Nat.eqb_neq; lia).
  repeat split.
Qed.

(** The dia_matrix branch uses dI/dA where dI/dP belongs (line 676): its error. *)
Definition sparse_error (h : nat) (A P : vec) (u : apunc) (i j : nat) : R :=
  match u with
  | ApDia d => let e k := cos (P k) * dia_up d k * (sin (P k) - A k * cos (P k)) in
      if (j =? i + h)%nat then e i else if (i =? j + h)%nat then e j else 0
  | _ => 0
  end.
Definition dia_full (u : apunc) : Prop :=
  match u with
  | ApDia d => alen (dia_main d) = (2 * dia_half d)%nat /\ alen (dia_up d) = dia_half d /\ alen (dia_lo d) = dia_half d
  | _ => True
  end.

Lemma AmpPhase2DFT_run (A P : vec) UAP ks h :
  alen A = h -> alen P = h -> (1 <= h)%nat -> ap_fits (2 * h) UAP -> symm (2 * h) (ap_U UAP) ->
  exists F U, AmpPhase2DFT A P UAP ks = Ok (F, U) /\ alen F = (2 * h)%nat /\
    (forall i, (i < 2 * h)%nat -> F i = to_real_imag h (stk A P) i) /\
    dense_shape (2 * h) U /\
    (forall i j, (i < 2 * h)%nat -> (j < 2 * h)%nat ->
       dense U i j = S4 h (ri_al h (stk A P)) (ri_be h (stk A P)) (ap_U UAP) i j + sparse_error h A P UAP i j).
Proof.
  intros HA HP Hh Hf Hs. unfold AmpPhase2DFT. rewrite HA, HP, Nat.eqb_refl. simpl negb. cbv iota zeta.
  assert (EF : forall i, (i < 2 * h)%nat ->
     cat (mkArr h (fun k => A k * cos (P k))) (mkArr h (fun k => A k * sin (P k))) i = to_real_imag h (stk A P) i).
  { intros i Hi. unfold to_real_imag, cat. simpl. destruct (Nat.ltb_spec i h).
    - rewrite (stk_lo A P h), (stk_hi A P h) by assumption. reflexivity.
    - rewrite (stk_lo A P h) by (assumption || lia).
      replace (stk A P i) with (P (i - h)%nat); [reflexivity|].
      replace i with (h + (i - h))%nat at 2 by lia. now rewrite (stk_hi A P h). }
  assert (al1 : forall k, (k < h)%nat -> ri_al h (stk A P) k = cos (P k))
    by (intros; rewrite ri_al_lo, (stk_hi A P h) by assumption; reflexivity).
  assert (be1 : forall k, (k < h)%nat -> ri_be h (stk A P) k = - A k * sin (P k))
    by (intros; rewrite ri_be_lo, (stk_hi A P h), (stk_lo A P h) by assumption; reflexivity).
  assert (al2 : forall k, (k < h)%nat -> ri_al h (stk A P) (h + k) = sin (P k))
    by (intros; rewrite ri_al_hi, (stk_hi A P h) by assumption; reflexivity).
  assert (be2 : forall k, (k < h)%nat -> ri_be h (stk A P) (h + k) = A k * cos (P k))
    by (intros; rewrite ri_be_hi, (stk_hi A P h), (stk_lo A P h) by assumption; reflexivity).
  remember (ri_al h (stk A P)) as al. remember (ri_be h (stk A P)) as be.
  destruct UAP as [v|M|d].
  - change (alen v = (2 * h)%nat) in Hf. rewrite Hf, Nat.eqb_refl. simpl negb.
    replace (h =? 0)%nat with false by (symmetry; apply Nat.eqb_neq; lia). cbv iota.
    eexists. eexists. split; [reflexivity|]. split; [simpl; lia|]. split; [exact EF|].
    split; [destruct ks; simpl; auto|].
    intros i j Hi Hj. cbn [sparse_error]. rewrite Rplus_0_r.
    change (ap_U (ApVec v)) with (fun i j => if (i =? j)%nat then v i else 0).
    assert (forall D, dense (if ks then USparse D else UDense (dia_toarray D)) i j = dia_toarray D i j) as ->
      by (destruct ks; reflexivity).
    apply dia_blocks; auto using diag_symm, diag_linewise; intros k Hk; rewrite (term4_diag h v) by assumption;
      rewrite ?al1, ?al2, ?be1, ?be2 by assumption; simpl; ring.
  - destruct Hf as [HM1 HM2]. rewrite HM1, HM2, Nat.eqb_refl. simpl negb. cbv iota.
    set (CRA := mkArr h (fun k => cos (P k))). set (CRP := mkArr h (fun k => - A k * sin (P k))).
    set (CIA := mkArr h (fun k => sin (P k))). set (CIP := mkArr h (fun k => A k * cos (P k))).
    destruct (sum4_blocks' h CRA CRP CRA CRP M (ap_U (ApMat M))) as [U11 [E11 [R11 [C11 V11]]]]; auto.
    destruct (sum4_blocks' h CRA CRP CIA CIP M (ap_U (ApMat M))) as [U12 [E12 [R12 [C12 V12]]]]; auto.
    destruct (sum4_blocks' h CIA CIP CIA CIP M (ap_U (ApMat M))) as [U22 [E22 [R22 [C22 V22]]]]; auto.
    rewrite E11, E12, E22. cbv beta iota delta [bind].
    destruct (dense_blocks h al be (ap_U (ApMat M)) U11 U12 U22) as [S [ES [SR [SC SV]]]]; auto.
    { intros k l Hk Hl. rewrite V11, !al1, !be1 by assumption. reflexivity. }
    { intros k l Hk Hl. rewrite V12, !al1, !be1, !al2, !be2 by assumption. reflexivity. }
    { intros k l Hk Hl. rewrite V22, !al2, !be2 by assumption. reflexivity. }
    rewrite ES. eexists. eexists. split; [reflexivity|]. split; [simpl; lia|]. split; [exact EF|].
    split; [split; assumption|]. intros i j Hi Hj. cbn [sparse_error]. rewrite Rplus_0_r. now apply SV.
  - simpl in Hf. assert (Hd : dia_half d = h) by lia. rewrite Hd, Nat.eqb_refl. simpl negb. cbv iota.
    eexists. eexists. split; [reflexivity|]. split; [simpl; lia|]. split; [exact EF|].
    split; [destruct ks; simpl; auto|].
    assert (Hlo : forall k, (k < h)%nat -> dia_lo d k = dia_up d k).
    { intros k Hk. destruct (dia_vals h d k Hd Hk) as [_ [E1 [E2 _]]]. rewrite <- E1, <- E2. apply Hs; lia. }
    intros i j Hi Hj.
    assert (forall D, dense (if ks then USparse D else UDense (dia_toarray D)) i j = dia_toarray D i j) as ->
      by (destruct ks; reflexivity).
    match goal with |- context [mkDia h (cat ?X ?Z) ?Y _] =>
      set (X11 := X); set (Y12 := Y); set (Z22 := Z) end.
    set (Y' := mkArr h (fun k => Y12 k - cos (P k) * dia_up d k * (sin (P k) - A k * cos (P k)))).
    transitivity (dia_toarray (mkDia h (cat X11 Z22) Y' Y') i j + sparse_error h A P (ApDia d) i j).
    { unfold dia_toarray. cbn [mget dia_half dia_main dia_up dia_lo sparse_error].
      destruct (Nat.eqb_spec i j) as [->|Hne].
      - replace (j =? j + h)%nat with false by (symmetry; apply Nat.eqb_neq; lia). ring.
      - destruct (Nat.eqb_spec j (i + h)); [simpl; ring|].
        destruct (Nat.eqb_spec i (j + h)); simpl; ring. }
    f_equal.
    change (ap_U (ApDia d)) with (fun i j => dia_toarray d i j).
    apply dia_blocks; auto.
    + exact (dia_linewise h d Hd).
    + intros k Hk. unfold term4. destruct (dia_vals h d k Hd Hk) as [-> [-> [-> ->]]].
      rewrite (Hlo k), (al1 k), (be1 k) by assumption. simpl. ring.
    + intros k Hk. unfold term4. destruct (dia_vals h d k Hd Hk) as [-> [-> [-> ->]]].
      rewrite (Hlo k), (al1 k), (be1 k), (al2 k), (be2 k) by assumption. simpl. ring.
    + intros k Hk. unfold term4. destruct (dia_vals h d k Hd Hk) as [-> [-> [-> ->]]].
      rewrite (Hlo k), (al2 k), (be2 k) by assumption. simpl. ring.
Qed.
