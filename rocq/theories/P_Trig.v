(** Sums of cosines and sines over a full period; inverse DFT. *)
From Coq Require Import Reals Arith Lia Lra Psatz Bool.
From Verif Require Import Base Sums.
Open Scope R_scope.

Lemma cos_sum_telescope N t :
  2 * sin (t / 2) * rsum N (fun n => cos (INR n * t)) = sin (INR N * t - t / 2) + sin (t / 2).
Proof.
  induction N as [|N IH].
  - simpl. replace (0 * t - t / 2) with (- (t / 2)) by ring. rewrite sin_neg. ring.
  - simpl rsum. rewrite Rmult_plus_distr_l, IH, S_INR.
    replace ((INR N + 1) * t - t / 2) with (INR N * t + t / 2) by field.
    rewrite sin_plus, sin_minus. ring.
Qed.
Lemma sin_sum_telescope N t :
  2 * sin (t / 2) * rsum N (fun n => sin (INR n * t)) = cos (t / 2) - cos (INR N * t - t / 2).
Proof.
  induction N as [|N IH].
  - simpl. replace (0 * t - t / 2) with (- (t / 2)) by ring. rewrite cos_neg. ring.
  - simpl rsum. rewrite Rmult_plus_distr_l, IH, S_INR.
    replace ((INR N + 1) * t - t / 2) with (INR N * t + t / 2) by field.
    rewrite cos_plus, cos_minus. ring.
Qed.

Lemma sin_pi_frac N m : (0 < m < N)%nat -> 0 < sin (PI * INR m / INR N).
Proof.
  intros [H1 H2]. assert (0 < INR N) by (apply lt_0_INR; lia).
  assert (0 < INR m) by (apply lt_0_INR; lia). assert (INR m < INR N) by (apply lt_INR; lia).
  pose proof PI_RGT_0. apply sin_gt_0.
  - apply Rdiv_lt_0_compat; nra.
  - apply (Rmult_lt_reg_r (INR N)); [lra|]. unfold Rdiv. rewrite Rmult_assoc, Rinv_l by lra. nra.
Qed.

Lemma cos_2PI_nat m x : cos (x + 2 * INR m * PI) = cos x.
Proof. apply cos_period. Qed.

Lemma cos_sum_zero N m : (0 < m < N)%nat -> rsum N (fun n => cos (2 * PI * INR m * INR n / INR N)) = 0.
Proof.
  intros H. pose proof (sin_pi_frac N m H) as Hs.
  assert (INR N <> 0) by (apply not_0_INR; lia).
  set (t := 2 * PI * INR m / INR N).
  rewrite (rsum_ext N _ (fun n => cos (INR n * t))) by (intros; f_equal; unfold t; field; auto).
  pose proof (cos_sum_telescope N t) as HT.
  replace (INR N * t - t / 2) with (- (t/2) + 2 * INR m * PI) in HT by (unfold t; field; auto).
  rewrite sin_period, sin_neg in HT.
  replace (t / 2) with (PI * INR m / INR N) in * by (unfold t; field; auto).
  apply (Rmult_eq_reg_l (2 * sin (PI * INR m / INR N))); lra.
Qed.
Lemma sin_sum_zero N m : (m <= N)%nat -> rsum N (fun n => sin (2 * PI * INR m * INR n / INR N)) = 0.
Proof.
  intros H.
  destruct (Nat.eq_dec N 0) as [->|HN]; [reflexivity|].
  assert (INR N <> 0) by (apply not_0_INR; lia).
  destruct (Nat.eq_dec m 0) as [->|Hm].
  { apply rsum_zero. intros. simpl. replace (2 * PI * 0 * INR i / INR N) with 0 by (field; auto). apply sin_0. }
  destruct (Nat.eq_dec m N) as [->|HmN].
  { apply rsum_zero. intros. replace (2 * PI * INR N * INR i / INR N) with (0 + 2 * INR i * PI) by (field; auto).
    rewrite sin_period. apply sin_0. }
  pose proof (sin_pi_frac N m ltac:(lia)) as Hs.
  set (t := 2 * PI * INR m / INR N).
  rewrite (rsum_ext N _ (fun n => sin (INR n * t))) by (intros; f_equal; unfold t; field; auto).
  pose proof (sin_sum_telescope N t) as HT.
  replace (INR N * t - t / 2) with (- (t/2) + 2 * INR m * PI) in HT by (unfold t; field; auto).
  rewrite cos_period, cos_neg in HT.
  replace (t / 2) with (PI * INR m / INR N) in * by (unfold t; field; auto).
  apply (Rmult_eq_reg_l (2 * sin (PI * INR m / INR N))); lra.
Qed.

Definition ang (N k n : nat) : R := 2 * PI * INR k * INR n / INR N.

Lemma ang_swap N k n : ang N k n = ang N n k.
Proof. unfold ang. f_equal. ring. Qed.

Lemma cos_ang_minus N k l n : (l <= k)%nat ->
  cos (ang N k n - ang N l n) = cos (2 * PI * INR (k - l) * INR n / INR N).
Proof. intros H. f_equal. unfold ang. rewrite minus_INR by lia. unfold Rdiv. ring. Qed.
Lemma sin_ang_minus N k l n : (l <= k)%nat ->
  sin (ang N k n - ang N l n) = sin (2 * PI * INR (k - l) * INR n / INR N).
Proof. intros H. f_equal. unfold ang. rewrite minus_INR by lia. unfold Rdiv. ring. Qed.
Lemma ang_plus N k l n : ang N k n + ang N l n = 2 * PI * INR (k + l) * INR n / INR N.
Proof. unfold ang. rewrite plus_INR. unfold Rdiv. ring. Qed.

(** Reflection k -> N - k. *)
Lemma cos_refl N k n : (k <= N)%nat -> (0 < N)%nat -> cos (ang N (N - k) n) = cos (ang N k n).
Proof.
  intros H HN. assert (INR N <> 0) by (apply not_0_INR; lia).
  replace (ang N (N - k) n) with (- ang N k n + 2 * INR n * PI).
  - rewrite cos_period, cos_neg. reflexivity.
  - unfold ang. rewrite minus_INR by lia. field; auto.
Qed.
Lemma sin_refl N k n : (k <= N)%nat -> (0 < N)%nat -> sin (ang N (N - k) n) = - sin (ang N k n).
Proof.
  intros H HN. assert (INR N <> 0) by (apply not_0_INR; lia).
  replace (ang N (N - k) n) with (- ang N k n + 2 * INR n * PI).
  - rewrite sin_period, sin_neg. reflexivity.
  - unfold ang. rewrite minus_INR by lia. field; auto.
Qed.

Lemma cc_sum N k l : (2 * k <= N)%nat -> (2 * l <= N)%nat -> k <> l ->
  rsum N (fun n => cos (ang N k n) * cos (ang N l n)) = 0.
Proof.
  intros Hk Hl Hne.
  assert (forall k l, (2 * k <= N)%nat -> (2 * l <= N)%nat -> (l < k)%nat ->
    rsum N (fun n => cos (ang N k n) * cos (ang N l n)) = 0).
  { clear. intros k l Hk Hl H.
    rewrite (rsum_ext N _ (fun n => / 2 * (cos (2 * PI * INR (k - l) * INR n / INR N) +
                                    cos (2 * PI * INR (k + l) * INR n / INR N)))).
    - rewrite rsum_scal, rsum_plus, !cos_sum_zero by lia. ring.
    - intros n _. rewrite <- cos_ang_minus, <- ang_plus by lia.
      rewrite cos_minus, cos_plus. field. }
  destruct (Nat.lt_trichotomy k l) as [?|[?|?]]; [|lia|auto].
  rewrite (rsum_ext N _ (fun n => cos (ang N l n) * cos (ang N k n))) by (intros; ring). auto.
Qed.
Lemma ss_sum N k l : (2 * k <= N)%nat -> (2 * l <= N)%nat -> k <> l ->
  rsum N (fun n => sin (ang N k n) * sin (ang N l n)) = 0.
Proof.
  intros Hk Hl Hne.
  assert (forall k l, (2 * k <= N)%nat -> (2 * l <= N)%nat -> (l < k)%nat ->
    rsum N (fun n => sin (ang N k n) * sin (ang N l n)) = 0).
  { clear. intros k l Hk Hl H.
    rewrite (rsum_ext N _ (fun n => / 2 * (cos (2 * PI * INR (k - l) * INR n / INR N) -
                                    cos (2 * PI * INR (k + l) * INR n / INR N)))).
    - rewrite rsum_scal, rsum_minus, !cos_sum_zero by lia. ring.
    - intros n _. rewrite <- cos_ang_minus, <- ang_plus by lia.
      rewrite cos_minus, cos_plus. field. }
  destruct (Nat.lt_trichotomy k l) as [?|[?|?]]; [|lia|auto].
  rewrite (rsum_ext N _ (fun n => sin (ang N l n) * sin (ang N k n))) by (intros; ring). auto.
Qed.
Lemma cs_sum N k l : (2 * k <= N)%nat -> (2 * l <= N)%nat ->
  rsum N (fun n => cos (ang N k n) * sin (ang N l n)) = 0.
Proof.
  intros Hk Hl.
  destruct (le_lt_dec k l).
  - rewrite (rsum_ext N _ (fun n => / 2 * (sin (2 * PI * INR (l - k) * INR n / INR N) +
                                    sin (2 * PI * INR (k + l) * INR n / INR N)))).
    + rewrite rsum_scal, rsum_plus, !sin_sum_zero by lia. ring.
    + intros n _. rewrite <- sin_ang_minus, <- ang_plus by lia.
      rewrite sin_minus, sin_plus. field.
  - rewrite (rsum_ext N _ (fun n => / 2 * (- sin (2 * PI * INR (k - l) * INR n / INR N) +
                                    sin (2 * PI * INR (k + l) * INR n / INR N)))).
    + rewrite rsum_scal, rsum_plus, rsum_opp, !sin_sum_zero by lia. ring.
    + intros n _. rewrite <- sin_ang_minus, <- ang_plus by lia.
      rewrite sin_minus, sin_plus. field.
Qed.

(** sum over the lines: Kronecker delta. *)
Lemma delta_sum N m n : (m < N)%nat -> (n < N)%nat ->
  rsum N (fun k => cos (ang N k m) * cos (ang N k n) + sin (ang N k m) * sin (ang N k n))
  = if (m =? n)%nat then INR N else 0.
Proof.
  intros Hm Hn.
  assert (Hgen : forall m n, (n <= m)%nat -> (m < N)%nat ->
     rsum N (fun k => cos (ang N k m) * cos (ang N k n) + sin (ang N k m) * sin (ang N k n))
     = rsum N (fun k => cos (2 * PI * INR (m - n) * INR k / INR N))).
  { clear. intros m n H _. apply rsum_ext; intros k _.
    rewrite <- cos_ang_minus by lia. rewrite cos_minus, !(ang_swap N k). reflexivity. }
  destruct (Nat.eqb_spec m n) as [->|Hne].
  - rewrite Hgen by lia. rewrite Nat.sub_diag.
    rewrite (rsum_ext N _ (fun _ => 1)).
    + rewrite rsum_const. ring.
    + intros k _. simpl. replace (2 * PI * 0 * INR k / INR N) with 0 by (unfold Rdiv; ring). apply cos_0.
  - destruct (le_lt_dec n m).
    + rewrite Hgen by lia. apply cos_sum_zero. lia.
    + rewrite (rsum_ext N _ (fun k => cos (ang N k n) * cos (ang N k m) + sin (ang N k n) * sin (ang N k m)))
        by (intros; ring).
      rewrite Hgen by lia. apply cos_sum_zero. lia.
Qed.
