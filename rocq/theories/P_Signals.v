(** Lemmas for testsignals.py and SecondOrderSystem.py. *)
From Coq Require Import Reals List Arith ZArith Bool Lra Lia.
From Verif Require Import Base Sums Stats StatsFacts M_Interp P_Interp Cplx M_Noise S_Noise S_MC P_MC.
Import ListNotations.
Open Scope R_scope.

Lemma exp_le_1 x : x <= 0 -> exp x <= 1.
Proof.
  intros H. destruct (Req_dec x 0) as [->|N]; [rewrite exp_0; lra|].
  rewrite <- exp_0. apply Rlt_le, exp_increasing. lra.
Qed.
Lemma exp_eq_1 x : exp x = 1 -> x = 0.
Proof. intros H. apply exp_inv. rewrite exp_0. auto. Qed.
(** u * e^(1/2) * e^(-u^2/2) <= 1, with equality only at u = 1 *)
Lemma shock_bound u : u * exp (1 / 2) * exp (- u ^ 2 / 2) <= 1 /\
  (u * exp (1 / 2) * exp (- u ^ 2 / 2) = 1 <-> u = 1).
Proof.
  assert (E : u * exp (1 / 2) * exp (- u ^ 2 / 2) = u * / exp ((u ^ 2 - 1) / 2)).
  { rewrite Rmult_assoc, <- exp_plus, <- exp_Ropp. f_equal. f_equal. field. }
  rewrite E. set (g := exp ((u ^ 2 - 1) / 2)). assert (G : 0 < g) by apply exp_pos.
  assert (B : 1 + (u ^ 2 - 1) / 2 <= g).
  { unfold g. destruct (Req_dec ((u ^ 2 - 1) / 2) 0) as [Z|Z]; [rewrite Z, exp_0; lra|].
    apply Rlt_le, exp_ineq1. auto. }
  assert (Q := pow2_ge_0 (u - 1)).
  split; [|split].
  - apply Rmult_le_reg_r with g; auto. rewrite Rmult_assoc, Rinv_l by lra. lra.
  - intros H. assert (u = g). { apply Rmult_eq_reg_r with (/ g); [rewrite H; field; lra|apply Rinv_neq_0_compat; lra]. }
    assert ((u - 1) ^ 2 = 0) by lra. nra.
  - intros ->. unfold g. replace ((1 ^ 2 - 1) / 2) with 0 by field. rewrite exp_0. field.
Qed.
Lemma shock_at_u t0 m0 sigma t : sigma <> 0 ->
  shock_at t0 m0 sigma t = m0 * ((t0 - t) / sigma * exp (1 / 2) * exp (- ((t0 - t) / sigma) ^ 2 / 2)).
Proof.
  intros H. unfold shock_at.
  replace (- (t - t0) ^ 2 / (2 * sigma ^ 2)) with (- ((t0 - t) / sigma) ^ 2 / 2) by (field; auto). field. auto.
Qed.

(** rect *)
Lemma rect_is (t0 t1 h t : R) :
  is_rect t0 t1 h t (if rltb t1 t then 0 else if rltb t0 t then h else 0).
Proof.
  unfold is_rect. destruct (rltb t1 t) eqn:E1.
  - apply rltb_true in E1. split; [lra|auto].
  - apply rltb_false in E1. destruct (rltb t0 t) eqn:E0.
    + apply rltb_true in E0. split; [auto|intros H; exfalso; apply H; lra].
    + apply rltb_false in E0. split; [lra|auto].
Qed.
Lemma rect_plain time t0 t1 h z : exists x, rect time t0 t1 h (RnFloat 0) z = Ok x /\ alen x = alen time /\
  forall i, (i < alen time)%nat -> is_rect t0 t1 h (time i) (x i).
Proof.
  unfold rect. destruct (rltb 0 0) eqn:E; [apply rltb_true in E; lra|].
  eexists. split; [reflexivity|]. split; [reflexivity|]. intros i _. apply rect_is.
Qed.

(** squarepulse: the pulses relative to time 0 *)
Lemma square_loop_ok time h w n : 0 <= w -> exists x, square_loop time h w n = Ok x /\ alen x = alen time /\
  forall i, (i < alen time)%nat ->
    ((exists k, (k < n)%nat /\ (2 * INR k + 1) * w < time i <= (2 * INR k + 2) * w) -> x i = h) /\
    (~ (exists k, (k < n)%nat /\ (2 * INR k + 1) * w < time i <= (2 * INR k + 2) * w) -> x i = 0).
Proof.
  intros Hw. induction n as [|n IH]; cbn [square_loop].
  - eexists. split; [reflexivity|]. split; [reflexivity|]. intros i _. split; [intros (k & Hk & _); lia|auto].
  - destruct IH as (x & E & Lx & Hx). rewrite E. cbn [bind].
    destruct (rect_plain time ((2 * INR n + 1) * w) ((2 * INR n + 2) * w) h time) as (r & Er & Lr & Hr).
    rewrite Er. cbn [bind]. eexists. split; [reflexivity|]. split; [reflexivity|].
    intros i Hi. cbn [aget]. destruct (Hx i Hi) as [A1 A2]. destruct (Hr i Hi) as [B1 B2].
    assert (M : forall k, (k < n)%nat -> 2 * INR k + 2 <= 2 * INR n).
    { intros k Hk. assert (INR (S k) <= INR n) by (apply le_INR; lia). rewrite S_INR in H. lra. }
    split.
    + intros (k & Hk & Hin). destruct (Nat.eq_dec k n) as [->|Hne].
      * rewrite B1 by auto. rewrite A2; [lra|]. intros (k' & Hk' & Hin'). specialize (M k' Hk'). nra.
      * rewrite A1 by (exists k; split; [lia|auto]). rewrite B2; [lra|]. intros Hin'.
        specialize (M k ltac:(lia)). nra.
    + intros Hno. rewrite A2, B2; [lra| |].
      * intros Hin. apply Hno. exists n. split; [lia|auto].
      * intros (k & Hk & Hin). apply Hno. exists k. split; [lia|auto].
Qed.

(** corr_noise *)
Lemma Cw2_energy w : Cw2 w = ma_energy w.
Proof. unfold Cw2, ma_energy, comb4, binom4. cbn. ring. Qed.
Lemma Cw2_pos w : 0 < Cw2 w.
Proof.
  unfold Cw2. apply (rsum_pos _ _ 0%nat); [lia| |].
  - cbn. lra.
  - intros l Hl. apply Rmult_le_pos; [apply pow2_ge_0|]. rewrite pow_mult. apply pow_le. apply pow2_ge_0.
Qed.
Lemma sqrt_Cw2_sq w : sqrt (Cw2 w) ^ 2 = Cw2 w.
Proof. replace (sqrt (Cw2 w) ^ 2) with (sqrt (Cw2 w) * sqrt (Cw2 w)) by ring. apply sqrt_sqrt. apply Rlt_le, Cw2_pos. Qed.
Lemma sqrt_Cw2_neq w : sqrt (Cw2 w) <> 0.
Proof. pose proof (sqrt_lt_R0 _ (Cw2_pos w)). lra. Qed.
(** the filter realised by the nested differences *)
Lemma calc_noise_ma w sigma N z i :
  calc_noise w sigma N z i
  = sigma / sqrt (Cw2 w) * moving_average (fun l => binom4 l * ((1 - w) ^ l * w ^ (4 - l))) z i.
Proof.
  cbn [calc_noise aget]. unfold np_diff, moving_average, binom4. cbn [rsum nth Nat.sub pow].
  replace (S i + 1)%nat with (i + 2)%nat by lia. replace (S (S i) + 1)%nat with (i + 3)%nat by lia.
  replace (S (S (S i)) + 1)%nat with (i + 4)%nat by lia.
  replace (S i + 2)%nat with (i + 3)%nat by lia. replace (S (S i) + 2)%nat with (i + 4)%nat by lia.
  replace (S i + 3)%nat with (i + 4)%nat by lia.
  replace (S (S (S (S i)))) with (i + 4)%nat by lia. replace (S (S (S i))) with (i + 3)%nat by lia.
  replace (S (S i)) with (i + 2)%nat by lia. replace (S i) with (i + 1)%nat by lia.
  rewrite Nat.add_0_r. field. apply sqrt_Cw2_neq.
Qed.
Definition ma_cov (c : nat -> R) (i j : nat) : R :=
  rsum 5 (fun l => rsum 5 (fun m => c l * delta (i + l) (j + m) * c m)).
Lemma ma_Cov N d c i j : has_cov (N + 4) d delta -> (i < N)%nat -> (j < N)%nat ->
  Cov d (fun z => moving_average c z i) (fun z => moving_average c z j) = ma_cov c i j.
Proof.
  intros H Hi Hj. unfold moving_average, ma_cov.
  rewrite (Cov_linear d 5 5 c c (fun l z => z (i + l)%nat) (fun l z => z (j + l)%nat)).
  apply rsum_ext. intros l Hl. apply rsum_ext. intros m Hm. rewrite H by lia. reflexivity.
Qed.
Lemma ma_cov_sym c i j : ma_cov c i j = ma_cov c j i.
Proof.
  unfold ma_cov. rewrite rsum_swap. apply rsum_ext. intros l _. apply rsum_ext. intros m _.
  unfold delta. rewrite Nat.eqb_sym. ring.
Qed.
Lemma ma_cov_shift c i k : ma_cov c i (i + k) = ma_cov c 0 k.
Proof.
  unfold ma_cov. apply rsum_ext. intros l _. apply rsum_ext. intros m _. unfold delta.
  destruct (Nat.eqb_spec (i + l) (i + k + m)), (Nat.eqb_spec (0 + l) (k + m)); try lia; reflexivity.
Qed.
Lemma cw_ma w k : cw w k = ma_cov (fun l => binom4 l * w ^ l) 0 k / Cw2 w.
Proof.
  unfold cw. rewrite sqrt_Cw2_sq. unfold ma_cov.
  destruct (Nat.ltb_spec 4 k).
  - rewrite rsum_zero; [unfold Rdiv; ring|]. intros l Hl. apply rsum_zero. intros m Hm. unfold delta.
    destruct (Nat.eqb_spec (0 + l) (k + m)); [lia|ring].
  - f_equal. destruct k as [|[|[|[|[|k]]]]]; [| | | | |lia]; unfold delta, binom4; cbn; ring.
Qed.
Lemma calc_cov_val w sigma v U i j : calc_cov w sigma (Some v) = Ok U -> 
  U i j = sigma ^ 2 / Cw2 w * ma_cov (fun l => binom4 l * w ^ l) i j.
Proof.
  intros H. unfold calc_cov in H. injection H as <-. cbn [mget].
  rewrite !cw_ma. 
  destruct (lt_eq_lt_dec i j) as [[L| ->]|L].
  - replace (i <=? j)%nat with true by (symmetry; apply Nat.leb_le; lia).
    replace (j <=? i)%nat with false by (symmetry; apply Nat.leb_gt; lia).
    replace (i =? j)%nat with false by (symmetry; apply Nat.eqb_neq; lia).
    rewrite <- (ma_cov_shift _ i (j - i)). replace (i + (j - i))%nat with j by lia. field.
    pose proof (Cw2_pos w); lra.
  - rewrite Nat.leb_refl, Nat.eqb_refl, Nat.sub_diag. rewrite <- (ma_cov_shift _ j 0), Nat.add_0_r.
    field. pose proof (Cw2_pos w); lra.
  - replace (j <=? i)%nat with true by (symmetry; apply Nat.leb_le; lia).
    replace (i <=? j)%nat with false by (symmetry; apply Nat.leb_gt; lia).
    replace (i =? j)%nat with false by (symmetry; apply Nat.eqb_neq; lia).
    rewrite <- (ma_cov_shift _ j (i - j)). replace (j + (i - j))%nat with i by lia. rewrite (ma_cov_sym _ i j).
    field. pose proof (Cw2_pos w); lra.
Qed.

Lemma psd_delta n : psd n delta.
Proof.
  split.
  - intros i j _ _. unfold delta. rewrite Nat.eqb_sym. reflexivity.
  - intros v. unfold quad. apply rsum_nonneg. intros i Hi.
    rewrite (rsum_ext n _ (fun j => if (j =? i)%nat then v i * v i else 0)).
    + rewrite rsum_delta by auto. nra.
    + intros j _. unfold delta. rewrite Nat.eqb_sym. destruct (Nat.eqb_spec j i) as [->|]; ring.
Qed.

(** averages over runs as sums *)
Lemma tot_seq (f : nat -> R) n s : tot (map f (seq s n)) = rsum n (fun i => f (s + i)%nat).
Proof.
  revert s. induction n as [|n IH]; intros s; [reflexivity|]. cbn [seq map tot]. rewrite IH, rsum_S_l, Nat.add_0_r.
  f_equal. apply rsum_ext. intros i _. f_equal. lia.
Qed.
Lemma avg_seq (f : nat -> R) n : avg f (seq 0 n) = rsum n f / INR n.
Proof. unfold avg. rewrite tot_seq, seq_length. reflexivity. Qed.
Lemma sample_cov_seq (f g : nat -> R) n : (2 <= n)%nat -> sample_cov f g (seq 0 n)
  = rsum n (fun k => (f k - rsum n f / INR n) * (g k - rsum n g / INR n)) / INR (n - 1).
Proof.
  intros H. unfold sample_cov, scatter. rewrite tot_seq, !avg_seq, seq_length, minus_INR by lia. reflexivity.
Qed.
