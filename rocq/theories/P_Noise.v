(** Lemmas for noise.py. *)
From Coq Require Import String.
From Coq Require Import Reals List Arith ZArith Bool Lra Lia.
From Verif Require Import Base Sums Stats StatsFacts P_Trig M_Interp P_Interp Cplx M_Noise S_Noise.
Import ListNotations.
Open Scope R_scope.
Local Notation length := Datatypes.length.

(** * ARMA *)
Lemma arma_run_length phi theta w n : length (arma_run phi theta w n) = n.
Proof. induction n as [|n IH]; cbn; auto. rewrite app_length, IH. cbn. lia. Qed.
Lemma arma_run_nth phi theta w n i : (i < n)%nat ->
  nth i (arma_run phi theta w n) 0 = arma_step phi theta w (arma_run phi theta w i) i.
Proof.
  induction n as [|n IH]; intros H; [lia|]. cbn [arma_run].
  destruct (Nat.eq_dec i n) as [->|Hn].
  - rewrite app_nth2; rewrite arma_run_length; [|lia]. rewrite Nat.sub_diag. reflexivity.
  - rewrite app_nth1 by (rewrite arma_run_length; lia). apply IH. lia.
Qed.
Lemma arma_run_prefix phi theta w n i j : (j < i)%nat -> (i <= n)%nat ->
  nth j (arma_run phi theta w i) 0 = nth j (arma_run phi theta w n) 0.
Proof. intros H1 H2. rewrite !arma_run_nth by lia. reflexivity. Qed.

(** the recursion actually computed *)
Lemma ARMA_rec w phi theta n : (n < alen w)%nat ->
  let p := coef_vec phi in let q := coef_vec theta in
  let mp := Nat.min (alen p) n in let mq := Nat.min (alen q) n in
  ARMA w phi theta n =
    w n + rsum mp (fun j => p (mp - 1 - j)%nat * ARMA w phi theta (n - S j)%nat)
        + rsum mq (fun j => q (mq - 1 - j)%nat * w (n - S j)%nat).
Proof.
  intros Hn p q mp mq. cbn [ARMA aget]. rewrite arma_run_nth by auto.
  fold p q. unfold arma_step. fold mp mq.
  rewrite (rsum_rev mp (fun i => p i * _)), (rsum_rev mq (fun i => q i * _)).
  rewrite (rsum_ext mp _ (fun j => p (mp - 1 - j)%nat * nth (n - S j) (arma_run p q w (alen w)) 0)).
  2:{ intros j Hj. f_equal. replace (n - mp + (mp - 1 - j))%nat with (n - S j)%nat by lia.
      apply arma_run_prefix; lia. }
  rewrite (rsum_ext mq _ (fun j => q (mq - 1 - j)%nat * w (n - S j)%nat)).
  2:{ intros j Hj. f_equal. f_equal. lia. }
  ring.
Qed.

(** truncated sum *)
Lemma rsum_trunc p n (f : nat -> R) :
  rsum p (fun j => if (S j <=? n)%nat then f j else 0) = rsum (Nat.min p n) f.
Proof.
  rewrite (rsum_split p (Nat.min p n)) by lia.
  rewrite (rsum_zero (p - Nat.min p n)).
  - rewrite Rplus_0_r. apply rsum_ext. intros j Hj. destruct (Nat.leb_spec (S j) n); [auto|lia].
  - intros j Hj. destruct (Nat.leb_spec (S (Nat.min p n + j)) n); [lia|auto].
Qed.

(** * real DFT *)
Lemma cos_sq_sum N k : (0 < k)%nat -> (2 * k < N)%nat ->
  rsum N (fun n => cos (ang N k n) * cos (ang N k n)) = INR N / 2.
Proof.
  intros H1 H2.
  rewrite (rsum_ext N _ (fun n => / 2 * 1 + / 2 * cos (2 * PI * INR (2 * k) * INR n / INR N))).
  - rewrite rsum_plus, rsum_scal, rsum_scal, rsum_const, cos_sum_zero by lia. lra.
  - intros n _. replace (2 * PI * INR (2 * k) * INR n / INR N) with (2 * ang N k n).
    + rewrite cos_2a_cos. lra.
    + unfold ang. rewrite mult_INR. simpl (INR 2). unfold Rdiv. ring.
Qed.
Lemma sin_sq_sum N k : (0 < k)%nat -> (2 * k < N)%nat ->
  rsum N (fun n => sin (ang N k n) * sin (ang N k n)) = INR N / 2.
Proof.
  intros H1 H2.
  rewrite (rsum_ext N _ (fun n => 1 - cos (ang N k n) * cos (ang N k n))).
  - rewrite rsum_minus, rsum_const, cos_sq_sum by auto. lra.
  - intros n _. pose proof (sin2_cos2 (ang N k n)). unfold Rsqr in *. lra.
Qed.
Lemma sin_nyq N k n : (2 * k = N)%nat -> (0 < N)%nat -> sin (ang N k n) = 0.
Proof.
  intros H HN. replace (ang N k n) with (INR n * PI).
  - apply sin_eq_0_1. exists (Z.of_nat n). rewrite <- INR_IZR_INZ. ring.
  - unfold ang. rewrite <- H, mult_INR. simpl (INR 2). field. apply not_0_INR. lia.
Qed.
Lemma cos_sq_nyq N k : (2 * k = N)%nat -> (0 < N)%nat ->
  rsum N (fun n => cos (ang N k n) * cos (ang N k n)) = INR N.
Proof.
  intros H HN. rewrite (rsum_ext N _ (fun _ => 1)); [rewrite rsum_const; ring|].
  intros n _. pose proof (sin2_cos2 (ang N k n)). rewrite (sin_nyq N k n) in H0 by auto.
  unfold Rsqr in *. lra.
Qed.

(** a sequence that is symmetric under k -> N - k *)
Lemma sym_sum N (g : nat -> R) : (1 <= N)%nat -> (forall k, (0 < k < N)%nat -> g (N - k)%nat = g k) ->
  rsum N g = g 0%nat + rsum (N / 2) (fun j => if (2 * S j =? N)%nat then g (S j) else 2 * g (S j)).
Proof.
  intros HN Hs. destruct N as [|M]; [lia|]. rewrite rsum_S_l. f_equal.
  assert (Hdm := Nat.div_mod (S M) 2 ltac:(lia)). assert (Hmod := Nat.mod_upper_bound (S M) 2 ltac:(lia)).
  set (h := (S M / 2)%nat) in *.
  rewrite (rsum_split M h) by lia.
  destruct (Nat.eq_dec (S M mod 2) 0) as [E|E].
  - (* even: S M = 2h *)
    assert (HM : S M = (2 * h)%nat) by lia. destruct h as [|q]; [lia|].
    change (rsum (S q) (fun j => if (2 * S j =? S M)%nat then g (S j) else 2 * g (S j)))
      with (rsum q (fun j => if (2 * S j =? S M)%nat then g (S j) else 2 * g (S j))
            + (if (2 * S q =? S M)%nat then g (S q) else 2 * g (S q))).
    replace (2 * S q =? S M)%nat with true by (symmetry; apply Nat.eqb_eq; lia).
    cbn [rsum]. rewrite (rsum_ext q (fun j => if (2 * S j =? S M)%nat then g (S j) else 2 * g (S j)) (fun j => 2 * g (S j))).
    2:{ intros j Hj. destruct (Nat.eqb_spec (2 * S j) (S M)); [lia|auto]. }
    replace (M - S q)%nat with q by lia.
    rewrite (rsum_rev q (fun i => g (S (S q + i)))).
    rewrite (rsum_ext q (fun i => g (S (S q + (q - 1 - i)))) (fun j => g (S j))).
    2:{ intros j Hj. rewrite <- Hs by lia. f_equal. lia. }
    rewrite rsum_scal. ring.
  - assert (HM : S M = (2 * h + 1)%nat) by lia.
    rewrite (rsum_ext h (fun j => if (2 * S j =? S M)%nat then g (S j) else 2 * g (S j)) (fun j => 2 * g (S j))).
    2:{ intros j Hj. destruct (Nat.eqb_spec (2 * S j) (S M)); [lia|auto]. }
    replace (M - h)%nat with h by lia.
    rewrite (rsum_rev h (fun i => g (S (h + i)))).
    rewrite (rsum_ext h (fun i => g (S (h + (h - 1 - i)))) (fun j => g (S j))).
    2:{ intros j Hj. rewrite <- Hs by lia. f_equal. lia. }
    rewrite rsum_scal. ring.
Qed.

(** irfft inverts rfft *)
Lemma irfft_rfft (w : vec) n : (n < alen w)%nat -> irfft_at (alen w) (rfft_re w) (rfft_im w) n = w n.
Proof.
  intros Hn. set (N := alen w). assert (HN : INR N <> 0) by (apply not_0_INR; unfold N; lia).
  set (g := fun k => rfft_re w k * cos (ang N k n) - rfft_im w k * sin (ang N k n)).
  assert (Hre : forall k, (0 < k < N)%nat -> rfft_re w (N - k) = rfft_re w k).
  { intros k Hk. unfold rfft_re. fold N. apply rsum_ext. intros m _. f_equal.
    change (cos (ang N (N - k) m) = cos (ang N k m)). apply cos_refl; lia. }
  assert (Him : forall k, (0 < k < N)%nat -> rfft_im w (N - k) = - rfft_im w k).
  { intros k Hk. unfold rfft_im. fold N. rewrite <- rsum_opp. apply rsum_ext. intros m _.
    change (- (w m * sin (ang N (N - k) m)) = - - (w m * sin (ang N k m))). rewrite sin_refl by lia. ring. }
  assert (Hg : forall k, (0 < k < N)%nat -> g (N - k)%nat = g k).
  { intros k Hk. unfold g. rewrite Hre, Him, cos_refl, sin_refl by lia. ring. }
  transitivity (/ INR N * rsum N g).
  - unfold irfft_at. fold N. f_equal. rewrite (sym_sum N g) by (auto; unfold N; lia). f_equal.
    + unfold g, ang. simpl (INR 0). replace (2 * PI * 0 * INR n / INR N) with 0 by (field; auto).
      rewrite cos_0, sin_0. ring.
    + apply rsum_ext. intros j Hj. cbv zeta. destruct (Nat.eqb_spec (2 * S j) N).
      * unfold g. rewrite (sin_nyq N (S j)) by lia. unfold ang. ring.
      * unfold g, ang. ring.
  - assert (E : rsum N g = INR N * w n).
    { unfold g, rfft_re, rfft_im. fold N.
      rewrite (rsum_ext N _ (fun k => rsum N (fun m => w m *
        (cos (ang N k m) * cos (ang N k n) + sin (ang N k m) * sin (ang N k n))))).
      2:{ intros k Hk. rewrite <- !rsum_scal_r, <- rsum_minus. apply rsum_ext. intros m _.
          unfold ang. ring. }
      rewrite rsum_swap.
      rewrite (rsum_ext N _ (fun m => if (m =? n)%nat then w m * INR N else 0)).
      - rewrite rsum_delta by (unfold N; auto). ring.
      - intros m Hm. rewrite rsum_scal, delta_sum by (unfold N in *; auto). destruct (m =? n)%nat; ring. }
    rewrite E. field. auto.
Qed.

(** rfft inverts irfft at the bins 1..L/2 (real part; imaginary part below L/2) *)
Lemma rfft_irfft_re L re im k : (0 < k)%nat -> (2 * k <= L)%nat ->
  rsum L (fun n => irfft_at L re im n * cos (ang L k n)) = re k.
Proof.
  intros H1 H2. assert (HL : INR L <> 0) by (apply not_0_INR; lia).
  unfold irfft_at.
  set (T := fun j n => if (2 * S j =? L)%nat then re (S j) * cos (ang L (S j) n)
                       else 2 * (re (S j) * cos (ang L (S j) n) - im (S j) * sin (ang L (S j) n))).
  rewrite (rsum_ext L _ (fun n => / INR L * re 0%nat * cos (ang L k n)
             + / INR L * rsum (L / 2) (fun j => T j n * cos (ang L k n)))).
  2:{ intros n _. rewrite rsum_scal_r. unfold T, ang. cbv zeta. ring. }
  rewrite rsum_plus, !rsum_scal. unfold ang at 1. rewrite cos_sum_zero by lia.
  rewrite rsum_swap.
  assert (Hd : (k - 1 < L / 2)%nat) by (apply Nat.div_le_lower_bound; lia).
  rewrite (rsum_ext (L / 2) _ (fun j => if (j =? k - 1)%nat then INR L * re k else 0)).
  { rewrite rsum_delta by auto. field. auto. }
  intros j Hj. assert (Hj2 : (2 * S j <= L)%nat) by (pose proof (Nat.mul_div_le L 2); lia).
  destruct (Nat.eqb_spec j (k - 1)) as [->|Hne].
  - replace (S (k - 1)) with k in * by lia. unfold T. replace (S (k - 1)) with k in * by lia.
    destruct (Nat.eqb_spec (2 * k) L).
    + rewrite (rsum_ext L _ (fun n => re k * (cos (ang L k n) * cos (ang L k n)))) by (intros; ring).
      rewrite rsum_scal, cos_sq_nyq by lia. ring.
    + rewrite (rsum_ext L _ (fun n => 2 * re k * (cos (ang L k n) * cos (ang L k n))
                                - 2 * im k * (cos (ang L k n) * sin (ang L k n)))) by (intros; ring).
      rewrite rsum_minus, !rsum_scal, cos_sq_sum, cs_sum by lia. field.
  - unfold T. destruct (Nat.eqb_spec (2 * S j) L).
    + rewrite (rsum_ext L _ (fun n => re (S j) * (cos (ang L (S j) n) * cos (ang L k n)))) by (intros; ring).
      rewrite rsum_scal, cc_sum by lia. ring.
    + rewrite (rsum_ext L _ (fun n => 2 * re (S j) * (cos (ang L (S j) n) * cos (ang L k n))
                                - 2 * im (S j) * (cos (ang L k n) * sin (ang L (S j) n)))) by (intros; ring).
      rewrite rsum_minus, !rsum_scal, cc_sum, cs_sum by lia. ring.
Qed.
Lemma rfft_irfft_im L re im k : (0 < k)%nat -> (2 * k < L)%nat ->
  rsum L (fun n => - (irfft_at L re im n * sin (ang L k n))) = im k.
Proof.
  intros H1 H2. assert (HL : INR L <> 0) by (apply not_0_INR; lia).
  unfold irfft_at.
  set (T := fun j n => if (2 * S j =? L)%nat then re (S j) * cos (ang L (S j) n)
                       else 2 * (re (S j) * cos (ang L (S j) n) - im (S j) * sin (ang L (S j) n))).
  rewrite (rsum_ext L _ (fun n => - (/ INR L) * re 0%nat * sin (ang L k n)
             + - (/ INR L) * rsum (L / 2) (fun j => T j n * sin (ang L k n)))).
  2:{ intros n _. rewrite rsum_scal_r. unfold T, ang. cbv zeta. ring. }
  rewrite rsum_plus, !rsum_scal. unfold ang at 1. rewrite sin_sum_zero by lia.
  rewrite rsum_swap.
  assert (Hd : (k - 1 < L / 2)%nat) by (apply Nat.div_le_lower_bound; lia).
  rewrite (rsum_ext (L / 2) _ (fun j => if (j =? k - 1)%nat then - INR L * im k else 0)).
  { rewrite rsum_delta by auto. field. auto. }
  intros j Hj. assert (Hj2 : (2 * S j <= L)%nat) by (pose proof (Nat.mul_div_le L 2); lia).
  destruct (Nat.eqb_spec j (k - 1)) as [->|Hne].
  - unfold T. replace (S (k - 1)) with k in * by lia.
    destruct (Nat.eqb_spec (2 * k) L); [lia|].
    rewrite (rsum_ext L _ (fun n => 2 * re k * (cos (ang L k n) * sin (ang L k n))
                                - 2 * im k * (sin (ang L k n) * sin (ang L k n)))) by (intros; ring).
    rewrite rsum_minus, !rsum_scal, sin_sq_sum, cs_sum by lia. field.
  - unfold T. destruct (Nat.eqb_spec (2 * S j) L).
    + rewrite (rsum_ext L _ (fun n => re (S j) * (cos (ang L (S j) n) * sin (ang L k n)))) by (intros; ring).
      rewrite rsum_scal, cs_sum by lia. ring.
    + rewrite (rsum_ext L _ (fun n => 2 * re (S j) * (cos (ang L (S j) n) * sin (ang L k n))
                                - 2 * im (S j) * (sin (ang L (S j) n) * sin (ang L k n)))) by (intros; ring).
      rewrite rsum_minus, !rsum_scal, ss_sum, cs_sum by lia. ring.
Qed.

Lemma dft_bin_parts n (y : nat -> R) k :
  dft_bin n y k = (rsum n (fun m => y m * cos (ang n k m)), rsum n (fun m => - (y m * sin (ang n k m)))).
Proof.
  unfold dft_bin, csum, cscal, cis, ang. apply C_eq; cbn [fst snd]; apply rsum_ext; intros m _.
  - rewrite cos_neg. reflexivity.
  - rewrite sin_neg. ring.
Qed.

(** spectrum of the coloured noise *)
Lemma coloured_bin w alpha k : (0 < k)%nat -> (2 * k <= alen w)%nat ->
  dft_bin (alen w) (coloured w alpha) k
  = cscal (Rpower (linspace0 (alen w / 2 + 1) k + 1) (alpha / 2)) (dft_bin (alen w) w k).
Proof.
  intros H1 H2. rewrite !dft_bin_parts. unfold coloured. cbn [aget].
  apply C_eq; cbn [fst snd cscal].
  - rewrite rfft_irfft_re by auto. unfold rfft_re, ang. ring.
  - destruct (Nat.eq_dec (2 * k) (alen w)) as [E|E].
    + rewrite !rsum_zero; [ring| |]; intros n _; rewrite sin_nyq by lia; ring.
    + rewrite rfft_irfft_im by lia. unfold rfft_im, ang. ring.
Qed.
Lemma dft_bin_affine n (f : nat -> R) a b k : (0 < k < n)%nat ->
  dft_bin n (fun i => a + b * f i) k = cscal b (dft_bin n f k).
Proof.
  intros H. rewrite !dft_bin_parts. apply C_eq; cbn [fst snd cscal].
  - rewrite (rsum_ext n _ (fun m => a * cos (ang n k m) + b * (f m * cos (ang n k m)))) by (intros; ring).
    rewrite rsum_plus, !rsum_scal. unfold ang at 1. rewrite cos_sum_zero by auto. ring.
  - rewrite (rsum_ext n _ (fun m => - a * sin (ang n k m) + b * - (f m * sin (ang n k m)))) by (intros; ring).
    rewrite rsum_plus, !rsum_scal. unfold ang at 1. rewrite sin_sum_zero by lia. ring.
Qed.

Lemma linspace0_nonneg s i : 0 <= linspace0 s i.
Proof.
  unfold linspace0. destruct (Nat.eqb_spec s 1); [lra|].
  destruct (Nat.eq_dec s 0) as [->|H].
  - simpl. unfold Rdiv. rewrite Rmult_0_l. lra.
  - apply Rmult_le_pos; [apply pos_INR|]. apply Rlt_le, Rdiv_lt_0_compat; apply lt_0_INR; lia.
Qed.
Lemma coloured_white w i : (i < alen w)%nat -> coloured w 0 i = w i.
Proof.
  intros H. rewrite <- (irfft_rfft w i H). unfold coloured. cbn [aget].
  assert (E : forall k, Rpower (linspace0 (alen w / 2 + 1) k + 1) (0 / 2) = 1).
  { intros k. unfold Rdiv. rewrite Rmult_0_l. apply Rpower_O. pose proof (linspace0_nonneg (alen w / 2 + 1) k). lra. }
  unfold irfft_at. f_equal. f_equal.
  - rewrite E. ring.
  - apply rsum_ext. intros j _. cbv zeta. rewrite !E. destruct (Nat.eqb _ _); ring.
Qed.

(** coloured noise is constant only for a constant input *)
Lemma dft_zero_constant w : (forall k, (0 < k)%nat -> (2 * k <= alen w)%nat -> dft_bin (alen w) w k = C0) ->
  constant (alen w) w.
Proof.
  intros H. assert (K : forall i, (i < alen w)%nat -> w i = / INR (alen w) * rfft_re w 0).
  { intros i Hi. rewrite <- (irfft_rfft w i Hi). unfold irfft_at. f_equal.
    rewrite rsum_zero; [ring|]. intros j Hj. cbv zeta.
    assert (Hj2 : (2 * S j <= alen w)%nat) by (pose proof (Nat.mul_div_le (alen w) 2); lia).
    pose proof (H (S j) ltac:(lia) Hj2) as E. rewrite dft_bin_parts in E. unfold C0 in E.
    assert (E1 : rfft_re w (S j) = 0) by (apply (f_equal fst) in E; exact E).
    assert (E2 : rfft_im w (S j) = 0) by (apply (f_equal snd) in E; exact E).
    rewrite E1, E2. destruct (Nat.eqb _ _); ring. }
  intros i j Hi Hj. rewrite (K i Hi), (K j Hj). reflexivity.
Qed.
Lemma constant_dft n (f : nat -> R) k : constant n f -> (0 < k < n)%nat -> dft_bin n f k = C0.
Proof.
  intros H Hk. transitivity (dft_bin n (fun i => f 0%nat + 0 * f i) k).
  - rewrite !dft_bin_parts. apply C_eq; cbn [fst snd]; apply rsum_ext; intros m Hm;
      rewrite (H m 0%nat) by lia; ring.
  - rewrite dft_bin_affine by auto. apply C_eq; cbn; ring.
Qed.
Lemma coloured_constant w alpha : constant (alen w) (coloured w alpha) -> constant (alen w) w.
Proof.
  intros H. apply dft_zero_constant. intros k H1 H2.
  destruct (Nat.eq_dec (alen w) 1) as [E|E]; [lia|].
  pose proof (coloured_bin w alpha k H1 H2) as B. rewrite constant_dft in B by (auto; lia).
  assert (P : Rpower (linspace0 (alen w / 2 + 1) k + 1) (alpha / 2) > 0) by apply exp_pos.
  apply C_eq.
  - apply (f_equal fst) in B. cbn [fst cscal C0] in B. symmetry in B. apply Rmult_integral in B. destruct B as [B|B]; [lra|exact B].
  - apply (f_equal snd) in B. cbn [snd cscal C0] in B. symmetry in B. apply Rmult_integral in B. destruct B as [B|B]; [lra|exact B].
Qed.
Lemma coloured_of_constant w alpha : constant (alen w) w -> constant (alen w) (coloured w alpha).
Proof.
  intros H i j Hi Hj. unfold coloured. cbn [aget]. unfold irfft_at. f_equal. f_equal.
  apply rsum_ext. intros k Hk.
  assert (Hk2 : (2 * S k <= alen w)%nat) by (pose proof (Nat.mul_div_le (alen w) 2); lia).
  destruct (Nat.eq_dec (alen w) 1) as [E|E]; [lia|].
  pose proof (constant_dft (alen w) w (S k) H ltac:(lia)) as B. rewrite dft_bin_parts in B. unfold C0 in B.
  assert (E1 : rfft_re w (S k) = 0) by (apply (f_equal fst) in B; exact B).
  assert (E2 : rfft_im w (S k) = 0) by (apply (f_equal snd) in B; exact B).
  cbv zeta. rewrite E1, E2. destruct (Nat.eqb _ _); ring.
Qed.

(** * mean and standard deviation *)
Lemma np_std_zero (f : vec) : (1 <= alen f)%nat -> np_std f = 0 -> constant (alen f) f.
Proof.
  intros HN H. assert (P : 0 < INR (alen f)) by (apply lt_0_INR; lia).
  unfold np_std in H. set (q := rsum (alen f) (fun i => (f i - np_mean f) ^ 2)) in *.
  assert (Q : 0 <= q) by (apply rsum_nonneg; intros; apply pow2_ge_0).
  apply sqrt_eq_0 in H; [|apply Rmult_le_pos; [auto|apply Rlt_le, Rinv_0_lt_compat; auto]].
  assert (q = 0) by (apply Rmult_eq_reg_r with (/ INR (alen f)); [lra|apply Rinv_neq_0_compat; lra]).
  assert (K : forall i, (i < alen f)%nat -> f i = np_mean f).
  { intros i Hi. pose proof (rsum_nonneg_zero (alen f) (fun i => (f i - np_mean f) ^ 2)) as Z.
    specialize (Z ltac:(intros; apply pow2_ge_0) H0 i Hi). cbv beta in Z. nra. }
  intros i j Hi Hj. rewrite (K i), (K j); auto.
Qed.
Lemma np_std_constant (f : vec) : (1 <= alen f)%nat -> constant (alen f) f -> np_std f = 0.
Proof.
  intros HN H. assert (P : 0 < INR (alen f)) by (apply lt_0_INR; lia).
  assert (M : np_mean f = f 0%nat).
  { unfold np_mean. rewrite (rsum_ext (alen f) f (fun _ => f 0%nat)) by (intros; apply H; lia).
    rewrite rsum_const. field. lra. }
  unfold np_std. rewrite rsum_zero.
  - unfold Rdiv. rewrite Rmult_0_l. apply sqrt_0.
  - intros i Hi. rewrite M, (H i 0%nat) by lia. ring.
Qed.
Lemma standardise (f : vec) mean std : (1 <= alen f)%nat -> np_std f <> 0 ->
  let y := fun i => mean + std * ((f i - np_mean f) / np_std f) in
  has_emp_mean (alen f) y mean /\ has_emp_std (alen f) y (Rabs std).
Proof.
  intros HN Hs y. assert (P : 0 < INR (alen f)) by (apply lt_0_INR; lia).
  assert (Z : rsum (alen f) (fun i => f i - np_mean f) = 0).
  { rewrite rsum_minus, rsum_const. unfold np_mean. field. lra. }
  assert (M : rsum (alen f) y / INR (alen f) = mean).
  { unfold y. rewrite (rsum_ext _ _ (fun i => mean + std / np_std f * (f i - np_mean f))) by (intros; field; auto).
    rewrite rsum_plus, rsum_const, rsum_scal, Z. field. split; auto; lra. }
  split; [exact M|]. unfold has_emp_std. rewrite M.
  set (q := rsum (alen f) (fun i => (f i - np_mean f) ^ 2)).
  assert (Sq : np_std f * np_std f = q / INR (alen f)).
  { unfold np_std. apply sqrt_sqrt. apply Rmult_le_pos; [apply rsum_nonneg; intros; apply pow2_ge_0|].
    apply Rlt_le, Rinv_0_lt_compat; auto. }
  rewrite (rsum_ext _ _ (fun i => (std / np_std f) ^ 2 * (f i - np_mean f) ^ 2)).
  2:{ intros i _. unfold y. field. auto. }
  rewrite rsum_scal. fold q.
  replace ((std / np_std f) ^ 2 * q / INR (alen f)) with (std²).
  - apply sqrt_Rsqr_abs.
  - unfold Rsqr. replace q with (np_std f * np_std f * INR (alen f)) by (rewrite Sq; field; lra). field; repeat split; auto; lra.
Qed.

(** * power_law_acf *)
Lemma rsum_sq_cos n (v : nat -> R) (t : nat -> R) :
  rsum n (fun i => rsum n (fun j => v i * cos (t i - t j) * v j))
  = rsum n (fun i => v i * cos (t i)) ^ 2 + rsum n (fun i => v i * sin (t i)) ^ 2.
Proof.
  replace (rsum n (fun i => v i * cos (t i)) ^ 2)
    with (rsum n (fun i => v i * cos (t i)) * rsum n (fun i => v i * cos (t i))) by ring.
  replace (rsum n (fun i => v i * sin (t i)) ^ 2)
    with (rsum n (fun i => v i * sin (t i)) * rsum n (fun i => v i * sin (t i))) by ring.
  rewrite !rsum_mult, <- rsum_plus. apply rsum_ext. intros i _. rewrite <- rsum_plus. apply rsum_ext. intros j _.
  rewrite cos_minus. ring.
Qed.
Lemma acf_val L (S_ : nat -> R) n :
  irfft_at L S_ (fun _ => 0) n = rsum (S (L / 2)) (fun k =>
    / INR L * (if (k =? 0)%nat then 1 else if (2 * k =? L)%nat then 1 else 2) * S_ k * cos (ang L k n)).
Proof.
  unfold irfft_at. rewrite rsum_S_l. cbn [Nat.eqb]. unfold ang at 1. simpl (INR 0).
  replace (2 * PI * 0 * INR n / INR L) with 0 by (unfold Rdiv; ring). rewrite cos_0.
  rewrite Rmult_plus_distr_l. f_equal; [ring|]. rewrite <- rsum_scal. apply rsum_ext. intros j _. cbv zeta.
  destruct (2 * S j =? L)%nat; unfold ang; ring.
Qed.
Lemma acf_psd L (S_ : nat -> R) n : (0 < L)%nat -> (forall k, 0 < S_ k) ->
  psd n (fun i j => irfft_at L S_ (fun _ => 0) (Nat.max i j - Nat.min i j)).
Proof.
  intros HL HS. assert (P : 0 < / INR L) by (apply Rinv_0_lt_compat, lt_0_INR; auto). split.
  - intros i j _ _. rewrite Nat.max_comm, Nat.min_comm. reflexivity.
  - intros v. unfold quad.
    set (c := fun k => / INR L * (if (k =? 0)%nat then 1 else if (2 * k =? L)%nat then 1 else 2) * S_ k).
    assert (Hc : forall k, 0 <= c k).
    { intros k. unfold c. apply Rmult_le_pos; [apply Rmult_le_pos; [lra|]|apply Rlt_le; auto].
      destruct (k =? 0)%nat; [lra|]. destruct (2 * k =? L)%nat; lra. }
    rewrite (rsum_ext n _ (fun i => rsum (S (L / 2)) (fun k => c k * rsum n (fun j => v i * cos (ang L k i - ang L k j) * v j)))).
    + rewrite rsum_swap. apply rsum_nonneg. intros k _. rewrite rsum_scal, rsum_sq_cos.
      apply Rmult_le_pos; auto. pose proof (pow2_ge_0 (rsum n (fun i => v i * cos (ang L k i)))).
      pose proof (pow2_ge_0 (rsum n (fun i => v i * sin (ang L k i)))). lra.
    + intros i Hi.
      rewrite (rsum_ext n _ (fun j => rsum (S (L / 2)) (fun k => c k * (v i * cos (ang L k i - ang L k j) * v j)))).
      * rewrite rsum_swap. apply rsum_ext. intros k _. apply rsum_scal.
      * intros j Hj. rewrite acf_val, <- rsum_scal, <- rsum_scal_r. apply rsum_ext. intros k _. fold (c k).
        assert (E : cos (ang L k (Nat.max i j - Nat.min i j)) = cos (ang L k i - ang L k j)).
        { destruct (le_lt_dec i j).
          - replace (Nat.max i j - Nat.min i j)%nat with (j - i)%nat by lia.
            replace (ang L k i - ang L k j) with (- (ang L k (j - i))).
            + now rewrite cos_neg.
            + unfold ang. rewrite minus_INR by lia. unfold Rdiv. ring.
          - replace (Nat.max i j - Nat.min i j)%nat with (i - j)%nat by lia. f_equal.
            unfold ang. rewrite minus_INR by lia. unfold Rdiv. ring. }
        rewrite E. unfold c. ring.
Qed.
Lemma acf_zero_pos L (S_ : nat -> R) : (0 < L)%nat -> (forall k, 0 < S_ k) -> 0 < irfft_at L S_ (fun _ => 0) 0.
Proof.
  intros HL HS. assert (P : 0 < / INR L) by (apply Rinv_0_lt_compat, lt_0_INR; auto). rewrite acf_val.
  assert (T : forall k, 0 < / INR L * (if (k =? 0)%nat then 1 else if (2 * k =? L)%nat then 1 else 2) * S_ k * cos (ang L k 0)).
  { intros k. replace (ang L k 0) with 0 by (unfold ang; simpl (INR 0); unfold Rdiv; ring). rewrite cos_0, Rmult_1_r.
    apply Rmult_lt_0_compat; auto. apply Rmult_lt_0_compat; auto. destruct (k =? 0)%nat; [lra|]. destruct (2 * k =? L)%nat; lra. }
  apply (rsum_pos _ _ 0%nat); [lia|apply T|intros; apply Rlt_le, T].
Qed.
