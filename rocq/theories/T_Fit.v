(** Theorems on the FIR fits (fit_filter.py): C71-C74, C105. *)
From Coq Require Import Reals List Arith Lra Lia.
From Verif Require Import Base Sums Cplx M_DFT M_FilterStuff M_MC M_Fit S_Poly S_Fit S_MC P_Poly P_MC P_LinAlg P_Fit P_Fit2.
Import ListNotations.
Open Scope R_scope.

Lemma cis_neq t : cis t <> C0.
Proof.
  intros E. pose proof (sin2_cos2 t) as K. unfold Rsqr in K. apply (f_equal cnorm2) in E.
  unfold cnorm2, cis, C0 in E. cbn in E. lra.
Qed.
Lemma cis_opp_mul t : cmul (cis t) (cis (- t)) = C1.
Proof.
  unfold cis. rewrite cos_neg, sin_neg. apply C_eq; cbn; [|ring].
  pose proof (sin2_cos2 t) as K. unfold Rsqr in K. lra.
Qed.
(** The target of the fit is exp(-i w tau) / H. *)
Lemma target_unique (H t : C) x : cmul H t = cis (- x) -> cinv (cmul H (cis x)) = t.
Proof.
  intros E.
  assert (Hn : H <> C0) by (intros ->; rewrite cmul_0_l in E; symmetry in E; apply cis_neq in E; auto).
  apply (cmul_reg_l (cmul H (cis x))); [apply cmul_neq_0; auto; apply cis_neq|].
  rewrite cmul_inv_r by (apply cmul_neq_0; auto; apply cis_neq).
  rewrite <- cmul_assoc, (cmul_comm (cis x)), cmul_assoc, E, cmul_comm. symmetry. apply cis_opp_mul.
Qed.

(** ** C71 invLSFIR *)

(** The result of invLSFIR minimises the squared deviation of its frequency
    response from exp(-i w tau)/H over all filters of order N. *)
Theorem C71_least_squares lstsq (H : arr C) N tau f Fs (t : nat -> C) :
  exact_lstsq lstsq -> alen H = alen f ->
  (forall i, (i < alen f)%nat -> cmul (H i) (t i) = cis (- (radf f Fs i * tau))) ->
  exists b, invLSFIR lstsq H N tau f Fs WtNone = Ok b /\ alen b = S N /\
    forall c : vec, alen c = S N -> fir_misfit f Fs t b <= fir_misfit f Fs t c.
Proof.
  intros X L Ht. unfold invLSFIR, fir_design, delayed. rewrite L, Nat.eqb_refl. cbn [bind].
  unfold np_lstsq. cbn [mrows stack2 alen stack1]. rewrite Nat.eqb_refl.
  destruct (lsq_stack lstsq (alen f) (S N) (Eexp f Fs)
     (fun i => cinv (cmul (H i) (cis (2 * PI * f i / Fs * tau)))) X) as [Lb Min].
  eexists. split; [reflexivity|]. split; [exact Lb|]. intros c Lc. specialize (Min c).
  assert (Q : forall b : vec, alen b = S N -> rsum (alen f) (fun i => cnorm2 (csub (lin (S N) b (Eexp f Fs i))
      (cinv (cmul (H i) (cis (2 * PI * f i / Fs * tau)))))) = fir_misfit f Fs t b).
  { intros b Eb. apply rsum_ext. intros i Hi. rewrite lin_freq by auto. do 2 f_equal.
    apply target_unique. apply Ht. auto. }
  rewrite !Q in Min by auto. exact Min.
Qed.
Print Assumptions C71_least_squares.

(** If some filter h of order N has exactly the response exp(-i w tau)/H at the
    given frequencies and these determine the filter, then h is returned. *)
Theorem C71_exact_inverse lstsq (H : arr C) N tau f Fs (h : vec) :
  exact_lstsq lstsq -> alen H = alen f -> alen h = S N -> determines f Fs (S N) ->
  (forall i, (i < alen f)%nat -> cmul (H i) (freq_resp h (radf f Fs i)) = cis (- (radf f Fs i * tau))) ->
  exists b, invLSFIR lstsq H N tau f Fs WtNone = Ok b /\ veq b h.
Proof.
  intros X L Lh D Hh.
  destruct (C71_least_squares lstsq H N tau f Fs (fun i => freq_resp h (radf f Fs i)) X L Hh) as [b [E [Lb Min]]].
  exists b. split; auto. split; [congruence|].
  specialize (Min h Lh).
  assert (Z : fir_misfit f Fs (fun i => freq_resp h (radf f Fs i)) h = 0).
  { apply rsum_zero. intros i Hi. rewrite csub_diag. unfold cnorm2, C0. cbn. ring. }
  rewrite Z in Min.
  assert (E0 : fir_misfit f Fs (fun i => freq_resp h (radf f Fs i)) b = 0).
  { apply Rle_antisym; auto. apply rsum_nonneg. intros. apply cnorm2_nonneg. }
  intros j Hj. assert (b j - h j = 0); [|lra].
  apply (D (mkArr (S N) (fun j => b j - h j))); auto; [|lia].
  intros i Hi.
  assert (K : cnorm2 (csub (freq_resp b (radf f Fs i)) (freq_resp h (radf f Fs i))) = 0).
  { apply (rsum_nonneg_zero (alen f) (fun i => cnorm2 (csub (freq_resp b (radf f Fs i)) (freq_resp h (radf f Fs i))))); auto.
    intros. apply cnorm2_nonneg. }
  apply cnorm2_zero in K. rewrite <- K. unfold freq_resp. cbn [alen aget]. rewrite Lb, Lh.
  apply C_eq; unfold csub; cbn [fst snd]; rewrite ?csum_fst, ?csum_snd, <- rsum_minus; apply rsum_ext; intros; cbn; ring.
Qed.
Print Assumptions C71_exact_inverse.

(** Distinct frequencies strictly between 0 and Fs/2 determine the filter as soon
    as there are half as many of them as coefficients. *)
Theorem C71_enough_frequencies lstsq (H : arr C) N tau f Fs (h : vec) :
  exact_lstsq lstsq -> alen H = alen f -> alen h = S N ->
  interior_distinct f Fs -> (S N <= 2 * alen f)%nat ->
  (forall i, (i < alen f)%nat -> cmul (H i) (freq_resp h (radf f Fs i)) = cis (- (radf f Fs i * tau))) ->
  exists b, invLSFIR lstsq H N tau f Fs WtNone = Ok b /\ veq b h.
Proof. intros. apply C71_exact_inverse; auto. apply interior_determines; auto. Qed.
Print Assumptions C71_enough_frequencies.

(** Example: H = 1/(1 + exp(-i w)/2) at Fs/4 and order 1: the filter [1, 1/2] is
    found (reference solver). *)
Lemma quarter_radf : radf (of_list [1]) 4 0 = PI / 2.
Proof. unfold radf. cbn. field. Qed.
Lemma freq_one_half : freq_resp (of_list [1; /2]) (PI / 2) = (1, - / 2).
Proof.
  unfold freq_resp. cbn [alen of_list length csum]. apply C_eq; cbn -[cos sin PI].
  - replace (- (PI / 2 * 0)) with 0 by ring. replace (- (PI / 2 * 1)) with (- (PI / 2)) by ring.
    rewrite cos_neg, cos_PI2, cos_0. lra.
  - replace (- (PI / 2 * 0)) with 0 by ring. replace (- (PI / 2 * 1)) with (- (PI / 2)) by ring.
    rewrite sin_neg, sin_PI2, sin_0. lra.
Qed.
Lemma one_interior : interior_distinct (of_list [1]) 4.
Proof.
  split.
  - intros i Hi. cbn in Hi. assert (i = 0%nat) by lia. subst. cbn. lra.
  - intros i j Hi Hj. cbn in Hi, Hj. lia.
Qed.
Example C71_ex : exists b, invLSFIR lstsq_ref (mkArr 1 (fun _ => cinv (1, - / 2))) 1 0 (of_list [1]) 4 WtNone = Ok b
  /\ veq b (of_list [1; /2]).
Proof.
  apply C71_enough_frequencies; auto.
  - apply lstsq_ref_exact.
  - apply one_interior.
  - intros i Hi. cbn in Hi. assert (i = 0%nat) by lia. subst. rewrite quarter_radf, freq_one_half. cbn [aget].
    rewrite cmul_inv_l; [|intros E; apply (f_equal fst) in E; cbn in E; lra].
    rewrite Rmult_0_r, Ropp_0. unfold cis. rewrite cos_0, sin_0. reflexivity.
Qed.

(** Arrays that do not fit are rejected: a different number of responses and
    frequencies raises, unless one of the two is a single value; a single
    frequency with several responses raises as well. *)
Theorem C71_mismatch lstsq (H : arr C) N tau f Fs :
  alen H <> alen f -> alen H <> 1%nat ->
  invLSFIR lstsq H N tau f Fs WtNone = Err (if (alen f =? 1)%nat then LinAlgError else ValueError).
Proof.
  intros E1 E2. unfold invLSFIR, fir_design, delayed. cbn [bind].
  apply Nat.eqb_neq in E1, E2. rewrite E1, E2.
  destruct (alen f =? 1)%nat eqn:E3; [|reflexivity]. cbn [bind]. unfold np_lstsq. cbn [mrows stack2 stack1 alen].
  apply Nat.eqb_neq in E1. assert (Q : (alen f + alen f =? alen H + alen H)%nat = false) by (apply Nat.eqb_neq; lia).
  rewrite Q. auto.
Qed.
Print Assumptions C71_mismatch.
Example C71_mismatch_ex :
  invLSFIR lstsq_ref (mkArr 3 (fun _ => C1)) 1 0 (of_list [1; 2]) 8 WtNone = Err ValueError.
Proof. rewrite C71_mismatch by (cbn; lia). reflexivity. Qed.

(** ** C72 LSFIR *)

(** LSFIR fits the reciprocal of the response, like invLSFIR. *)
Theorem C72_inverts_partial lstsq (H : arr C) N tau f Fs (h : vec) :
  exact_lstsq lstsq -> alen H = alen f -> alen h = S N -> determines f Fs (S N) ->
  (forall i, (i < alen f)%nat -> cmul (H i) (freq_resp h (radf f Fs i)) = cis (- (radf f Fs i * tau))) ->
  exists b, LSFIR lstsq H N tau f Fs WtNone = Ok b /\ veq b h.
Proof. exact (C71_exact_inverse lstsq H N tau f Fs h). Qed.
Print Assumptions C72_inverts_partial.

(** The full statement (H exactly the response of h gives h) is false. *)
Theorem C72_fits_response_refuted :
  exists (H : arr C) N f Fs (h : vec),
    alen h = S N /\ alen H = alen f /\ interior_distinct f Fs /\ (S N <= 2 * alen f)%nat /\
    (forall i, (i < alen f)%nat -> H i = freq_resp h (radf f Fs i)) /\
    forall lstsq, exact_lstsq lstsq ->
      exists b, LSFIR lstsq H N 0 f Fs WtNone = Ok b /\ b 0%nat <> h 0%nat.
Proof.
  exists (mkArr 1 (fun _ => (2, 0))), 0%nat, (of_list [1]), 4, (of_list [2]).
  assert (Fr : forall x w, freq_resp (of_list [x]) w = (x, 0)).
  { intros x w. unfold freq_resp. cbn [alen of_list length csum]. apply C_eq; cbn -[cos sin];
    rewrite Rmult_0_r, Ropp_0, ?cos_0, ?sin_0; ring. }
  split; [reflexivity|]. split; [reflexivity|]. split; [apply one_interior|]. split; [cbn; lia|].
  split; [intros; rewrite Fr; reflexivity|]. intros lstsq X.
  destruct (C72_inverts_partial lstsq (mkArr 1 (fun _ => (2, 0))) 0 0 (of_list [1]) 4 (of_list [/ 2])) as [b [E V]]; auto.
  - apply interior_determines; [apply one_interior|cbn; lia].
  - intros i Hi. rewrite Fr. cbn [aget]. rewrite Rmult_0_r, Ropp_0. unfold cis. rewrite cos_0, sin_0.
    apply C_eq; cbn; lra.
  - exists b. split; auto. destruct V as [Lb Vb]. specialize (Vb 0%nat ltac:(rewrite Lb; cbn; lia)).
    rewrite Vb. cbn. lra.
Qed.
Print Assumptions C72_fits_response_refuted.

(** ** C73 weights *)

(** What a weight vector does: the weights multiply the filter response only. *)
Theorem C73_weighted_fit_partial lstsq (H : arr C) N tau f Fs (wt : vec) (t : nat -> C) :
  exact_lstsq lstsq -> alen H = alen f -> alen wt = alen f ->
  (forall i, (i < alen f)%nat -> cmul (H i) (t i) = cis (- (radf f Fs i * tau))) ->
  exists b, invLSFIR lstsq H N tau f Fs (WtVec wt) = Ok b /\
    LSFIR lstsq H N tau f Fs (WtVec wt) = Ok b /\ alen b = S N /\
    forall c : vec, alen c = S N -> fir_wmisfit f Fs wt t b <= fir_wmisfit f Fs wt t c.
Proof.
  intros X L Lw Ht. unfold LSFIR, invLSFIR, fir_design, delayed. rewrite L, Lw, Nat.eqb_refl. cbn [bind].
  unfold np_lstsq. cbn [mrows stack2 alen stack1]. rewrite Nat.eqb_refl.
  set (E := fun i n => cscal (wt i) (Eexp f Fs i n)).
  destruct (lsq_stack lstsq (alen f) (S N) E
     (fun i => cinv (cmul (H i) (cis (2 * PI * f i / Fs * tau)))) X) as [Lb Min].
  eexists. split; [reflexivity|]. split; [reflexivity|]. split; [exact Lb|]. intros c Lc. specialize (Min c).
  assert (Q : forall b : vec, alen b = S N -> rsum (alen f) (fun i => cnorm2 (csub (lin (S N) b (E i))
      (cinv (cmul (H i) (cis (2 * PI * f i / Fs * tau)))))) = fir_wmisfit f Fs wt t b).
  { intros b Eb. apply rsum_ext. intros i Hi. do 2 f_equal.
    - rewrite <- (lin_freq b f Fs i (S N)) by auto. unfold lin, E.
      apply C_eq; unfold cscal; cbn [fst snd]; rewrite ?csum_fst, ?csum_snd, <- rsum_scal; apply rsum_ext; intros; cbn; ring.
    - apply target_unique. apply Ht. auto. }
  rewrite !Q in Min by auto. exact Min.
Qed.
Print Assumptions C73_weighted_fit_partial.

(** A constant weight q scales the exact solution by 1/q. *)
Theorem C73_constant_weight_partial lstsq (H : arr C) N tau f Fs (h : vec) q :
  exact_lstsq lstsq -> alen H = alen f -> alen h = S N -> determines f Fs (S N) -> q <> 0 ->
  (forall i, (i < alen f)%nat -> cmul (H i) (freq_resp h (radf f Fs i)) = cis (- (radf f Fs i * tau))) ->
  exists b, invLSFIR lstsq H N tau f Fs (WtVec (mkArr (alen f) (fun _ => q))) = Ok b /\
    LSFIR lstsq H N tau f Fs (WtVec (mkArr (alen f) (fun _ => q))) = Ok b /\
    alen b = S N /\ forall j, (j < S N)%nat -> b j = h j / q.
Proof.
  intros X L Lh D Hq Hh.
  destruct (C73_weighted_fit_partial lstsq H N tau f Fs (mkArr (alen f) (fun _ => q))
     (fun i => freq_resp h (radf f Fs i)) X L eq_refl Hh) as [b [E [E' [Lb Min]]]].
  exists b. split; auto. split; auto. split; auto.
  specialize (Min (mkArr (S N) (fun j => h j / q)) eq_refl).
  assert (Sc : forall i, freq_resp (mkArr (S N) (fun j => h j / q)) (radf f Fs i) = cscal (/ q) (freq_resp h (radf f Fs i))).
  { intros i. unfold freq_resp. rewrite Lh. cbn [alen aget].
    apply C_eq; unfold cscal; cbn [fst snd]; rewrite ?csum_fst, ?csum_snd, <- rsum_scal; apply rsum_ext; intros; cbn; unfold Rdiv; ring. }
  assert (Z : fir_wmisfit f Fs (mkArr (alen f) (fun _ => q)) (fun i => freq_resp h (radf f Fs i)) (mkArr (S N) (fun j => h j / q)) = 0).
  { apply rsum_zero. intros i Hi. cbn [aget]. rewrite Sc. apply cnorm2_zero. apply C_eq; unfold cscal, csub; cbn [fst snd C0]; field; auto. }
  rewrite Z in Min.
  assert (E0 : fir_wmisfit f Fs (mkArr (alen f) (fun _ => q)) (fun i => freq_resp h (radf f Fs i)) b = 0).
  { apply Rle_antisym; auto. apply rsum_nonneg. intros. apply cnorm2_nonneg. }
  intros j Hj. assert (b j - h j / q = 0); [|lra].
  apply (D (mkArr (S N) (fun j => b j - h j / q))); auto.
  intros i Hi.
  assert (K : cnorm2 (csub (cscal q (freq_resp b (radf f Fs i))) (freq_resp h (radf f Fs i))) = 0).
  { apply (rsum_nonneg_zero (alen f) (fun i => cnorm2 (csub (cscal q (freq_resp b (radf f Fs i))) (freq_resp h (radf f Fs i))))); auto.
    intros. apply cnorm2_nonneg. }
  apply cnorm2_zero in K.
  assert (K2 : csub (freq_resp b (radf f Fs i)) (cscal (/ q) (freq_resp h (radf f Fs i))) = C0).
  { apply (f_equal (cscal (/ q))) in K.
    transitivity (cscal (/ q) C0); [|apply C_eq; cbn; ring]. rewrite <- K.
    apply C_eq; unfold cscal, csub; cbn [fst snd]; field; auto. }
  rewrite <- K2, <- Sc. unfold freq_resp. cbn [alen aget]. rewrite Lb.
  apply C_eq; unfold csub; cbn [fst snd]; rewrite ?csum_fst, ?csum_snd, <- rsum_minus; apply rsum_ext; intros; cbn; ring.
Qed.
Print Assumptions C73_constant_weight_partial.

(** The full statement is false: an exactly solvable fit changes with the weights. *)
Theorem C73_weights_refuted :
  exists (H : arr C) N f Fs (h wt : vec),
    alen h = S N /\ alen H = alen f /\ alen wt = alen f /\ interior_distinct f Fs /\ (S N <= 2 * alen f)%nat /\
    (forall i, (i < alen f)%nat -> 0 < wt i) /\
    (forall i, (i < alen f)%nat -> cmul (H i) (freq_resp h (radf f Fs i)) = C1) /\
    forall lstsq, exact_lstsq lstsq ->
      exists b b', invLSFIR lstsq H N 0 f Fs WtNone = Ok b /\ veq b h /\
        invLSFIR lstsq H N 0 f Fs (WtVec wt) = Ok b' /\ LSFIR lstsq H N 0 f Fs (WtVec wt) = Ok b' /\
        ~ veq b' h.
Proof.
  exists (mkArr 1 (fun _ => cinv (1, - / 2))), 1%nat, (of_list [1]), 4, (of_list [1; /2]), (mkArr 1 (fun _ => 2)).
  assert (Hh : forall i, (i < 1)%nat -> cmul ((mkArr 1 (fun _ => cinv (1, - / 2)) : arr C) i) (freq_resp (of_list [1; /2]) (radf (of_list [1]) 4 i)) = C1).
  { intros i Hi. assert (i = 0%nat) by lia. subst. rewrite quarter_radf, freq_one_half. cbn [aget].
    rewrite cmul_inv_l; auto. intros E; apply (f_equal fst) in E; cbn in E; lra. }
  assert (Hh0 : forall i, (i < 1)%nat -> cmul ((mkArr 1 (fun _ => cinv (1, - / 2)) : arr C) i) (freq_resp (of_list [1; /2]) (radf (of_list [1]) 4 i)) = cis (- (radf (of_list [1]) 4 i * 0))).
  { intros i Hi. rewrite Hh by auto. rewrite Rmult_0_r, Ropp_0. unfold cis. rewrite cos_0, sin_0. reflexivity. }
  do 3 (split; [reflexivity|]). split; [apply one_interior|]. split; [cbn; lia|].
  split; [intros; cbn; lra|]. split; [exact Hh|].
  intros lstsq X.
  destruct (C71_enough_frequencies lstsq (mkArr 1 (fun _ => cinv (1, - / 2))) 1 0 (of_list [1]) 4 (of_list [1; /2])) as [b [E V]]; auto.
  { apply one_interior. }
  destruct (C73_constant_weight_partial lstsq (mkArr 1 (fun _ => cinv (1, - / 2))) 1 0 (of_list [1]) 4 (of_list [1; /2]) 2)
    as [b' [E1 [E2 [Lb Hb]]]]; auto; [apply interior_determines; [apply one_interior|cbn; lia]|].
  exists b, b'. split; auto. split; auto. split; auto. split; auto.
  intros [_ K]. specialize (K 0%nat ltac:(rewrite Lb; lia)). rewrite Hb in K by lia. cbn in K. lra.
Qed.
Print Assumptions C73_weights_refuted.

(** A weighting matrix (offered by the documentation of LSFIR) always raises for
    more than one frequency. *)
Theorem C73_matrix_raises lstsq (H : arr C) N tau f Fs (W : mat) :
  mrows W = alen f -> mcols W = alen f -> alen H = alen f -> alen f <> 1%nat ->
  LSFIR lstsq H N tau f Fs (WtMat W) = Err LinAlgError /\
  invLSFIR lstsq H N tau f Fs (WtMat W) = Err LinAlgError.
Proof.
  intros R1 R2 L NE. unfold LSFIR, invLSFIR, fir_design, delayed. rewrite R1, R2, L, Nat.min_id, Nat.eqb_refl.
  cbn [bind]. unfold np_lstsq. cbn [mrows stack2 alen stack1].
  assert (Q : (1 + 1 =? alen f + alen f)%nat = false) by (apply Nat.eqb_neq; lia). rewrite Q. auto.
Qed.
Print Assumptions C73_matrix_raises.
Lemma freq_unit w : freq_resp (of_list [1; 0]) w = C1.
Proof.
  unfold freq_resp. cbn [alen of_list length csum]. apply C_eq; cbn -[cos sin].
  - replace (- (w * 0)) with 0 by ring. rewrite cos_0. ring.
  - replace (- (w * 0)) with 0 by ring. rewrite sin_0. ring.
Qed.
(** So an exactly solvable fit (the response 1) with the identity as weighting
    matrix fails. *)
Theorem C73_matrix_refuted :
  exists (H : arr C) N f Fs (h : vec) (W : mat),
    alen h = S N /\ alen H = alen f /\ mrows W = alen f /\ mcols W = alen f /\ interior_distinct f Fs /\
    (S N <= 2 * alen f)%nat /\ (forall i j, W i j = if (i =? j)%nat then if (i <? 2)%nat then 1 else 0 else 0) /\
    (forall i, (i < alen f)%nat -> cmul (H i) (freq_resp h (radf f Fs i)) = C1) /\
    forall lstsq, LSFIR lstsq H N 0 f Fs (WtMat W) = Err LinAlgError /\
      invLSFIR lstsq H N 0 f Fs (WtMat W) = Err LinAlgError.
Proof.
  exists (mkArr 2 (fun _ => C1)), 1%nat, (of_list [1; 2]), 8, (of_list [1; 0]),
    (mkMat 2 2 (fun i j => if (i =? j)%nat then if (i <? 2)%nat then 1 else 0 else 0)).
  do 4 (split; [reflexivity|]). split.
  { split.
    - intros [|[|i]] Hi; cbn in Hi |- *; [lra|lra|lia].
    - intros [|[|i]] [|[|j]] Hi Hj N; cbn in Hi, Hj |- *; try lra; try lia; try congruence. }
  split; [cbn; lia|]. split; [reflexivity|]. split.
  - intros i Hi. rewrite freq_unit. apply cmul_1_l.
  - intros lstsq. apply C73_matrix_raises; cbn; auto.
Qed.
Print Assumptions C73_matrix_refuted.
Example C73_matrix_ex : LSFIR lstsq_ref (mkArr 2 (fun _ => C1)) 1 0 (of_list [1; 2]) 8
  (WtMat (of_rows [[1; 0]; [0; 1]])) = Err LinAlgError.
Proof. apply C73_matrix_raises; cbn; auto. Qed.

(** invLSFIR_unc rejects every user-defined weighting. *)
Theorem C73_unc_weights_raise mvn svd (H : arr C) UH N tau f Fs wt tol runs :
  invLSFIR_unc mvn svd H UH N tau f Fs (Some wt) tol runs = Err ValueError.
Proof.
  unfold invLSFIR_unc. unfold draw_mvn.
  destruct (_ && _)%bool; cbn [bind]; [|reflexivity]. destruct (negb _); reflexivity.
Qed.
Print Assumptions C73_unc_weights_raise.
Theorem C73_unc_weights_refuted :
  exists (H : arr C) UH N f Fs (h wt : vec),
    alen h = S N /\ alen H = alen f /\ response_form H UH f H /\ alen wt = (alen f + alen f)%nat /\
    interior_distinct f Fs /\ (S N <= 2 * alen f)%nat /\
    (forall i, (i < alen wt)%nat -> wt i = 1) /\
    (forall i, (i < alen f)%nat -> cmul (H i) (freq_resp h (radf f Fs i)) = C1) /\
    forall mvn svd tol runs, invLSFIR_unc mvn svd H UH N 0 f Fs (Some wt) tol runs = Err ValueError.
Proof.
  exists (mkArr 1 (fun _ => C1)), (zeros2 2 2), 1%nat, (of_list [1]), 4, (of_list [1; 0]), (mkArr 2 (fun _ => 1)).
  do 2 (split; [reflexivity|]). split.
  { do 2 (split; [reflexivity|]). split; [cbn; lia|]. left. auto. }
  split; [reflexivity|]. split; [apply one_interior|]. split; [cbn; lia|]. split; [reflexivity|]. split.
  - intros i Hi. rewrite freq_unit. apply cmul_1_l.
  - intros. apply C73_unc_weights_raise.
Qed.
Print Assumptions C73_unc_weights_refuted.

(** ** invLSFIR_unc: estimate *)

Lemma design_ok f Fs N : fir_design_matrix f Fs (S N)
  (mkMat (alen f + alen f) (S N) (fun r n => 1 * stack2 (alen f) (S N) (Eexp f Fs) r n)).
Proof.
  split; [reflexivity|]. split; [reflexivity|]. intros i n Hi Hn. cbn [mget stack2].
  assert (Q : (i <? alen f)%nat = true) by (apply Nat.ltb_lt; auto).
  assert (Q' : (alen f + i <? alen f)%nat = false) by (apply Nat.ltb_ge; lia). rewrite Q, Q'.
  replace (alen f + i - alen f)%nat with i by lia.
  unfold Eexp, cis, Re, Im. cbn [fst snd]. rewrite cos_neg, sin_neg. unfold radf. split; ring.
Qed.
Lemma design_indep f Fs N X : determines f Fs (S N) -> fir_design_matrix f Fs (S N) X -> indep_cols X.
Proof.
  intros D [R0 [C0_ E]] c Hc j Hj.
  pose proof (fir_indep f Fs (S N) D c) as K. apply K; [|cbn; lia].
  intros i Hi. cbn [mrows stack2] in Hi. rewrite <- (Hc i) by lia. unfold mv. rewrite C0_. cbn [mcols stack2].
  apply rsum_ext. intros n Hn. f_equal. cbn [mget stack2].
  destruct (i <? alen f)%nat eqn:Q.
  - apply Nat.ltb_lt in Q. destruct (E i n Q Hn) as [-> _]. unfold Eexp, cis, Re. cbn [fst]. rewrite cos_neg. auto.
  - apply Nat.ltb_ge in Q. destruct (E (i - alen f)%nat n ltac:(lia) Hn) as [_ E2].
    replace (alen f + (i - alen f))%nat with i in E2 by lia. rewrite E2. unfold Eexp, cis, Im. cbn [snd]. rewrite sin_neg. auto.
Qed.
Lemma design_solves f Fs N X (h : vec) t : alen h = S N -> fir_design_matrix f Fs (S N) X ->
  (forall i, (i < alen f)%nat -> freq_resp h (radf f Fs i) = t i) ->
  forall r, (r < mrows X)%nat -> mv X h r = stack1 (alen f) t r.
Proof.
  intros Lh [R0 [C0_ E]] Ht r Hr. rewrite R0 in Hr.
  rewrite <- (stack_solves (alen f) (S N) (Eexp f Fs) h t); auto; [|intros; rewrite lin_freq by auto; auto].
  unfold mv. rewrite C0_. cbn [mcols stack2]. apply rsum_ext. intros n Hn. f_equal. cbn [mget stack2].
  destruct (r <? alen f)%nat eqn:Q.
  - apply Nat.ltb_lt in Q. destruct (E r n Q Hn) as [-> _]. unfold Eexp, cis, Re. cbn [fst]. rewrite cos_neg. auto.
  - apply Nat.ltb_ge in Q. destruct (E (r - alen f)%nat n ltac:(lia) Hn) as [_ E2].
    replace (alen f + (r - alen f))%nat with r in E2 by lia. rewrite E2. unfold Eexp, cis, Im. cbn [snd]. rewrite sin_neg. auto.
Qed.

Definition unc_M svd f Fs N : mat :=
  let X := mkMat (alen f + alen f) (S N) (fun r n => 1 * stack2 (alen f) (S N) (Eexp f Fs) r n) in
  svd_pinv (fst (fst (svd X))) (snd (fst (svd X))) (snd (svd X)).
Lemma trunc_none s : forall k, trunc_s None s k = s k.
Proof. reflexivity. Qed.

Lemma unc_shape mvn svd H UH N tau f Fs runs Hc : response_form H UH f Hc ->
  exists b Ub, invLSFIR_unc mvn svd H UH N tau f Fs None None runs = Ok (b, Ub) /\
    alen b = mcols (snd (svd (mkMat (alen f + alen f) (S N) (fun r n => 1 * stack2 (alen f) (S N) (Eexp f Fs) r n)))) /\
    (forall i, b i = rsum (mcols (unc_M svd f Fs N)) (fun j => unc_M svd f Fs N i j *
        stack1 (alen f) (fun i => cinv (cmul (if (alen H =? alen f)%nat then H i else (fst (H i), fst (H (alen f + i)%nat)))
                           (cis (2 * PI * f i / Fs * tau)))) j)) /\
    (exists RI, alen RI = (alen f + alen f)%nat /\
       (forall i, (i < alen f)%nat -> resp (alen f) RI i = Hc i) /\
     forall i j, Ub i j = mdot (mdot (unc_M svd f Fs N)
       (rows_cov (alen f + alen f) (map (himc_row f Fs tau) (map (mvn RI UH runs) (seq 0 runs))))) (transp (unc_M svd f Fs N)) i j).
Proof.
  intros [Er [Ec [Pos F]]]. unfold invLSFIR_unc.
  set (X := mkMat (alen f + alen f) (S N) (fun r n => 1 * stack2 (alen f) (S N) (Eexp f Fs) r n)).
  destruct F as [[LH F]|[LH F]].
  - assert (Q : (alen H =? mrows UH)%nat = false) by (apply Nat.eqb_neq; lia). rewrite Q. cbn [negb].
    unfold draw_mvn. cbn [alen stack1]. rewrite Er, Ec, LH, !Nat.eqb_refl. cbn [andb bind negb].
    change (mkMat (mrows (stack2 (alen f) (S N) (Eexp f Fs))) (mcols (stack2 (alen f) (S N) (Eexp f Fs)))
       (fun r n => 1 * stack2 (alen f) (S N) (Eexp f Fs) r n)) with X.
    unfold unc_M. fold X. destruct (svd X) as [[u s] v] eqn:ES. cbn [fst snd].
    eexists _, _. split; [reflexivity|]. split; [reflexivity|].
    assert (T : svd_pinv u (trunc_s None s) v = svd_pinv u s v) by reflexivity. rewrite T.
    split; [intros i; reflexivity|].
    exists (stack1 (alen f) H). split; [reflexivity|]. split.
    + intros i Hi. rewrite F by auto. unfold resp. rewrite stack1_re, stack1_im by auto. symmetry. apply surjective_pairing.
    + reflexivity.
  - assert (Q : (alen H =? mrows UH)%nat = true) by (apply Nat.eqb_eq; lia). rewrite Q. cbn [negb].
    unfold draw_mvn. cbn [alen]. rewrite Er, Ec, LH, !Nat.eqb_refl. cbn [andb bind negb].
    change (mkMat (mrows (stack2 (alen f) (S N) (Eexp f Fs))) (mcols (stack2 (alen f) (S N) (Eexp f Fs)))
       (fun r n => 1 * stack2 (alen f) (S N) (Eexp f Fs) r n)) with X.
    unfold unc_M. fold X. destruct (svd X) as [[u s] v] eqn:ES. cbn [fst snd].
    assert (Q2 : (alen f + alen f =? alen f)%nat = false) by (apply Nat.eqb_neq; lia). rewrite Q2.
    eexists _, _. split; [reflexivity|]. split; [reflexivity|].
    assert (T : svd_pinv u (trunc_s None s) v = svd_pinv u s v) by reflexivity. rewrite T.
    split; [intros i; reflexivity|].
    exists (mkArr (alen f + alen f) (fun i => Re (H i))). split; [reflexivity|]. split.
    + intros i Hi. rewrite F by auto. reflexivity.
    + reflexivity.
Qed.

(** Without truncation the estimate of invLSFIR_unc is a least squares fit, and
    an exact inverse filter is recovered. *)
Theorem C71_unc_least_squares mvn svd (H : arr C) UH N tau f Fs runs (Hc t : nat -> C) :
  response_form H UH f Hc -> svd_for svd f Fs (S N) ->
  (forall i, (i < alen f)%nat -> cmul (Hc i) (t i) = cis (- (radf f Fs i * tau))) ->
  exists b Ub, invLSFIR_unc mvn svd H UH N tau f Fs None None runs = Ok (b, Ub) /\ alen b = S N /\
    forall c : vec, alen c = S N -> fir_misfit f Fs t b <= fir_misfit f Fs t c.
Proof.
  intros RF SV Ht.
  destruct (unc_shape mvn svd H UH N tau f Fs runs Hc RF) as [b [Ub [E [Lb [Hb _]]]]].
  exists b, Ub. split; auto.
  pose proof (SV _ (design_ok f Fs N)) as Sv.
  set (X := mkMat (alen f + alen f) (S N) (fun r n => 1 * stack2 (alen f) (S N) (Eexp f Fs) r n)) in *.
  assert (Lb' : alen b = S N).
  { rewrite Lb. destruct Sv as [_ [_ [_ [Q _]]]]. rewrite Q. reflexivity. }
  split; auto. intros c Lc.
  pose proof (svd_normal X _ _ _ Sv (stack1 (alen f) t)) as Nq.
  assert (Nb : normal_eq X (stack1 (alen f) t) b).
  { intros j Hj. rewrite <- (Nq j Hj). apply rsum_ext. intros i Hi. do 2 f_equal. apply mv_ext. intros k Hk.
    rewrite Hb. apply rsum_ext. intros r Hr. f_equal. unfold unc_M in Hr. fold X in Hr.
    cbn [mcols svd_pinv] in Hr. destruct Sv as [Q _]. rewrite Q in Hr. cbn [X mrows] in Hr.
    assert (TT : forall i, (i < alen f)%nat -> cinv (cmul (if (alen H =? alen f)%nat then H i
        else (fst (H i), fst (H (alen f + i)%nat))) (cis (2 * PI * f i / Fs * tau))) = t i).
    { intros q Hq. apply target_unique. rewrite <- (Ht q Hq : _ = cis (- (2 * PI * f q / Fs * tau))). f_equal.
      destruct RF as [_ [_ [Pos [[L F]|[L F]]]]]; rewrite F by auto; rewrite L.
      - rewrite Nat.eqb_refl. auto.
      - assert (Z : (alen f + alen f =? alen f)%nat = false) by (apply Nat.eqb_neq; lia). rewrite Z. auto. }
    cbn [stack1 aget]. destruct (r <? alen f)%nat eqn:Z.
    - apply Nat.ltb_lt in Z. unfold Re. rewrite TT by auto. auto.
    - apply Nat.ltb_ge in Z. unfold Im. rewrite TT by lia. auto. }
  pose proof (normal_expand X _ b c Nb) as Ex.
  pose proof (sqdist_nonneg (mrows X) (mv X c) (mv X b)) as P.
  assert (Mf : forall c : vec, alen c = S N -> sqdist (mrows X) (mv X c) (stack1 (alen f) t) = fir_misfit f Fs t c).
  { intros d Ld. unfold X. cbn [mrows].
    transitivity (sqdist (alen f + alen f) (mv (stack2 (alen f) (S N) (Eexp f Fs)) d) (stack1 (alen f) t)).
    - apply rsum_ext. intros i Hi. do 2 f_equal. unfold mv. cbn [mcols mget stack2]. apply rsum_ext. intros. ring.
    - rewrite sqdist_stack. apply rsum_ext. intros i Hi. rewrite lin_freq by auto. auto. }
  rewrite !Mf in Ex by auto. lra.
Qed.
Print Assumptions C71_unc_least_squares.

Theorem C71_unc_exact_inverse mvn svd (H : arr C) UH N tau f Fs runs (Hc : nat -> C) (h : vec) :
  response_form H UH f Hc -> svd_for svd f Fs (S N) -> alen h = S N -> determines f Fs (S N) ->
  (forall i, (i < alen f)%nat -> cmul (Hc i) (freq_resp h (radf f Fs i)) = cis (- (radf f Fs i * tau))) ->
  exists b Ub, invLSFIR_unc mvn svd H UH N tau f Fs None None runs = Ok (b, Ub) /\ veq b h.
Proof.
  intros RF SV Lh D Hh.
  destruct (C71_unc_least_squares mvn svd H UH N tau f Fs runs Hc (fun i => freq_resp h (radf f Fs i)) RF SV Hh)
    as [b [Ub [E [Lb Min]]]].
  exists b, Ub. split; auto. split; [congruence|].
  specialize (Min h Lh).
  assert (Z : fir_misfit f Fs (fun i => freq_resp h (radf f Fs i)) h = 0).
  { apply rsum_zero. intros i Hi. rewrite csub_diag. unfold cnorm2, C0. cbn. ring. }
  rewrite Z in Min.
  assert (E0 : fir_misfit f Fs (fun i => freq_resp h (radf f Fs i)) b = 0).
  { apply Rle_antisym; auto. apply rsum_nonneg. intros. apply cnorm2_nonneg. }
  intros j Hj. assert (b j - h j = 0); [|lra].
  apply (D (mkArr (S N) (fun j => b j - h j))); auto; [|lia].
  intros i Hi.
  assert (K : cnorm2 (csub (freq_resp b (radf f Fs i)) (freq_resp h (radf f Fs i))) = 0).
  { apply (rsum_nonneg_zero (alen f) (fun i => cnorm2 (csub (freq_resp b (radf f Fs i)) (freq_resp h (radf f Fs i))))); auto.
    intros. apply cnorm2_nonneg. }
  apply cnorm2_zero in K. rewrite <- K. unfold freq_resp. cbn [alen aget]. rewrite Lb, Lh.
  apply C_eq; unfold csub; cbn [fst snd]; rewrite ?csum_fst, ?csum_snd, <- rsum_minus; apply rsum_ext; intros; cbn; ring.
Qed.
Print Assumptions C71_unc_exact_inverse.

(** A decomposition for the design of the example: cos(0), cos(pi/2); -sin(0), -sin(pi/2). *)
Definition svd_ex (_ : mat) : mat * vec * mat :=
  (of_rows [[1; 0]; [0; -1]], of_list [1; 1], of_rows [[1; 0]; [0; 1]]).
Lemma svd_ex_ok : svd_for svd_ex (of_list [1]) 4 2.
Proof.
  intros X [Er [Ec E]]. cbn [alen of_list length] in *. cbn [svd_ex fst snd].
  assert (E0 : X 0%nat 0%nat = 1 /\ X 1%nat 0%nat = 0 /\ X 0%nat 1%nat = 0 /\ X 1%nat 1%nat = -1).
  { destruct (E 0%nat 0%nat ltac:(lia) ltac:(lia)) as [A B]. destruct (E 0%nat 1%nat ltac:(lia) ltac:(lia)) as [A' B'].
    rewrite quarter_radf in *. change (INR 0) with 0 in *. change (INR 1) with 1 in *.
    rewrite Rmult_0_r, ?cos_0, ?sin_0 in *. rewrite Rmult_1_r, ?cos_PI2, ?sin_PI2 in *. cbn in B, B'. repeat split; lra. }
  destruct E0 as [A [B [A' B']]]. unfold is_svd. rewrite Er, Ec. cbn [alen of_list length mrows mcols of_rows hd Nat.add].
  repeat (split; [reflexivity|]). split.
  { intros k Hk. destruct k as [|[|k]]; cbn; [lra|lra|lia]. }
  assert (Two : forall i, (i < 2)%nat -> i = 0%nat \/ i = 1%nat) by lia.
  repeat split; intros i j Hi Hj; destruct (Two i Hi) as [-> | ->], (Two j Hj) as [-> | ->];
    cbn; rewrite ?A, ?B, ?A', ?B'; unfold kron; cbn; ring.
Qed.
Example C71_unc_ex mvn : exists b Ub,
  invLSFIR_unc mvn svd_ex (mkArr 1 (fun _ => cinv (1, - / 2))) (zeros2 2 2) 1 0 (of_list [1]) 4 None None 2 = Ok (b, Ub)
  /\ veq b (of_list [1; /2]).
Proof.
  apply C71_unc_exact_inverse with (Hc := fun _ => cinv (1, - / 2)); auto.
  - do 2 (split; [reflexivity|]). split; [cbn; lia|]. left. auto.
  - apply svd_ex_ok.
  - apply interior_determines; [apply one_interior|cbn; lia].
  - intros i Hi. cbn in Hi. assert (i = 0%nat) by lia. subst. rewrite quarter_radf, freq_one_half.
    rewrite cmul_inv_l; [|intros E; apply (f_equal fst) in E; cbn in E; lra].
    rewrite Rmult_0_r, Ropp_0. unfold cis. rewrite cos_0, sin_0. reflexivity.
Qed.

(** ** C105 invLSFIR_uncMC *)

(** The result consists of the mean and the sample covariance of the least
    squares fits to exp(-i w tau) / H_k for the draws H_k. *)
Theorem C105_mean_and_covariance_of_fits mvn lstsq (H : arr C) UH N tau f Fs runs :
  exact_lstsq lstsq -> alen H = alen f ->
  mrows UH = (alen f + alen f)%nat -> mcols UH = (alen f + alen f)%nat -> (1 <= runs)%nat ->
  exists RI b Ub (fits : nat -> vec),
    alen RI = (alen f + alen f)%nat /\
    (forall i, (i < alen f)%nat -> resp (alen f) RI i = H i) /\
    invLSFIR_uncMC mvn lstsq H UH N tau f Fs runs = Ok (b, Ub) /\
    alen b = S N /\ mrows Ub = S N /\ mcols Ub = S N /\
    (forall i, b i = avg (fun k => fits k i) (seq 0 runs)) /\
    (forall i j, Ub i j = sample_cov (fun k => fits k i) (fun k => fits k j) (seq 0 runs)) /\
    forall k, (k < runs)%nat -> alen (fits k) = S N /\
      forall t : nat -> C,
      (forall i, (i < alen f)%nat -> cmul (resp (alen f) (mvn RI UH runs k) i) (t i) = cis (- (radf f Fs i * tau))) ->
      forall c : vec, alen c = S N -> fir_misfit f Fs t (fits k) <= fir_misfit f Fs t c.
Proof.
  intros X LH Er Ec Hr.
  set (RI := stack1 (alen f) H).
  set (A := stack2 (alen f) (S N) (Eexp f Fs)).
  set (fits := fun k => lstsq A (uncmc_target f Fs tau (mvn RI UH runs k))).
  exists RI, (rows_mean (S N) (map fits (seq 0 runs))), (rows_cov (S N) (map fits (seq 0 runs))), fits.
  split; [reflexivity|]. split.
  { intros i Hi. unfold resp, RI. rewrite stack1_re, stack1_im by auto. symmetry. apply surjective_pairing. }
  split.
  { unfold invLSFIR_uncMC, draw_mvn. rewrite LH. cbn [alen stack1]. rewrite Er, Ec, !Nat.eqb_refl. cbn [andb bind negb].
    rewrite map_map. reflexivity. }
  do 3 (split; [reflexivity|]).
  split; [intros; apply rows_mean_avg|].
  split; [intros; apply rows_cov_sample; rewrite seq_length; auto|].
  intros k Hk.
  destruct (lsq_stack lstsq (alen f) (S N) (Eexp f Fs)
    (fun i => cinv (cmul (unstack (alen f) (mvn RI UH runs k) i) (cis (2 * PI * f i / Fs * tau)))) X) as [Lb Min].
  split; [exact Lb|]. intros t Ht c Lc. specialize (Min c).
  assert (Q : forall b : vec, alen b = S N -> rsum (alen f) (fun i => cnorm2 (csub (lin (S N) b (Eexp f Fs i))
      (cinv (cmul (unstack (alen f) (mvn RI UH runs k) i) (cis (2 * PI * f i / Fs * tau)))))) = fir_misfit f Fs t b).
  { intros b Eb. apply rsum_ext. intros i Hi. rewrite lin_freq by auto. do 2 f_equal.
    apply target_unique. apply Ht. auto. }
  rewrite !Q in Min by auto. exact Min.
Qed.
Print Assumptions C105_mean_and_covariance_of_fits.

(** Without uncertainty (every draw equals H) the exact inverse filter comes back
    with a vanishing covariance. *)
Theorem C105_no_uncertainty (mvn : vec -> mat -> nat -> nat -> vec) lstsq (H : arr C) UH N tau f Fs runs (h : vec) :
  exact_lstsq lstsq -> alen H = alen f ->
  mrows UH = (alen f + alen f)%nat -> mcols UH = (alen f + alen f)%nat -> (1 <= runs)%nat ->
  (forall RI k i, mvn RI UH runs k i = RI i) ->
  alen h = S N -> determines f Fs (S N) ->
  (forall i, (i < alen f)%nat -> cmul (H i) (freq_resp h (radf f Fs i)) = cis (- (radf f Fs i * tau))) ->
  exists b Ub, invLSFIR_uncMC mvn lstsq H UH N tau f Fs runs = Ok (b, Ub) /\ veq b h /\
    forall i j, (i < S N)%nat -> (j < S N)%nat -> Ub i j = 0.
Proof.
  intros X LH Er Ec Hr Hm Lh D Hh.
  destruct (C105_mean_and_covariance_of_fits mvn lstsq H UH N tau f Fs runs X LH Er Ec Hr)
    as [RI [b [Ub [fits [LR [HR [E [Lb [_ [_ [Av [Cv Fit]]]]]]]]]]]].
  exists b, Ub. split; auto.
  assert (Ff : forall k j, (k < runs)%nat -> (j < S N)%nat -> fits k j = h j).
  { intros k j Hk Hj. destruct (Fit k Hk) as [Lf Min].
    specialize (Min (fun i => freq_resp h (radf f Fs i))).
    assert (Hyp : forall i, (i < alen f)%nat -> cmul (resp (alen f) (mvn RI UH runs k) i) (freq_resp h (radf f Fs i))
       = cis (- (radf f Fs i * tau))).
    { intros i Hi. rewrite <- Hh by auto. f_equal. rewrite <- HR by auto. unfold resp. rewrite !Hm. auto. }
    specialize (Min Hyp h Lh).
    assert (Z : fir_misfit f Fs (fun i => freq_resp h (radf f Fs i)) h = 0).
    { apply rsum_zero. intros i Hi. rewrite csub_diag. unfold cnorm2, C0. cbn. ring. }
    rewrite Z in Min.
    assert (E0 : fir_misfit f Fs (fun i => freq_resp h (radf f Fs i)) (fits k) = 0).
    { apply Rle_antisym; auto. apply rsum_nonneg. intros. apply cnorm2_nonneg. }
    assert (fits k j - h j = 0); [|lra].
    apply (D (mkArr (S N) (fun j => fits k j - h j))); auto.
    intros i Hi.
    assert (K : cnorm2 (csub (freq_resp (fits k) (radf f Fs i)) (freq_resp h (radf f Fs i))) = 0).
    { apply (rsum_nonneg_zero (alen f) (fun i => cnorm2 (csub (freq_resp (fits k) (radf f Fs i)) (freq_resp h (radf f Fs i))))); auto.
      intros. apply cnorm2_nonneg. }
    apply cnorm2_zero in K. rewrite <- K. unfold freq_resp. cbn [alen aget]. rewrite Lf, Lh.
    apply C_eq; unfold csub; cbn [fst snd]; rewrite ?csum_fst, ?csum_snd, <- rsum_minus; apply rsum_ext; intros; cbn; ring. }
  assert (Sq : forall k, In k (seq 0 runs) -> (k < runs)%nat) by (intros k Hk; apply in_seq in Hk; lia).
  split; [split; [congruence|]|].
  - intros j Hj. rewrite Av, (avg_ext _ (fun _ => h j)) by (intros k Hk; apply Ff; [auto|lia]).
    apply avg_const. rewrite seq_length. auto.
  - intros i j Hi Hj. rewrite Cv, (sample_cov_ext _ (fun _ => h i) _ (fun _ => h j)) by (intros k Hk; apply Ff; auto).
    apply sample_cov_const. rewrite seq_length. auto.
Qed.
Print Assumptions C105_no_uncertainty.
Example C105_ex : exists b Ub, invLSFIR_uncMC (fun m _ _ _ => m) lstsq_ref (mkArr 1 (fun _ => cinv (1, - / 2)))
  (zeros2 2 2) 1 0 (of_list [1]) 4 3 = Ok (b, Ub) /\ veq b (of_list [1; /2]) /\
  forall i j, (i < 2)%nat -> (j < 2)%nat -> Ub i j = 0.
Proof.
  apply C105_no_uncertainty; auto.
  - apply lstsq_ref_exact.
  - apply interior_determines; [apply one_interior|cbn; lia].
  - intros i Hi. cbn in Hi. assert (i = 0%nat) by lia. subst. rewrite quarter_radf, freq_one_half. cbn [aget].
    rewrite cmul_inv_l; [|intros E; apply (f_equal fst) in E; cbn in E; lra].
    rewrite Rmult_0_r, Ropp_0. unfold cis. rewrite cos_0, sin_0. reflexivity.
Qed.

(** ** C74 the covariance of invLSFIR_unc *)

Lemma misfit_unique f Fs L (h b : vec) : alen b = L -> alen h = L -> determines f Fs L ->
  fir_misfit f Fs (fun i => freq_resp h (radf f Fs i)) b <= fir_misfit f Fs (fun i => freq_resp h (radf f Fs i)) h ->
  forall j, (j < L)%nat -> b j = h j.
Proof.
  intros Lb Lh D Min j Hj.
  assert (Z : fir_misfit f Fs (fun i => freq_resp h (radf f Fs i)) h = 0).
  { apply rsum_zero. intros i Hi. rewrite csub_diag. unfold cnorm2, C0. cbn. ring. }
  rewrite Z in Min.
  assert (E0 : fir_misfit f Fs (fun i => freq_resp h (radf f Fs i)) b = 0).
  { apply Rle_antisym; auto. apply rsum_nonneg. intros. apply cnorm2_nonneg. }
  assert (b j - h j = 0); [|lra].
  apply (D (mkArr L (fun j => b j - h j))); auto.
  intros i Hi.
  assert (K : cnorm2 (csub (freq_resp b (radf f Fs i)) (freq_resp h (radf f Fs i))) = 0).
  { apply (rsum_nonneg_zero (alen f) (fun i => cnorm2 (csub (freq_resp b (radf f Fs i)) (freq_resp h (radf f Fs i))))); auto.
    intros. apply cnorm2_nonneg. }
  apply cnorm2_zero in K. rewrite <- K. unfold freq_resp. cbn [alen aget]. rewrite Lb, Lh.
  apply C_eq; unfold csub; cbn [fst snd]; rewrite ?csum_fst, ?csum_snd, <- rsum_minus; apply rsum_ext; intros; cbn; ring.
Qed.

Lemma himc_target f Fs tau d : forall r, (r < alen f + alen f)%nat ->
  himc_row f Fs tau d r =
  stack1 (alen f) (fun i => cinv (cmul (cconj (unstack (alen f) d i)) (cis (2 * PI * f i / Fs * tau)))) r.
Proof.
  intros r Hr. cbn [himc_row stack1 aget].
  assert (N2 : forall i, cnorm2 (cmul (cconj (unstack (alen f) d i)) (cis (2 * PI * f i / Fs * tau)))
                 = d i ^ 2 + d (alen f + i)%nat ^ 2).
  { intros i. unfold cnorm2, cmul, cconj, unstack, cis. cbn [fst snd].
    pose proof (sin2_cos2 (2 * PI * f i / Fs * tau)) as K. unfold Rsqr in K.
    set (s := sin _) in *. set (c := cos _) in *.
    transitivity ((d i ^ 2 + d (alen f + i)%nat ^ 2) * (s * s + c * c)); [ring|rewrite K; ring]. }
  destruct (r <? alen f)%nat; unfold cinv, Re, Im; rewrite N2; cbn [fst snd]; f_equal;
    unfold cmul, cconj, unstack, cis; cbn [fst snd]; ring.
Qed.

(** The full statement, with the draws H_k of the response in place of their
    complex conjugates, is false (below).  Proved: the covariance is that of the
    least squares fits to exp(-i w tau) / conj(H_k). *)
Theorem C74_conjugate_partial mvn svd (H : arr C) UH N tau f Fs runs (Hc : nat -> C) :
  response_form H UH f Hc -> svd_for svd f Fs (S N) -> (1 <= runs)%nat ->
  exists RI b Ub (fits : nat -> vec),
    alen RI = (alen f + alen f)%nat /\
    (forall i, (i < alen f)%nat -> resp (alen f) RI i = Hc i) /\
    invLSFIR_unc mvn svd H UH N tau f Fs None None runs = Ok (b, Ub) /\
    (forall i j, (i < S N)%nat -> (j < S N)%nat ->
       Ub i j = sample_cov (fun k => fits k i) (fun k => fits k j) (seq 0 runs)) /\
    forall k, (k < runs)%nat -> alen (fits k) = S N /\
      forall t : nat -> C,
      (forall i, (i < alen f)%nat ->
         cmul (cconj (resp (alen f) (mvn RI UH runs k) i)) (t i) = cis (- (radf f Fs i * tau))) ->
      forall c : vec, alen c = S N -> fir_misfit f Fs t (fits k) <= fir_misfit f Fs t c.
Proof.
  intros RF SV Hr.
  destruct (unc_shape mvn svd H UH N tau f Fs runs Hc RF) as [b [Ub [E [Lb [_ [RI [LR [HR HU]]]]]]]].
  pose proof (SV _ (design_ok f Fs N)) as Sv.
  set (X := mkMat (alen f + alen f) (S N) (fun r n => 1 * stack2 (alen f) (S N) (Eexp f Fs) r n)) in *.
  set (M := unc_M svd f Fs N) in *.
  assert (CM : mcols M = (alen f + alen f)%nat).
  { unfold M, unc_M. fold X. cbn [svd_pinv mcols]. destruct Sv as [Q _]. rewrite Q. reflexivity. }
  exists RI, b, Ub, (fun k => mkArr (S N) (fun i => rsum (alen f + alen f) (fun p => M i p * himc_row f Fs tau (mvn RI UH runs k) p))).
  do 3 (split; auto). split.
  - intros i j Hi Hj. rewrite HU, map_map.
    set (U := rows_cov (alen f + alen f) (map (fun k => himc_row f Fs tau (mvn RI UH runs k)) (seq 0 runs))).
    assert (CU : mcols U = (alen f + alen f)%nat) by reflexivity.
    cbn [mdot mget transp mcols aget]. rewrite CM, CU.
    rewrite (sample_cov_lin (alen f + alen f) (alen f + alen f) (M i) (M j)
       (fun p k => himc_row f Fs tau (mvn RI UH runs k) p) (fun p k => himc_row f Fs tau (mvn RI UH runs k) p)).
    rewrite rsum_swap. apply rsum_ext. intros q Hq. rewrite <- rsum_scal_r. apply rsum_ext. intros p Hp.
    rewrite <- (rows_cov_sample (fun k => himc_row f Fs tau (mvn RI UH runs k)) (alen f + alen f)) by (rewrite seq_length; auto).
    reflexivity.
  - intros k Hk. split; [reflexivity|]. intros t Ht c Lc.
    set (g := mkArr (S N) (fun i => rsum (alen f + alen f) (fun p => M i p * himc_row f Fs tau (mvn RI UH runs k) p))).
    pose proof (svd_normal X _ _ _ Sv (stack1 (alen f) t)) as Nq.
    assert (Nb : normal_eq X (stack1 (alen f) t) g).
    { intros j Hj. rewrite <- (Nq j Hj). apply rsum_ext. intros i Hi. do 2 f_equal. apply mv_ext. intros l Hl.
      cbn [g aget mdotv]. unfold M in CM |- *. unfold unc_M in CM |- *. fold X in CM |- *. rewrite CM. apply rsum_ext. intros r Hr'. f_equal.
      rewrite himc_target by auto. cbn [stack1 aget].
      destruct (r <? alen f)%nat eqn:Z.
      - apply Nat.ltb_lt in Z. f_equal. apply target_unique. apply (Ht r Z).
      - apply Nat.ltb_ge in Z. f_equal. apply target_unique. apply (Ht (r - alen f)%nat). lia. }
    pose proof (normal_expand X _ g c Nb) as Ex.
    pose proof (sqdist_nonneg (mrows X) (mv X c) (mv X g)) as P.
    assert (Mf : forall c : vec, alen c = S N -> sqdist (mrows X) (mv X c) (stack1 (alen f) t) = fir_misfit f Fs t c).
    { intros d Ld. unfold X. cbn [mrows].
      transitivity (sqdist (alen f + alen f) (mv (stack2 (alen f) (S N) (Eexp f Fs)) d) (stack1 (alen f) t)).
      - apply rsum_ext. intros i Hi. do 2 f_equal. unfold mv. cbn [mcols mget stack2]. apply rsum_ext. intros. ring.
      - rewrite sqdist_stack. apply rsum_ext. intros i Hi. rewrite lin_freq by auto. auto. }
    rewrite !Mf in Ex by auto. lra.
Qed.
Print Assumptions C74_conjugate_partial.

(** Without uncertainty the covariance vanishes, for any response. *)
Theorem C74_no_uncertainty_partial (mvn : vec -> mat -> nat -> nat -> vec) svd (H : arr C) UH N tau f Fs runs (Hc : nat -> C) :
  response_form H UH f Hc -> svd_for svd f Fs (S N) -> (1 <= runs)%nat -> determines f Fs (S N) ->
  (forall RI k i, mvn RI UH runs k i = RI i) ->
  exists b Ub, invLSFIR_unc mvn svd H UH N tau f Fs None None runs = Ok (b, Ub) /\
    forall i j, (i < S N)%nat -> (j < S N)%nat -> Ub i j = 0.
Proof.
  intros RF SV Hr D Hm.
  destruct (unc_shape mvn svd H UH N tau f Fs runs Hc RF) as [b [Ub [E [Lb [_ [RI [LR [HR HU]]]]]]]].
  exists b, Ub. split; auto. intros i j Hi Hj. rewrite HU.
  cbn [mdot mget transp]. apply rsum_zero. intros k Hk. rewrite rsum_zero; [ring|].
  intros l Hl. rewrite map_map.
  rewrite (rows_cov_sample (fun k => himc_row f Fs tau (mvn RI UH runs k))) by (rewrite seq_length; auto).
  rewrite (sample_cov_ext _ (fun _ => himc_row f Fs tau RI l) _ (fun _ => himc_row f Fs tau RI k)).
  - rewrite sample_cov_const; [ring|]. rewrite seq_length. auto.
  - intros a _. cbn [himc_row aget]. rewrite !Hm. auto.
  - intros a _. cbn [himc_row aget]. rewrite !Hm. auto.
Qed.
Print Assumptions C74_no_uncertainty_partial.

Lemma freq_quarter x y : freq_resp (of_list [x; y]) (radf (of_list [1]) 4 0) = (x, - y).
Proof.
  rewrite quarter_radf. unfold freq_resp. cbn [alen of_list length csum]. apply C_eq; cbn -[cos sin PI].
  - replace (- (PI / 2 * 0)) with 0 by ring. replace (- (PI / 2 * 1)) with (- (PI / 2)) by ring.
    rewrite cos_neg, cos_PI2, cos_0. lra.
  - replace (- (PI / 2 * 0)) with 0 by ring. replace (- (PI / 2 * 1)) with (- (PI / 2)) by ring.
    rewrite sin_neg, sin_PI2, sin_0. lra.
Qed.

Definition draw74 (k : nat) : vec := match k with O => of_list [/2; - / 2] | _ => of_list [/2; 0] end.
Definition mvn74 (_ : vec) (_ : mat) (_ k : nat) : vec := draw74 k.

(** With the same draws the two functions for the same purpose give covariances
    with opposite correlation of the coefficients. *)
Theorem C74_covariance_refuted :
  exists mvn (H : arr C) (UH : mat) N tau f Fs runs,
    alen H = alen f /\ response_form H UH f H /\ interior_distinct f Fs /\ (S N <= 2 * alen f)%nat /\ (2 <= runs)%nat /\
    (forall RI k i, (k < runs)%nat -> (i < alen f)%nat -> resp (alen f) (mvn RI UH runs k) i <> C0) /\
    forall svd lstsq, svd_for svd f Fs (S N) -> exact_lstsq lstsq ->
      exists b Ub b' Ub', invLSFIR_unc mvn svd H UH N tau f Fs None None runs = Ok (b, Ub) /\
        invLSFIR_uncMC mvn lstsq H UH N tau f Fs runs = Ok (b', Ub') /\
        Ub 0%nat 1%nat < 0 < Ub' 0%nat 1%nat.
Proof.
  exists mvn74, (mkArr 1 (fun _ => (/ 2, - / 4))), (of_rows [[0; 0]; [0; / 8]]), 1%nat, 0, (of_list [1]), 4, 2%nat.
  assert (RF : response_form (mkArr 1 (fun _ => (/ 2, - / 4))) (of_rows [[0; 0]; [0; / 8]]) (of_list [1]) (mkArr 1 (fun _ => (/ 2, - / 4)))).
  { do 2 (split; [reflexivity|]). split; [cbn; lia|]. left. auto. }
  split; [reflexivity|]. split; [exact RF|]. split; [apply one_interior|]. split; [cbn; lia|]. split; [lia|]. split.
  { intros RI k i Hk Hi E. apply (f_equal fst) in E. cbn in Hi. assert (i = 0%nat) by lia. subst.
    destruct k as [|[|k]]; cbn in E; lra. }
  intros svd lstsq SV X.
  assert (D : determines (of_list [1]) 4 2) by (apply interior_determines; [apply one_interior|cbn; lia]).
  destruct (C74_conjugate_partial mvn74 svd _ _ 1 0 (of_list [1]) 4 2 _ RF SV ltac:(lia))
    as [RI [b [Ub [fits [_ [_ [E [HU Fit]]]]]]]].
  destruct (C105_mean_and_covariance_of_fits mvn74 lstsq (mkArr 1 (fun _ => (/ 2, - / 4))) (of_rows [[0; 0]; [0; / 8]]) 1 0
      (of_list [1]) 4 2 X eq_refl eq_refl eq_refl ltac:(lia))
    as [RI' [b' [Ub' [fits' [_ [_ [E' [_ [_ [_ [_ [HU' Fit']]]]]]]]]]]].
  exists b, Ub, b', Ub'. split; auto. split; auto.
  assert (T : cis (- (radf (of_list [1]) 4 0 * 0)) = C1).
  { rewrite Rmult_0_r, Ropp_0. unfold cis. rewrite cos_0, sin_0. reflexivity. }
  assert (G : forall (fits : nat -> vec) (cj : C -> C) k x y, (k < 2)%nat ->
     (forall k, (k < 2)%nat -> alen (fits k) = 2%nat /\
      forall t : nat -> C,
      (forall i, (i < 1)%nat -> cmul (cj (resp 1 (draw74 k) i)) (t i) = cis (- (radf (of_list [1]) 4 i * 0))) ->
      forall c : vec, alen c = 2%nat -> fir_misfit (of_list [1]) 4 t (fits k) <= fir_misfit (of_list [1]) 4 t c) ->
     cmul (cj (resp 1 (draw74 k) 0)) (x, - y) = C1 ->
     fits k 0%nat = x /\ fits k 1%nat = y).
  { intros g cj k x y Hk F Q. destruct (F k Hk) as [L Min].
    assert (Hyp : forall i, (i < 1)%nat -> cmul (cj (resp 1 (draw74 k) i)) (freq_resp (of_list [x; y]) (radf (of_list [1]) 4 i)) = cis (- (radf (of_list [1]) 4 i * 0))).
    { intros i Hi. assert (i = 0%nat) by lia. subst. rewrite T, freq_quarter. exact Q. }
    pose proof (misfit_unique (of_list [1]) 4 2 (of_list [x; y]) (g k) L eq_refl D
       (Min (fun i => freq_resp (of_list [x; y]) (radf (of_list [1]) 4 i)) Hyp (of_list [x; y]) eq_refl)) as U.
    split; [rewrite (U 0%nat) by lia|rewrite (U 1%nat) by lia]; reflexivity. }
  destruct (G fits cconj 0%nat 1 1 ltac:(lia) Fit) as [A0 A1]; [apply C_eq; cbn; lra|].
  destruct (G fits cconj 1%nat 2 0 ltac:(lia) Fit) as [A2 A3]; [apply C_eq; cbn; lra|].
  destruct (G fits' (fun z => z) 0%nat 1 (-1) ltac:(lia) Fit') as [B0 B1]; [apply C_eq; cbn; lra|].
  destruct (G fits' (fun z => z) 1%nat 2 0 ltac:(lia) Fit') as [B2 B3]; [apply C_eq; cbn; lra|].
  rewrite HU, HU' by lia. unfold sample_cov, scatter, avg. cbn [seq map tot length].
  rewrite A0, A1, A2, A3, B0, B1, B2, B3. change (INR 2) with 2. lra.
Qed.
Print Assumptions C74_covariance_refuted.
Example C74_ex : exists b Ub b' Ub',
  invLSFIR_unc mvn74 svd_ex (mkArr 1 (fun _ => (/ 2, - / 4))) (of_rows [[0; 0]; [0; / 8]]) 1 0 (of_list [1]) 4 None None 2 = Ok (b, Ub) /\
  invLSFIR_uncMC mvn74 lstsq_ref (mkArr 1 (fun _ => (/ 2, - / 4))) (of_rows [[0; 0]; [0; / 8]]) 1 0 (of_list [1]) 4 2 = Ok (b', Ub').
Proof. repeat eexists. Qed.
