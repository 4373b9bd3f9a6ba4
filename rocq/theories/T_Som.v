(** Theorems on fit_som (fit_transfer.py): C76, C77, C108-C110. *)
From Coq Require Import Reals String List Arith Lra Lia.
From Verif Require Import Base Sums Cplx M_DFT M_FilterStuff M_MC M_Fit S_Poly S_Fit S_MC S_Jac S_Som P_Poly P_MC P_Deriv
  P_LinAlg P_Fit P_Fit2 P_Som.
Import ListNotations.
Local Notation length := Datatypes.length.
Open Scope R_scope.

(** ** Design matrix *)
Lemma design_re f s i (c : nat -> R) : (i < alen f)%nat ->
  mv (som_design f s) c i = c 0%nat - (2 * PI * f i * s) ^ 2 * c 2%nat.
Proof.
  intros Hi. unfold som_design. rewrite mv_stack_re by auto. unfold lin. rewrite csum_fst. cbn [rsum cscal fst]. ring.
Qed.
Lemma design_im f s i (c : nat -> R) :
  mv (som_design f s) c (alen f + i)%nat = 2 * (2 * PI * f i * s) * c 1%nat.
Proof.
  unfold som_design. rewrite mv_stack_im. unfold lin. rewrite csum_snd. cbn [rsum cscal snd]. ring.
Qed.
Lemma design_indep_cols f s : s <> 0 -> two_frequencies f -> indep_cols (som_design f s).
Proof.
  intros Hs [i [j [Hi [Hj N]]]] c Z.
  assert (Pi : PI <> 0) by apply PI_neq0.
  pose proof (Z i ltac:(cbn; lia)) as Z1. pose proof (Z j ltac:(cbn; lia)) as Z2.
  rewrite design_re in Z1 by auto. rewrite design_re in Z2 by auto.
  assert (C2 : c 2%nat = 0).
  { assert (K : (2 * PI * s) ^ 2 * (f i ^ 2 - f j ^ 2) * c 2%nat = 0).
    { transitivity ((c 0%nat - (2 * PI * f j * s) ^ 2 * c 2%nat) - (c 0%nat - (2 * PI * f i * s) ^ 2 * c 2%nat)); [ring|lra]. }
    apply Rmult_integral in K. destruct K as [K|K]; auto. apply Rmult_integral in K. destruct K as [K|K]; [|lra].
    exfalso. revert K. apply pow_nonzero. repeat (try assumption; try lra; apply Rmult_integral_contrapositive_currified). }
  assert (C0' : c 0%nat = 0) by (rewrite C2 in Z1; lra).
  assert (C1' : c 1%nat = 0).
  { pose proof (Z (alen f + i)%nat ltac:(cbn; lia)) as Y1. pose proof (Z (alen f + j)%nat ltac:(cbn; lia)) as Y2.
    rewrite design_im in Y1, Y2.
    assert (K : 2 * (2 * PI * s) * c 1%nat * (f i ^ 2 - f j ^ 2) = 0).
    { transitivity (2 * (2 * PI * f i * s) * c 1%nat * f i - 2 * (2 * PI * f j * s) * c 1%nat * f j); [ring|rewrite Y1, Y2; ring]. }
    apply Rmult_integral in K. destruct K as [K|K]; [|lra].
    apply Rmult_integral in K. destruct K as [K|K]; auto. exfalso.
    assert (2 * PI * s <> 0); [|lra]. repeat (try assumption; try lra; apply Rmult_integral_contrapositive_currified). }
  intros [|[|[|k]]] Hk; auto. cbn in Hk. lia.
Qed.

(** ** Weighted least squares from the normal equations *)
Lemma wnormal_least m v X (y mu mu' : nat -> R) : (forall r, (r < m)%nat -> 0 < v r) -> mrows X = m ->
  wnormal m v X y mu ->
  rsum m (fun r => (mv X mu r - y r) ^ 2 / v r) <= rsum m (fun r => (mv X mu' r - y r) ^ 2 / v r).
Proof.
  intros P R0 N.
  assert (E : rsum m (fun r => (mv X mu' r - y r) ^ 2 / v r) =
    rsum m (fun r => (mv X mu r - y r) ^ 2 / v r) + rsum m (fun r => (mv X (fun j => mu' j - mu j) r) ^ 2 / v r)
    + 2 * rsum (mcols X) (fun j => (mu' j - mu j) * rsum m (fun r => X r j * ((mv X mu r - y r) / v r)))).
  { rewrite (rsum_ext (mcols X) _ (fun j => rsum m (fun r => (X r j * (mu' j - mu j)) * ((mv X mu r - y r) / v r))))
      by (intros j Hj; rewrite <- rsum_scal; apply rsum_ext; intros; ring).
    rewrite rsum_swap, <- rsum_scal, <- !rsum_plus. apply rsum_ext. intros r Hr.
    rewrite rsum_scal_r. change (rsum (mcols X) (fun j => X r j * (mu' j - mu j))) with (mv X (fun j => mu' j - mu j) r).
    rewrite mv_sub. unfold Rdiv. ring. }
  rewrite E. rewrite (rsum_zero (mcols X)) by (intros j Hj; rewrite (N j Hj); ring).
  assert (0 <= rsum m (fun r => (mv X (fun j => mu' j - mu j) r) ^ 2 / v r)); [|lra].
  apply rsum_nonneg. intros r Hr. apply Rmult_le_pos; [apply pow2_ge_0|]. left. apply Rinv_0_lt_compat. auto.
Qed.
(** The rescaled solution fits the unscaled model. *)
Definition rescaled (s : R) (mu : nat -> R) (i : nat) : R :=
  match i with 1%nat => mu 1%nat * s | 2%nat => mu 2%nat * s ^ 2 | _ => mu i end.
Lemma design_misfit f s v (t : nat -> C) (mu : nat -> R) :
  rsum (alen f + alen f) (fun r => (mv (som_design f s) mu r - stack1 (alen f) t r) ^ 2 / v r) =
  som_misfit f v t (rescaled s mu).
Proof.
  rewrite rsum_app, <- rsum_plus. apply rsum_ext. intros i Hi.
  rewrite design_re, design_im, stack1_re, stack1_im by auto. unfold som_recip, rescaled. cbn [fst snd].
  f_equal; f_equal; f_equal; ring.
Qed.
Lemma wnormal_fits f s v (t : nat -> C) (mu : nat -> R) : s <> 0 ->
  (forall r, (r < alen f + alen f)%nat -> 0 < v r) ->
  wnormal (alen f + alen f) v (som_design f s) (stack1 (alen f) t) mu -> som_fits f v t (rescaled s mu).
Proof.
  intros Hs P N mu'.
  pose proof (wnormal_least _ v (som_design f s) (stack1 (alen f) t) mu
     (fun i => match i with 1%nat => mu' 1%nat / s | 2%nat => mu' 2%nat / s ^ 2 | _ => mu' i end) P eq_refl N) as L.
  rewrite !design_misfit in L. eapply Rle_trans; [exact L|]. right. apply rsum_ext. intros i Hi.
  unfold som_recip, rescaled. cbn [fst snd].
  replace (mu' 2%nat / s ^ 2 * s ^ 2) with (mu' 2%nat) by (field; auto).
  replace (mu' 1%nat / s * s) with (mu' 1%nat) by (field; auto). auto.
Qed.

(** ** Weightings *)
(** The variances used for a weighting without the data: all one, or the given array. *)
Definition plain_weights (n : nat) (w : som_weighting) (v : nat -> R) : Prop :=
  match w with
  | SwNone => forall r, v r = 1
  | SwStr s => s <> "diag"%string /\ s <> "cov"%string /\ forall r, v r = 1
  | SwArr a => alen a = (n + n)%nat /\ forall r, v r = a r
  end.
Lemma diagm_dia (a : vec) m v : alen a = m -> (forall r, v r = a r) -> diagm a = dia m v.
Proof.
  intros L E. unfold dia, diagm. cbn [alen aget]. rewrite L. f_equal.
  apply FunctionalExtensionality.functional_extensionality. intros i.
  apply FunctionalExtensionality.functional_extensionality. intros j. rewrite E. auto.
Qed.
Lemma plain_W n iU w v : plain_weights n w v -> som_W n iU w = Ok (dia (n + n) v).
Proof.
  intros P. assert (Ey : (forall r, v r = 1) -> eye (n + n) = dia (n + n) v).
  { intros E. apply diagm_dia; auto. }
  destruct w as [|s|a]; cbn [plain_weights som_W] in *.
  - rewrite Ey; auto.
  - destruct P as [N1 [N2 E]].
    destruct (String.eqb_spec s "diag"); [contradiction|]. destruct (String.eqb_spec s "cov"); [contradiction|].
    rewrite Ey; auto.
  - destruct P as [L E]. rewrite L, Nat.eqb_refl. f_equal. apply diagm_dia; auto.
Qed.

(** ** Exact responses *)
Definition true_mu (S0 delta f0 : R) (i : nat) : R :=
  match i with
  | O => / S0
  | S O => delta / (S0 * (2 * PI * f0))
  | _ => / (S0 * (2 * PI * f0) ^ 2)
  end.
Lemma recip_exact S0 delta f0 f (h : C) : S0 <> 0 -> f0 <> 0 -> som_response S0 delta f0 f h ->
  cinv h = som_recip (true_mu S0 delta f0) f.
Proof.
  intros HS Hf E. unfold som_response in E.
  assert (Pi : PI <> 0) by apply PI_neq0.
  assert (Hh : h <> C0) by (intros ->; rewrite cmul_0_l in E; apply (f_equal fst) in E; cbn in E; auto).
  apply (cmul_reg_l h); auto. rewrite cmul_inv_r by auto.
  assert (Q : som_recip (true_mu S0 delta f0) f = cscal (/ S0) (1 - (f / f0) ^ 2, 2 * delta * (f / f0))).
  { unfold som_recip, true_mu, cscal. cbn [fst snd]. apply C_eq; cbn [fst snd]; field; auto. }
  rewrite Q. transitivity (cscal (/ S0) (cmul h (1 - (f / f0) ^ 2, 2 * delta * (f / f0)))).
  - rewrite E. unfold cscal, RtoC, C1. apply C_eq; cbn [fst snd]; field; auto.
  - apply C_eq; unfold cscal, cmul; cbn [fst snd]; ring.
Qed.
Lemma response_nonzero S0 delta f0 f (h : C) : S0 <> 0 -> som_response S0 delta f0 f h -> h <> C0.
Proof. intros HS E ->. unfold som_response in E. rewrite cmul_0_l in E. apply (f_equal fst) in E. cbn in E. auto. Qed.
Lemma true_params S0 delta f0 : S0 <> 0 -> 0 < f0 ->
  1 / true_mu S0 delta f0 0 = S0 /\
  true_mu S0 delta f0 1 / sqrt (Rabs (true_mu S0 delta f0 0 * true_mu S0 delta f0 2)) = (if Rlt_dec 0 S0 then delta else - delta) /\
  sqrt (Rabs (true_mu S0 delta f0 0 / true_mu S0 delta f0 2)) / 2 / PI = f0.
Proof.
  intros HS Hf. assert (Pi := PI_RGT_0). unfold true_mu.
  assert (W : 0 < 2 * PI * f0) by (apply Rmult_lt_0_compat; lra).
  split; [field; auto|]. split.
  - replace (Rabs (/ S0 * / (S0 * (2 * PI * f0) ^ 2))) with ((/ (Rabs S0 * (2 * PI * f0))) ^ 2).
    + rewrite sqrt_pow2.
      * unfold Rabs. destruct (Rcase_abs S0); destruct (Rlt_dec 0 S0); try lra; field; split; lra.
      * left. apply Rinv_0_lt_compat. apply Rmult_lt_0_compat; auto. apply Rabs_pos_lt. auto.
    + rewrite (Rabs_pos_eq (/ S0 * _)).
      * unfold Rabs. destruct (Rcase_abs S0); field; split; lra.
      * rewrite <- Rinv_mult. left. apply Rinv_0_lt_compat. replace (S0 * (S0 * (2 * PI * f0) ^ 2)) with ((S0 * (2 * PI * f0)) ^ 2) by ring.
        rewrite <- Rsqr_pow2. apply Rsqr_pos_lt. apply Rmult_integral_contrapositive. split; lra.
  - replace (/ S0 / / (S0 * (2 * PI * f0) ^ 2)) with ((2 * PI * f0) ^ 2) by (field; split; lra).
    rewrite Rabs_pos_eq by apply pow2_ge_0. rewrite sqrt_pow2 by lra. field. lra.
Qed.

Lemma no_zero n (H : vec) : (forall i, (i < n)%nat -> resp n H i <> C0) -> has_zero n H = false.
Proof.
  intros N. unfold has_zero. destruct (existsb _ _) eqn:E; auto. apply existsb_exists in E.
  destruct E as [i [I E]]. apply in_seq in I. destruct (Req_EM_T (cnorm2 (unstack n H i)) 0) as [Z|]; [|discriminate].
  apply cnorm2_zero in Z. exfalso. apply (N i); [lia|]. exact Z.
Qed.

Section Gls.
  Variables (solve : mat -> vec -> res vec) (f : vec) (s : R) (v : nat -> R).
  Hypothesis (S : exact_solve solve) (Hs : s <> 0) (F : two_frequencies f)
    (P : forall r, (r < alen f + alen f)%nat -> 0 < v r).
  Lemma gls_fits (d : vec) : exists mu, som_gls solve (dia (alen f + alen f) v) (som_design f s) (som_irow (alen f) d) = Ok mu /\
    alen mu = 3%nat /\
    wnormal (alen f + alen f) v (som_design f s) (som_irow (alen f) d) mu.
  Proof.
    apply (dia_gls solve S (alen f + alen f) v P (som_design f s) eq_refl (design_indep_cols f s Hs F)). reflexivity.
  Qed.
  Lemma gls_exact (d : vec) S0 delta f0 : S0 <> 0 -> 0 < f0 ->
    (forall i, (i < alen f)%nat -> som_response S0 delta f0 (f i) (resp (alen f) d i)) ->
    exists mu, som_gls solve (dia (alen f + alen f) v) (som_design f s) (som_irow (alen f) d) = Ok mu /\ alen mu = 3%nat /\
      forall j, (j < 3)%nat -> rescaled s mu j = true_mu S0 delta f0 j.
  Proof.
    intros HS Hf E. destruct (gls_fits d) as [mu [Em [Lm N]]]. exists mu. split; auto. split; auto.
    set (h := fun i => match i with 1%nat => true_mu S0 delta f0 1 / s | 2%nat => true_mu S0 delta f0 2 / s ^ 2 | _ => true_mu S0 delta f0 i end).
    assert (Nh : wnormal (alen f + alen f) v (som_design f s) (som_irow (alen f) d) h).
    { apply wnormal_exact. intros r Hr.
      destruct (Nat.lt_ge_cases r (alen f)) as [L|L].
      - rewrite design_re by auto. unfold som_irow. rewrite stack1_re by auto. change (unstack (alen f) d r) with (resp (alen f) d r).
        rewrite (recip_exact S0 delta f0 (f r) _ HS ltac:(lra) (E r L)). unfold som_recip, h. cbn [fst]. field; auto.
      - replace r with (alen f + (r - alen f))%nat by lia. rewrite design_im. unfold som_irow. rewrite stack1_im. change (unstack (alen f) d (r - alen f)%nat) with (resp (alen f) d (r - alen f)%nat).
        rewrite (recip_exact S0 delta f0 (f (r - alen f)%nat) _ HS ltac:(lra) (E (r - alen f)%nat ltac:(lia))).
        unfold som_recip, h. cbn [snd]. field; auto. }
    pose proof (wnormal_unique (alen f + alen f) v P (som_design f s) eq_refl (design_indep_cols f s Hs F) _ _ _ N Nh) as U.
    intros j Hj. destruct j as [|[|[|j]]]; [| | |lia]; unfold rescaled; rewrite U by (cbn; lia); unfold h; field; auto.
  Qed.
End Gls.

Lemma rescale_eq s (mu : vec) i : som_rescale s mu i = rescaled s mu i.
Proof. destruct i as [|[|[|i]]]; reflexivity. Qed.
Lemma pars_triple (mu : vec) S0 delta f0 : S0 <> 0 -> 0 < f0 ->
  (forall j, (j < 3)%nat -> mu j = true_mu S0 delta f0 j) ->
  is_triple (som_pars mu) S0 (if Rlt_dec 0 S0 then delta else - delta) f0.
Proof.
  intros HS Hf E. destruct (true_params S0 delta f0 HS Hf) as [A [B C]]. split; [reflexivity|].
  cbn [som_pars of_list aget nth]. rewrite (E 0%nat), (E 1%nat), (E 2%nat) by lia. auto.
Qed.

Theorem C108_negative_gain_partial solve inv mvn z runs0 (f H : vec) wgt v MCruns scaling S0 delta f0 :
  exact_solve solve -> alen H = (alen f + alen f)%nat -> two_frequencies f -> scaling <> 0 ->
  plain_weights (alen f) wgt v -> (forall r, (r < alen f + alen f)%nat -> 0 < v r) ->
  S0 <> 0 -> 0 < f0 ->
  (forall i, (i < alen f)%nat -> som_response S0 delta f0 (f i) (resp (alen f) H i)) ->
  exists p, fit_som solve inv mvn z runs0 f H SuNone wgt MCruns scaling = Ok (SomFit p None) /\
    is_triple p S0 (if Rlt_dec 0 S0 then delta else - delta) f0.
Proof.
  intros S L F Hs PW P HS Hf E. unfold fit_som. rewrite L, Nat.eqb_refl. cbn [negb som_draws bind].
  rewrite (plain_W _ _ _ _ PW). cbn [bind].
  assert (Q0 : (alen f =? 0)%nat = false) by (apply Nat.eqb_neq; destruct F as [i [_ [Hi _]]]; lia). rewrite Q0.
  rewrite no_zero by (intros i Hi; eapply response_nonzero; [|apply (E i Hi)]; auto).
  destruct (gls_exact solve f scaling v S Hs F P H S0 delta f0 HS Hf E) as [mu [Em [Lm Hm]]]. rewrite Em. cbn [bind].
  eexists. split; [reflexivity|]. apply pars_triple; auto. intros j Hj. rewrite rescale_eq. auto.
Qed.
Print Assumptions C108_negative_gain_partial.
(** The full statement (the parameters of every system with S0 <> 0, f0 > 0) is
    false: for a negative static gain the damping has the wrong sign. *)
Definition f12 : vec := of_list [/ (2 * PI); 2 / (2 * PI)].
Lemma f12_two : two_frequencies f12.
Proof.
  exists 0%nat, 1%nat. split; [cbn; lia|]. split; [cbn; lia|]. cbn [f12 of_list aget nth].
  assert (Pi := PI_RGT_0). intros E.
  assert (K : 0 < / (2 * PI)) by (apply Rinv_0_lt_compat; lra).
  replace (2 / (2 * PI)) with (2 * / (2 * PI)) in E by (unfold Rdiv; ring). nra.
Qed.
(** 1/H = g (2 i), g (-3 + 4 i) *)
Definition H12 (g : R) : vec := of_list [0; g * (-3 / 25); g * (- / 2); g * (-4 / 25)].
Lemma H12_response g i : g <> 0 -> (i < alen f12)%nat -> som_response g 1 (/ (2 * PI)) (f12 i) (resp (alen f12) (H12 g) i).
Proof.
  intros Hg Hi. assert (Pi := PI_RGT_0). unfold som_response.
  assert (Q1 : / (2 * PI) / / (2 * PI) = 1) by (field; lra).
  assert (Q2 : 2 / (2 * PI) / / (2 * PI) = 2) by (field; lra).
  destruct i as [|[|i]]; [| |cbn in Hi; lia]; cbn [f12 of_list aget nth]; rewrite ?Q1, ?Q2;
    unfold resp, RtoC; apply C_eq; cbn; field.
Qed.
Theorem C108_negative_gain_refuted :
  exists (f H : vec) S0 delta f0, alen H = (alen f + alen f)%nat /\ two_frequencies f /\ S0 <> 0 /\ 0 < f0 /\ 0 < delta /\
    (forall i, (i < alen f)%nat -> som_response S0 delta f0 (f i) (resp (alen f) H i)) /\
    forall solve inv mvn z runs0, exact_solve solve ->
      exists p, fit_som solve inv mvn z runs0 f H SuNone SwNone None 1 = Ok (SomFit p None) /\ p 1%nat < 0.
Proof.
  assert (Pi := PI_RGT_0).
  exists f12, (H12 (-1)), (-1), 1, (/ (2 * PI)). split; [reflexivity|]. split; [apply f12_two|]. split; [lra|].
  split; [apply Rinv_0_lt_compat; lra|]. split; [lra|]. split; [intros; apply H12_response; auto; lra|].
  intros solve inv mvn z runs0 S.
  destruct (C108_negative_gain_partial solve inv mvn z runs0 f12 (H12 (-1)) SwNone (fun _ => 1) None 1 (-1) 1 (/ (2 * PI)))
    as [p [E [_ [_ [T _]]]]]; auto; try lra.
  - apply f12_two.
  - cbn. auto.
  - intros; lra.
  - apply Rinv_0_lt_compat; lra.
  - intros; apply H12_response; auto; lra.
  - exists p. split; auto. rewrite T. destruct (Rlt_dec 0 (-1)); lra.
Qed.
Print Assumptions C108_negative_gain_refuted.

Theorem C76_exact solve inv mvn z runs0 (f H : vec) wgt v MCruns scaling S0 delta f0 :
  exact_solve solve -> alen H = (alen f + alen f)%nat -> two_frequencies f -> scaling <> 0 ->
  plain_weights (alen f) wgt v -> (forall r, (r < alen f + alen f)%nat -> 0 < v r) ->
  0 < S0 -> 0 < f0 ->
  (forall i, (i < alen f)%nat -> som_response S0 delta f0 (f i) (resp (alen f) H i)) ->
  exists p, fit_som solve inv mvn z runs0 f H SuNone wgt MCruns scaling = Ok (SomFit p None) /\ is_triple p S0 delta f0.
Proof.
  intros S L F Hs PW P HS Hf E.
  destruct (C108_negative_gain_partial solve inv mvn z runs0 f H wgt v MCruns scaling S0 delta f0) as [p [Ep T]]; auto; try lra.
  exists p. split; auto. destruct (Rlt_dec 0 S0); [auto|contradiction].
Qed.
Print Assumptions C76_exact.
(** Example: S0 = 3, delta = 1, f0 = 1/(2 pi), weights 1, 2, 1, 2, scaling 1/10. *)
Example C76_ex solve inv mvn z runs0 : exact_solve solve ->
  exists p, fit_som solve inv mvn z runs0 f12 (H12 3) SuNone (SwArr (of_list [1; 2; 1; 2])) None (/ 10) = Ok (SomFit p None)
    /\ is_triple p 3 1 (/ (2 * PI)).
Proof.
  intros S. assert (Pi := PI_RGT_0).
  apply (C76_exact solve inv mvn z runs0 f12 (H12 3) (SwArr (of_list [1; 2; 1; 2])) (of_list [1; 2; 1; 2])); auto; try lra.
  - apply f12_two.
  - cbn. auto.
  - intros [|[|[|[|r]]]] Hr; cbn in Hr |- *; try lra; lia.
  - apply Rinv_0_lt_compat; lra.
  - intros; apply H12_response; auto; lra.
Qed.

(** ** With uncertainties *)
(** d k is the response of the k-th draw: H plus z times the standard uncertainties,
    or the k-th normal draw with the given covariance. *)
Definition som_drawn (mvn : vec -> mat -> nat -> nat -> vec) (z : nat -> vec) (n : nat) (H : vec) (UH : som_unc)
           (runs : nat) (d : nat -> vec) : Prop :=
  match UH with
  | SuNone => False
  | SuStd s => alen s = (n + n)%nat /\ forall k r, (r < n + n)%nat -> d k r = H r + z k r * s r
  | SuCov U => mrows U = (n + n)%nat /\ mcols U = (n + n)%nat /\ forall k r, (r < n + n)%nat -> d k r = mvn H U runs k r
  end.
(** The variances used for a weighting with draws: the sample variances of real and
    imaginary parts of the reciprocal for "diag". *)
Definition weights_used (n : nat) (wgt : som_weighting) (d : nat -> vec) (runs : nat) (v : nat -> R) : Prop :=
  plain_weights n wgt v \/
  (wgt = SwStr "diag" /\ forall i, (i < n)%nat ->
     v i = sample_cov (fun k => fst (cinv (resp n (d k) i))) (fun k => fst (cinv (resp n (d k) i))) (seq 0 runs) /\
     v (n + i)%nat = sample_cov (fun k => snd (cinv (resp n (d k) i))) (fun k => snd (cinv (resp n (d k) i))) (seq 0 runs)).

Lemma irow_ext n (d d' : vec) r : (forall r, (r < n + n)%nat -> d r = d' r) -> (r < n + n)%nat -> som_irow n d r = som_irow n d' r.
Proof.
  intros E Hr. unfold som_irow, stack1, unstack. cbn [aget]. destruct (Nat.ltb_spec r n).
  - rewrite !E by lia. auto.
  - rewrite !E by lia. auto.
Qed.
Lemma drawn_draws mvn z n H UH runs d : som_drawn mvn z n H UH runs d ->
  exists g, som_draws mvn z n H UH runs = Ok (map g (seq 0 runs)) /\
    (match UH with SuNone => false | _ => true end) = true /\
    forall k r, (r < n + n)%nat -> g k r = d k r.
Proof.
  destruct UH as [|s|U]; cbn [som_drawn som_draws].
  - contradiction.
  - intros [L E]. rewrite L, Nat.eqb_refl. eexists. split; [reflexivity|]. split; auto. intros k r Hr. cbn [aget]. symmetry. auto.
  - intros [R1 [R2 E]]. rewrite R1, R2, Nat.eqb_refl. cbn [andb]. eexists. split; [reflexivity|]. split; auto.
    intros. symmetry. auto.
Qed.
Lemma used_W n wgt (g d : nat -> vec) runs (v : nat -> R) : (2 <= runs)%nat -> (forall k r, (r < n + n)%nat -> g k r = d k r) ->
  weights_used n wgt d runs v ->
  exists v', som_W n (Some (CovMat (rows_cov (n + n) (map (som_irow n) (map g (seq 0 runs)))))) wgt = Ok (dia (n + n) v') /\
    forall r, (r < n + n)%nat -> v' r = v r.
Proof.
  intros Hr Hg [P|[-> Hv]].
  - exists v. split; auto. apply plain_W. auto.
  - cbn [som_W String.eqb]. cbn. eexists. split; [f_equal; apply diagm_dia; [|intros r; reflexivity]; reflexivity|].
    intros r Hr'. cbn [diag_of aget]. rewrite map_map, rows_cov_sample by (rewrite seq_length; lia).
    rewrite (sample_cov_ext _ (fun k => som_irow n (d k) r) _ (fun k => som_irow n (d k) r))
      by (intros k _; apply irow_ext; auto).
    destruct (Nat.lt_ge_cases r n) as [L|L].
    + destruct (Hv r L) as [E _]. rewrite E. unfold som_irow. apply sample_cov_ext; intros; rewrite stack1_re by auto; auto.
    + destruct (Hv (r - n)%nat ltac:(lia)) as [_ E]. replace (n + (r - n))%nat with r in E by lia. rewrite E. unfold som_irow.
      apply sample_cov_ext; intros; replace r with (n + (r - n))%nat at 1 by lia; rewrite stack1_im; auto.
Qed.
Lemma misfit_ext f v v' t t' mu : (forall r, (r < alen f + alen f)%nat -> v r = v' r) -> (forall i, (i < alen f)%nat -> t i = t' i) ->
  som_misfit f v t mu = som_misfit f v' t' mu.
Proof. intros Ev Et. apply rsum_ext. intros i Hi. rewrite !Ev, !Et by lia. auto. Qed.
Lemma fits_ext f v v' t t' mu : (forall r, (r < alen f + alen f)%nat -> v r = v' r) -> (forall i, (i < alen f)%nat -> t i = t' i) ->
  som_fits f v t mu -> som_fits f v' t' mu.
Proof. intros Ev Et F mu'. rewrite <- !(misfit_ext f v v' t t') by auto. apply F. Qed.
Lemma recip_target n (d : vec) (t : nat -> C) i : cmul (resp n d i) (t i) = C1 -> cinv (unstack n d i) = t i.
Proof.
  intros E. change (unstack n d i) with (resp n d i).
  assert (N : resp n d i <> C0).
  { intros Z. rewrite Z, cmul_0_l in E. apply (f_equal fst) in E. cbn in E. lra. }
  apply (cmul_reg_l (resp n d i)); auto. rewrite cmul_inv_r by auto. auto.
Qed.
(** The weighted least squares fit of the reciprocal of the response d. *)
Definition fits_recip (f : vec) (v : nat -> R) (d : vec) (mu : nat -> R) : Prop :=
  forall t : nat -> C, (forall i, (i < alen f)%nat -> cmul (resp (alen f) d i) (t i) = C1) -> som_fits f v t mu.
Lemma wnormal_recip f s v v' (d d' : vec) (y mu : nat -> R) : s <> 0 ->
  (forall r, (r < alen f + alen f)%nat -> 0 < v r) ->
  (forall r, (r < alen f + alen f)%nat -> v' r = v r) ->
  (forall r, (r < alen f + alen f)%nat -> d' r = d r) ->
  (forall r, (r < alen f + alen f)%nat -> y r = som_irow (alen f) d' r) ->
  wnormal (alen f + alen f) v' (som_design f s) y mu -> fits_recip f v d (rescaled s mu).
Proof.
  intros Hs P Ev Ed Ey N t T.
  apply (fits_ext f v' v t t); auto. apply wnormal_fits; auto.
  - intros r Hr. rewrite Ev by auto. auto.
  - intros j Hj. rewrite <- (N j Hj). apply rsum_ext. intros r Hr. rewrite Ey by auto. do 3 f_equal.
    destruct (Nat.lt_ge_cases r (alen f)) as [L|L].
    + unfold som_irow. rewrite !stack1_re by auto. rewrite (recip_target (alen f) d' t r); auto.
      rewrite <- (T r L). unfold resp. rewrite !Ed by lia. auto.
    + replace r with (alen f + (r - alen f))%nat by lia. unfold som_irow. rewrite !stack1_im.
      rewrite (recip_target (alen f) d' t (r - alen f)); auto.
      rewrite <- (T (r - alen f)%nat ltac:(lia)). unfold resp. rewrite !Ed by lia. auto.
Qed.
Lemma rescaled_1 mu j : rescaled 1 mu j = mu j.
Proof. destruct j as [|[|[|j]]]; unfold rescaled; ring. Qed.
Lemma fits_recip_pt f v d mu mu' : (forall j, (j < 3)%nat -> mu j = mu' j) -> fits_recip f v d mu -> fits_recip f v d mu'.
Proof.
  intros E F t T nu. replace (som_misfit f v t mu') with (som_misfit f v t mu); [apply F; auto|].
  apply rsum_ext. intros i Hi. unfold som_recip. rewrite !E by lia. auto.
Qed.

(** Two runs or more, two columns or more: np.cov gives the matrix. *)
Lemma np_cov_rows_mat n (Y : list vec) : (2 <= length Y)%nat -> n <> 1%nat -> np_cov_rows n Y = CovMat (rows_cov n Y).
Proof.
  intros L N. destruct Y as [|r [|r' Y]]; cbn [length] in L; [lia|lia|]. unfold np_cov_rows.
  destruct (Nat.eqb_spec n 1); [contradiction|reflexivity].
Qed.
Lemma two_frequencies_pos f : two_frequencies f -> (1 <= alen f)%nat.
Proof. intros [i [_ [Hi _]]]. lia. Qed.

(** The linear propagation path. *)
Lemma linear_path solve inv mvn z runs0 (f H : vec) UH wgt v scaling d :
  exact_solve solve -> exact_inv inv -> alen H = (alen f + alen f)%nat -> two_frequencies f -> (2 <= runs0)%nat ->
  (forall i, (i < alen f)%nat -> resp (alen f) H i <> C0) ->
  som_drawn mvn z (alen f) H UH runs0 d -> weights_used (alen f) wgt d runs0 v ->
  (forall r, (r < alen f + alen f)%nat -> 0 < v r) ->
  exists mu U (fits : nat -> nat -> R), alen mu = 3%nat /\
    fit_som solve inv mvn z runs0 f H UH wgt None scaling = Ok (SomFit (som_pars mu) (Some (CovMat U))) /\
    (exists v', (forall r, (r < alen f + alen f)%nat -> v' r = v r) /\
       wnormal (alen f + alen f) v' (som_design f 1) (som_irow (alen f) H) mu) /\
    fits_recip f v H mu /\ (forall k, fits_recip f v (d k) (fits k)) /\
    mrows U = 3%nat /\ mcols U = 3%nat /\
    forall i j, (i < 3)%nat -> (j < 3)%nat ->
      U i j = rsum 3 (fun p => rsum 3 (fun q =>
        som_C mu i p * sample_cov (fun k => fits k p) (fun k => fits k q) (seq 0 runs0) * som_C mu j q)).
Proof.
  intros S V L F Hr NZ D WU P. set (n := alen f) in *.
  destruct (drawn_draws mvn z n H UH runs0 d D) as [g [Eg [Gv Hg]]].
  destruct (used_W n wgt g d runs0 v Hr Hg WU) as [v' [EW Ev]].
  assert (P' : forall r, (r < n + n)%nat -> 0 < v' r) by (intros r Hr'; rewrite Ev by auto; auto).
  unfold fit_som. fold n. rewrite L, Nat.eqb_refl. cbn [negb]. rewrite Eg. cbn [bind].
  assert (N1 : (1 <= n)%nat) by (apply two_frequencies_pos; auto).
  rewrite Gv, np_cov_rows_mat by (rewrite ?map_length, ?seq_length; lia). rewrite EW. cbn [bind].
  assert (Q0 : (n =? 0)%nat = false) by (apply Nat.eqb_neq; unfold n; destruct F as [i [_ [Hi _]]]; lia). rewrite Q0.
  rewrite no_zero by auto.
  assert (H1 : 1 <> 0) by lra.
  destruct (gls_fits solve f 1 v' S H1 F P' H) as [mu [Em [Lm N]]]. fold n in Em, N. rewrite Em. cbn [bind].
  destruct (dia_cov solve S (n + n) v' P' (som_design f 1) eq_refl (design_indep_cols f 1 H1 F) inv V
     (fun k => som_irow n (g k)) (seq 0 runs0) (rows_cov (n + n) (map (som_irow n) (map g (seq 0 runs0)))))
    as [G [iG [WU' [WX [EG [EI [EWU [EWX [R3 [C3 [fits [Fk HU]]]]]]]]]]]].
  - reflexivity.
  - reflexivity.
  - intros r s _ _. rewrite map_map. apply rows_cov_sample. rewrite ?seq_length. lia.
  - rewrite EG. cbn [bind]. rewrite EI. cbn [bind]. rewrite EWU. cbn [bind]. rewrite EWX. cbn [bind].
    eexists mu, _, fits. split; [auto|]. split; [reflexivity|]. split; [|split; [|split; [|split; [|split]]]].
    + exists v'. auto.
    + apply (fits_recip_pt f v H (rescaled 1 mu)); [intros; apply rescaled_1|].
      apply (wnormal_recip f 1 v v' H H (som_irow n H)); auto.
    + intros k. apply (fits_recip_pt f v (d k) (rescaled 1 (fits k))); [intros; apply rescaled_1|].
      apply (wnormal_recip f 1 v v' (d k) (g k) (som_irow n (g k))); auto.
    + reflexivity.
    + reflexivity.
    + intros i j Hi Hj. set (Cm := som_C mu). cbn [mdot mget transp mcols mrows].
      change (mcols (som_design f 1)) with 3%nat in R3, C3. change (mcols Cm) with 3%nat. rewrite C3.
      apply rsum_ext. intros p Hp. rewrite <- rsum_scal. apply rsum_ext. intros q Hq.
      rewrite <- HU by (cbn; lia). cbn [mdot mget transp mcols mrows]. rewrite ?C3. ring.
Qed.
Lemma pars_params (mu : vec) (nu : nat -> R) i : (forall j, (j < 3)%nat -> mu j = nu j) -> 0 < nu 0%nat * nu 2%nat -> (i < 3)%nat ->
  som_pars mu i = som_params nu i.
Proof.
  intros E P Hi. assert (Pi := PI_RGT_0).
  assert (N0 : nu 0%nat <> 0) by (intros Z; rewrite Z in P; lra).
  assert (N2 : nu 2%nat <> 0) by (intros Z; rewrite Z in P; lra).
  destruct i as [|[|[|i]]]; [| | |lia]; cbn [som_pars of_list aget nth som_params]; rewrite ?E by lia.
  - field. auto.
  - rewrite Rabs_pos_eq by lra. auto.
  - rewrite Rabs_pos_eq.
    + field. lra.
    + replace (nu 0%nat / nu 2%nat) with (nu 0%nat * nu 2%nat * (/ nu 2%nat) ^ 2) by (field; auto).
      apply Rmult_le_pos; [lra|apply pow2_ge_0].
Qed.

(** The Monte Carlo path. *)
Lemma mc_fits solve f s v (S : exact_solve solve) (Hs : s <> 0) (F : two_frequencies f)
  (P : forall r, (r < alen f + alen f)%nat -> 0 < v r) (g : nat -> vec) : exists mus : nat -> vec,
  (forall ls, som_mc solve (dia (alen f + alen f) v) (som_design f s) (map (som_irow (alen f)) (map g ls)) = Ok (map mus ls)) /\
  forall k, alen (mus k) = 3%nat /\ wnormal (alen f + alen f) v (som_design f s) (som_irow (alen f) (g k)) (mus k).
Proof.
  exists (fun k => match som_gls solve (dia (alen f + alen f) v) (som_design f s) (som_irow (alen f) (g k)) with
                   | Ok m => m | Err _ => mkArr 0 (fun _ => 0) end).
  split.
  - induction ls as [|k ls IH]; [reflexivity|]. cbn [map som_mc].
    destruct (gls_fits solve f s v S Hs F P (g k)) as [mu [Em _]]. rewrite Em. cbn [bind]. rewrite IH. reflexivity.
  - intros k. destruct (gls_fits solve f s v S Hs F P (g k)) as [mu [Em [Lm N]]]. rewrite Em. auto.
Qed.
Lemma mc_path solve inv mvn z runs0 runs (f H : vec) UH wgt v scaling d :
  exact_solve solve -> alen H = (alen f + alen f)%nat -> two_frequencies f -> (2 <= runs)%nat -> scaling <> 0 ->
  som_drawn mvn z (alen f) H UH runs d -> weights_used (alen f) wgt d runs v ->
  (forall r, (r < alen f + alen f)%nat -> 0 < v r) ->
  exists p U (mus : nat -> vec),
    fit_som solve inv mvn z runs0 f H UH wgt (Some runs) scaling = Ok (SomFit p (Some (CovMat U))) /\
    alen p = 3%nat /\ mrows U = 3%nat /\ mcols U = 3%nat /\
    (forall i, p i = avg (fun k => som_pars (som_rescale scaling (mus k)) i) (seq 0 runs)) /\
    (forall i j, U i j = sample_cov (fun k => som_pars (som_rescale scaling (mus k)) i)
                           (fun k => som_pars (som_rescale scaling (mus k)) j) (seq 0 runs)) /\
    forall k, fits_recip f v (d k) (rescaled scaling (mus k)) /\
      exists (v' : nat -> R) (d' : vec), (forall r, (r < alen f + alen f)%nat -> v' r = v r) /\ (forall r, (r < alen f + alen f)%nat -> d' r = d k r) /\
       wnormal (alen f + alen f) v' (som_design f scaling) (som_irow (alen f) d') (mus k).
Proof.
  intros S L F Hr Hs D WU P. set (n := alen f) in *.
  destruct (drawn_draws mvn z n H UH runs d D) as [g [Eg [Gv Hg]]].
  destruct (used_W n wgt g d runs v Hr Hg WU) as [v' [EW Ev]].
  assert (P' : forall r, (r < n + n)%nat -> 0 < v' r) by (intros r Hr'; rewrite Ev by auto; auto).
  unfold fit_som. fold n. rewrite L, Nat.eqb_refl. cbn [negb]. rewrite Eg. cbn [bind].
  assert (N1 : (1 <= n)%nat) by (apply two_frequencies_pos; auto).
  rewrite Gv, np_cov_rows_mat by (rewrite ?map_length, ?seq_length; lia). rewrite EW. cbn [bind].
  destruct (mc_fits solve f scaling v' S Hs F P' g) as [mus [Em Hm]]. fold n in Em, Hm. rewrite Em. cbn [bind].
  replace (runs =? 0)%nat with false by (symmetry; apply Nat.eqb_neq; lia).
  rewrite np_cov_rows_mat by (rewrite ?map_length, ?seq_length; lia).
  eexists _, _, mus. split; [reflexivity|]. split; [reflexivity|]. split; [reflexivity|]. split; [reflexivity|]. split; [|split].
  - intros i. rewrite map_map. apply rows_mean_avg.
  - intros i j. rewrite map_map. apply rows_cov_sample. rewrite ?seq_length. lia.
  - intros k. destruct (Hm k) as [Lm N]. split.
    + apply (wnormal_recip f scaling v v' (d k) (g k) (som_irow n (g k))); auto.
    + exists v', (g k). auto.
Qed.

(** ** C76 with uncertainties *)
Lemma wnormal_true f s v v' (d d' : vec) (mu : vec) S0 delta f0 : s <> 0 -> two_frequencies f ->
  (forall r, (r < alen f + alen f)%nat -> 0 < v r) ->
  (forall r, (r < alen f + alen f)%nat -> v' r = v r) ->
  (forall r, (r < alen f + alen f)%nat -> d' r = d r) ->
  wnormal (alen f + alen f) v' (som_design f s) (som_irow (alen f) d') mu ->
  S0 <> 0 -> 0 < f0 -> (forall i, (i < alen f)%nat -> som_response S0 delta f0 (f i) (resp (alen f) d i)) ->
  forall j, (j < 3)%nat -> rescaled s mu j = true_mu S0 delta f0 j.
Proof.
  intros Hs F P Ev Ed N HS Hf E.
  set (h := fun i => match i with 1%nat => true_mu S0 delta f0 1 / s | 2%nat => true_mu S0 delta f0 2 / s ^ 2 | _ => true_mu S0 delta f0 i end).
  assert (Nh : wnormal (alen f + alen f) v' (som_design f s) (som_irow (alen f) d') h).
  { apply wnormal_exact. intros r Hr. rewrite (irow_ext _ d' d) by auto.
    destruct (Nat.lt_ge_cases r (alen f)) as [L|L].
    - rewrite design_re by auto. unfold som_irow. rewrite stack1_re by auto. change (unstack (alen f) d r) with (resp (alen f) d r).
      rewrite (recip_exact S0 delta f0 (f r) _ HS ltac:(lra) (E r L)). unfold som_recip, h. cbn [fst]. field; auto.
    - replace r with (alen f + (r - alen f))%nat by lia. rewrite design_im. unfold som_irow. rewrite stack1_im. change (unstack (alen f) d (r - alen f)%nat) with (resp (alen f) d (r - alen f)%nat).
      rewrite (recip_exact S0 delta f0 (f (r - alen f)%nat) _ HS ltac:(lra) (E (r - alen f)%nat ltac:(lia))).
      unfold som_recip, h. cbn [snd]. field; auto. }
  assert (P' : forall r, (r < alen f + alen f)%nat -> 0 < v' r) by (intros r Hr; rewrite Ev by auto; auto).
  pose proof (wnormal_unique (alen f + alen f) v' P' (som_design f s) eq_refl (design_indep_cols f s Hs F) _ _ _ N Nh) as U.
  intros j Hj. destruct j as [|[|[|j]]]; [| | |lia]; unfold rescaled; rewrite U by (cbn; lia); unfold h; field; auto.
Qed.
Theorem C76_with_uncertainty solve inv mvn z runs0 (f H : vec) UH wgt v scaling d S0 delta f0 :
  exact_solve solve -> exact_inv inv -> alen H = (alen f + alen f)%nat -> two_frequencies f -> (2 <= runs0)%nat ->
  som_drawn mvn z (alen f) H UH runs0 d -> weights_used (alen f) wgt d runs0 v ->
  (forall r, (r < alen f + alen f)%nat -> 0 < v r) ->
  0 < S0 -> 0 < f0 ->
  (forall i, (i < alen f)%nat -> som_response S0 delta f0 (f i) (resp (alen f) H i)) ->
  exists p U, fit_som solve inv mvn z runs0 f H UH wgt None scaling = Ok (SomFit p (Some (CovMat U))) /\ is_triple p S0 delta f0 /\
    mrows U = 3%nat /\ mcols U = 3%nat.
Proof.
  intros S V L F Hr D WU P HS Hf E.
  destruct (linear_path solve inv mvn z runs0 f H UH wgt v scaling d S V L F Hr) as [mu [U [fits [Lm [E1 [[v' [Ev N]] [_ [_ [R1 [R2 _]]]]]]]]]]; auto.
  { intros i Hi. eapply response_nonzero; [|apply (E i Hi)]. lra. }
  exists (som_pars mu), U. split; auto. split; auto.
  assert (T : is_triple (som_pars mu) S0 (if Rlt_dec 0 S0 then delta else - delta) f0).
  { apply pars_triple; auto; [lra|]. intros j Hj. rewrite <- (rescaled_1 mu j).
    apply (wnormal_true f 1 v v' H H mu S0 delta f0); auto; lra. }
  destruct (Rlt_dec 0 S0); [auto|contradiction].
Qed.
Print Assumptions C76_with_uncertainty.

(** Vanishing uncertainty in the Monte Carlo path: the exact parameters, and zero
    covariance. *)
Theorem C76_monte_carlo solve inv mvn z runs0 runs (f H : vec) UH wgt v scaling d S0 delta f0 :
  exact_solve solve -> alen H = (alen f + alen f)%nat -> two_frequencies f -> (2 <= runs)%nat -> scaling <> 0 ->
  som_drawn mvn z (alen f) H UH runs d -> plain_weights (alen f) wgt v ->
  (forall r, (r < alen f + alen f)%nat -> 0 < v r) ->
  (forall k r, (r < alen f + alen f)%nat -> d k r = H r) ->
  0 < S0 -> 0 < f0 ->
  (forall i, (i < alen f)%nat -> som_response S0 delta f0 (f i) (resp (alen f) H i)) ->
  exists p U, fit_som solve inv mvn z runs0 f H UH wgt (Some runs) scaling = Ok (SomFit p (Some (CovMat U))) /\ is_triple p S0 delta f0 /\
    forall i j, (i < 3)%nat -> (j < 3)%nat -> U i j = 0.
Proof.
  intros S L F Hr Hs D WU P Hd HS Hf E.
  destruct (mc_path solve inv mvn z runs0 runs f H UH wgt v scaling d S L F Hr Hs D (or_introl WU) P)
    as [p [U [mus [E1 [Lp [_ [_ [Hp [HU Hk]]]]]]]]].
  exists p, U. split; auto.
  assert (T : forall k, is_triple (som_pars (som_rescale scaling (mus k))) S0 delta f0).
  { intros k. destruct (Hk k) as [_ [v' [d' [Ev [Ed N]]]]].
    assert (T : is_triple (som_pars (som_rescale scaling (mus k))) S0 (if Rlt_dec 0 S0 then delta else - delta) f0).
    { apply pars_triple; auto; [lra|]. intros j Hj. rewrite rescale_eq.
      apply (wnormal_true f scaling v v' H d' (mus k) S0 delta f0); auto; try lra. intros r Hr'. rewrite Ed, Hd by auto. auto. }
    destruct (Rlt_dec 0 S0); [auto|contradiction]. }
  set (c := fun i : nat => match i with 0%nat => S0 | 1%nat => delta | _ => f0 end).
  assert (Tc : forall k i, (i < 3)%nat -> som_pars (som_rescale scaling (mus k)) i = c i).
  { intros k i Hi. destruct (T k) as [_ [T0 [T1 T2]]]. destruct i as [|[|[|i]]]; auto. lia. }
  split.
  - split; auto. rewrite !Hp.
    assert (A : forall i, (i < 3)%nat -> avg (fun k => som_pars (som_rescale scaling (mus k)) i) (seq 0 runs) = c i).
    { intros i Hi. rewrite (avg_ext _ (fun _ => c i)) by (intros; apply Tc; auto). apply avg_const. rewrite seq_length. lia. }
    rewrite !A by lia. auto.
  - intros i j Hi Hj. rewrite HU. rewrite (sample_cov_ext _ (fun _ => c i) _ (fun _ => c j)) by (intros; apply Tc; auto).
    apply sample_cov_const. rewrite seq_length. lia.
Qed.
Print Assumptions C76_monte_carlo.
Theorem C109_least_squares solve inv mvn z runs0 (f H : vec) wgt v MCruns scaling :
  exact_solve solve -> alen H = (alen f + alen f)%nat -> two_frequencies f -> scaling <> 0 ->
  plain_weights (alen f) wgt v -> (forall r, (r < alen f + alen f)%nat -> 0 < v r) ->
  (forall i, (i < alen f)%nat -> resp (alen f) H i <> C0) ->
  exists p mu, fit_som solve inv mvn z runs0 f H SuNone wgt MCruns scaling = Ok (SomFit p None) /\ alen p = 3%nat /\
    fits_recip f v H mu /\ p 0%nat = / mu 0%nat /\
    (0 < mu 0%nat * mu 2%nat -> forall i, (i < 3)%nat -> p i = som_params mu i).
Proof.
  intros S L F Hs PW P NZ. unfold fit_som. rewrite L, Nat.eqb_refl. cbn [negb som_draws bind].
  rewrite (plain_W _ _ _ _ PW). cbn [bind].
  assert (Q0 : (alen f =? 0)%nat = false) by (apply Nat.eqb_neq; destruct F as [i [_ [Hi _]]]; lia). rewrite Q0.
  rewrite no_zero by auto.
  destruct (gls_fits solve f scaling v S Hs F P H) as [mu [Em [Lm Hm]]]. rewrite Em. cbn [bind].
  eexists _, (rescaled scaling mu). split; [reflexivity|]. split; [reflexivity|]. split; [|split].
  - apply (wnormal_recip f scaling v v H H (som_irow (alen f) H)); auto.
  - cbn [som_pars of_list aget nth]. rewrite rescale_eq. unfold Rdiv. ring.
  - intros P3 i Hi. apply pars_params; auto. intros. apply rescale_eq.
Qed.
Print Assumptions C109_least_squares.
Theorem C109_linear_propagation solve inv mvn z runs0 (f H : vec) UH wgt v scaling d :
  exact_solve solve -> exact_inv inv -> alen H = (alen f + alen f)%nat -> two_frequencies f -> (2 <= runs0)%nat ->
  (forall i, (i < alen f)%nat -> resp (alen f) H i <> C0) ->
  som_drawn mvn z (alen f) H UH runs0 d -> weights_used (alen f) wgt d runs0 v ->
  (forall r, (r < alen f + alen f)%nat -> 0 < v r) ->
  exists p U mu, fit_som solve inv mvn z runs0 f H UH wgt None scaling = Ok (SomFit p (Some (CovMat U))) /\ alen p = 3%nat /\
    fits_recip f v H mu /\ p 0%nat = / mu 0%nat /\
    (0 < mu 0%nat * mu 2%nat -> forall i, (i < 3)%nat -> p i = som_params mu i).
Proof.
  intros S V L F Hr NZ D WU P.
  destruct (linear_path solve inv mvn z runs0 f H UH wgt v scaling d S V L F Hr NZ D WU P) as [mu [U [fits [Lm [E1 [_ [Fm _]]]]]]].
  exists (som_pars mu), U, mu. split; auto. split; [reflexivity|]. split; auto. split.
  - cbn [som_pars of_list aget nth]. unfold Rdiv. ring.
  - intros. apply pars_params; auto.
Qed.
Print Assumptions C109_linear_propagation.
Theorem C109_monte_carlo solve inv mvn z runs0 runs (f H : vec) UH wgt v scaling d :
  exact_solve solve -> alen H = (alen f + alen f)%nat -> two_frequencies f -> (2 <= runs)%nat -> scaling <> 0 ->
  som_drawn mvn z (alen f) H UH runs d -> weights_used (alen f) wgt d runs v ->
  (forall r, (r < alen f + alen f)%nat -> 0 < v r) ->
  exists p U (mu ps : nat -> nat -> R), fit_som solve inv mvn z runs0 f H UH wgt (Some runs) scaling = Ok (SomFit p (Some (CovMat U))) /\
    alen p = 3%nat /\ mrows U = 3%nat /\ mcols U = 3%nat /\
    (forall i, p i = avg (fun k => ps k i) (seq 0 runs)) /\
    (forall i j, U i j = sample_cov (fun k => ps k i) (fun k => ps k j) (seq 0 runs)) /\
    forall k, fits_recip f v (d k) (mu k) /\ ps k 0%nat = / mu k 0%nat /\
      (0 < mu k 0%nat * mu k 2%nat -> forall i, (i < 3)%nat -> ps k i = som_params (mu k) i).
Proof.
  intros S L F Hr Hs D WU P.
  destruct (mc_path solve inv mvn z runs0 runs f H UH wgt v scaling d S L F Hr Hs D WU P)
    as [p [U [mus [E1 [Lp [R1 [R2 [Hp [HU Hk]]]]]]]]].
  exists p, U, (fun k => rescaled scaling (mus k)), (fun k => som_pars (som_rescale scaling (mus k))).
  do 6 (split; auto). intros k. destruct (Hk k) as [Fk _]. split; auto. split.
  - cbn [som_pars of_list aget nth]. rewrite rescale_eq. unfold Rdiv. ring.
  - intros P3 i Hi. apply pars_params; auto. intros. apply rescale_eq.
Qed.
Print Assumptions C109_monte_carlo.

(** ** Uniqueness of the fit *)
Lemma fits_unique f v t (mu nu : nat -> R) : two_frequencies f -> (forall r, (r < alen f + alen f)%nat -> 0 < v r) ->
  som_fits f v t mu -> som_fits f v t nu -> forall j, (j < 3)%nat -> mu j = nu j.
Proof.
  intros F P Fm Fn j Hj.
  set (h := fun i => (mu i + nu i) / 2).
  pose proof (Fm h) as L1. pose proof (Fn h) as L2.
  assert (E : som_misfit f v t h = (som_misfit f v t mu + som_misfit f v t nu) / 2
    - rsum (alen f) (fun i => (fst (som_recip (fun i => mu i - nu i) (f i))) ^ 2 / v i
        + (snd (som_recip (fun i => mu i - nu i) (f i))) ^ 2 / v (alen f + i)%nat) / 4).
  { unfold som_misfit. rewrite <- rsum_plus. unfold Rdiv. rewrite <- !rsum_scal_r, <- rsum_minus. apply rsum_ext.
    intros i Hi. unfold som_recip, h. cbn [fst snd].
    pose proof (P i ltac:(lia)). pose proof (P (alen f + i)%nat ltac:(lia)). field. lra. }
  set (D := rsum (alen f) _) in E.
  assert (T : forall i, (i < alen f)%nat -> 0 <= (fst (som_recip (fun i => mu i - nu i) (f i))) ^ 2 / v i /\
      0 <= (snd (som_recip (fun i => mu i - nu i) (f i))) ^ 2 / v (alen f + i)%nat).
  { intros i Hi. split; (apply Rmult_le_pos; [apply pow2_ge_0|left; apply Rinv_0_lt_compat; apply P; lia]). }
  assert (D0 : D = 0).
  { apply Rle_antisym; [lra|]. apply rsum_nonneg. intros i Hi. destruct (T i Hi). lra. }
  assert (Z : forall i, (i < alen f)%nat -> fst (som_recip (fun i => mu i - nu i) (f i)) = 0 /\ snd (som_recip (fun i => mu i - nu i) (f i)) = 0).
  { intros i Hi. destruct (T i Hi) as [T1 T2].
    assert (K : fst (som_recip (fun i => mu i - nu i) (f i)) ^ 2 / v i + snd (som_recip (fun i => mu i - nu i) (f i)) ^ 2 / v (alen f + i)%nat = 0).
    { apply (rsum_nonneg_zero (alen f) (fun i => fst (som_recip (fun i => mu i - nu i) (f i)) ^ 2 / v i
        + snd (som_recip (fun i => mu i - nu i) (f i)) ^ 2 / v (alen f + i)%nat)); auto. intros k Hk. destruct (T k Hk). lra. }
    assert (G : forall x y, 0 < y -> 0 <= x ^ 2 / y -> x ^ 2 / y <= 0 -> x = 0).
    { intros x y Hy A B. assert (x ^ 2 / y = 0) by lra. assert (x ^ 2 = 0); [|nra].
      transitivity (x ^ 2 / y * y); [field; lra|rewrite H; ring]. }
    split; [apply (G _ (v i))|apply (G _ (v (alen f + i)%nat))]; auto; try (apply P; lia); lra. }
  assert (K : mu j - nu j = 0); [|lra].
  apply (design_indep_cols f 1 ltac:(lra) F (fun i => mu i - nu i)); [|cbn; lia].
  intros r Hr. cbn in Hr. destruct (Nat.lt_ge_cases r (alen f)) as [L|L].
  - rewrite design_re by auto. rewrite Rmult_1_r. apply (Z r L).
  - replace r with (alen f + (r - alen f))%nat by lia. rewrite design_im, Rmult_1_r. apply (Z (r - alen f)%nat). lia.
Qed.
Lemma recip_fits_unique f v d (t : nat -> C) (mu nu : nat -> R) : two_frequencies f -> (forall r, (r < alen f + alen f)%nat -> 0 < v r) ->
  (forall i, (i < alen f)%nat -> cmul (resp (alen f) d i) (t i) = C1) ->
  fits_recip f v d mu -> som_fits f v t nu -> forall j, (j < 3)%nat -> mu j = nu j.
Proof. intros F P T Fm Fn. apply (fits_unique f v t); auto. Qed.
Lemma exact_fits f v t (nu : nat -> R) : (forall r, (r < alen f + alen f)%nat -> 0 < v r) ->
  (forall i, (i < alen f)%nat -> t i = som_recip nu (f i)) -> som_fits f v t nu.
Proof.
  intros P E mu. rewrite (misfit_ext f v v t (fun i => som_recip nu (f i)) nu) by auto.
  unfold som_misfit at 1. rewrite rsum_zero by (intros; unfold Rdiv; ring).
  apply rsum_nonneg. intros i Hi.
  pose proof (P i ltac:(lia)). pose proof (P (alen f + i)%nat ltac:(lia)).
  apply Rplus_le_le_0_compat; (apply Rmult_le_pos; [apply pow2_ge_0|left; apply Rinv_0_lt_compat; auto]).
Qed.

(** ** C77: the sensitivities *)
Definition true_J (mu : nat -> R) (i p : nat) : R :=
  let m0 := mu 0%nat in let m1 := mu 1%nat in let m2 := mu 2%nat in
  match i, p with
  | 0%nat, 0%nat => - 1 / m0 ^ 2
  | 1%nat, 0%nat => - (m1 * m2) / (2 * (m0 * m2 * sqrt (m0 * m2)))
  | 1%nat, 1%nat => 1 / sqrt (m0 * m2)
  | 1%nat, 2%nat => - (m1 * m0) / (2 * (m0 * m2 * sqrt (m0 * m2)))
  | 2%nat, 0%nat => 1 / (4 * PI * m2 * sqrt (m0 / m2))
  | 2%nat, 2%nat => - m0 / (4 * PI * m2 ^ 2 * sqrt (m0 / m2))
  | _, _ => 0
  end.
Lemma quot_pos a b : 0 < a * b -> 0 < a / b.
Proof.
  intros P. assert (N2 : b <> 0) by (intros Z; rewrite Z in P; lra).
  replace (a / b) with (a * b * (/ b) ^ 2) by (field; auto).
  apply Rmult_lt_0_compat; [lra|]. rewrite <- Rsqr_pow2. apply Rsqr_pos_lt. apply Rinv_neq_0_compat. auto.
Qed.
Lemma true_jac (mu : nat -> R) : 0 < mu 0%nat * mu 2%nat -> is_jac 3 3 som_params mu (true_J mu).
Proof.
  intros P i p Hi Hp. assert (Pi := PI_RGT_0).
  assert (N0 : mu 0%nat <> 0) by (intros Z; rewrite Z in P; lra).
  assert (N2 : mu 2%nat <> 0) by (intros Z; rewrite Z in P; lra).
  pose proof (quot_pos _ _ P) as Q.
  assert (Sq : sqrt (mu 0%nat / mu 2%nat) <> 0) by (apply Rgt_not_eq, sqrt_lt_R0; auto).
  assert (Sp : sqrt (mu 0%nat * mu 2%nat) <> 0) by (apply Rgt_not_eq, sqrt_lt_R0; auto).
  assert (Sp2 : mu 0%nat * mu 2%nat = sqrt (mu 0%nat * mu 2%nat) * sqrt (mu 0%nat * mu 2%nat)) by (rewrite sqrt_sqrt; lra).
  destruct i as [|[|[|i]]]; [| | |lia]; (destruct p as [|[|[|p]]]; [| | |lia]); cbn [som_params upd Nat.eqb true_J];
    try (apply dl_const).
  - apply (dl_ext (fun t => 1 / t)); [intros; unfold Rdiv; ring|].
    eapply dl_eq; [apply dl_div; [auto|apply dl_const|apply dl_id]|]. cbv beta. field. auto.
  - eapply dl_eq; [apply dl_div; [auto|apply dl_const|apply dl_sqrt; [auto|eapply dl_mult; [apply dl_id|apply dl_const]]]|].
    cbv beta. set (q := sqrt (mu 0%nat * mu 2%nat)) in *. rewrite Sp2. field. auto.
  - eapply dl_eq; [apply dl_div; [auto|apply dl_id|apply dl_const]|]. cbv beta. field. auto.
  - eapply dl_eq; [apply dl_div; [auto|apply dl_const|apply dl_sqrt; [auto|eapply dl_mult; [apply dl_const|apply dl_id]]]|].
    cbv beta. set (q := sqrt (mu 0%nat * mu 2%nat)) in *. rewrite Sp2. field. auto.
  - eapply dl_eq; [apply dl_div; [|apply dl_sqrt; [auto|apply dl_div; [auto|apply dl_id|apply dl_const]]|apply dl_const]|]; cbv beta; [lra|].
    set (q := sqrt (mu 0%nat / mu 2%nat)) in *. field. repeat split; auto; lra.
  - eapply dl_eq; [apply dl_div; [|apply dl_sqrt; [auto|apply dl_div; [auto|apply dl_const|apply dl_id]]|apply dl_const]|]; cbv beta; [lra|].
    set (q := sqrt (mu 0%nat / mu 2%nat)) in *. field. repeat split; auto; lra.
Qed.
Lemma jac_unique (mu : nat -> R) J : 0 < mu 0%nat * mu 2%nat -> is_jac 3 3 som_params mu J ->
  forall i p, (i < 3)%nat -> (p < 3)%nat -> J i p = true_J mu i p.
Proof.
  intros P HJ i p Hi Hp.
  apply (uniqueness_limite (fun t => som_params (upd mu p t) i) (mu p)); [apply HJ; lia|apply true_jac; auto].
Qed.
Lemma C_rows (mu : vec) i p : 0 < mu 0%nat * mu 2%nat -> (i = 0 \/ i = 2)%nat -> (p < 3)%nat -> som_C mu i p = true_J mu i p.
Proof.
  intros P Hi Hp. pose proof (quot_pos _ _ P) as Q.
  assert (Ra : Rabs (mu 0%nat / mu 2%nat) = mu 0%nat / mu 2%nat) by (apply Rabs_pos_eq; lra).
  destruct Hi as [-> | ->]; (destruct p as [|[|[|p]]]; [| | |lia]); cbn -[sqrt Rabs PI]; rewrite ?Ra; auto.
Qed.

(** Partial: the full statement is the same equation for all i, j < 3.  Missing: the
    row and column of the damping (see C77_delta_refuted). *)
Theorem C77_jacobian_partial solve inv mvn z runs0 (f H : vec) UH wgt v scaling d :
  exact_solve solve -> exact_inv inv -> alen H = (alen f + alen f)%nat -> two_frequencies f -> (2 <= runs0)%nat ->
  (forall i, (i < alen f)%nat -> resp (alen f) H i <> C0) ->
  som_drawn mvn z (alen f) H UH runs0 d -> weights_used (alen f) wgt d runs0 v ->
  (forall r, (r < alen f + alen f)%nat -> 0 < v r) ->
  exists p U (mu : nat -> R) (fits : nat -> nat -> R),
    fit_som solve inv mvn z runs0 f H UH wgt None scaling = Ok (SomFit p (Some (CovMat U))) /\ mrows U = 3%nat /\ mcols U = 3%nat /\
    fits_recip f v H mu /\ (forall k, fits_recip f v (d k) (fits k)) /\
    (0 < mu 0%nat * mu 2%nat -> forall J, is_jac 3 3 som_params mu J ->
     forall i j, (i = 0 \/ i = 2)%nat -> (j = 0 \/ j = 2)%nat ->
      U i j = rsum 3 (fun a => rsum 3 (fun b =>
        J i a * sample_cov (fun k => fits k a) (fun k => fits k b) (seq 0 runs0) * J j b))).
Proof.
  intros S V L F Hr NZ D WU P.
  destruct (linear_path solve inv mvn z runs0 f H UH wgt v scaling d S V L F Hr NZ D WU P)
    as [mu [U [fits [Lm [E1 [_ [Fm [Fk [R1 [R2 HU]]]]]]]]]].
  exists (som_pars mu), U, mu, fits. do 5 (split; auto). intros P3 J HJ i j Hi Hj. rewrite HU by lia.
  apply rsum_ext. intros a Ha. apply rsum_ext. intros b Hb. rewrite !C_rows by auto.
  rewrite !(jac_unique mu J P3 HJ) by lia. auto.
Qed.
Print Assumptions C77_jacobian_partial.

(** Draws with 1/H = 2 a i, -3 + 4 a i. *)
Definition d12 (a : R) : vec := of_list [0; -3 / (9 + 16 * a ^ 2); - / (2 * a); - (4 * a) / (9 + 16 * a ^ 2)].
Definition t12 (a : R) (i : nat) : C := match i with O => (0, 2 * a) | _ => (-3, 4 * a) end.
Lemma d12_recip a i : 0 < a -> (i < alen f12)%nat -> cmul (resp (alen f12) (d12 a) i) (t12 a i) = C1.
Proof.
  intros Ha Hi. assert (0 < 9 + 16 * a ^ 2) by nra.
  destruct i as [|[|i]]; [| |cbn in Hi; lia]; unfold resp, C1; apply C_eq; cbn; field; lra.
Qed.
Lemma t12_exact a i : (i < alen f12)%nat -> t12 a i = som_recip (fun j => if (j =? 1)%nat then a else 1) (f12 i).
Proof.
  intros Hi. assert (Pi := PI_RGT_0).
  destruct i as [|[|i]]; [| |cbn in Hi; lia]; unfold som_recip; cbn [t12 f12 of_list aget nth Nat.eqb]; apply C_eq; cbn [fst snd]; field; lra.
Qed.
Lemma d12_fit a v mu : 0 < a -> (forall r, (r < alen f12 + alen f12)%nat -> 0 < v r) -> fits_recip f12 v (d12 a) mu ->
  forall j, (j < 3)%nat -> mu j = if (j =? 1)%nat then a else 1.
Proof.
  intros Ha P Fm. apply (recip_fits_unique f12 v (d12 a) (t12 a)); auto.
  - apply f12_two.
  - intros. apply d12_recip; auto.
  - apply exact_fits; auto. apply t12_exact.
Qed.
Lemma d12_H : d12 1 = H12 1.
Proof. unfold d12, H12. f_equal. repeat (f_equal; try (field; lra)). Qed.

Definition z77 (k : nat) : vec := mkArr 4 (fun r => d12 (match k with O => 3/2 | _ => /2 end) r - H12 1 r).
Definition ones4 : vec := mkArr 4 (fun _ => 1).
Definition d77 (k : nat) : vec := d12 (match k with O => 3/2 | _ => /2 end).
Lemma drawn77 mvn runs : som_drawn mvn z77 (alen f12) (H12 1) (SuStd ones4) runs d77.
Proof. split; [reflexivity|]. intros k r Hr. unfold z77, d77, ones4. cbn [aget]. ring. Qed.

(** The variance of the damping from the linear propagation is half the one from the
    partial derivatives; Monte Carlo with the same draws agrees with the latter. *)
Theorem C77_delta_refuted :
  exists z (f H : vec) UH (v : nat -> R) d, alen H = (alen f + alen f)%nat /\ two_frequencies f /\
    (forall mvn, som_drawn mvn z (alen f) H UH 2 d) /\ (forall r, v r = 1) /\
    forall solve inv mvn, exact_solve solve -> exact_inv inv ->
    exists p U p' U' (mu : nat -> R) (fits : nat -> nat -> R),
      fit_som solve inv mvn z 2 f H UH SwNone None 1 = Ok (SomFit p (Some (CovMat U))) /\
      fits_recip f v H mu /\ (forall k, fits_recip f v (d k) (fits k)) /\ 0 < mu 0%nat * mu 2%nat /\
      (exists J, is_jac 3 3 som_params mu J /\
        rsum 3 (fun a => rsum 3 (fun b =>
          J 1%nat a * sample_cov (fun k => fits k a) (fun k => fits k b) (seq 0 2) * J 1%nat b)) = / 2) /\
      U 1%nat 1%nat = / 4 /\
      fit_som solve inv mvn z 2 f H UH SwNone (Some 2%nat) 1 = Ok (SomFit p' (Some (CovMat U'))) /\ U' 1%nat 1%nat = / 2.
Proof.
  exists z77, f12, (H12 1), (SuStd ones4), (fun _ => 1), d77.
  split; [reflexivity|]. split; [apply f12_two|]. split; [intros; apply drawn77|]. split; [auto|].
  intros solve inv mvn S V.
  assert (P : forall r, (r < alen f12 + alen f12)%nat -> 0 < 1) by (intros; lra).
  assert (NZ : forall i, (i < alen f12)%nat -> resp (alen f12) (H12 1) i <> C0).
  { intros i Hi. eapply response_nonzero; [|apply (H12_response 1 i); auto]; lra. }
  assert (W : weights_used (alen f12) SwNone d77 2 (fun _ => 1)) by (left; cbn; auto).
  destruct (linear_path solve inv mvn z77 2 f12 (H12 1) (SuStd ones4) SwNone (fun _ => 1) 1 d77 S V eq_refl f12_two ltac:(lia) NZ (drawn77 mvn 2) W P)
    as [mu [U [fits [Lm [E1 [_ [Fm [Fk [_ [_ HU]]]]]]]]]].
  destruct (C109_monte_carlo solve inv mvn z77 2 2 f12 (H12 1) (SuStd ones4) SwNone (fun _ => 1) 1 d77 S eq_refl f12_two ltac:(lia) ltac:(lra) (drawn77 mvn 2) W P)
    as [p' [U' [mus [ps [E2 [_ [_ [_ [_ [HU' Hps]]]]]]]]]].
  assert (Hm : forall j, (j < 3)%nat -> mu j = 1).
  { rewrite <- d12_H in Fm. intros j Hj. rewrite (d12_fit 1 (fun _ => 1) mu ltac:(lra) P Fm j Hj). destruct (j =? 1)%nat; auto. }
  assert (Hf : forall k j, (j < 3)%nat -> fits k j = if (j =? 1)%nat then match k with O => 3/2 | _ => /2 end else 1).
  { intros k. apply (d12_fit (match k with O => 3/2 | _ => /2 end) (fun _ => 1)); [destruct k; lra|auto|apply Fk]. }
  assert (Hfm : forall k j, (j < 3)%nat -> mus k j = if (j =? 1)%nat then match k with O => 3/2 | _ => /2 end else 1).
  { intros k. destruct (Hps k) as [F1 _]. apply (d12_fit (match k with O => 3/2 | _ => /2 end) (fun _ => 1)); [destruct k; lra|auto|apply F1]. }
  assert (Sc : forall a b, (a < 3)%nat -> (b < 3)%nat -> sample_cov (fun k => fits k a) (fun k => fits k b) (seq 0 2) =
    if ((a =? 1)%nat && (b =? 1)%nat)%bool then / 2 else 0).
  { intros a b Ha Hb.
    rewrite (sample_cov_ext _ (fun k => if (a =? 1)%nat then match k with O => 3/2 | _ => /2 end else 1)
       _ (fun k => if (b =? 1)%nat then match k with O => 3/2 | _ => /2 end else 1)) by (intros; auto).
    unfold sample_cov, scatter, avg. cbn [seq tot length INR].
    destruct (a =? 1)%nat; destruct (b =? 1)%nat; cbn; field; lra. }
  exists (som_pars mu), U, p', U', mu, fits. split; auto. split; auto. split; auto.
  assert (P3 : 0 < mu 0%nat * mu 2%nat) by (rewrite !Hm by lia; lra). split; auto. split; [|split; [|split; auto]].
  - exists (true_J mu). split; [apply true_jac; auto|]. cbn [rsum]. rewrite !Sc by lia. cbn [Nat.eqb andb true_J].
    rewrite !Hm by lia. rewrite Rmult_1_r, sqrt_1. field.
  - rewrite HU by lia. cbn [rsum]. rewrite !Sc by lia. cbn -[sqrt Rabs PI]. rewrite !Hm by lia.
    replace (1 + 1) with 2 by ring. rewrite (Rabs_pos_eq 2) by lra.
    assert (Q : / sqrt 2 * / sqrt 2 = / 2) by (rewrite <- Rinv_mult, sqrt_sqrt by lra; auto).
    transitivity (/ 2 * (/ sqrt 2 * / sqrt 2)); [unfold Rdiv; ring|rewrite Q; field].
  - rewrite HU'. rewrite (sample_cov_ext _ (fun k => match k with O => 3/2 | _ => /2 end) _ (fun k => match k with O => 3/2 | _ => /2 end)).
    + unfold sample_cov, scatter, avg. cbn. lra.
    + intros k _. destruct (Hps k) as [_ [_ Hp]]. rewrite Hp by (try lia; rewrite !Hfm by lia; cbn; lra).
      cbn [som_params]. rewrite !Hfm by lia. cbn [Nat.eqb]. rewrite Rmult_1_r, sqrt_1. field.
    + intros k _. destruct (Hps k) as [_ [_ Hp]]. rewrite Hp by (try lia; rewrite !Hfm by lia; cbn; lra).
      cbn [som_params]. rewrite !Hfm by lia. cbn [Nat.eqb]. rewrite Rmult_1_r, sqrt_1. field.
Qed.
Print Assumptions C77_delta_refuted.

(** ** C110: user defined weights *)
(** Partial: the deviations are divided by the given weights. *)
Theorem C110_divides_partial solve inv mvn z runs0 (f H w : vec) MCruns scaling :
  exact_solve solve -> alen H = (alen f + alen f)%nat -> two_frequencies f -> scaling <> 0 ->
  alen w = (alen f + alen f)%nat -> (forall r, (r < alen f + alen f)%nat -> 0 < w r) ->
  (forall i, (i < alen f)%nat -> resp (alen f) H i <> C0) ->
  exists p mu, fit_som solve inv mvn z runs0 f H SuNone (SwArr w) MCruns scaling = Ok (SomFit p None) /\
    fits_recip f w H mu /\ p 0%nat = / mu 0%nat /\
    (0 < mu 0%nat * mu 2%nat -> forall i, (i < 3)%nat -> p i = som_params mu i).
Proof.
  intros S L F Hs Lw P NZ.
  destruct (C109_least_squares solve inv mvn z runs0 f H (SwArr w) w MCruns scaling) as [p [mu [E [_ R]]]]; auto.
  - split; auto.
  - exists p, mu. auto.
Qed.
Print Assumptions C110_divides_partial.

(** 1/H = 2 i, -3 + 8 i: the damping follows from 2 mu_1 = 2 and 4 mu_1 = 8, with
    weights 1 and 4 it is 33/17; fit_som returns 3/2. *)
Definition H110 : vec := of_list [0; -3 / 73; - / 2; -8 / 73].
Definition w110 : vec := of_list [1; 1; 1; 4].
Definition t110 (i : nat) : C := match i with O => (0, 2) | _ => (-3, 8) end.
Lemma H110_recip i : (i < alen f12)%nat -> cmul (resp (alen f12) H110 i) (t110 i) = C1.
Proof.
  intros Hi. destruct i as [|[|i]]; [| |cbn in Hi; lia]; unfold resp, C1; apply C_eq; cbn; field.
Qed.
Lemma misfit110 v mu : som_misfit f12 v t110 mu =
  (mu 0%nat - mu 2%nat) ^ 2 / v 0%nat + (2 * mu 1%nat - 2) ^ 2 / v 2%nat
  + ((mu 0%nat - 4 * mu 2%nat + 3) ^ 2 / v 1%nat + (4 * mu 1%nat - 8) ^ 2 / v 3%nat).
Proof.
  assert (Pi := PI_RGT_0). unfold som_misfit, som_recip. cbn [f12 of_list alen length rsum aget nth t110 fst snd Nat.add].
  rewrite Rplus_0_l.
  replace (2 * PI * / (2 * PI)) with 1 by (field; lra). replace (2 * PI * (2 / (2 * PI))) with 2 by (field; lra).
  unfold Rdiv. f_equal; f_equal; f_equal; ring.
Qed.
Lemma fits110 v x : (forall r, (r < 4)%nat -> 0 < v r) -> (forall y, (2 * x - 2) ^ 2 / v 2%nat + (4 * x - 8) ^ 2 / v 3%nat <= (2 * y - 2) ^ 2 / v 2%nat + (4 * y - 8) ^ 2 / v 3%nat) ->
  som_fits f12 v t110 (fun j => if (j =? 1)%nat then x else 1).
Proof.
  intros P Hx mu. rewrite !misfit110. cbn [Nat.eqb]. specialize (Hx (mu 1%nat)).
  replace ((1 - 1) ^ 2 / v 0%nat) with 0 by (unfold Rdiv; ring). replace ((1 - 4 * 1 + 3) ^ 2 / v 1%nat) with 0 by (unfold Rdiv; ring).
  assert (G : forall a b, 0 < b -> 0 <= a ^ 2 / b).
  { intros a b Hb. apply Rmult_le_pos; [apply pow2_ge_0|left; apply Rinv_0_lt_compat; auto]. }
  pose proof (G (mu 0%nat - mu 2%nat) (v 0%nat) (P 0%nat ltac:(lia))).
  pose proof (G (mu 0%nat - 4 * mu 2%nat + 3) (v 1%nat) (P 1%nat ltac:(lia))). lra.
Qed.
Theorem C110_weights_refuted :
  exists (f H w : vec), alen H = (alen f + alen f)%nat /\ two_frequencies f /\ alen w = (alen f + alen f)%nat /\
    (forall r, (r < alen f + alen f)%nat -> 0 < w r) /\ (forall i, (i < alen f)%nat -> resp (alen f) H i <> C0) /\
    exists nu, fits_recip f (fun r => / w r) H nu /\ 0 < nu 0%nat * nu 2%nat /\
    forall solve inv mvn z runs0, exact_solve solve ->
      exists p, fit_som solve inv mvn z runs0 f H SuNone (SwArr w) None 1 = Ok (SomFit p None) /\
        p 1%nat = 3 / 2 /\ som_params nu 1 = 33 / 17.
Proof.
  exists f12, H110, w110. split; [reflexivity|]. split; [apply f12_two|]. split; [reflexivity|].
  assert (Pw : forall r, (r < alen f12 + alen f12)%nat -> 0 < w110 r).
  { intros [|[|[|[|r]]]] Hr; cbn in Hr |- *; try lra; lia. }
  split; auto.
  assert (NZ : forall i, (i < alen f12)%nat -> resp (alen f12) H110 i <> C0).
  { intros i Hi Z. pose proof (H110_recip i Hi) as E. rewrite Z, cmul_0_l in E. apply (f_equal fst) in E. cbn in E. lra. }
  split; auto. exists (fun j => if (j =? 1)%nat then 33 / 17 else 1). split; [|split; [cbn; lra|]].
  - intros t T. apply (fits_ext f12 (fun r => / w110 r) (fun r => / w110 r) t110); auto.
    + intros i Hi. rewrite <- (recip_target _ _ _ _ (H110_recip i Hi)). apply recip_target. auto.
    + apply fits110.
      * intros r Hr. apply Rinv_0_lt_compat. apply Pw. auto.
      * intros y. cbn [w110 of_list aget nth]. pose proof (pow2_ge_0 (y - 33 / 17)). unfold Rdiv in *. rewrite !Rinv_inv, !Rmult_1_r. nra.
  - intros solve inv mvn z runs0 S.
    destruct (C110_divides_partial solve inv mvn z runs0 f12 H110 w110 None 1 S eq_refl f12_two ltac:(lra) eq_refl Pw NZ)
      as [p [mu [E [Fm [_ Hp]]]]].
    assert (Hm : forall j, (j < 3)%nat -> mu j = if (j =? 1)%nat then 3 / 2 else 1).
    { apply (recip_fits_unique f12 w110 H110 t110); auto; [apply f12_two|apply H110_recip|].
      apply (fits110 w110); auto. intros y. cbn [w110 of_list aget nth]. pose proof (pow2_ge_0 (y - 3 / 2)). nra. }
    exists p. split; auto. split.
    + rewrite Hp by (try lia; rewrite !Hm by lia; cbn; lra). cbn [som_params]. rewrite !Hm by lia. cbn [Nat.eqb].
      rewrite Rmult_1_r, sqrt_1. field.
    + cbn [som_params Nat.eqb]. rewrite Rmult_1_r, sqrt_1. field.
Qed.
Print Assumptions C110_weights_refuted.

(** ** Rejected arguments *)
Theorem C76_rejects solve inv mvn z runs0 (f H : vec) UH wgt MCruns scaling :
  (alen H <> (alen f + alen f)%nat ->
     fit_som solve inv mvn z runs0 f H UH wgt MCruns scaling = Err AssertionError) /\
  (alen H = (alen f + alen f)%nat ->
   (forall s, UH = SuStd s -> alen s <> (alen f + alen f)%nat ->
     fit_som solve inv mvn z runs0 f H UH wgt MCruns scaling = Err AssertionError) /\
   (forall U, UH = SuCov U -> (mrows U <> alen f + alen f \/ mcols U <> alen f + alen f)%nat ->
     fit_som solve inv mvn z runs0 f H UH wgt MCruns scaling = Err AssertionError) /\
   (UH = SuNone -> wgt = SwStr "diag" \/ wgt = SwStr "cov" ->
     fit_som solve inv mvn z runs0 f H UH wgt MCruns scaling = Err UnboundLocalError) /\
   (forall w, UH = SuNone -> wgt = SwArr w -> alen w <> (alen f + alen f)%nat ->
     fit_som solve inv mvn z runs0 f H UH wgt MCruns scaling = Err AssertionError) /\
   (forall v, UH = SuNone -> plain_weights (alen f) wgt v -> alen f = 0%nat ->
     fit_som solve inv mvn z runs0 f H UH wgt MCruns scaling = Err ValueError) /\
   (forall v i, UH = SuNone -> plain_weights (alen f) wgt v -> (i < alen f)%nat -> resp (alen f) H i = C0 ->
     fit_som solve inv mvn z runs0 f H UH wgt MCruns scaling = Err AssertionError)).
Proof.
  split.
  - intros N. unfold fit_som. destruct (Nat.eqb_spec (alen f + alen f) (alen H)); [congruence|reflexivity].
  - intros L. unfold fit_som. rewrite L, Nat.eqb_refl. cbn [negb]. split; [|split; [|split; [|split; [|split]]]].
    + intros s -> N. cbn [som_draws]. apply Nat.eqb_neq in N. rewrite N. reflexivity.
    + intros U -> N. cbn [som_draws].
      destruct (Nat.eqb_spec (mrows U) (alen f + alen f)); [|reflexivity].
      destruct (Nat.eqb_spec (mrows U) (mcols U)); [|reflexivity]. lia.
    + intros -> [-> | ->]; reflexivity.
    + intros w -> -> N. cbn [som_draws bind som_W]. apply Nat.eqb_neq in N. rewrite N. reflexivity.
    + intros v -> PW E. cbn [som_draws bind]. rewrite (plain_W _ _ _ _ PW). cbn [bind]. rewrite E. reflexivity.
    + intros v i -> PW Hi Z. cbn [som_draws bind]. rewrite (plain_W _ _ _ _ PW). cbn [bind].
      assert (Q0 : (alen f =? 0)%nat = false) by (apply Nat.eqb_neq; lia). rewrite Q0.
      assert (Hz : has_zero (alen f) H = true).
      { unfold has_zero. apply existsb_exists. exists i. split; [apply in_seq; lia|].
        change (unstack (alen f) H i) with (resp (alen f) H i). rewrite Z.
        destruct (Req_EM_T (cnorm2 C0) 0) as [|n]; auto. exfalso. apply n. unfold cnorm2, C0. cbn. ring. }
      rewrite Hz. reflexivity.
Qed.
Print Assumptions C76_rejects.
Example C76_rejects_ex solve inv mvn z : fit_som solve inv mvn z 10 f12 (H12 1) SuNone (SwStr "diag") None 1 = Err UnboundLocalError
  /\ fit_som solve inv mvn z 10 f12 (of_list [1; 0; 1; 0]) SuNone SwNone None 1 = Err AssertionError.
Proof.
  split.
  - apply C76_rejects; auto.
  - apply (C76_rejects solve inv mvn z 10 f12 (of_list [1; 0; 1; 0])) with (v := fun _ => 1) (i := 1%nat); auto; cbn; auto.
Qed.

(** Examples for the propagation theorems: the two draws of C77_delta_refuted; the
    sample variances of the imaginary parts of 1/H are positive, those of the real
    parts are not, so unit weights are used. *)
Example C76_unc_ex solve inv mvn : exact_solve solve -> exact_inv inv ->
  exists p U, fit_som solve inv mvn z77 2 f12 (H12 1) (SuStd ones4) SwNone None 1 = Ok (SomFit p (Some (CovMat U))) /\
    is_triple p 1 1 (/ (2 * PI)).
Proof.
  intros S V. assert (Pi := PI_RGT_0).
  destruct (C76_with_uncertainty solve inv mvn z77 2 f12 (H12 1) (SuStd ones4) SwNone (fun _ => 1) 1 d77 1 1 (/ (2 * PI)))
    as [p [U [E [T _]]]]; auto; try lra.
  - apply f12_two.
  - apply drawn77.
  - left. cbn. auto.
  - intros; lra.
  - apply Rinv_0_lt_compat; lra.
  - intros; apply H12_response; auto; lra.
  - exists p, U. auto.
Qed.
Example C76_mc_ex solve inv mvn z : exact_solve solve ->
  exists p U, fit_som solve inv mvn z 0 f12 (H12 2) (SuStd (mkArr 4 (fun _ => 0))) SwNone (Some 3%nat) (/ 10) = Ok (SomFit p (Some (CovMat U))) /\
    is_triple p 2 1 (/ (2 * PI)) /\ U 1%nat 2%nat = 0.
Proof.
  intros S. assert (Pi := PI_RGT_0).
  destruct (C76_monte_carlo solve inv mvn z 0 3 f12 (H12 2) (SuStd (mkArr 4 (fun _ => 0))) SwNone (fun _ => 1) (/ 10)
     (fun _ => H12 2) 2 1 (/ (2 * PI))) as [p [U [E [T HU]]]]; auto; try lra.
  - apply f12_two.
  - split; [reflexivity|]. intros. cbn [aget]. ring.
  - cbn. auto.
  - intros; lra.
  - apply Rinv_0_lt_compat; lra.
  - intros; apply H12_response; auto; lra.
  - exists p, U. split; [auto|split; [auto|apply HU; lia]].
Qed.
(** "diag": two draws 1/H = 2 i -/+ (1 + i)/2 and -3 + 4 i -/+ (1 + i)/2 have positive
    sample variances 1/2. *)
Definition dd (k : nat) : vec :=
  let e := match k with O => / 2 | _ => - / 2 end in
  stack1 2 (fun i => cinv (match i with O => (e, 2 + e) | _ => (-3 + e, 4 + e) end)).
Lemma cinv_cinv z : z <> C0 -> cinv (cinv z) = z.
Proof.
  intros N. assert (Ni : cinv z <> C0).
  { intros E. pose proof (cmul_inv_r z N) as Q. rewrite E, cmul_0_r in Q. apply (f_equal fst) in Q. cbn in Q. lra. }
  apply (cmul_reg_l (cinv z)); auto. rewrite cmul_inv_r, cmul_inv_l by auto. auto.
Qed.
Lemma dd_used : weights_used (alen f12) (SwStr "diag") dd 2 (fun _ => / 2).
Proof.
  right. split; auto. intros i Hi.
  assert (E : forall k, cinv (resp 2 (dd k) i) = match i with O => (match k with O => / 2 | _ => - / 2 end, 2 + match k with O => / 2 | _ => - / 2 end)
     | _ => (-3 + match k with O => / 2 | _ => - / 2 end, 4 + match k with O => / 2 | _ => - / 2 end) end).
  { intros k. change (alen f12) with 2%nat in Hi.
    assert (Q : resp 2 (dd k) i = cinv (match i with O => (match k with O => / 2 | _ => - / 2 end, 2 + match k with O => / 2 | _ => - / 2 end)
     | _ => (-3 + match k with O => / 2 | _ => - / 2 end, 4 + match k with O => / 2 | _ => - / 2 end) end)).
    { unfold resp, dd. rewrite stack1_re, stack1_im by auto. rewrite <- surjective_pairing. auto. }
    rewrite Q. apply cinv_cinv. intros Z. apply (f_equal snd) in Z. destruct i; destruct k; cbn in Z; lra. }
  change (alen f12) with 2%nat in *.
  split; symmetry; (etransitivity; [apply sample_cov_ext; intros k _; rewrite E; reflexivity|]);
    destruct i; unfold sample_cov, scatter, avg; cbn; lra.
Qed.
Example C109_ex solve inv (mvn : vec -> mat -> nat -> nat -> vec) z : exact_solve solve -> exact_inv inv ->
  (forall k, mvn (H12 1) (eye 4) 2%nat k = dd k) ->
  (exists p U, fit_som solve inv mvn z 2 f12 (H12 1) (SuCov (eye 4)) (SwStr "diag") None 1 = Ok (SomFit p (Some (CovMat U)))) /\
  (exists p U, fit_som solve inv mvn z 7 f12 (H12 1) (SuCov (eye 4)) (SwStr "diag") (Some 2%nat) (/ 10) = Ok (SomFit p (Some (CovMat U)))) /\
  (exists p, fit_som solve inv mvn z 7 f12 (H12 1) SuNone SwNone None (/ 10) = Ok (SomFit p None)) /\
  (exists p, fit_som solve inv mvn z 7 f12 H110 SuNone (SwArr w110) None (/ 10) = Ok (SomFit p None)).
Proof.
  intros S V M.
  assert (NZ : forall i, (i < alen f12)%nat -> resp (alen f12) (H12 1) i <> C0).
  { intros i Hi. eapply response_nonzero; [|apply (H12_response 1 i); auto]; lra. }
  assert (D : som_drawn mvn z (alen f12) (H12 1) (SuCov (eye 4)) 2 dd).
  { split; [reflexivity|]. split; [reflexivity|]. intros k r Hr. rewrite M. auto. }
  split; [|split; [|split]].
  - destruct (C77_jacobian_partial solve inv mvn z 2 f12 (H12 1) (SuCov (eye 4)) (SwStr "diag") (fun _ => / 2) 1 dd S V
      eq_refl f12_two ltac:(lia) NZ D dd_used ltac:(intros; lra)) as [p [U [_ [_ [E _]]]]]. exists p, U. auto.
  - destruct (C109_monte_carlo solve inv mvn z 7 2 f12 (H12 1) (SuCov (eye 4)) (SwStr "diag") (fun _ => / 2) (/ 10) dd S
      eq_refl f12_two ltac:(lia) ltac:(lra) D dd_used ltac:(intros; lra)) as [p [U [_ [_ [E _]]]]]. exists p, U. auto.
  - destruct (C109_least_squares solve inv mvn z 7 f12 (H12 1) SwNone (fun _ => 1) None (/ 10) S
      eq_refl f12_two ltac:(lra) ltac:(cbn; auto) ltac:(intros; lra) NZ) as [p [_ [E _]]]. exists p. auto.
  - destruct (C110_divides_partial solve inv mvn z 7 f12 H110 w110 None (/ 10) S eq_refl f12_two ltac:(lra) eq_refl) as [p [_ [E _]]].
    + intros [|[|[|[|r]]]] Hr; cbn in Hr |- *; try lra; lia.
    + intros i Hi Z. pose proof (H110_recip i Hi) as E. rewrite Z, cmul_0_l in E. apply (f_equal fst) in E. cbn in E. lra.
    + exists p. auto.
Qed.
