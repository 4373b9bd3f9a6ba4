(** Theorems on fit_som (fit_transfer.py) with weighting="cov": C195. *)
From Coq Require Import Reals String List Arith Lra Lia.
From Verif Require Import Base Sums Cplx M_DFT M_FilterStuff M_MC M_Fit S_Poly S_Fit S_MC S_Jac S_Som P_Poly P_MC P_Deriv
  P_LinAlg P_Fit P_Fit2 P_Som T_Som T_SomSign.
Import ListNotations.
Local Notation length := Datatypes.length.
Open Scope R_scope.

(** ** Generalised least squares *)
Definition pos_def (m : nat) (V : nat -> nat -> R) : Prop :=
  forall c, (exists i, (i < m)%nat /\ c i <> 0) -> 0 < rsum m (fun i => rsum m (fun j => c i * V i j * c j)).
(** q = r^T V^-1 r *)
Definition mahal (m : nat) (V : nat -> nat -> R) (r : nat -> R) (q : R) : Prop :=
  exists w, (forall i, (i < m)%nat -> rsum m (fun j => V i j * w j) = r i) /\ q = rsum m (fun i => w i * r i).
(** Deviation of the reciprocal response mu_0 + 2 i w mu_1 - w^2 mu_2 from t, real parts
    first. *)
Definition som_dev (f : vec) (t : nat -> C) (mu : nat -> R) (r : nat) : R :=
  if (r <? alen f)%nat then fst (t r) - fst (som_recip mu (f r))
  else snd (t (r - alen f)%nat) - snd (som_recip mu (f (r - alen f)%nat)).
(** mu minimises the deviation from the reciprocal of d in the metric of V. *)
Definition gls_fit (f : vec) (V : nat -> nat -> R) (d : vec) (mu : nat -> R) : Prop :=
  forall t : nat -> C, (forall i, (i < alen f)%nat -> cmul (resp (alen f) d i) (t i) = C1) ->
  (exists q, mahal (alen f + alen f) V (som_dev f t mu) q) /\
  forall mu' q q', mahal (alen f + alen f) V (som_dev f t mu) q -> mahal (alen f + alen f) V (som_dev f t mu') q' -> q <= q'.
(** Real parts, then imaginary parts of 1/d. *)
Definition recip_part (n : nat) (d : vec) (r : nat) : R :=
  if (r <? n)%nat then fst (cinv (resp n d r)) else snd (cinv (resp n d (r - n)%nat)).

Lemma zero_or (m : nat) (c : nat -> R) : (forall i, (i < m)%nat -> c i = 0) \/ exists i, (i < m)%nat /\ c i <> 0.
Proof.
  induction m as [|m [Z|[i [Hi N]]]].
  - left. lia.
  - destruct (Req_EM_T (c m) 0) as [E|N].
    + left. intros i Hi. destruct (Nat.eq_dec i m) as [->|]; auto. apply Z. lia.
    + right. exists m. auto.
  - right. exists i. split; auto.
Qed.
Lemma pd_zero m V c : pos_def m V -> rsum m (fun i => c i * rsum m (fun j => V i j * c j)) = 0 -> forall i, (i < m)%nat -> c i = 0.
Proof.
  intros P Z. destruct (zero_or m c) as [|N]; auto. exfalso. pose proof (P c N) as K.
  rewrite (rsum_ext m _ (fun i => c i * rsum m (fun j => V i j * c j))) in K; [lra|].
  intros i Hi. rewrite <- rsum_scal. apply rsum_ext. intros. ring.
Qed.
Lemma pd_nonneg m V c : pos_def m V -> 0 <= rsum m (fun i => c i * rsum m (fun j => V i j * c j)).
Proof.
  intros P. destruct (zero_or m c) as [Z|N].
  - right. symmetry. apply rsum_zero. intros i Hi. rewrite Z by auto. ring.
  - pose proof (P c N) as K. rewrite (rsum_ext m _ (fun i => c i * rsum m (fun j => V i j * c j))) in K; [lra|].
    intros i Hi. rewrite <- rsum_scal. apply rsum_ext. intros. ring.
Qed.
(** The form of two solutions whose difference is orthogonal to the first. *)
Lemma mahal_least m V (w w' r r' : nat -> R) : pos_def m V -> (forall i j, V i j = V j i) ->
  (forall i, (i < m)%nat -> rsum m (fun j => V i j * w j) = r i) ->
  (forall i, (i < m)%nat -> rsum m (fun j => V i j * w' j) = r' i) ->
  rsum m (fun i => w i * (r' i - r i)) = 0 ->
  rsum m (fun i => w i * r i) <= rsum m (fun i => w' i * r' i).
Proof.
  intros P S E E' O.
  assert (K := pd_nonneg m V (fun i => w' i - w i) P).
  assert (D : forall i, (i < m)%nat -> rsum m (fun j => V i j * (w' j - w j)) = r' i - r i).
  { intros i Hi. rewrite <- E, <- E', <- rsum_minus by auto. apply rsum_ext. intros. ring. }
  rewrite (rsum_ext m _ (fun i => (w' i - w i) * (r' i - r i))) in K by (intros i Hi; rewrite D; auto).
  assert (C : rsum m (fun i => w i * r' i) = rsum m (fun i => w' i * r i)).
  { rewrite (rsum_ext m _ (fun i => rsum m (fun j => w i * V i j * w' j))).
    - rewrite rsum_swap. apply rsum_ext. intros j Hj. rewrite <- E by auto. rewrite <- rsum_scal. apply rsum_ext. intros i Hi. rewrite (S i j). ring.
    - intros i Hi. rewrite <- E' by auto. rewrite <- rsum_scal. apply rsum_ext. intros. ring. }
  assert (X : rsum m (fun i => (w' i - w i) * (r' i - r i)) =
    rsum m (fun i => w' i * r' i) - rsum m (fun i => w' i * r i) - rsum m (fun i => w i * (r' i - r i))).
  { rewrite <- !rsum_minus. apply rsum_ext. intros. ring. }
  assert (Y : rsum m (fun i => w i * (r' i - r i)) = rsum m (fun i => w i * r' i) - rsum m (fun i => w i * r i)).
  { rewrite <- rsum_minus. apply rsum_ext. intros. ring. }
  lra.
Qed.

Section Gls.
  Variable (solve : mat -> vec -> res vec).
  Hypothesis S : exact_solve solve.
  Variable (m : nat) (W : mat).
  Hypothesis RW : mrows W = m.
  Hypothesis CW : mcols W = m.
  Hypothesis P : pos_def m W.
  Lemma pd_regular : regular W.
  Proof.
    split; [congruence|]. intros c Z j Hj. apply (pd_zero m W c P); [|lia].
    apply rsum_zero. intros i Hi. specialize (Z i ltac:(lia)). unfold mv in Z. rewrite CW in Z. rewrite Z. ring.
  Qed.
  Lemma pd_solve (y : vec) : alen y = m ->
    exists x, solve W y = Ok x /\ alen x = m /\ forall i, (i < m)%nat -> rsum m (fun j => W i j * x j) = y i.
  Proof.
    intros L. destruct (S W y pd_regular) as [x [E [Lx X]]]; [congruence|].
    exists x. split; auto. split; [congruence|]. intros i Hi. rewrite <- X by lia. unfold mv. rewrite CW. auto.
  Qed.
  Lemma pd_cols (B : mat) : mrows B = m -> forall n,
    exists l, solve_cols solve W B n = Ok l /\ length l = n /\
      forall j i, (j < n)%nat -> (i < m)%nat -> rsum m (fun k => W i k * nth j l (mkArr 0 (fun _ => 0)) k) = B i j.
  Proof.
    intros R0. induction n as [|n [l [E [Ll Hl]]]]; cbn [solve_cols].
    - exists []. split; auto. split; auto. lia.
    - rewrite E. cbn [bind]. destruct (pd_solve (mkArr (mrows B) (fun i => B i n))) as [x [Ex [Lx Hx]]]; [auto|].
      rewrite Ex. cbn [bind]. exists (l ++ [x])%list. split; auto. split; [rewrite app_length; cbn; lia|].
      intros j i Hj Hi. destruct (Nat.eq_dec j n) as [->|Nj].
      + rewrite app_nth2, Ll, Nat.sub_diag by lia. cbn [nth]. rewrite Hx by auto. auto.
      + rewrite app_nth1 by lia. apply Hl; lia.
  Qed.
  Lemma pd_mat (B : mat) : mrows B = m ->
    exists A, solve_mat solve W B = Ok A /\ mrows A = m /\ mcols A = mcols B /\
      forall i j, (i < m)%nat -> (j < mcols B)%nat -> rsum m (fun k => W i k * A k j) = B i j.
  Proof.
    intros R0. destruct (pd_cols B R0 (mcols B)) as [l [E [Ll Hl]]]. unfold solve_mat. rewrite E. cbn [bind].
    eexists. split; [reflexivity|]. split; [cbn; auto|]. split; [reflexivity|]. intros i j Hi Hj. cbn [mget]. auto.
  Qed.
  Variable (X : mat).
  Hypothesis R0 : mrows X = m.
  Hypothesis I : indep_cols X.
  Lemma pd_normal : exists G A, som_normal solve W X = Ok G /\ mrows G = mcols X /\ mcols G = mcols X /\ regular G /\
    (forall i j, (i < m)%nat -> (j < mcols X)%nat -> rsum m (fun k => W i k * A k j) = X i j) /\
    forall c j, (j < mcols X)%nat -> mv G c j = rsum m (fun i => X i j * rsum (mcols X) (fun l => A i l * c l)).
  Proof.
    destruct (pd_mat X R0) as [A [E [RA [CA HA]]]]. unfold som_normal. rewrite E. cbn [bind].
    exists (mdot (transp X) A), (fun i j => A i j). split; [reflexivity|].
    assert (RG : mrows (mdot (transp X) A) = mcols X) by reflexivity.
    assert (CG : mcols (mdot (transp X) A) = mcols X) by (cbn; auto).
    assert (HG : forall c j, (j < mcols X)%nat -> mv (mdot (transp X) A) c j = rsum m (fun i => X i j * rsum (mcols X) (fun l => A i l * c l))).
    { intros c j Hj. unfold mv. cbn [mdot transp mcols mget mrows]. rewrite CA, R0.
      rewrite (rsum_ext (mcols X) _ (fun l => rsum m (fun i => X i j * (A i l * c l)))).
      - rewrite rsum_swap. apply rsum_ext. intros i Hi. rewrite <- rsum_scal. auto.
      - intros l Hl. rewrite <- rsum_scal_r. apply rsum_ext. intros. ring. }
    split; auto. split; auto. split; [|split; auto].
    split; [congruence|]. intros c Z j Hj.
    set (u := fun i => rsum (mcols X) (fun l => A i l * c l)).
    assert (U : forall i, (i < m)%nat -> rsum m (fun k => W i k * u k) = mv X c i).
    { intros i Hi. unfold u, mv.
      rewrite (rsum_ext m _ (fun k => rsum (mcols X) (fun l => W i k * A k l * c l)))
        by (intros k Hk; rewrite <- rsum_scal; apply rsum_ext; intros; ring).
      rewrite rsum_swap. apply rsum_ext. intros l Hl. rewrite rsum_scal_r, HA by auto. auto. }
    assert (U0 : forall i, (i < m)%nat -> u i = 0).
    { apply (pd_zero m W u P).
      rewrite (rsum_ext m _ (fun i => rsum (mcols X) (fun l => c l * (X i l * u i)))).
      - rewrite rsum_swap. apply rsum_zero. intros l Hl. rewrite rsum_scal.
        replace (rsum m (fun i => X i l * u i)) with (mv (mdot (transp X) A) c l) by (rewrite HG by auto; reflexivity).
        rewrite Z by (cbn; auto). ring.
      - intros i Hi. rewrite U by auto. unfold mv. rewrite <- rsum_scal. apply rsum_ext. intros. ring. }
    apply (I c); [|cbn in Hj; lia]. intros i Hi. rewrite <- U by lia. apply rsum_zero. intros k Hk. rewrite U0 by auto. ring.
  Qed.
  Lemma pd_gls (y : vec) : alen y = m ->
    exists mu, som_gls solve W X y = Ok mu /\ alen mu = mcols X /\
      exists w, (forall i, (i < m)%nat -> rsum m (fun j => W i j * w j) = y i - mv X mu i) /\
        forall j, (j < mcols X)%nat -> rsum m (fun i => X i j * w i) = 0.
  Proof.
    intros L. destruct pd_normal as [G [A [EG [RG [CG [Rg [HA HG]]]]]]]. destruct (pd_solve y L) as [x [Ex [Lx Hx]]].
    unfold som_gls. rewrite EG. cbn [bind]. rewrite Ex. cbn [bind].
    destruct (S G (mdotv (transp X) x) Rg) as [mu [Em [Lm Hm]]]; [cbn; auto|].
    exists mu. split; auto. split; [congruence|].
    exists (fun i => x i - rsum (mcols X) (fun l => A i l * mu l)). split.
    - intros i Hi. rewrite <- (Hx i Hi).
      rewrite (rsum_ext m _ (fun j => W i j * x j - rsum (mcols X) (fun l => W i j * A j l * mu l)))
        by (intros k Hk; rewrite Rmult_minus_distr_l; f_equal; rewrite <- rsum_scal; apply rsum_ext; intros; ring).
      rewrite rsum_minus. f_equal. rewrite rsum_swap. apply rsum_ext. intros l Hl. rewrite rsum_scal_r, HA by auto. auto.
    - intros j Hj. specialize (Hm j Hj). rewrite HG in Hm by auto. cbn [mdotv transp aget mcols mget] in Hm. rewrite R0 in Hm.
      rewrite (rsum_ext m _ (fun i => X i j * x i - X i j * rsum (mcols X) (fun l => A i l * mu l))) by (intros; ring).
      rewrite rsum_minus. lra.
  Qed.
End Gls.

(** ** The fits *)
Lemma irow_target (f : vec) (d : vec) (t : nat -> C) r : (forall i, (i < alen f)%nat -> cmul (resp (alen f) d i) (t i) = C1) ->
  (r < alen f + alen f)%nat -> som_irow (alen f) d r = if (r <? alen f)%nat then fst (t r) else snd (t (r - alen f)%nat).
Proof.
  intros T Hr. unfold som_irow, stack1. cbn [aget]. destruct (Nat.ltb_spec r (alen f)); rewrite (recip_target _ _ t); auto; apply T; lia.
Qed.
Lemma design_dev (f : vec) s (mu : nat -> R) r : (r < alen f + alen f)%nat ->
  mv (som_design f s) mu r = if (r <? alen f)%nat then fst (som_recip (rescaled s mu) (f r)) else snd (som_recip (rescaled s mu) (f (r - alen f)%nat)).
Proof.
  intros Hr. destruct (Nat.ltb_spec r (alen f)) as [L|L].
  - rewrite design_re by auto. unfold som_recip, rescaled. cbn [fst snd]. ring.
  - replace r with (alen f + (r - alen f))%nat at 1 by lia. rewrite design_im. unfold som_recip, rescaled. cbn [fst snd]. ring.
Qed.
Lemma unscale s (mu : nat -> R) : s <> 0 -> exists nu, forall x, som_recip (rescaled s nu) x = som_recip mu x.
Proof.
  intros Hs. exists (fun i => match i with 1%nat => mu 1%nat / s | 2%nat => mu 2%nat / s ^ 2 | _ => mu i end).
  intros x. unfold som_recip, rescaled. apply C_eq; cbn [fst snd]; field; auto.
Qed.
Lemma gls_is_fit f s (W : mat) (V : nat -> nat -> R) (d d' : vec) (mu w : nat -> R) : s <> 0 ->
  pos_def (alen f + alen f) V -> (forall i j, V i j = V j i) ->
  (forall i j, (i < alen f + alen f)%nat -> (j < alen f + alen f)%nat -> W i j = V i j) ->
  (forall r, (r < alen f + alen f)%nat -> d' r = d r) ->
  (forall i, (i < alen f + alen f)%nat -> rsum (alen f + alen f) (fun j => W i j * w j) = som_irow (alen f) d' i - mv (som_design f s) mu i) ->
  (forall j, (j < 3)%nat -> rsum (alen f + alen f) (fun i => som_design f s i j * w i) = 0) ->
  gls_fit f V d (rescaled s mu).
Proof.
  intros Hs P Sy EW Ed Hw Ho t T. set (m := (alen f + alen f)%nat) in *.
  assert (D : forall i, (i < m)%nat -> rsum m (fun j => V i j * w j) = som_dev f t (rescaled s mu) i).
  { intros i Hi. rewrite <- (rsum_ext m (fun j => W i j * w j)) by (intros; rewrite EW; auto). rewrite Hw by auto.
    rewrite (irow_ext (alen f) d' d) by (auto; fold m; auto). rewrite (irow_target f d t), design_dev by auto. unfold som_dev.
    destruct (i <? alen f)%nat; auto. }
  split; [exists (rsum m (fun i => w i * som_dev f t (rescaled s mu) i)), w; auto|].
  intros mu' q q' [u [Hu ->]] [u' [Hu' ->]].
  assert (U : forall i, (i < m)%nat -> u i = w i).
  { intros i Hi. assert (K : u i - w i = 0); [|lra]. apply (pd_zero m V (fun i => u i - w i) P); auto.
    apply rsum_zero. intros k Hk. rewrite (rsum_ext m _ (fun j => V k j * u j - V k j * w j)) by (intros; ring).
    rewrite rsum_minus, Hu, D by auto. ring. }
  apply (mahal_least m V u u' _ _ P Sy Hu Hu').
  destruct (unscale s mu' Hs) as [nu N].
  rewrite (rsum_ext m _ (fun i => rsum 3 (fun j => (mu j - nu j) * (som_design f s i j * w i)))).
  - rewrite rsum_swap. apply rsum_zero. intros j Hj. rewrite rsum_scal, Ho by auto. ring.
  - intros i Hi. rewrite U by auto.
    assert (E : som_dev f t mu' i - som_dev f t (rescaled s mu) i = mv (som_design f s) mu i - mv (som_design f s) nu i).
    { rewrite !design_dev by auto. unfold som_dev. destruct (i <? alen f)%nat; rewrite <- N; ring. }
    rewrite E, <- mv_sub. unfold mv. change (mcols (som_design f s)) with 3%nat. rewrite <- rsum_scal. apply rsum_ext. intros. ring.
Qed.

Definition recip_cov (n : nat) (d : nat -> vec) (runs : nat) (i j : nat) : R :=
  sample_cov (fun k => recip_part n (d k) i) (fun k => recip_part n (d k) j) (seq 0 runs).
Lemma recip_cov_sym n d runs i j : recip_cov n d runs i j = recip_cov n d runs j i.
Proof. unfold recip_cov, sample_cov, scatter. do 2 f_equal. f_equal. apply FunctionalExtensionality.functional_extensionality. intros. ring. Qed.
Lemma cov_W n (g d : nat -> vec) runs : (1 <= runs)%nat -> (forall k r, (r < n + n)%nat -> g k r = d k r) ->
  forall i j, (i < n + n)%nat -> (j < n + n)%nat ->
  rows_cov (n + n) (map (som_irow n) (map g (seq 0 runs))) i j = recip_cov n d runs i j.
Proof.
  intros Hr Hg i j Hi Hj. rewrite map_map, rows_cov_sample by (rewrite seq_length; lia). unfold recip_cov.
  assert (E : forall k r, (r < n + n)%nat -> som_irow n (g k) r = recip_part n (d k) r).
  { intros k r Hr'. rewrite (irow_ext n (g k) (d k)) by auto. unfold som_irow, stack1, recip_part. cbn [aget].
    destruct (r <? n)%nat; auto. }
  apply sample_cov_ext; intros; auto.
Qed.

(** With weighting "cov" every draw is fitted by generalised least squares in the
    metric of the sample covariance of the reciprocals of the draws. *)
Theorem C195_cov_monte_carlo solve inv mvn z runs0 runs (f H : vec) UH scaling d :
  exact_solve solve -> alen H = (alen f + alen f)%nat -> two_frequencies f -> (2 <= runs)%nat -> scaling <> 0 ->
  som_drawn mvn z (alen f) H UH runs d -> (forall k i, (k < runs)%nat -> (i < alen f)%nat -> resp (alen f) (d k) i <> C0) ->
  pos_def (alen f + alen f) (recip_cov (alen f) d runs) ->
  exists p U (mu ps : nat -> nat -> R),
    fit_som solve inv mvn z runs0 f H UH (SwStr "cov") (Some runs) scaling = Ok (SomFit p (Some (CovMat U))) /\
    alen p = 3%nat /\ mrows U = 3%nat /\ mcols U = 3%nat /\
    (forall i, p i = avg (fun k => ps k i) (seq 0 runs)) /\
    (forall i j, U i j = sample_cov (fun k => ps k i) (fun k => ps k j) (seq 0 runs)) /\
    forall k, gls_fit f (recip_cov (alen f) d runs) (d k) (mu k) /\ forall i, (i < 3)%nat -> ps k i = mag_params (mu k) i.
Proof.
  intros S L F Hr Hs D NZ P. set (n := alen f) in *.
  destruct (drawn_draws mvn z n H UH runs d D) as [g [Eg [Gv Hg]]].
  unfold fit_som. fold n. rewrite L, Nat.eqb_refl. cbn [negb]. rewrite Eg. cbn [bind].
  assert (N1 : (1 <= n)%nat) by (apply two_frequencies_pos; auto).
  rewrite Gv, np_cov_rows_mat by (rewrite ?map_length, ?seq_length; lia).
  set (W := rows_cov (n + n) (map (som_irow n) (map g (seq 0 runs)))).
  change (som_W n (Some (CovMat W)) (SwStr "cov")) with (Ok W). cbn [bind].
  assert (EW : forall i j, (i < n + n)%nat -> (j < n + n)%nat -> W i j = recip_cov n d runs i j) by (apply cov_W; auto; lia).
  assert (PW : pos_def (n + n) W).
  { intros c N. rewrite (rsum_ext (n + n) _ (fun i => rsum (n + n) (fun j => c i * recip_cov n d runs i j * c j))); [apply P; auto|].
    intros i Hi. apply rsum_ext. intros j Hj. rewrite EW by auto. auto. }
  set (X := som_design f scaling).
  assert (G : forall k, exists mu, som_gls solve W X (som_irow n (g k)) = Ok mu /\ gls_fit f (recip_cov n d runs) (d k) (rescaled scaling mu)).
  { intros k. destruct (pd_gls solve S (n + n) W eq_refl eq_refl PW X eq_refl (design_indep_cols f scaling Hs F) (som_irow n (g k)) eq_refl)
      as [mu [Em [Lm [w [Hw Ho]]]]].
    exists mu. split; auto. apply (gls_is_fit f scaling W _ (d k) (g k) mu w); auto.
    - intros. apply recip_cov_sym. }
  set (mus := fun k => match som_gls solve W X (som_irow n (g k)) with Ok m => m | Err _ => mkArr 0 (fun _ => 0) end).
  assert (E : forall ls, som_mc solve W X (map (som_irow n) (map g ls)) = Ok (map mus ls)).
  { induction ls as [|k ls IH]; [reflexivity|]. cbn [map som_mc]. destruct (G k) as [mu [Em _]].
    unfold mus at 1. rewrite Em. cbn [bind]. rewrite IH. reflexivity. }
  rewrite E. cbn [bind]. replace (runs =? 0)%nat with false by (symmetry; apply Nat.eqb_neq; lia).
  rewrite np_cov_rows_mat by (rewrite ?map_length, ?seq_length; lia).
  eexists _, _, (fun k => rescaled scaling (mus k)), (fun k => som_pars (som_rescale scaling (mus k))).
  split; [reflexivity|]. split; [reflexivity|]. split; [reflexivity|]. split; [reflexivity|]. split; [|split].
  - intros i. rewrite map_map. apply rows_mean_avg.
  - intros i j. rewrite map_map. apply rows_cov_sample. rewrite ?seq_length. lia.
  - intros k. split; [|intros; apply rescale_mag; auto]. destruct (G k) as [mu [Em Fk]]. unfold mus. rewrite Em. auto.
Qed.
Print Assumptions C195_cov_monte_carlo.

(** ** Linear propagation *)
Section Lin.
  Variable (n m : nat) (G iG A X W : nat -> nat -> R).
  Hypothesis Sy : forall i j, W i j = W j i.
  Hypothesis HA : forall i a, (i < m)%nat -> (a < n)%nat -> rsum m (fun k => W i k * A k a) = X i a.
  Hypothesis HG : forall a b, (a < n)%nat -> (b < n)%nat -> G a b = rsum m (fun i => X i a * A i b).
  Hypothesis HI : forall a b, (a < n)%nat -> (b < n)%nat -> rsum n (fun k => G a k * iG k b) = kron a b.
  Lemma lin_G_sym a b : (a < n)%nat -> (b < n)%nat -> G a b = G b a.
  Proof.
    intros Ha Hb. rewrite !HG by auto.
    rewrite (rsum_ext m _ (fun i => rsum m (fun k => W i k * A k a * A i b))) by (intros i Hi; rewrite <- HA by auto; rewrite <- rsum_scal_r; auto).
    rewrite rsum_swap. apply rsum_ext. intros k Hk. rewrite <- HA by auto. rewrite <- rsum_scal_r. apply rsum_ext. intros i Hi. rewrite (Sy i k). ring.
  Qed.
  Lemma lin_iG_sym a b : (a < n)%nat -> (b < n)%nat -> iG a b = iG b a.
  Proof.
    intros Ha Hb.
    transitivity (rsum n (fun k => iG k a * rsum n (fun l => G k l * iG l b))).
    - rewrite (rsum_ext n _ (fun k => rsum n (fun l => G l k * iG k a * iG l b))).
      + rewrite rsum_swap. rewrite (rsum_ext n _ (fun l => kron a l * iG l b)).
        * rewrite (rsum_kron n a (fun l => iG l b)) by auto. auto.
        * intros l Hl. rewrite rsum_scal_r, HI by auto. unfold kron. rewrite Nat.eqb_sym. auto.
      + intros k Hk. rewrite <- rsum_scal. apply rsum_ext. intros l Hl. rewrite (lin_G_sym k l) by auto. ring.
    - rewrite (rsum_ext n _ (fun k => kron b k * iG k a)).
      + rewrite (rsum_kron n b (fun k => iG k a)) by auto. auto.
      + intros k Hk. rewrite HI by auto. unfold kron. rewrite Nat.eqb_sym. ring.
  Qed.
  Lemma lin_left a b : (a < n)%nat -> (b < n)%nat -> rsum n (fun k => iG a k * G k b) = kron a b.
  Proof.
    intros Ha Hb. transitivity (kron b a); [|unfold kron; rewrite Nat.eqb_sym; auto]. rewrite <- HI by auto. apply rsum_ext. intros k Hk.
    rewrite (lin_iG_sym a k), (lin_G_sym k b) by auto. ring.
  Qed.
  Definition lin_K (p r : nat) : R := rsum n (fun j => iG p j * A r j).
  Lemma lin_fit (w y mu : nat -> R) : (forall i, (i < m)%nat -> rsum m (fun j => W i j * w j) = y i - rsum n (fun a => X i a * mu a)) ->
    (forall a, (a < n)%nat -> rsum m (fun i => X i a * w i) = 0) ->
    forall p, (p < n)%nat -> mu p = rsum m (fun r => lin_K p r * y r).
  Proof.
    intros Hw Ho p Hp.
    assert (N : forall a, (a < n)%nat -> rsum n (fun b => G a b * mu b) = rsum m (fun r => A r a * y r)).
    { intros a Ha.
      assert (Z : rsum m (fun r => A r a * (y r - rsum n (fun b => X r b * mu b))) = 0).
      { rewrite <- (Ho a Ha). rewrite (rsum_ext m _ (fun r => rsum m (fun j => A r a * W r j * w j)))
          by (intros r Hr; rewrite <- Hw by auto; rewrite <- rsum_scal; apply rsum_ext; intros; ring).
        rewrite rsum_swap. apply rsum_ext. intros j Hj. rewrite rsum_scal_r. f_equal. rewrite <- HA by auto. apply rsum_ext. intros r Hr. rewrite (Sy r j). ring. }
      rewrite (rsum_ext m _ (fun r => A r a * y r - rsum n (fun b => A r a * X r b * mu b))) in Z
        by (intros r Hr; rewrite Rmult_minus_distr_l; f_equal; rewrite <- rsum_scal; apply rsum_ext; intros; ring).
      rewrite rsum_minus, rsum_swap in Z.
      rewrite (rsum_ext n _ (fun b => G a b * mu b)) in Z; [lra|].
      intros b Hb. rewrite rsum_scal_r. f_equal. rewrite lin_G_sym, HG by auto. apply rsum_ext. intros. ring. }
    transitivity (rsum n (fun a => iG p a * rsum n (fun b => G a b * mu b))).
    - rewrite (rsum_ext n _ (fun a => rsum n (fun b => iG p a * G a b * mu b))) by (intros a Ha; rewrite <- rsum_scal; apply rsum_ext; intros; ring).
      rewrite rsum_swap. rewrite (rsum_ext n _ (fun b => kron p b * mu b)) by (intros b Hb; rewrite rsum_scal_r, lin_left by auto; auto).
      rewrite (rsum_kron n p mu) by auto. auto.
    - rewrite (rsum_ext n _ (fun a => rsum m (fun r => iG p a * A r a * y r))) by (intros a Ha; rewrite N by auto; rewrite <- rsum_scal; apply rsum_ext; intros; ring).
      rewrite rsum_swap. apply rsum_ext. intros r Hr. unfold lin_K. rewrite rsum_scal_r. auto.
  Qed.
  Lemma lin_cov p q : (p < n)%nat -> (q < n)%nat -> rsum m (fun r => rsum m (fun s => lin_K p r * W r s * lin_K q s)) = iG p q.
  Proof.
    intros Hp Hq.
    rewrite (rsum_ext m _ (fun r => rsum n (fun j => iG q j * (lin_K p r * X r j)))).
    - rewrite rsum_swap.
      rewrite (rsum_ext n _ (fun j => iG q j * kron p j)).
      + rewrite (rsum_ext n _ (fun j => kron p j * iG q j)) by (intros; ring). rewrite (rsum_kron n p (fun j => iG q j)) by auto. apply lin_iG_sym; auto.
      + intros j Hj. rewrite rsum_scal. f_equal. rewrite <- lin_left by auto. unfold lin_K.
        rewrite (rsum_ext m _ (fun r => rsum n (fun a => iG p a * (X r j * A r a)))) by (intros r Hr; rewrite <- rsum_scal_r; apply rsum_ext; intros; ring).
        rewrite rsum_swap. apply rsum_ext. intros a Ha. rewrite rsum_scal. f_equal. rewrite lin_G_sym, HG by auto. auto.
    - intros r Hr. unfold lin_K at 2.
      rewrite (rsum_ext m _ (fun s => rsum n (fun j => lin_K p r * iG q j * (W r s * A s j))))
        by (intros s Hs; rewrite <- rsum_scal; apply rsum_ext; intros; ring).
      rewrite rsum_swap. apply rsum_ext. intros j Hj. rewrite rsum_scal, HA by auto. ring.
  Qed.
  Lemma lin_sandwich p q : (p < n)%nat -> (q < n)%nat -> rsum n (fun b => rsum n (fun a => iG p a * G a b) * iG b q) = iG p q.
  Proof.
    intros Hp Hq. rewrite (rsum_ext n _ (fun b => kron p b * iG b q)) by (intros b Hb; rewrite lin_left by auto; auto).
    apply (rsum_kron n p (fun b => iG b q)). auto.
  Qed.
End Lin.

(** The linear propagation with weighting "cov": generalised least squares, and for
    mu_0 mu_2 > 0 gain and resonance frequency have the propagated sample covariance of the
    generalised least squares fits to the draws.  (The damping: C77_delta_refuted.) *)
Theorem C195_cov_linear solve inv mvn z runs0 (f H : vec) UH scaling d :
  exact_solve solve -> exact_inv inv -> alen H = (alen f + alen f)%nat -> two_frequencies f -> (2 <= runs0)%nat ->
  (forall i, (i < alen f)%nat -> resp (alen f) H i <> C0) ->
  som_drawn mvn z (alen f) H UH runs0 d -> (forall k i, (k < runs0)%nat -> (i < alen f)%nat -> resp (alen f) (d k) i <> C0) ->
  pos_def (alen f + alen f) (recip_cov (alen f) d runs0) ->
  exists p U (mu : nat -> R) (fits : nat -> nat -> R),
    fit_som solve inv mvn z runs0 f H UH (SwStr "cov") None scaling = Ok (SomFit p (Some (CovMat U))) /\
    alen p = 3%nat /\ mrows U = 3%nat /\ mcols U = 3%nat /\
    gls_fit f (recip_cov (alen f) d runs0) H mu /\ (forall i, (i < 3)%nat -> p i = mag_params mu i) /\
    (forall k, gls_fit f (recip_cov (alen f) d runs0) (d k) (fits k)) /\
    (0 < mu 0%nat * mu 2%nat -> forall J, is_jac 3 3 som_params mu J ->
     forall i j, (i = 0 \/ i = 2)%nat -> (j = 0 \/ j = 2)%nat ->
      U i j = rsum 3 (fun a => rsum 3 (fun b =>
        J i a * sample_cov (fun k => fits k a) (fun k => fits k b) (seq 0 runs0) * J j b))).
Proof.
  intros S V L F Hr NZ D NZd P. set (n := alen f) in *.
  destruct (drawn_draws mvn z n H UH runs0 d D) as [g [Eg [Gv Hg]]].
  unfold fit_som. fold n. rewrite L, Nat.eqb_refl. cbn [negb]. rewrite Eg. cbn [bind].
  assert (N1 : (1 <= n)%nat) by (apply two_frequencies_pos; auto).
  rewrite Gv, np_cov_rows_mat by (rewrite ?map_length, ?seq_length; lia).
  set (W := rows_cov (n + n) (map (som_irow n) (map g (seq 0 runs0)))).
  change (som_W n (Some (CovMat W)) (SwStr "cov")) with (Ok W). cbn [bind].
  assert (Q0 : (n =? 0)%nat = false) by (apply Nat.eqb_neq; lia). rewrite Q0. rewrite no_zero by auto.
  assert (EW : forall i j, (i < n + n)%nat -> (j < n + n)%nat -> W i j = recip_cov n d runs0 i j) by (apply cov_W; auto; lia).
  assert (PW : pos_def (n + n) W).
  { intros c N. rewrite (rsum_ext (n + n) _ (fun i => rsum (n + n) (fun j => c i * recip_cov n d runs0 i j * c j))); [apply P; auto|].
    intros i Hi. apply rsum_ext. intros j Hj. rewrite EW by auto. auto. }
  assert (SW : forall i j, W i j = W j i).
  { intros i j. unfold W. rewrite map_map, !rows_cov_sample by (rewrite seq_length; lia). unfold sample_cov, scatter. do 2 f_equal. f_equal.
    apply FunctionalExtensionality.functional_extensionality. intros. ring. }
  set (X := som_design f 1).
  assert (H1 : 1 <> 0) by lra.
  assert (IX := design_indep_cols f 1 H1 F).
  destruct (pd_normal solve S (n + n) W eq_refl eq_refl PW X eq_refl IX) as [G0 [A0 [EG0 _]]].
  destruct (pd_mat solve S (n + n) W eq_refl eq_refl PW X eq_refl) as [A [EA [RA [CA HA]]]].
  destruct (pd_mat solve S (n + n) W eq_refl eq_refl PW W eq_refl) as [B [EB [RB [CB HB]]]].
  assert (EG : som_normal solve W X = Ok (mdot (transp X) A)) by (unfold som_normal; rewrite EA; reflexivity).
  assert (Rg : regular (mdot (transp X) A)).
  { destruct (pd_normal solve S (n + n) W eq_refl eq_refl PW X eq_refl IX) as [G1 [A1 [EG1 [_ [_ [Rg _]]]]]]. rewrite EG in EG1. injection EG1 as <-. auto. }
  destruct (V _ Rg) as [iG [Ei [Ri [Ci Hi]]]].
  assert (K : forall y : vec, alen y = (n + n)%nat -> exists mu w, som_gls solve W X y = Ok mu /\
     (forall i, (i < n + n)%nat -> rsum (n + n) (fun j => W i j * w j) = y i - mv X mu i) /\
     forall j, (j < 3)%nat -> rsum (n + n) (fun i => X i j * w i) = 0).
  { intros y Ly. destruct (pd_gls solve S (n + n) W eq_refl eq_refl PW X eq_refl IX y Ly) as [mu [Em [_ [w [Hw Ho]]]]]. exists mu, w. auto. }
  destruct (K (som_irow n H) eq_refl) as [mu [w [Em [Hw Ho]]]].
  assert (Sc : forall i j, recip_cov n d runs0 i j = recip_cov n d runs0 j i) by (intros; apply recip_cov_sym).
  rewrite Em. cbn [bind]. rewrite EG. cbn [bind]. rewrite Ei. cbn [bind]. rewrite EB. cbn [bind]. rewrite EA. cbn [bind].
  set (mus := fun k => match som_gls solve W X (som_irow n (g k)) with Ok m => m | Err _ => mkArr 0 (fun _ => 0) end).
  assert (Km : forall k, exists w, (forall i, (i < n + n)%nat -> rsum (n + n) (fun j => W i j * w j) = som_irow n (g k) i - mv X (mus k) i) /\
     forall j, (j < 3)%nat -> rsum (n + n) (fun i => X i j * w i) = 0).
  { intros k. destruct (K (som_irow n (g k)) eq_refl) as [m' [w' [E' R']]]. exists w'. unfold mus. rewrite E'. auto. }
  eexists _, _, (rescaled 1 mu), (fun k => rescaled 1 (mus k)).
  split; [reflexivity|]. split; [reflexivity|]. split; [reflexivity|]. split; [reflexivity|]. split; [|split; [|split]].
  - apply (gls_is_fit f 1 W _ H H mu w); auto.
  - intros i Hi'. rewrite pars_mag by auto. unfold mag_params. rewrite !rescaled_1. auto.
  - intros k. destruct (Km k) as [w' [Hw' Ho']]. apply (gls_is_fit f 1 W _ (d k) (g k) (mus k) w'); auto.
  - rewrite !rescaled_1. intros P3 J HJ.
    assert (R1 : forall p0 (nu : nat -> R), rescaled 1 nu p0 = nu p0) by (intros; apply rescaled_1).
    assert (GA : forall a b, (a < 3)%nat -> (b < 3)%nat -> mdot (transp X) A a b = rsum (n + n) (fun i => X i a * A i b)) by (intros; reflexivity).
    assert (HI : forall a b, (a < 3)%nat -> (b < 3)%nat -> rsum 3 (fun k => mdot (transp X) A a k * iG k b) = kron a b).
    { intros a b Ha Hb. assert (E3 : mcols (mdot (transp X) A) = 3%nat) by (cbn [mdot mcols]; rewrite CA; reflexivity).
      rewrite E3 in Hi. unfold kron. apply Hi; cbn; lia. }
    assert (B1 : forall i j, (i < n + n)%nat -> (j < n + n)%nat -> B i j = kron i j).
    { intros i j Hi' Hj'. assert (Z : B i j - kron i j = 0); [|lra].
      apply (pd_zero (n + n) W (fun i => B i j - kron i j) PW); auto. apply rsum_zero. intros k Hk.
      rewrite (rsum_ext (n + n) _ (fun l => W k l * B l j - kron j l * W k l)).
      - rewrite rsum_minus, HB by auto. rewrite (rsum_kron (n + n) j (fun l => W k l)) by auto. ring.
      - intros l Hl. unfold kron. rewrite (Nat.eqb_sym l j). ring. }
    assert (HAX : forall i a, (i < n + n)%nat -> (a < 3)%nat -> rsum (n + n) (fun k => W i k * A k a) = X i a) by (intros; apply HA; auto).
    assert (Qm : forall p q, (p < 3)%nat -> (q < 3)%nat ->
      mdot (mdot iG (mdot (mdot (transp X) B) A)) iG p q = sample_cov (fun k => mus k p) (fun k => mus k q) (seq 0 runs0)).
    { intros p q Hp Hq. transitivity (iG p q).
      - rewrite <- (lin_sandwich 3 (n + n) (mdot (transp X) A) iG A X W SW HAX GA HI p q) by auto.
        cbn [mdot transp mget mcols mrows]. rewrite CA. rewrite Ci. cbn [mdot transp mrows]. rewrite CB.
        change (mcols X) with 3%nat. change (mcols W) with (n + n)%nat. change (mrows X) with (n + n)%nat.
        apply rsum_ext. intros b Hb. f_equal. apply rsum_ext. intros a Ha. f_equal. apply rsum_ext. intros s Hs. f_equal.
        rewrite (rsum_ext (n + n) _ (fun r => kron s r * X r a)) by (intros r Hr'; rewrite B1 by auto; unfold kron; rewrite (Nat.eqb_sym r s); ring).
        apply (rsum_kron (n + n) s (fun r => X r a)). auto.
      - rewrite <- (lin_cov 3 (n + n) (mdot (transp X) A) iG A X W SW HAX GA HI p q) by auto.
        rewrite (sample_cov_ext _ (fun k => rsum (n + n) (fun r => lin_K 3 iG A p r * som_irow n (g k) r))
          _ (fun k => rsum (n + n) (fun r => lin_K 3 iG A q r * som_irow n (g k) r))).
        + rewrite (sample_cov_lin (n + n) (n + n) (lin_K 3 iG A p) (lin_K 3 iG A q) (fun r k => som_irow n (g k) r) (fun r k => som_irow n (g k) r)).
          apply rsum_ext. intros r Hr'. apply rsum_ext. intros s Hs. f_equal. f_equal.
          unfold W. rewrite map_map, rows_cov_sample by (rewrite seq_length; lia). auto.
        + intros k _. destruct (Km k) as [w' [Hw' Ho']]. apply (lin_fit 3 (n + n) (mdot (transp X) A) iG A X W SW HAX GA HI w'); auto.
        + intros k _. destruct (Km k) as [w' [Hw' Ho']]. apply (lin_fit 3 (n + n) (mdot (transp X) A) iG A X W SW HAX GA HI w'); auto. }
    assert (HJ' : forall i a, (i < 3)%nat -> (a < 3)%nat -> J i a = true_J mu i a).
    { intros i a Hi' Ha. rewrite (jac_unique (rescaled 1 mu) J) by (auto; rewrite !rescaled_1; auto). unfold true_J. rewrite !rescaled_1. auto. }
    intros i j Hi' Hj'. set (Um := mdot (mdot iG _) iG) in *.
    cbn [mdot mget transp mcols mrows]. change (mcols (som_C mu)) with 3%nat.
    assert (CU : mcols Um = 3%nat) by (unfold Um; cbn [mdot mcols]; rewrite Ci; reflexivity). rewrite CU.
    apply rsum_ext. intros a Ha. rewrite <- rsum_scal. apply rsum_ext. intros b Hb.
    rewrite Qm, !C_rows, !HJ' by (auto; lia). 
    rewrite (sample_cov_ext (fun k => rescaled 1 (mus k) a) (fun k => mus k a) (fun k => rescaled 1 (mus k) b) (fun k => mus k b)) by (intros; apply R1). ring.
Qed.
Print Assumptions C195_cov_linear.

(** A case meeting the hypotheses: eight draws, in each of which one part of the
    reciprocals 2 i, -3 + 4 i is moved by 1 or -1; their covariance matrix is 2/7 times the
    identity. *)
Definition ecov (k r : nat) : R := if (k mod 4 =? r)%nat then (if (k <? 4)%nat then 1 else -1) else 0.
Definition tcov (k i : nat) : C := match i with O => (ecov k 0, 2 + ecov k 2) | _ => (-3 + ecov k 1, 4 + ecov k 3) end.
Definition dcov (k : nat) : vec :=
  mkArr 4 (fun r => if (r <? 2)%nat then fst (cinv (tcov k r)) else snd (cinv (tcov k (r - 2)%nat))).
Definition zcov (k : nat) : vec := mkArr 4 (fun r => dcov k r - H12 1 r).
Lemma ecov_bound k r : -1 <= ecov k r <= 1.
Proof. unfold ecov. destruct (_ =? _)%nat; [|lra]. destruct (_ <? _)%nat; lra. Qed.
Lemma tcov_nonzero k i : tcov k i <> C0.
Proof.
  intros E. pose proof (ecov_bound k 2). pose proof (ecov_bound k 1). destruct i; cbn [tcov] in E; injection E as E1 E2; lra.
Qed.
Lemma dcov_resp k i : (i < 2)%nat -> resp 2 (dcov k) i = cinv (tcov k i).
Proof.
  intros Hi. unfold resp, dcov. cbn [aget]. destruct (Nat.ltb_spec i 2); [|lia]. destruct (Nat.ltb_spec (2 + i) 2); [lia|].
  replace (2 + i - 2)%nat with i by lia. destruct (cinv (tcov k i)); auto.
Qed.
Lemma dcov_recip k i : (i < 2)%nat -> cinv (resp 2 (dcov k) i) = tcov k i.
Proof.
  intros Hi. rewrite dcov_resp by auto. pose proof (tcov_nonzero k i) as N. pose proof (cmul_inv_r _ N) as I.
  apply (cmul_reg_l (cinv (tcov k i))).
  - intros Z. rewrite Z in I. apply (f_equal fst) in I. destruct (tcov k i). cbn in I. lra.
  - rewrite cmul_inv_r.
    + rewrite cmul_comm. auto.
    + intros Z. rewrite Z in I. apply (f_equal fst) in I. destruct (tcov k i). cbn in I. lra.
Qed.
Lemma dcov_cov i j : (i < 4)%nat -> (j < 4)%nat -> recip_cov 2 dcov 8 i j = if (i =? j)%nat then 2 / 7 else 0.
Proof.
  intros Hi Hj. unfold recip_cov.
  assert (E : forall r, (r < 4)%nat -> exists b, forall k, recip_part 2 (dcov k) r = b + ecov k r).
  { intros r Hr. destruct r as [|[|[|[|r]]]]; [exists 0|exists (-3)|exists 2|exists 4|lia]; intros k; unfold recip_part; cbn [Nat.ltb Nat.leb Nat.sub];
      rewrite dcov_recip by lia; cbn [tcov fst snd]; ring. }
  destruct (E i Hi) as [a Ea]. destruct (E j Hj) as [b Eb].
  rewrite (sample_cov_ext _ (fun k => a + ecov k i) _ (fun k => b + ecov k j)) by (intros; auto).
  unfold sample_cov, scatter, avg. cbn [seq tot length INR].
  destruct i as [|[|[|[|i]]]]; try lia; (destruct j as [|[|[|[|j]]]]; try lia); cbn; field.
Qed.
Example C195_example :
  alen (H12 1) = (alen f12 + alen f12)%nat /\ two_frequencies f12 /\
  (forall mvn, som_drawn mvn zcov (alen f12) (H12 1) (SuStd ones4) 8 dcov) /\
  (forall i, (i < alen f12)%nat -> resp (alen f12) (H12 1) i <> C0) /\
  (forall k i, (k < 8)%nat -> (i < alen f12)%nat -> resp (alen f12) (dcov k) i <> C0) /\
  pos_def (alen f12 + alen f12) (recip_cov (alen f12) dcov 8) /\ exact_solve solve_ref /\ exact_inv inv_ref.
Proof.
  split; [reflexivity|]. split; [apply f12_two|]. split; [|split; [|split; [|split; [|split]]]].
  - intros mvn. split; [reflexivity|]. intros k r Hr. unfold zcov, ones4. cbn [aget]. ring.
  - intros i Hi. eapply response_nonzero; [|apply (H12_response 1 i); auto]; lra.
  - intros k i Hk Hi Z. change (alen f12) with 2%nat in *. pose proof (dcov_recip k i Hi) as E. rewrite Z in E.
    pose proof (dcov_resp k i Hi) as E'. rewrite Z in E'. pose proof (cmul_inv_r _ (tcov_nonzero k i)) as I. rewrite <- E' in I.
    apply (f_equal fst) in I. destruct (tcov k i). cbn in I. lra.
  - change (alen f12 + alen f12)%nat with 4%nat. change (alen f12) with 2%nat. intros c [i [Hi N]].
    rewrite (rsum_ext 4 _ (fun i => 2 / 7 * c i ^ 2)).
    + cbn [rsum]. destruct i as [|[|[|[|i]]]]; try lia; nra.
    + intros k Hk. rewrite (rsum_ext 4 _ (fun j => c k * (if (k =? j)%nat then 2 / 7 else 0) * c j)) by (intros; rewrite dcov_cov; auto).
      rewrite (rsum_single 4 k); auto; [rewrite Nat.eqb_refl; ring|]. intros j Hj Nj. replace (k =? j)%nat with false by (symmetry; apply Nat.eqb_neq; auto). ring.
  - apply solve_ref_exact.
  - apply inv_ref_exact.
Qed.
