(** C161: filter fits and the unit of the response. *)
From Coq Require Import Reals String List Arith Bool Lra Lia Psatz.
From Verif Require Import Base Sums Cplx M_DFT M_FilterStuff M_MC M_Fit S_Poly S_Fit S_MC S_Jac S_Som P_Poly P_MC P_Deriv
  P_LinAlg P_Fit P_Fit2 P_FitIIR P_Som T_Som T_Units T_SomGain T_Fit T_FitIIR.
Import ListNotations.
Local Notation length := Datatypes.length.
Open Scope R_scope.

(** The responses and their covariance in another unit. *)
Definition resp_units (c : R) (H : arr C) : arr C := mkArr (alen H) (fun i => cscal c (H i)).
Definition cov_units (c : R) (U : mat) : mat := mkMat (mrows U) (mcols U) (fun i j => c * c * U i j).
(** Normal draws in another unit: mean and standard deviations c times as large give draws c times as large. *)
Definition draws_in_units (mvn : vec -> mat -> nat -> nat -> vec) (c : R) (runs : nat) : Prop :=
  forall (m m' : vec) (U : mat), alen m' = alen m -> (forall i, (i < alen m)%nat -> m' i = c * m i) ->
  forall k i, (i < alen m)%nat -> mvn m' (cov_units c U) runs k i = c * mvn m U runs k i.

Lemma lstsq_gain lstsq A (y y' : vec) k : exact_lstsq lstsq -> indep_cols A -> mrows A = alen y -> alen y' = alen y ->
  (forall i, (i < alen y)%nat -> y' i = k * y i) ->
  alen (lstsq A y) = mcols A /\ alen (lstsq A y') = mcols A /\
  forall j, (j < mcols A)%nat -> lstsq A y' j = k * lstsq A y j.
Proof.
  intros X I E E' Ey. pose proof (X A y E) as L. pose proof (X A y' ltac:(lia)) as L'.
  split; [apply L|]. split; [apply L'|].
  pose proof (least_normal A y _ L) as N. pose proof (least_normal A y' _ L') as N'.
  apply (normal_unique A y' _ (fun j => k * lstsq A y j) I N').
  intros j Hj. specialize (N j Hj).
  rewrite (rsum_ext _ _ (fun i => k * (A i j * (mv A (lstsq A y) i - y i)))).
  - rewrite rsum_scal, N. ring.
  - intros i Hi. rewrite mv_scal, Ey by lia. ring.
Qed.
Lemma weighted_indep f Fs N (w : vec) : determines f Fs (S N) -> (forall i, (i < alen f)%nat -> w i <> 0) ->
  indep_cols (stack2 (alen f) (S N) (fun i n => cscal (w i) (Eexp f Fs i n))).
Proof.
  intros D Hw. apply stack_indep. intros c Hc j Hj. apply (D (mkArr (S N) c)); auto.
  intros i Hi. change (freq_resp (mkArr (S N) c) (radf f Fs i)) with (lin (S N) c (Eexp f Fs i)).
  specialize (Hc i Hi). specialize (Hw i Hi).
  assert (E : lin (S N) c (fun n => cscal (w i) (Eexp f Fs i n)) = cscal (w i) (lin (S N) c (Eexp f Fs i))).
  { unfold lin. apply C_eq; unfold cscal; cbn [fst snd]; rewrite ?csum_fst, ?csum_snd, <- rsum_scal; apply rsum_ext; intros; cbn; ring. }
  rewrite E in Hc. apply C_eq.
  - apply (f_equal fst) in Hc. cbn in Hc |- *. apply Rmult_integral in Hc. tauto.
  - apply (f_equal snd) in Hc. cbn in Hc |- *. apply Rmult_integral in Hc. tauto.
Qed.
Lemma cmul_gain c h e : cmul (cscal c h) e = cscal c (cmul h e).
Proof. cfield. Qed.
Lemma cmul_cis_nz h w : h <> C0 -> cmul h (cis w) <> C0.
Proof.
  intros Hh E. apply cmul_eq_0 in E. destruct E as [E|E]; auto.
  pose proof (sin2_cos2 w) as K. unfold Rsqr in K. injection E as E1 E2. rewrite E1, E2 in K. lra.
Qed.

Lemma himc_gain c a b n n' : c <> 0 -> a ^ 2 + b ^ 2 <> 0 -> n' = c * n ->
  n' / ((c * a) ^ 2 + (c * b) ^ 2) = / c * (n / (a ^ 2 + b ^ 2)).
Proof.
  intros Hc Z ->. replace ((c * a) ^ 2 + (c * b) ^ 2) with (c * (c * (a ^ 2 + b ^ 2))) by ring.
  field. split; auto. 
Qed.

(** ** invLSFIR (and LSFIR): the coefficients of the inverse filter have the reciprocal unit *)
Theorem C161_invLSFIR : forall lstsq (H : arr C) N tau f Fs Wt c,
  exact_lstsq lstsq -> alen H = alen f -> determines f Fs (S N) -> c <> 0 ->
  (forall i, (i < alen f)%nat -> H i <> C0) ->
  match Wt with WtNone => True | WtVec w => alen w = alen f /\ forall i, (i < alen f)%nat -> w i <> 0 | WtMat _ => False end ->
  exists b b', invLSFIR lstsq H N tau f Fs Wt = Ok b /\ invLSFIR lstsq (resp_units c H) N tau f Fs Wt = Ok b' /\
    alen b = S N /\ alen b' = S N /\ forall j, (j < S N)%nat -> b' j = b j / c.
Proof.
  intros lstsq H N tau f Fs Wt c X L D Hc NZ HW.
  assert (G : exists E, fir_design N f Fs Wt = Ok (stack2 (alen f) (S N) E) /\ indep_cols (stack2 (alen f) (S N) E)).
  { unfold fir_design. destruct Wt as [|w|m]; [| |contradiction].
    - eexists. split; [reflexivity|]. apply fir_indep. exact D.
    - destruct HW as [Lw Hw]. rewrite Lw, Nat.eqb_refl. eexists. split; [reflexivity|]. apply weighted_indep; auto. }
  destruct G as (E & EG & I).
  unfold invLSFIR. rewrite EG. cbn [bind]. unfold delayed. cbn [resp_units alen]. rewrite L, Nat.eqb_refl. cbn [bind].
  unfold np_lstsq. cbn [mrows stack2 stack1 alen]. rewrite Nat.eqb_refl.
  set (y := stack1 (alen f) _). set (y' := stack1 (alen f) _).
  destruct (lstsq_gain lstsq (stack2 (alen f) (S N) E) y y' (/ c) X I eq_refl eq_refl) as (L1 & L2 & K).
  { intros i Hi. cbn [y stack1 alen] in Hi. unfold y, y'. cbn [stack1 alen aget]. cbn [resp_units aget alen].
    destruct (Nat.ltb_spec i (alen f)).
    - rewrite cmul_gain, cinv_gain by (auto; apply cmul_cis_nz; apply NZ; lia). reflexivity.
    - rewrite cmul_gain, cinv_gain by (auto; apply cmul_cis_nz; apply NZ; cbn [stack1 alen] in Hi; lia). reflexivity. }
  exists (lstsq (stack2 (alen f) (S N) E) y), (lstsq (stack2 (alen f) (S N) E) y').
  split; [reflexivity|]. split; [reflexivity|]. split; [exact L1|]. split; [exact L2|].
  intros j Hj. rewrite K by exact Hj. unfold Rdiv. ring.
Qed.
(** ** invLSFIR_uncMC *)
Theorem C161_invLSFIR_uncMC : forall mvn lstsq (H : arr C) UH N tau f Fs runs c,
  exact_lstsq lstsq -> alen H = alen f -> mrows UH = (alen f + alen f)%nat -> mcols UH = (alen f + alen f)%nat -> (1 <= runs)%nat ->
  determines f Fs (S N) -> c <> 0 -> draws_in_units mvn c runs ->
  (forall RI k i, alen RI = (alen f + alen f)%nat -> (forall i, (i < alen f)%nat -> resp (alen f) RI i = H i) ->
     (k < runs)%nat -> (i < alen f)%nat -> resp (alen f) (mvn RI UH runs k) i <> C0) ->
  exists b Ub b' Ub', invLSFIR_uncMC mvn lstsq H UH N tau f Fs runs = Ok (b, Ub) /\
    invLSFIR_uncMC mvn lstsq (resp_units c H) (cov_units c UH) N tau f Fs runs = Ok (b', Ub') /\
    forall i, (i < S N)%nat -> b' i = b i / c /\ forall j, (j < S N)%nat -> Ub' i j = Ub i j / c ^ 2.
Proof.
  intros mvn lstsq H UH N tau f Fs runs c X L Er Ec Hr D Hc DU NZ.
  unfold invLSFIR_uncMC, draw_mvn. cbn [resp_units alen stack1 cov_units mrows mcols].
  rewrite L, Er, Ec, !Nat.eqb_refl. cbn [andb bind negb].
  set (A := stack2 (alen f) (S N) (Eexp f Fs)).
  set (RI := stack1 (alen f) H). set (RI' := stack1 (alen f) (mkArr (alen f) (fun i => cscal c (H i)))).
  assert (HR : forall i, (i < alen f)%nat -> resp (alen f) RI i = H i).
  { intros i Hi. unfold resp, RI. rewrite stack1_re, stack1_im by auto. symmetry. apply surjective_pairing. }
  assert (G : forall k, (k < runs)%nat -> forall j, (j < S N)%nat ->
    lstsq A (uncmc_target f Fs tau (mvn RI' (cov_units c UH) runs k)) j = / c * lstsq A (uncmc_target f Fs tau (mvn RI UH runs k)) j).
  { intros k Hk j Hj.
    edestruct (lstsq_gain lstsq A (uncmc_target f Fs tau (mvn RI UH runs k)) (uncmc_target f Fs tau (mvn RI' (cov_units c UH) runs k)) (/ c))
      as (_ & _ & K); [exact X|apply fir_indep; exact D|reflexivity|reflexivity| |apply K; exact Hj].
    assert (Dk : forall i, (i < alen f + alen f)%nat -> mvn RI' (cov_units c UH) runs k i = c * mvn RI UH runs k i).
    { intros i Hi. apply DU; auto. intros q Hq. unfold RI, RI'. cbn [stack1 aget]. destruct (q <? alen f)%nat; reflexivity. }
    assert (U : forall i, (i < alen f)%nat -> unstack (alen f) (mvn RI' (cov_units c UH) runs k) i = cscal c (unstack (alen f) (mvn RI UH runs k) i)).
    { intros i Hi. unfold unstack, cscal. rewrite !Dk by lia. reflexivity. }
    assert (Q : forall i, (i < alen f)%nat -> unstack (alen f) (mvn RI UH runs k) i <> C0).
    { intros i Hi. apply (NZ RI k i); auto. }
    intros i Hi. cbn [uncmc_target stack1 alen aget] in Hi |- *. destruct (Nat.ltb_spec i (alen f)).
    - rewrite U, cmul_gain, cinv_gain by (auto; apply cmul_cis_nz; apply Q; lia). reflexivity.
    - rewrite U, cmul_gain, cinv_gain by (auto; try lia; apply cmul_cis_nz; apply Q; lia). reflexivity. }
  eexists _, _, _, _. split; [reflexivity|]. split; [reflexivity|].
  assert (N0 : INR (length (seq 0 runs)) <> 0) by (rewrite seq_length; apply not_0_INR; lia).
  assert (In_k : forall k, In k (seq 0 runs) -> (k < runs)%nat) by (intros k Hk; apply in_seq in Hk; lia).
  intros i Hi. rewrite !map_map. split.
  - rewrite !rows_mean_avg.
    rewrite (avg_ext _ (fun k => / c * lstsq A (uncmc_target f Fs tau (mvn RI UH runs k)) i)) by (intros k Hk; apply G; auto).
    unfold avg. rewrite tot_scal. field. auto.
  - intros j Hj. rewrite !rows_cov_sample by (rewrite seq_length; auto).
    rewrite (sample_cov_ext _ (fun k => / c * lstsq A (uncmc_target f Fs tau (mvn RI UH runs k)) i)
                            _ (fun k => / c * lstsq A (uncmc_target f Fs tau (mvn RI UH runs k)) j)) by (intros k Hk; apply G; auto).
    rewrite cov_gain by lia. field. exact Hc.
Qed.
(** ** invLSFIR_unc, with or without truncation of singular values, both forms of H *)
Theorem C161_invLSFIR_unc : forall mvn svd (H : arr C) UH N tau f Fs tol runs Hc c,
  response_form H UH f Hc -> c <> 0 -> (1 <= runs)%nat -> draws_in_units mvn c runs ->
  (forall i, (i < alen f)%nat -> Hc i <> C0) ->
  (forall RI k i, alen RI = (alen f + alen f)%nat -> (forall i, (i < alen f)%nat -> resp (alen f) RI i = Hc i) ->
     (k < runs)%nat -> (i < alen f)%nat -> resp (alen f) (mvn RI UH runs k) i <> C0) ->
  (forall X, mrows X = (alen f + alen f)%nat -> mrows (fst (fst (svd X))) = mrows X) ->
  exists b Ub b' Ub', invLSFIR_unc mvn svd H UH N tau f Fs None tol runs = Ok (b, Ub) /\
    invLSFIR_unc mvn svd (resp_units c H) (cov_units c UH) N tau f Fs None tol runs = Ok (b', Ub') /\
    forall i, b' i = b i / c /\ forall j, Ub' i j = Ub i j / c ^ 2.
Proof.
  intros mvn svd H UH N tau f Fs tol runs Hc c RF Hc0 Hr DU NZ NZd SV.
  destruct RF as (Er & Ec & Pos & F).
  (* both forms: the vector of real and imaginary parts, and the responses *)
  assert (K : exists RI RI' : vec, exists Hc1 Hc2 : nat -> C, alen RI = (alen f + alen f)%nat /\ alen RI' = (alen f + alen f)%nat /\
    (forall i, (i < alen f)%nat -> resp (alen f) RI i = Hc i) /\ (forall i, (i < alen f + alen f)%nat -> RI' i = c * RI i) /\
    (forall i, (i < alen f)%nat -> Hc1 i = Hc i) /\ (forall i, (i < alen f)%nat -> Hc2 i = cscal c (Hc i)) /\
    forall H0 UH0 RI0 (Hc0 : nat -> C), ((H0 = H /\ UH0 = UH /\ RI0 = RI /\ Hc0 = Hc1) \/
       (H0 = resp_units c H /\ UH0 = cov_units c UH /\ RI0 = RI' /\ Hc0 = Hc2)) ->
    invLSFIR_unc mvn svd H0 UH0 N tau f Fs None tol runs =
      let X0 := stack2 (alen f) (S N) (Eexp f Fs) in
      let X := mkMat (mrows X0) (mcols X0) (fun r n => 1 * X0 r n) in
      let M := svd_pinv (fst (fst (svd X))) (trunc_s tol (snd (fst (svd X)))) (snd (svd X)) in
      Ok (mdotv M (stack1 (alen f) (fun i => cinv (cmul (Hc0 i) (cis (2 * PI * f i / Fs * tau))))),
          mdot (mdot M (rows_cov (alen f + alen f) (map (himc_row f Fs tau) (map (mvn RI0 UH0 runs) (seq 0 runs))))) (transp M))).
  { destruct F as [[LH F]|[LH F]].
    - exists (stack1 (alen f) H), (stack1 (alen f) (resp_units c H)), (fun i => H i), (fun i => resp_units c H i).
      split; [reflexivity|]. split; [reflexivity|]. split.
      { intros i Hi. rewrite F by auto. unfold resp. rewrite stack1_re, stack1_im by auto. symmetry. apply surjective_pairing. }
      split; [intros i Hi; cbn [stack1 aget resp_units]; destruct (i <? alen f)%nat; reflexivity|].
      split; [intros; symmetry; apply F; auto|]. split; [intros; rewrite F by auto; reflexivity|].
      intros H0 UH0 RI0 Hc1 HH.
      assert (L0 : alen H0 = alen f /\ mrows UH0 = (alen f + alen f)%nat /\ mcols UH0 = (alen f + alen f)%nat /\
                   RI0 = stack1 (alen f) H0 /\ Hc1 = aget H0).
      { destruct HH as [(-> & -> & -> & ->)|(-> & -> & -> & ->)]; cbn [resp_units cov_units alen mrows mcols]; auto 10. }
      clear HH. destruct L0 as (A1 & A2 & A3 & -> & ->).
      unfold invLSFIR_unc. assert (Q : (alen H0 =? mrows UH0)%nat = false) by (apply Nat.eqb_neq; lia). rewrite Q. cbn [negb].
      unfold draw_mvn. cbn [alen stack1]. rewrite A2, A3, A1, !Nat.eqb_refl. cbn [andb bind negb]. cbv zeta.
      destruct (svd _) as [[u s] v]. reflexivity.
    - exists (mkArr (alen H) (fun i => Re (H i))), (mkArr (alen H) (fun i => Re (resp_units c H i))),
        (fun i => (Re (H i), Re (H (alen f + i)%nat))), (fun i => (Re (resp_units c H i), Re (resp_units c H (alen f + i)%nat))).
      split; [exact LH|]. split; [exact LH|].
      split; [intros i Hi; rewrite F by auto; reflexivity|]. split; [intros; reflexivity|].
      split; [intros; symmetry; apply F; auto|]. split; [intros; rewrite F by auto; reflexivity|].
      intros H0 UH0 RI0 Hc1 HH.
      assert (L0 : alen H0 = (alen f + alen f)%nat /\ mrows UH0 = (alen f + alen f)%nat /\ mcols UH0 = (alen f + alen f)%nat /\
                   RI0 = mkArr (alen H0) (fun i => Re (H0 i)) /\ Hc1 = (fun i => (Re (H0 i), Re (H0 (alen f + i)%nat)))).
      { destruct HH as [(-> & -> & -> & ->)|(-> & -> & -> & ->)]; cbn [resp_units cov_units alen mrows mcols]; auto 10. }
      clear HH. destruct L0 as (A1 & A2 & A3 & -> & ->).
      unfold invLSFIR_unc. assert (Q : (alen H0 =? mrows UH0)%nat = true) by (apply Nat.eqb_eq; lia). rewrite Q. cbn [negb].
      unfold draw_mvn. cbn [alen]. rewrite A2, A3, A1, !Nat.eqb_refl. cbn [andb bind negb]. cbv zeta.
      destruct (svd _) as [[u s] v]. reflexivity. }
  destruct K as (RI & RI' & Hc1 & Hc2 & LR & LR' & HR & HR' & E1 & E2 & K).
  rewrite (K H UH RI Hc1) by auto. rewrite (K (resp_units c H) (cov_units c UH) RI' Hc2) by auto. cbv zeta.
  set (X := mkMat _ _ _). set (M := svd_pinv _ _ _).
  eexists _, _, _, _. split; [reflexivity|]. split; [reflexivity|].
  assert (CM : mcols M = (alen f + alen f)%nat) by (unfold M; cbn [svd_pinv mcols]; rewrite SV; reflexivity).
  intros i. split.
  - cbn [mdotv aget]. unfold Rdiv. rewrite <- rsum_scal_r. apply rsum_ext. intros j Hj. rewrite CM in Hj.
    rewrite Rmult_assoc. f_equal. cbn [stack1 aget]. destruct (Nat.ltb_spec j (alen f)).
    + rewrite E1, E2, cmul_gain, cinv_gain by (auto; apply cmul_cis_nz; apply NZ; lia). unfold cscal, Re. cbn [fst]. ring.
    + rewrite E1, E2, cmul_gain, cinv_gain by (auto; try lia; apply cmul_cis_nz; apply NZ; lia). unfold cscal, Im. cbn [snd]. ring.
  - intros j. cbn [mdot mget mcols transp mrows]. unfold Rdiv. rewrite <- rsum_scal_r. apply rsum_ext. intros q Hq. cbn [rows_cov mcols] in Hq.
    match goal with |- ?S' * ?m = ?S0 * _ * ?k => assert (ES : S' = S0 * k); [|rewrite ES; ring] end.
    rewrite <- rsum_scal_r. apply rsum_ext. intros p Hp. rewrite CM in Hp.
    rewrite !map_map, !rows_cov_sample by (rewrite seq_length; auto).
    assert (G : forall k, In k (seq 0 runs) -> forall r, (r < alen f + alen f)%nat ->
       himc_row f Fs tau (mvn RI' (cov_units c UH) runs k) r = / c * himc_row f Fs tau (mvn RI UH runs k) r).
    { intros k Hk r Hrr. apply in_seq in Hk.
      assert (Dk : forall i, (i < alen f + alen f)%nat -> mvn RI' (cov_units c UH) runs k i = c * mvn RI UH runs k i).
      { rewrite <- LR. apply DU; [lia|]. intros; apply HR'; lia. }
      assert (S2 : forall i, (i < alen f)%nat -> mvn RI UH runs k i ^ 2 + mvn RI UH runs k (alen f + i)%nat ^ 2 <> 0).
      { intros q' Hq' Z. apply (NZd RI k q'); auto; [lia|]. unfold resp. 
        assert (A1 : mvn RI UH runs k q' = 0) by nra. assert (A2 : mvn RI UH runs k (alen f + q')%nat = 0) by nra. rewrite A1, A2. reflexivity. }
      cbn [himc_row aget]. destruct (Nat.ltb_spec r (alen f)).
      - rewrite !Dk by lia. apply himc_gain; [auto|apply S2; lia|ring].
      - rewrite !Dk by lia. apply himc_gain; [auto|apply S2; lia|ring]. }
    rewrite (sample_cov_ext _ (fun k => / c * himc_row f Fs tau (mvn RI UH runs k) p) _ (fun k => / c * himc_row f Fs tau (mvn RI UH runs k) q))
      by (intros k Hk; apply G; auto).
    rewrite cov_gain by lia. field. exact Hc0.
Qed.

(** ** LSIIR and invLSIIR: numerator in the unit of the response (or its
    reciprocal), denominator and delay as before *)
Lemma freq_resp_comb L (x y : vec) p q w : alen x = L -> alen y = L ->
  freq_resp (mkArr L (fun j => p * x j + q * y j)) w = cadd (cscal p (freq_resp x w)) (cscal q (freq_resp y w)).
Proof.
  intros Lx Ly. unfold freq_resp. cbn [alen aget]. rewrite Lx, Ly.
  apply C_eq; unfold cadd, cscal; cbn [fst snd]; rewrite ?csum_fst, ?csum_snd, <- !rsum_scal, <- rsum_plus; apply rsum_ext; intros; cbn; ring.
Qed.
(* two least squares fits to the same responses are equal *)
Lemma fits_same f Fs t Nb Na (b a h g : vec) : iir_determines f Fs t Nb Na ->
  iir_fits f Fs t Nb Na b a -> iir_fits f Fs t Nb Na h g -> veq b h /\ veq a g.
Proof.
  intros D (Lb & La & A0 & M1) (Lh & Lg & G0 & M2).
  set (hb := mkArr (S Nb) (fun j => / 2 * b j + / 2 * h j)). set (ha := mkArr (S Na) (fun j => / 2 * a j + / 2 * g j)).
  set (db := mkArr (S Nb) (fun j => / 2 * b j + - / 2 * h j)). set (da := mkArr (S Na) (fun j => / 2 * a j + - / 2 * g j)).
  assert (P : iir_misfit f Fs t hb ha + iir_misfit f Fs t db da = / 2 * (iir_misfit f Fs t b a + iir_misfit f Fs t h g)).
  { unfold iir_misfit. rewrite <- !rsum_plus, <- rsum_scal. apply rsum_ext. intros i Hi.
    unfold hb, ha, db, da. rewrite !freq_resp_comb by auto.
    generalize (freq_resp b (radf f Fs i)), (freq_resp a (radf f Fs i)), (freq_resp h (radf f Fs i)), (freq_resp g (radf f Fs i)), (t i).
    intros [? ?] [? ?] [? ?] [? ?] [? ?]. unfold cnorm2, csub, cmul, cadd, cscal. cbn [fst snd]. field. }
  pose proof (M1 hb ha eq_refl eq_refl ltac:(cbn [ha aget]; lra)) as Q1.
  pose proof (M2 b a Lb La A0) as Q2. pose proof (M1 h g Lh Lg G0) as Q3.
  assert (N : forall i, 0 <= cnorm2 (csub (cmul (t i) (freq_resp da (radf f Fs i))) (freq_resp db (radf f Fs i)))) by (intros; apply cnorm2_nonneg).
  assert (Z : iir_misfit f Fs t db da = 0).
  { apply Rle_antisym; [lra|]. apply rsum_nonneg. intros. apply N. }
  destruct (D db da eq_refl eq_refl) as [Db Da].
  - cbn [da aget]. lra.
  - intros i Hi. assert (K : cnorm2 (csub (cmul (t i) (freq_resp da (radf f Fs i))) (freq_resp db (radf f Fs i))) = 0).
    { apply (rsum_nonneg_zero (alen f) (fun i => cnorm2 (csub (cmul (t i) (freq_resp da (radf f Fs i))) (freq_resp db (radf f Fs i))))); auto. }
    apply cnorm2_zero in K. apply csub_eq_0 in K. exact K.
  - split; (split; [congruence|]); intros j Hj.
    + specialize (Db j ltac:(lia)). cbn [db aget] in Db. lra.
    + specialize (Da j ltac:(lia)). cbn [da aget] in Da. lra.
Qed.
Lemma fits_gain f Fs t t' Nb Na (b a : vec) k : k <> 0 -> (forall i, (i < alen f)%nat -> t' i = cscal k (t i)) ->
  iir_fits f Fs t' Nb Na b a -> iir_fits f Fs t Nb Na (mkArr (alen b) (fun j => b j / k)) a.
Proof.
  intros Hk Et (Lb & La & A0 & M). split; [exact Lb|]. split; [exact La|]. split; [exact A0|].
  assert (G : forall x y : vec, iir_misfit f Fs t' (mkArr (alen x) (fun j => k * x j)) y = k ^ 2 * iir_misfit f Fs t x y).
  { intros x y. unfold iir_misfit. rewrite <- rsum_scal. apply rsum_ext. intros i Hi. rewrite Et by auto.
    assert (E : freq_resp (mkArr (alen x) (fun j => k * x j)) (radf f Fs i) = cscal k (freq_resp x (radf f Fs i))).
    { unfold freq_resp. cbn [alen aget]. apply C_eq; unfold cscal; cbn [fst snd]; rewrite ?csum_fst, ?csum_snd, <- !rsum_scal; apply rsum_ext; intros; cbn; ring. }
    rewrite E. generalize (freq_resp x (radf f Fs i)), (freq_resp y (radf f Fs i)), (t i).
    intros [? ?] [? ?] [? ?]. unfold cnorm2, csub, cmul, cscal. cbn [fst snd]. ring. }
  assert (G2 : forall x y : vec, alen x = S Nb -> iir_misfit f Fs t x y = iir_misfit f Fs t' (mkArr (alen x) (fun j => k * x j)) y / k ^ 2).
  { intros x y Lx. rewrite G. field. exact Hk. }
  intros b' a' Lb' La' A0'. rewrite (G2 (mkArr (alen b) _) a Lb), (G2 b' a' Lb').
  apply Rmult_le_compat_r; [left; apply Rinv_0_lt_compat; pose proof (Rlt_0_sqr k Hk) as K; unfold Rsqr in K; lra|].
  assert (Eb : iir_misfit f Fs t' (mkArr (alen (mkArr (alen b) (fun j => b j / k))) (fun j => k * mkArr (alen b) (fun j0 => b j0 / k) j)) a = iir_misfit f Fs t' b a).
  { apply rsum_ext. intros i Hi. do 2 f_equal. unfold freq_resp. cbn [alen aget]. apply csum_ext. intros j Hj. f_equal.
    field. exact Hk. }
  rewrite Eb. apply M; auto.
Qed.
Lemma fitIIR_gain lstsq (H : arr C) tau f Fs Na Nb inv t c : exact_lstsq lstsq -> alen H = alen f ->
  iir_target inv H f Fs tau t -> iir_determines f Fs t Nb Na -> c <> 0 ->
  let r := fitIIR lstsq H tau f Fs Na Nb inv in
  let r' := fitIIR lstsq (resp_units c H) tau f Fs Na Nb inv in
  alen (fst r) = S Nb /\ alen (snd r) = S Na /\ alen (fst r') = S Nb /\
  (forall j, (j < S Nb)%nat -> fst r' j = if inv then fst r j / c else c * fst r j) /\ veq (snd r') (snd r).
Proof.
  intros X L T D Hc r r'. set (k := if inv then / c else c).
  assert (Hk : k <> 0) by (unfold k; destruct inv; auto; apply Rinv_neq_0_compat; auto).
  pose proof (fit_least lstsq H tau f Fs Na Nb inv t X T) as F. fold r in F.
  assert (T' : iir_target inv (resp_units c H) f Fs tau (fun i => cscal k (t i))).
  { intros i Hi. specialize (T i Hi). unfold k. cbn [resp_units aget]. destruct inv.
    - rewrite <- T. unfold cmul, cscal. apply C_eq; cbn [fst snd]; field; auto.
    - rewrite T. symmetry. apply cmul_gain. }
  pose proof (fit_least lstsq (resp_units c H) tau f Fs Na Nb inv _ X T') as F'. fold r' in F'.
  pose proof (fits_gain f Fs t _ Nb Na _ _ k Hk (fun i _ => eq_refl) F') as F2.
  destruct (fits_same f Fs t Nb Na _ _ _ _ D F2 F) as [[Lb Vb] Va].
  destruct F as (L1 & L2 & _). destruct F' as (L1' & _).
  split; [exact L1|]. split; [exact L2|]. split; [exact L1'|]. split; [|exact Va].
  intros j Hj. specialize (Vb j ltac:(cbn [alen]; lia)). cbn [aget] in Vb.
  assert (E : fst r' j = k * fst r j) by (rewrite <- Vb; field; exact Hk).
  rewrite E. unfold k. destruct inv; unfold Rdiv; ring.
Qed.
(** numpy.roots depends on the coefficients only. *)
Definition roots_of_coeffs (roots : vec -> list C) : Prop := forall a a' : vec, veq a a' -> roots a = roots a'.
Lemma stable_first lstsq roots fuel Hv Nb Na f Fs tau inv :
  has_outside_root roots (snd (fitIIR lstsq Hv tau f Fs Na Nb inv)) = false ->
  iir_stabilise lstsq roots fuel Hv Nb Na f Fs tau inv =
    Some (Ok (fst (fitIIR lstsq Hv tau f Fs Na Nb inv), snd (fitIIR lstsq Hv tau f Fs Na Nb inv), tau)).
Proof.
  intros S. unfold iir_stabilise. destruct (fitIIR lstsq Hv tau f Fs Na Nb inv) as [b a]. cbn [fst snd] in S |- *.
  rewrite S. destruct fuel; reflexivity.
Qed.
Theorem C161_LSIIR : forall lstsq roots fuel (H : arr C) Nb Na f Fs tau justFit t c,
  exact_lstsq lstsq -> roots_of_coeffs roots -> alen H = alen f -> iir_target false H f Fs tau t ->
  iir_determines f Fs t Nb Na -> c <> 0 ->
  (justFit = false -> forall b a d z, LSIIR lstsq roots fuel H Nb Na f Fs tau true = Some (Ok (b, a, d)) -> In z (roots a) -> cabs z <= 1) ->
  exists b a b' a' d, LSIIR lstsq roots fuel H Nb Na f Fs tau justFit = Some (Ok (b, a, d)) /\
    LSIIR lstsq roots fuel (resp_units c H) Nb Na f Fs tau justFit = Some (Ok (b', a', d)) /\
    alen b = S Nb /\ alen b' = S Nb /\ (forall j, (j < S Nb)%nat -> b' j = c * b j) /\ alen a = S Na /\ veq a' a.
Proof.
  intros lstsq roots fuel H Nb Na f Fs tau justFit t c X RC L T D Hc St.
  destruct (fitIIR_gain lstsq H tau f Fs Na Nb false t c X L T D Hc) as (L1 & L2 & L3 & Eb & Ea). cbv zeta in *.
  unfold LSIIR, iir_values in St |- *. cbn [resp_units alen]. rewrite L, Nat.eqb_refl in St |- *. fold (resp_units c H).
  destruct justFit.
  - destruct (fitIIR lstsq H tau f Fs Na Nb false) as [b a]. destruct (fitIIR lstsq _ tau f Fs Na Nb false) as [b' a'] eqn:E'.
    replace (fitIIR lstsq (resp_units c H) tau f Fs Na Nb false) with (b', a') in * by (rewrite <- E'; unfold resp_units; rewrite L; reflexivity).
    exists b, a, b', a', 0. auto 10.
  - assert (S1 : has_outside_root roots (snd (fitIIR lstsq H tau f Fs Na Nb false)) = false).
    { apply not_true_is_false. intros O. unfold has_outside_root in O. apply existsb_exists in O. destruct O as (z & Iz & Oz).
      unfold rltb in Oz. destruct (Rlt_dec 1 (cabs z)); [|discriminate].
      specialize (St eq_refl (fst (fitIIR lstsq H tau f Fs Na Nb false)) (snd (fitIIR lstsq H tau f Fs Na Nb false)) 0 z).
      destruct (fitIIR lstsq H tau f Fs Na Nb false) as [b a]. specialize (St eq_refl Iz). lra. }
    assert (S2 : has_outside_root roots (snd (fitIIR lstsq (resp_units c H) tau f Fs Na Nb false)) = false).
    { unfold has_outside_root in *. rewrite (RC _ _ Ea). exact S1. }
    replace (mkArr (alen f) (fun i => cscal c (H i))) with (resp_units c H) by (unfold resp_units; rewrite L; reflexivity).
    rewrite (stable_first lstsq roots fuel H _ _ _ _ _ _ S1), (stable_first lstsq roots fuel (resp_units c H) _ _ _ _ _ _ S2).
    eexists _, _, _, _, _. split; [reflexivity|]. split; [reflexivity|]. auto 10.
Qed.
Theorem C161_invLSIIR : forall lstsq roots fuel (H : arr C) Nb Na f Fs tau justFit t c,
  exact_lstsq lstsq -> roots_of_coeffs roots -> alen H = alen f -> iir_target true H f Fs tau t ->
  iir_determines f Fs t Nb Na -> c <> 0 ->
  (justFit = false -> forall b a d z, invLSIIR lstsq roots fuel H Nb Na f Fs tau true = Some (Ok (b, a, d)) -> In z (roots a) -> cabs z <= 1) ->
  exists b a b' a' d, invLSIIR lstsq roots fuel H Nb Na f Fs tau justFit = Some (Ok (b, a, d)) /\
    invLSIIR lstsq roots fuel (resp_units c H) Nb Na f Fs tau justFit = Some (Ok (b', a', d)) /\
    alen b = S Nb /\ alen b' = S Nb /\ (forall j, (j < S Nb)%nat -> b' j = b j / c) /\ alen a = S Na /\ veq a' a.
Proof.
  intros lstsq roots fuel H Nb Na f Fs tau justFit t c X RC L T D Hc St.
  destruct (fitIIR_gain lstsq H tau f Fs Na Nb true t c X L T D Hc) as (L1 & L2 & L3 & Eb & Ea). cbv zeta in *.
  unfold invLSIIR, iir_values in St |- *. cbn [resp_units alen]. rewrite L, Nat.eqb_refl in St |- *. fold (resp_units c H).
  destruct justFit.
  - destruct (fitIIR lstsq H tau f Fs Na Nb true) as [b a]. destruct (fitIIR lstsq _ tau f Fs Na Nb true) as [b' a'] eqn:E'.
    replace (fitIIR lstsq (resp_units c H) tau f Fs Na Nb true) with (b', a') in * by (rewrite <- E'; unfold resp_units; rewrite L; reflexivity).
    exists b, a, b', a', None. auto 10.
  - assert (S1 : has_outside_root roots (snd (fitIIR lstsq H tau f Fs Na Nb true)) = false).
    { apply not_true_is_false. intros O. unfold has_outside_root in O. apply existsb_exists in O. destruct O as (z & Iz & Oz).
      unfold rltb in Oz. destruct (Rlt_dec 1 (cabs z)); [|discriminate].
      specialize (St eq_refl (fst (fitIIR lstsq H tau f Fs Na Nb true)) (snd (fitIIR lstsq H tau f Fs Na Nb true)) None z).
      destruct (fitIIR lstsq H tau f Fs Na Nb true) as [b a]. specialize (St eq_refl Iz). lra. }
    assert (S2 : has_outside_root roots (snd (fitIIR lstsq (resp_units c H) tau f Fs Na Nb true)) = false).
    { unfold has_outside_root in *. rewrite (RC _ _ Ea). exact S1. }
    replace (mkArr (alen f) (fun i => cscal c (H i))) with (resp_units c H) by (unfold resp_units; rewrite L; reflexivity).
    rewrite (stable_first lstsq roots fuel H _ _ _ _ _ _ S1), (stable_first lstsq roots fuel (resp_units c H) _ _ _ _ _ _ S2).
    eexists _, _, _, _, _. split; [reflexivity|]. split; [reflexivity|]. auto 10.
Qed.

(** A response 1/2 - i/4 with an uncertain imaginary part, expressed in a unit a
    tenth as large. *)
Definition mvn161 (m : vec) (U : mat) (_ k : nat) : vec := mkArr (alen m) (fun i => m i + INR k * sqrt (U i i)).
Lemma mvn161_units c runs : 0 < c -> draws_in_units mvn161 c runs.
Proof.
  intros Hc m m' U L E k i Hi. unfold mvn161, cov_units. cbn [aget mget]. rewrite E by auto.
  assert (S : sqrt (c * c * U i i) = c * sqrt (U i i)).
  { destruct (Rle_dec 0 (U i i)).
    - rewrite sqrt_mult by nra. rewrite sqrt_square by lra. reflexivity.
    - rewrite !sqrt_neg_0 by nra. ring. }
  rewrite S. ring.
Qed.
Definition H161 : arr C := mkArr 1 (fun _ => (/ 2, - / 4)).
Definition U161 : mat := of_rows [[0; 0]; [0; / 16]].
Lemma draws161 (RI : vec) runs k i : alen RI = 2%nat -> (forall i, (i < 1)%nat -> resp 1 RI i = H161 i) ->
  (i < 1)%nat -> resp 1 (mvn161 RI U161 runs k) i <> C0.
Proof.
  intros L E Hi Z. assert (i = 0%nat) by lia. subst. specialize (E 0%nat Hi). apply (f_equal fst) in E, Z.
  unfold resp, mvn161, H161, U161, C0 in *. cbn in E, Z. rewrite sqrt_0 in Z. lra.
Qed.
Example C161_fir_ex :
  (exists b b', invLSFIR lstsq_ref H161 1 0 (of_list [1]) 4 (WtVec (of_list [2])) = Ok b /\
    invLSFIR lstsq_ref (resp_units 10 H161) 1 0 (of_list [1]) 4 (WtVec (of_list [2])) = Ok b' /\ b' 1%nat = b 1%nat / 10) /\
    (exists b Ub b' Ub', invLSFIR_uncMC mvn161 lstsq_ref H161 U161 1 0 (of_list [1]) 4 2 = Ok (b, Ub) /\
    invLSFIR_uncMC mvn161 lstsq_ref (resp_units 10 H161) (cov_units 10 U161) 1 0 (of_list [1]) 4 2 = Ok (b', Ub') /\
    b' 0%nat = b 0%nat / 10 /\ Ub' 0%nat 1%nat = Ub 0%nat 1%nat / 10 ^ 2) /\
    (exists b Ub b' Ub', invLSFIR_unc mvn161 svd_ex H161 U161 1 0 (of_list [1]) 4 None (Some (/ 2)) 2 = Ok (b, Ub) /\
    invLSFIR_unc mvn161 svd_ex (resp_units 10 H161) (cov_units 10 U161) 1 0 (of_list [1]) 4 None (Some (/ 2)) 2 = Ok (b', Ub') /\
    b' 0%nat = b 0%nat / 10 /\ Ub' 0%nat 1%nat = Ub 0%nat 1%nat / 10 ^ 2).
Proof.
  assert (D : determines (of_list [1]) 4 2) by (apply interior_determines; [apply one_interior|cbn; lia]).
  assert (NZ : forall i, (i < 1)%nat -> H161 i <> C0).
  { intros i Hi Z. apply (f_equal fst) in Z. cbn in Z. lra. }
  split; [|split].
  - destruct (C161_invLSFIR lstsq_ref H161 1 0 (of_list [1]) 4 (WtVec (of_list [2])) 10) as (b & b' & E & E' & _ & _ & K); auto.
    + apply lstsq_ref_exact.
    + split; [reflexivity|]. intros i Hi. cbn in Hi. assert (i = 0%nat) by lia. subst. cbn. lra.
    + exists b, b'. split; [exact E|]. split; [exact E'|]. apply K. lia.
  - destruct (C161_invLSFIR_uncMC mvn161 lstsq_ref H161 U161 1 0 (of_list [1]) 4 2 10) as (b & Ub & b' & Ub' & E & E' & K); auto.
    + apply lstsq_ref_exact.
    + apply mvn161_units. lra.
    + intros RI k i L R _ Hi. apply draws161; auto.
    + exists b, Ub, b', Ub'. split; [exact E|]. split; [exact E'|]. destruct (K 0%nat ltac:(lia)) as [K0 K1]. split; [exact K0|]. apply K1. lia.
  - destruct (C161_invLSFIR_unc mvn161 svd_ex H161 U161 1 0 (of_list [1]) 4 (Some (/ 2)) 2 H161 10) as (b & Ub & b' & Ub' & E & E' & K); auto.
    + do 2 (split; [reflexivity|]). split; [cbn; lia|]. left. auto.
    + apply mvn161_units. lra.
    + intros RI k i L R _ Hi. apply draws161; auto.
    + exists b, Ub, b', Ub'. split; [exact E|]. split; [exact E'|]. destruct (K 0%nat) as [K0 K1]. split; [exact K0|]. apply K1.
Qed.
Definition roots161 (a : vec) : list C := if (alen a =? 2)%nat then [RtoC (- a 1%nat / a 0%nat)] else [].
Lemma roots161_coeffs : roots_of_coeffs roots161.
Proof.
  intros a a' [L E]. unfold roots161. rewrite <- L. destruct (Nat.eqb_spec (alen a) 2); auto.
  rewrite !E by lia. reflexivity.
Qed.
Example C161_iir_ex : exists b a b' a' d,
  LSIIR lstsq_ref roots161 49 (mkArr 1 (fun _ => cinv (1, / 2))) 0 1 (of_list [1]) 4 0 false = Some (Ok (b, a, d)) /\
    LSIIR lstsq_ref roots161 49 (resp_units 10 (mkArr 1 (fun _ => cinv (1, / 2)))) 0 1 (of_list [1]) 4 0 false = Some (Ok (b', a', d)) /\
    b' 0%nat = 10 * b 0%nat /\ a' 1%nat = a 1%nat.
Proof.
  assert (T : iir_target false (aget (mkArr 1 (fun _ : nat => cinv (1, / 2)))) (of_list [1]) 4 0 (fun _ => cinv (1, / 2))).
  { intros i Hi. cbn [aget]. rewrite Rmult_0_r, Ropp_0. unfold cis. rewrite cos_0, sin_0. symmetry. apply cmul_1_r. }
  assert (E2 : forall i, (i < alen (of_list [1%R]))%nat ->
    cmul (cinv (1, / 2)) (freq_resp (of_list [1; - / 2]) (radf (of_list [1]) 4 i)) = freq_resp (of_list [1]) (radf (of_list [1]) 4 i)).
  { intros i Hi. cbn in Hi. assert (i = 0%nat) by lia. subst. rewrite freq_quarter.
    unfold freq_resp. change (csum (alen (of_list [1])) ?g) with (cadd C0 (g 0%nat)). cbv beta. change (INR 0) with 0.
    rewrite Rmult_0_r, Ropp_0. unfold cis. rewrite cos_0, sin_0. unfold cinv, cnorm2. apply C_eq; cbn; field. }
  destruct (C161_LSIIR lstsq_ref roots161 49 (mkArr 1 (fun _ => cinv (1, / 2))) 0 1 (of_list [1]) 4 0 false (fun _ => cinv (1, / 2)) 10)
    as (b & a & b' & a' & d & E & E' & _ & _ & Kb & La & [La' Ka]); auto.
  - apply lstsq_ref_exact.
  - apply roots161_coeffs.
  - apply determines_ex.
  - intros _ b a d z E Iz.
    destruct (C106_exact_recovery lstsq_ref roots161 49 (mkArr 1 (fun _ => cinv (1, / 2))) 0 1 (of_list [1]) 4 0 (fun _ => cinv (1, / 2))
      (of_list [1]) (of_list [1; - / 2]) lstsq_ref_exact eq_refl T determines_ex eq_refl eq_refl eq_refl E2) as (b0 & a0 & d0 & E0 & _ & [La Va]).
    rewrite E0 in E. injection E as <- <- <-. unfold roots161 in Iz. rewrite La in Iz. cbn in Iz. destruct Iz as [<-|[]].
    rewrite !Va by (rewrite La; cbn; lia). cbn. unfold cabs, cnorm2, RtoC. cbn [fst snd].
    replace (- - / 2 / 1 * (- - / 2 / 1) + 0 * 0) with (/ 2 * / 2) by field. rewrite sqrt_square; lra.
  - exists b, a, b', a', d. split; [exact E|]. split; [exact E'|]. split; [apply Kb; lia|]. apply Ka. rewrite La', La. lia.
Qed.
Print Assumptions C161_invLSFIR.
Print Assumptions C161_invLSFIR_uncMC.
Print Assumptions C161_invLSFIR_unc.
Print Assumptions C161_LSIIR.
Print Assumptions C161_invLSIIR.
