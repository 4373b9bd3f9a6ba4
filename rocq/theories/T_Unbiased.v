(** Expectations of the Monte Carlo estimates of the filter fits, of fit_som, of sos_realimag and
    of FreqResp2RealImag (C141): the returned mean and covariance are unbiased. *)
From Coq Require Import String.
From Coq Require Import Reals List Arith ZArith Bool Lra Lia FunctionalExtensionality.
From Verif Require Import Base Sums Cplx Stats StatsFacts M_Filter M_DFT M_FilterStuff M_MC M_Fit M_Tools M_Noise
  M_SigClass S_Poly S_Fit S_MC S_Tools S_Noise S_Rand P_Poly P_MC P_LinAlg P_Fit P_Fit2 P_FitIIR P_Rand
  T_Fit T_FitIIR T_Som T_Tools T_Signals.
Import ListNotations.
Open Scope R_scope.
Local Notation length := Datatypes.length.

(** The random number generator delivers w 0, w 1, ... *)
Definition delivers (w : nat -> vec) : vec -> mat -> nat -> nat -> vec := fun _ _ _ k => w k.
(** The response with real parts q[:n] and imaginary parts q[n:]. *)
Definition response_of (n : nat) (q : vec) : arr C := mkArr n (resp n q).

Lemma seq_in runs : forall k, In k (seq 0 runs) -> (0 <= k < 0 + runs)%nat.
Proof. intros k H. apply in_seq in H. lia. Qed.
Lemma seq_ne runs : (1 <= runs)%nat -> seq 0 runs <> [].
Proof. destruct runs; [lia|discriminate]. Qed.
Lemma two_seq runs : (2 <= runs)%nat -> (2 <= length (seq 0 runs))%nat.
Proof. rewrite seq_length. auto. Qed.

Section Unbiased.
  Context {A : Type} (runs : nat) (D : dist (nat -> A)) (d : dist A) (HI : iid 0 runs D d) (Hr : (2 <= runs)%nat).
  Lemma unbiased_mean (m : (nat -> A) -> R) (f : A -> R) :
    (forall p w, In (p, w) D -> m w = avg (fun k => f (w k)) (seq 0 runs)) -> Ex D m = Ex d f.
  Proof.
    intros H. rewrite (Ex_ext_in D m (fun w => avg (fun k => f (w k)) (seq 0 runs))) by exact H.
    apply (iid_mean 0 runs D d HI (seq 0 runs) (seq_in runs)). apply seq_ne. lia.
  Qed.
  Lemma unbiased_cov (U : (nat -> A) -> R) (f g : A -> R) :
    (forall p w, In (p, w) D -> U w = sample_cov (fun k => f (w k)) (fun k => g (w k)) (seq 0 runs)) ->
    Ex D U = Cov d f g.
  Proof.
    intros H. rewrite (Ex_ext_in D U (fun w => sample_cov (fun k => f (w k)) (fun k => g (w k)) (seq 0 runs))) by exact H.
    apply (iid_sample_cov 0 runs D d HI (seq 0 runs) (seq_in runs)); [apply seq_NoDup|apply two_seq, Hr].
  Qed.
End Unbiased.

(** ** invLSFIR_uncMC: fit q is what invLSFIR returns for the drawn response *)
Theorem C141_fir : forall lstsq (H : arr C) UH N tau f Fs runs (D : dist (nat -> vec)) (d : dist vec) (fit : vec -> vec),
  iid 0 runs D d -> (2 <= runs)%nat -> alen H = alen f ->
  mrows UH = (alen f + alen f)%nat -> mcols UH = (alen f + alen f)%nat ->
  (forall q, invLSFIR lstsq (response_of (alen f) q) N tau f Fs WtNone = Ok (fit q)) ->
  exists (b : (nat -> vec) -> vec) (U : (nat -> vec) -> mat),
    (forall w, invLSFIR_uncMC (delivers w) lstsq H UH N tau f Fs runs = Ok (b w, U w) /\
       alen (b w) = S N /\ mrows (U w) = S N /\ mcols (U w) = S N) /\
    (forall i, Ex D (fun w => b w i) = Ex d (fun q => fit q i)) /\
    (forall i j, Ex D (fun w => U w i j) = Cov d (fun q => fit q i) (fun q => fit q j)).
Proof.
  intros lstsq H UH N tau f Fs runs D d fit HI Hr LH Er Ec Hf.
  exists (fun w => rows_mean (S N) (map (fun k => fit (w k)) (seq 0 runs))),
         (fun w => rows_cov (S N) (map (fun k => fit (w k)) (seq 0 runs))).
  split; [|split].
  - intros w. split; [|auto]. unfold invLSFIR_uncMC, draw_mvn. rewrite LH. cbn [alen stack1]. rewrite Er, Ec, !Nat.eqb_refl.
    cbn [andb bind negb]. unfold delivers. rewrite map_map.
    rewrite (map_ext _ (fun k => fit (w k))); [reflexivity|]. intros k.
    specialize (Hf (w k)). unfold invLSFIR, fir_design, delayed, np_lstsq, response_of in Hf.
    cbn [alen] in Hf. rewrite Nat.eqb_refl in Hf. cbn [bind alen stack1 stack2 mrows] in Hf. rewrite Nat.eqb_refl in Hf.
    injection Hf as <-. reflexivity.
  - intros i. apply (unbiased_mean runs D d HI Hr). intros p w _. rewrite rows_mean_avg. reflexivity.
  - intros i j. apply (unbiased_cov runs D d HI Hr). intros p w _. rewrite rows_cov_sample by (rewrite seq_length; lia). reflexivity.
Qed.
Print Assumptions C141_fir.

(** ** invLSIIR_unc: fit q, delay q is what invLSIIR returns for the drawn response *)
Theorem C141_iir : forall lstsq roots (H : arr C) UH Nb Na f Fs tau runs (D : dist (nat -> vec)) (d : dist vec)
    (fit : vec -> vec * vec) (delay : vec -> R),
  exact_lstsq lstsq ->
  iid 0 runs D d -> (2 <= runs)%nat -> alen H = alen f ->
  mrows UH = (alen f + alen f)%nat -> mcols UH = (alen f + alen f)%nat ->
  (forall q, invLSIIR lstsq roots 50 (response_of (alen f) q) Nb Na f Fs tau false
             = Some (Ok (fst (fit q), snd (fit q), Some (delay q)))) ->
  exists (b a : (nat -> vec) -> vec) (t : (nat -> vec) -> R) (U : (nat -> vec) -> mat),
    (forall w, invLSIIR_unc (delivers w) lstsq roots H UH Nb Na f Fs tau runs = Ok (b w, a w, t w, U w) /\
       alen (b w) = S Nb /\ alen (a w) = S Na /\ mrows (U w) = (Na + S Nb)%nat /\ mcols (U w) = (Na + S Nb)%nat /\
       a w 0%nat = 1) /\
    (forall i, (i < S Nb)%nat -> Ex D (fun w => b w i) = Ex d (fun q => fst (fit q) i)) /\
    (forall i, (1 <= i < S Na)%nat -> Ex D (fun w => a w i) = Ex d (fun q => snd (fit q) i)) /\
    Ex D t = Ex d delay /\
    (forall i j, Ex D (fun w => U w i j) = Cov d (fun q => coeffs Na (fit q) i) (fun q => coeffs Na (fit q) j)).
Proof.
  intros lstsq roots H UH Nb Na f Fs tau runs D d fit delay X HI Hr LH Er Ec Hf.
  set (run := fun w => invLSIIR_unc (delivers w) lstsq roots H UH Nb Na f Fs tau runs).
  set (b := fun w => match run w with Ok (b, _, _, _) => b | _ => mkArr 0 (fun _ => 0) end).
  set (a := fun w => match run w with Ok (_, a, _, _) => a | _ => mkArr 0 (fun _ => 0) end).
  set (t := fun w => match run w with Ok (_, _, t, _) => t | _ => 0 end).
  set (U := fun w => match run w with Ok (_, _, _, U) => U | _ => mkMat 0 0 (fun _ _ => 0) end).
  assert (K : forall w, run w = Ok (b w, a w, t w, U w) /\
    alen (b w) = S Nb /\ alen (a w) = S Na /\ mrows (U w) = (Na + S Nb)%nat /\ mcols (U w) = (Na + S Nb)%nat /\
    a w 0%nat = 1 /\
    (forall i, (i < S Nb)%nat -> b w i = avg (fun k => fst (fit (w k)) i) (seq 0 runs)) /\
    (forall i, (1 <= i < S Na)%nat -> a w i = avg (fun k => snd (fit (w k)) i) (seq 0 runs)) /\
    t w = avg (fun k => delay (w k)) (seq 0 runs) /\
    forall i j, U w i j = sample_cov (fun k => coeffs Na (fit (w k)) i) (fun k => coeffs Na (fit (w k)) j) (seq 0 runs)).
  { intros w.
    destruct (C107_mean_and_covariance (delivers w) lstsq roots H UH Nb Na f Fs tau runs X LH Er Ec ltac:(lia))
      as (RI & b' & a' & t' & U' & fits & ts & _ & _ & Hk & E & Lb & La & R1 & R2 & Hb & A0 & Ha & Ht & HU).
    unfold b, a, t, U, run. rewrite E.
    assert (F : forall k, In k (seq 0 runs) -> fits k = fit (w k) /\ ts k = delay (w k)).
    { intros k Hk'. apply in_seq in Hk'. specialize (Hk k ltac:(lia)). unfold delivers in Hk.
      specialize (Hf (w k)). unfold response_of in Hf. rewrite Hf in Hk. injection Hk as Q1 Q2 Q3.
      split; [|congruence]. destruct (fits k), (fit (w k)). cbn in *. congruence. }
    split; [reflexivity|]. do 5 (split; [assumption|]).
    split; [intros i Hi; rewrite Hb by auto; apply avg_ext; intros k Hk'; rewrite (proj1 (F k Hk')); reflexivity|].
    split; [intros i Hi; rewrite Ha by auto; apply avg_ext; intros k Hk'; rewrite (proj1 (F k Hk')); reflexivity|].
    split; [rewrite Ht; apply avg_ext; intros k Hk'; apply (F k Hk')|].
    intros i j. rewrite HU. apply sample_cov_ext; intros k Hk'; rewrite (proj1 (F k Hk')); reflexivity. }
  exists b, a, t, U. split; [|split; [|split; [|split]]].
  - intros w. destruct (K w) as (E & L1 & L2 & L3 & L4 & L5 & _). repeat (split; [assumption|]). assumption.
  - intros i Hi. apply (unbiased_mean runs D d HI Hr (fun w => b w i) (fun q => fst (fit q) i)). intros p w _. apply (K w). exact Hi.
  - intros i Hi. apply (unbiased_mean runs D d HI Hr (fun w => a w i) (fun q => snd (fit q) i)). intros p w _. apply (K w). exact Hi.
  - apply (unbiased_mean runs D d HI Hr t delay). intros p w _. apply (K w).
  - intros i j. apply (unbiased_cov runs D d HI Hr (fun w => U w i j) (fun q => coeffs Na (fit q) i) (fun q => coeffs Na (fit q) j)).
    intros p w _. apply (K w).
Qed.
Print Assumptions C141_iir.

(** ** fit_som with a covariance matrix and weights that do not depend on the draws: par q is
    what fit_som returns for the drawn response without uncertainty *)
Lemma som_mc_all {A} solve W X (g : A -> vec) (mu : A -> vec) l :
  (forall k, In k l -> som_gls solve W X (g k) = Ok (mu k)) -> som_mc solve W X (map g l) = Ok (map mu l).
Proof.
  induction l as [|k l IH]; intros H; [reflexivity|]. cbn [map som_mc]. rewrite (H k) by (left; reflexivity).
  cbn [bind]. rewrite IH by (intros j Hj; apply H; right; exact Hj). reflexivity.
Qed.
Definition plain (wgt : som_weighting) : Prop :=
  match wgt with SwStr s => s <> "diag"%string /\ s <> "cov"%string | _ => True end.
Lemma plain_W n wgt o o' : plain wgt -> som_W n o wgt = som_W n o' wgt.
Proof.
  destruct wgt as [|s|v]; [reflexivity| |reflexivity]. intros [H1 H2]. cbn [som_W].
  apply String.eqb_neq in H1. apply String.eqb_neq in H2. rewrite H1, H2. reflexivity.
Qed.
Theorem C141_som : forall solve inv mvn z runs0 (f H : vec) UH wgt runs scaling
    (D : dist (nat -> vec)) (d : dist vec) (par : vec -> vec),
  iid 0 runs D d -> (2 <= runs)%nat -> alen H = (alen f + alen f)%nat -> plain wgt ->
  mrows UH = (alen f + alen f)%nat -> mcols UH = (alen f + alen f)%nat ->
  (forall p w, In (p, w) D -> forall k, alen (w k) = (alen f + alen f)%nat /\
     fit_som solve inv mvn z runs0 f (w k) SuNone wgt None scaling = Ok (SomFit (par (w k)) None)) ->
  exists (m : (nat -> vec) -> vec) (U : (nat -> vec) -> mat),
    (forall p w, In (p, w) D ->
       fit_som solve inv (delivers w) z runs0 f H (SuCov UH) wgt (Some runs) scaling = Ok (SomFit (m w) (Some (CovMat (U w))))) /\
    (forall i, (i < 3)%nat -> Ex D (fun w => m w i) = Ex d (fun q => par q i)) /\
    (forall i j, (i < 3)%nat -> (j < 3)%nat -> Ex D (fun w => U w i j) = Cov d (fun q => par q i) (fun q => par q j)).
Proof.
  intros solve inv mvn z runs0 f H UH wgt runs scaling D d par HI Hr LH Hw Er Ec Hf.
  exists (fun w => rows_mean 3 (map (fun k => par (w k)) (seq 0 runs))),
         (fun w => rows_cov 3 (map (fun k => par (w k)) (seq 0 runs))).
  split; [|split].
  - intros p w Hin. specialize (Hf p w Hin).
    assert (G : forall k, exists W mu, som_W (alen f) None wgt = Ok W /\
      som_gls solve W (som_design f scaling) (som_irow (alen f) (w k)) = Ok mu /\
      par (w k) = som_pars (som_rescale scaling mu)).
    { intros k. destruct (Hf k) as [Lk E]. unfold fit_som in E. rewrite Lk, Nat.eqb_refl in E.
      cbn [negb som_draws bind] in E.
      destruct (som_W (alen f) None wgt) as [W|] eqn:EW; [|discriminate]. cbn [bind] in E.
      destruct (alen f =? 0)%nat; [discriminate|]. destruct (has_zero (alen f) (w k)); [discriminate|].
      destruct (som_gls solve W (som_design f scaling) (som_irow (alen f) (w k))) as [mu|] eqn:Em; [|discriminate].
      cbn [bind] in E. injection E as E. exists W, mu. auto. }
    destruct (G 0%nat) as (W & _ & EW & _).
    set (mu := fun k => match som_gls solve W (som_design f scaling) (som_irow (alen f) (w k)) with Ok mu => mu | _ => mkArr 0 (fun _ => 0) end).
    assert (Hmu : forall k, som_gls solve W (som_design f scaling) (som_irow (alen f) (w k)) = Ok (mu k) /\
                            par (w k) = som_pars (som_rescale scaling (mu k))).
    { intros k. destruct (G k) as (W' & m & EW' & Em & Ep). rewrite EW in EW'. injection EW' as <-.
      unfold mu. rewrite Em. auto. }
    unfold fit_som. rewrite LH, Nat.eqb_refl. cbn [negb som_draws bind]. rewrite Er, Ec, !Nat.eqb_refl. cbn [andb bind].
    unfold delivers. rewrite map_map.
    rewrite (plain_W (alen f) wgt _ None Hw), EW. cbn [bind].
    rewrite (som_mc_all solve W (som_design f scaling) (fun k => som_irow (alen f) (w k)) mu) by (intros k _; apply Hmu).
    cbn [bind]. replace (runs =? 0)%nat with false by (symmetry; apply Nat.eqb_neq; lia).
    rewrite map_map. rewrite (map_ext (fun k => som_pars (som_rescale scaling (mu k))) (fun k => par (w k)))
      by (intros k; symmetry; apply Hmu).
    clear - Hr. destruct runs as [|[|r]]; [lia|lia|]. reflexivity.
  - intros i _. apply (unbiased_mean runs D d HI Hr). intros p w _. rewrite rows_mean_avg. reflexivity.
  - intros i j _ _. apply (unbiased_cov runs D d HI Hr). intros p w _. rewrite rows_cov_sample by (rewrite seq_length; lia). reflexivity.
Qed.
Print Assumptions C141_som.

(** ** sos_realimag: the numbers of one run are (zS, zd, zf) *)
Theorem C141_sos : forall S_ dd f0 uS ud uf0 f runs (D : dist (nat -> R * R * R)) (d : dist (R * R * R))
    (resp : R * R * R -> nat -> C),
  iid 0 runs D d -> (2 <= runs)%nat ->
  (forall p w, In (p, w) D -> forall k i, (i < alen f)%nat ->
     let '(zS, zd, zf) := w k in
     second_order (S_ + uS * zS) (dd + ud * zd) (f0 + uf0 * zf) (f i) (resp (w k) i)) ->
  exists (m : (nat -> R * R * R) -> arr C) (U : (nat -> R * R * R) -> mat),
    (forall p w, In (p, w) D ->
       sos_realimag S_ dd f0 uS ud uf0 f runs (mkArr runs (fun k => fst (fst (w k))))
         (mkArr runs (fun k => snd (fst (w k)))) (mkArr runs (fun k => snd (w k))) = Some (m w, U w)) /\
    let n := alen f in
    let part := fun i q => if (i <? n)%nat then Re (resp q i) else Im (resp q (i - n)%nat) in
    (forall i, (i < n)%nat -> Ex D (fun w => Re (m w i)) = Ex d (part i) /\
                              Ex D (fun w => Im (m w i)) = Ex d (part (n + i)%nat)) /\
    (forall i j, (i < 2 * n)%nat -> (j < 2 * n)%nat -> Ex D (fun w => U w i j) = Cov d (part i) (part j)).
Proof.
  intros S_ dd f0 uS ud uf0 f runs D d rs HI Hr HD.
  set (run := fun w : nat -> R * R * R => sos_realimag S_ dd f0 uS ud uf0 f runs (mkArr runs (fun k => fst (fst (w k))))
         (mkArr runs (fun k => snd (fst (w k)))) (mkArr runs (fun k => snd (w k)))).
  set (n := alen f). set (part := fun i q => if (i <? n)%nat then Re (rs q i) else Im (rs q (i - n)%nat)).
  set (m := fun w => match run w with Some (m, _) => m | _ => mkArr 0 (fun _ => C0) end).
  set (U := fun w => match run w with Some (_, U) => U | _ => mkMat 0 0 (fun _ _ => 0) end).
  assert (K : forall p w, In (p, w) D -> run w = Some (m w, U w) /\
    (forall i, (i < n)%nat -> Re (m w i) = avg (fun k => part i (w k)) (seq 0 runs) /\
                              Im (m w i) = avg (fun k => part (n + i)%nat (w k)) (seq 0 runs)) /\
    (forall i j, (i < 2 * n)%nat -> (j < 2 * n)%nat ->
       U w i j = sample_cov (fun k => part i (w k)) (fun k => part j (w k)) (seq 0 runs))).
  { intros p w Hw. specialize (HD p w Hw).
    assert (HD' : forall i k, (i < alen f)%nat -> second_order (S_ + uS * fst (fst (w k))) (dd + ud * snd (fst (w k)))
       (f0 + uf0 * snd (w k)) (f i) (rs (w k) i)).
    { intros i k Hi. specialize (HD k i Hi). destruct (w k) as [[zS zd] zf]. exact HD. }
    destruct (C100_returns S_ dd f0 uS ud uf0 f runs (mkArr runs (fun k => fst (fst (w k))))
         (mkArr runs (fun k => snd (fst (w k)))) (mkArr runs (fun k => snd (w k))) Hr) as [[m' U'] E].
    { intros i k Hi Hk. exists (rs (w k) i). apply HD'. exact Hi. }
    destruct (C100_realimag _ _ _ _ _ _ _ _ _ _ _ _ _ E) as (H & HH & _ & _ & _ & _ & Hm & HU).
    unfold m, U, run. rewrite E. split; [reflexivity|].
    assert (Q : forall i k, (i < n)%nat -> In k (seq 0 runs) -> H i k = rs (w k) i).
    { intros i k Hi Hk. apply in_seq in Hk. specialize (HH i k Hi ltac:(lia)). specialize (HD' i k Hi).
      unfold drawn_response in HH. cbn [aget] in HH. destruct HH as [Nz E1]. destruct HD' as [_ E2].
      rewrite <- E2 in E1. rewrite (cmul_comm (H i k)), (cmul_comm (rs (w k) i)) in E1. exact (cmul_reg_l _ _ _ Nz E1). }
    assert (P : forall i k, (i < 2 * n)%nat -> In k (seq 0 runs) ->
      (if (i <? n)%nat then Re (H i k) else Im (H (i - n)%nat k)) = part i (w k)).
    { intros i k Hi Hk. unfold part. destruct (Nat.ltb_spec i n); rewrite Q; auto; lia. }
    split.
    - intros i Hi. destruct (Hm i Hi) as [-> ->]. split; apply avg_ext; intros k Hk; apply P; auto; lia.
    - intros i j Hi Hj. rewrite HU. apply sample_cov_ext; intros k Hk; apply P; auto. }
  exists m, U. split; [intros p w Hw; apply (K p w Hw)|]. cbv zeta. split.
  - intros i Hi. split.
    + apply (unbiased_mean runs D d HI Hr). intros p w Hw. apply (K p w Hw). exact Hi.
    + apply (unbiased_mean runs D d HI Hr). intros p w Hw. apply (K p w Hw). exact Hi.
  - intros i j Hi Hj. apply (unbiased_cov runs D d HI Hr). intros p w Hw. apply (K p w Hw); auto.
Qed.
Print Assumptions C141_sos.

(** ** FreqResp2RealImag: the covariance; the two numbers are averages over the frequencies (C21) *)
Lemma tot_seq_rsum g n : tot (map g (seq 0 n)) = rsum n g.
Proof.
  induction n as [|n IH]; [reflexivity|]. rewrite seq_S, map_app, tot_app, IH. cbn. ring.
Qed.
Lemma smean_avg n g : smean n g = avg g (seq 0 n).
Proof. unfold smean, avg. rewrite tot_seq_rsum, seq_length. unfold Rdiv. ring. Qed.
Lemma scov_sample n f g : (1 <= n)%nat -> scov n f g = sample_cov f g (seq 0 n).
Proof.
  intros H. assert (N : INR n <> 0) by (apply not_0_INR; lia).
  unfold scov, sample_cov. rewrite scatter_raw by (apply seq_ne; exact H).
  rewrite !tot_seq_rsum, seq_length. unfold smean. f_equal. field. exact N.
Qed.
Lemma Ex_rsum' {A} (d : dist A) n (g : nat -> A -> R) : Ex d (fun a => rsum n (fun i => g i a)) = rsum n (fun i => Ex d (g i)).
Proof. induction n as [|n IH]; cbn [rsum]; [apply Ex_zero|]. rewrite Ex_plus, IH. reflexivity. Qed.
(** Real (c < n) and imaginary parts of the drawn amplitudes q[:n] and phases q[n:]. *)
Definition polar_part (n c : nat) (q : vec) : R :=
  if (c <? n)%nat then q c * cos (q (n + c)%nat) else q (c - n)%nat * sin (q c).
Theorem C141_freqresp : forall (Abs Phase : vec) Unc n runs (D : dist (nat -> vec)) (d : dist vec),
  iid 0 runs D d -> (2 <= runs)%nat ->
  alen Abs = n -> (1 <= n)%nat -> alen Phase = n -> unc_dim Unc = (2 * n)%nat ->
  (forall m, Unc = FrMat m -> mcols m = (2 * n)%nat) ->
  exists (re im : (nat -> vec) -> R) (U : (nat -> vec) -> mat),
    (forall w, FreqResp2RealImag (delivers w) Abs Phase Unc runs = Ok (Some (re w), Some (im w), CovMat (U w))) /\
    Ex D re = rsum n (fun k => Ex d (polar_part n k)) / INR n /\
    Ex D im = rsum n (fun k => Ex d (polar_part n (n + k))) / INR n /\
    (forall i j, (i < 2 * n)%nat -> (j < 2 * n)%nat -> Ex D (fun w => U w i j) = Cov d (polar_part n i) (polar_part n j)).
Proof.
  intros Abs Phase Unc n runs D d HI Hr HA Hn HP HU HM.
  set (run := fun w => FreqResp2RealImag (delivers w) Abs Phase Unc runs).
  set (re := fun w => match run w with Ok (Some r, _, _) => r | _ => 0 end).
  set (im := fun w => match run w with Ok (_, Some r, _) => r | _ => 0 end).
  set (U := fun w => match run w with Ok (_, _, CovMat U) => U | _ => mkMat 0 0 (fun _ _ => 0) end).
  assert (K : forall w, run w = Ok (Some (re w), Some (im w), CovMat (U w)) /\
    re w = rsum n (fun k => avg (fun r => polar_part n k (w r)) (seq 0 runs)) * / INR n /\
    im w = rsum n (fun k => avg (fun r => polar_part n (n + k) (w r)) (seq 0 runs)) * / INR n /\
    forall i j, (i < 2 * n)%nat -> (j < 2 * n)%nat ->
      U w i j = sample_cov (fun r => polar_part n i (w r)) (fun r => polar_part n j (w r)) (seq 0 runs)).
  { intros w. destruct (C21_means_partial (delivers w) Abs Phase Unc n runs HA Hn Hr HP HU HM)
      as (mean & V & Re & Im & URI & _ & _ & E & _ & _ & HC & _ & HR & HIm).
    unfold re, im, U, run. rewrite E. split; [reflexivity|]. split; [|split].
    - rewrite HR. unfold smean at 1. rewrite Rmult_comm. f_equal. apply rsum_ext. intros k Hk. rewrite smean_avg. reflexivity.
    - rewrite HIm. unfold smean at 1. rewrite Rmult_comm. f_equal. apply rsum_ext. intros k Hk. rewrite smean_avg. reflexivity.
    - intros i j Hi Hj. rewrite HC by auto. rewrite scov_sample by lia. reflexivity. }
  assert (M : forall g : vec -> R, Ex D (fun w => avg (fun r => g (w r)) (seq 0 runs)) = Ex d g).
  { intros g. apply (unbiased_mean runs D d HI Hr). intros p w _. reflexivity. }
  exists re, im, U. split; [intros w; apply (K w)|]. split; [|split].
  - rewrite (Ex_ext _ _ _ (fun w => proj1 (proj2 (K w)))). rewrite Ex_scal_r, Ex_rsum'. unfold Rdiv. f_equal.
    apply rsum_ext. intros k _. apply M.
  - rewrite (Ex_ext _ _ _ (fun w => proj1 (proj2 (proj2 (K w))))). rewrite Ex_scal_r, Ex_rsum'. unfold Rdiv. f_equal.
    apply rsum_ext. intros k _. apply M.
  - intros i j Hi Hj. apply (unbiased_cov runs D d HI Hr). intros p w _. apply (K w); auto.
Qed.
Print Assumptions C141_freqresp.

(** ** Examples: three runs, each with one of two values *)
Lemma coin_prob {A} (u v : A) : is_prob [(1/2, u); (1/2, v)].
Proof. split; [|cbn; lra]. intros p q [E|[E|[]]]; injection E as <- _; lra. Qed.
Lemma coin_runs {A} (u v : A) r : iid 0 r (repeated u [(1/2, u); (1/2, v)] r) [(1/2, u); (1/2, v)].
Proof. apply repeated_iid, coin_prob. Qed.
Lemma coin_in {A} (P : A -> Prop) (u v : A) r : P u -> P v ->
  forall p w, In (p, w) (repeated u [(1/2, u); (1/2, v)] r) -> forall k, P (w k).
Proof.
  intros Hu Hv. apply repeated_in; [exact Hu|]. intros p a [E|[E|[]]]; injection E as _ <-; auto.
Qed.
(** Responses 1/(v - i/2) at a quarter of the sampling rate, whose inverse filter is (v, 1/2). *)
Definition q141 (v : R) : vec := stack1 1 (fun _ => cinv (v, - / 2)).
Lemma freq_half v : freq_resp (of_list [v; /2]) (PI / 2) = (v, - / 2).
Proof.
  unfold freq_resp. cbn [alen of_list length csum]. apply C_eq; cbn -[cos sin PI];
  replace (- (PI / 2 * 0)) with 0 by ring; replace (- (PI / 2 * 1)) with (- (PI / 2)) by ring.
  - rewrite cos_neg, cos_PI2, cos_0. lra.
  - rewrite sin_neg, sin_PI2, sin_0. lra.
Qed.
Definition fit141 (q : vec) : vec :=
  match invLSFIR lstsq_ref (response_of 1 q) 1 0 (of_list [1]) 4 WtNone with Ok b => b | _ => mkArr 0 (fun _ => 0) end.
Lemma fit141_value v : fit141 (q141 v) 0%nat = v.
Proof.
  destruct (C71_exact_inverse lstsq_ref (response_of 1 (q141 v)) 1 0 (of_list [1]) 4 (of_list [v; /2])
    lstsq_ref_exact eq_refl eq_refl (interior_determines (of_list [1]) 4 2 one_interior ltac:(cbn; lia))) as [b [E [L V]]].
  - intros i Hi. cbn in Hi. assert (i = 0%nat) by lia. subst. rewrite quarter_radf, freq_half.
    assert (Q : response_of 1 (q141 v) 0%nat = cinv (v, - / 2)).
    { unfold response_of, resp, q141. cbn [aget]. rewrite stack1_re, stack1_im by lia. symmetry. apply surjective_pairing. }
    rewrite Q, cmul_inv_l; [|intros X; apply (f_equal snd) in X; cbn in X; lra].
    rewrite Rmult_0_r, Ropp_0. unfold cis. rewrite cos_0, sin_0. reflexivity.
  - unfold fit141. rewrite E. rewrite V by (rewrite L; cbn; lia). reflexivity.
Qed.
Example C141_fir_example : exists b U, let D := repeated (q141 1) [(1/2, q141 1); (1/2, q141 3)] 3 in
  (forall w, invLSFIR_uncMC (delivers w) lstsq_ref (mkArr 1 (fun _ => (1, 0))) (zeros2 2 2) 1 0 (of_list [1]) 4 3
             = Ok (b w, U w)) /\
  Ex D (fun w => b w 0%nat) = 2 /\ Ex D (fun w => U w 0%nat 0%nat) = 1.
Proof.
  destruct (C141_fir lstsq_ref (mkArr 1 (fun _ => (1, 0))) (zeros2 2 2) 1 0 (of_list [1]) 4 3
    _ _ fit141 (coin_runs (q141 1) (q141 3) 3) ltac:(lia) eq_refl eq_refl eq_refl) as (b & U & E & Em & Eu).
  { intros q. unfold fit141. reflexivity. }
  exists b, U. split; [intros w; apply E|]. rewrite Em, Eu. unfold Cov. cbn [Ex]. rewrite !fit141_value. split; lra.
Qed.
(** Any number of the coefficients, any stabilisation: the hypotheses can be met. *)
Example C141_iir_example roots : exists (fit : vec -> vec * vec) (delay : vec -> R) b a t U,
  (forall w, invLSIIR_unc (delivers w) lstsq_ref roots (mkArr 1 (fun _ => (1, / 2))) (zeros2 2 2) 0 1 (of_list [1]) 4 0 3
             = Ok (b w, a w, t w, U w)) /\
  Ex (repeated (q141 1) [(1/2, q141 1); (1/2, q141 3)] 3) t = (delay (q141 1) + delay (q141 3)) / 2 /\
  forall q, invLSIIR lstsq_ref roots 50 (response_of 1 q) 0 1 (of_list [1]) 4 0 false
            = Some (Ok (fst (fit q), snd (fit q), Some (delay q))).
Proof.
  set (go := fun q => invLSIIR lstsq_ref roots 50 (response_of 1 q) 0 1 (of_list [1]) 4 0 false).
  set (fit := fun q => match go q with Some (Ok (b, a, _)) => (b, a) | _ => (mkArr 0 (fun _ => 0), mkArr 0 (fun _ => 0)) end).
  set (delay := fun q => match go q with Some (Ok (_, _, Some t)) => t | _ => 0 end).
  assert (G : forall q, go q = Some (Ok (fst (fit q), snd (fit q), Some (delay q)))).
  { intros q. destruct (C75_invLSIIR_loop_partial lstsq_ref roots 50 (response_of 1 q) 0 1 (of_list [1]) 4 0
      lstsq_ref_exact eq_refl ltac:(lia)) as (n & taus & fi & t & _ & E & _).
    unfold fit, delay, go. rewrite E. reflexivity. }
  destruct (C141_iir lstsq_ref roots (mkArr 1 (fun _ => (1, / 2))) (zeros2 2 2) 0 1 (of_list [1]) 4 0 3
    _ _ fit delay lstsq_ref_exact (coin_runs (q141 1) (q141 3) 3) ltac:(lia) eq_refl eq_refl eq_refl G)
    as (b & a & t & U & E & _ & _ & Et & _).
  exists fit, delay, b, a, t, U. split; [intros w; apply E|]. split; [|exact G]. rewrite Et. cbn [Ex]. lra.
Qed.
(** Gains 1 and 3 of a second order system: expectation 2, variance 1. *)
Example C141_som_example inv (mvn : vec -> mat -> nat -> nat -> vec) z runs0 : exists m U,
  let D := repeated (H12 1) [(1/2, H12 1); (1/2, H12 3)] 3 in
  (forall p w, In (p, w) D -> fit_som solve_ref inv (delivers w) z runs0 f12 (H12 2) (SuCov (zeros2 4 4)) SwNone (Some 3%nat) (/ 10)
             = Ok (SomFit (m w) (Some (CovMat (U w))))) /\
  Ex D (fun w => m w 0%nat) = 2 /\ Ex D (fun w => U w 0%nat 0%nat) = 1.
Proof.
  assert (Pi := PI_RGT_0).
  set (par := fun q => match fit_som solve_ref inv mvn z runs0 f12 q SuNone SwNone None (/ 10) with Ok (SomFit p _) => p | _ => mkArr 0 (fun _ => 0) end).
  assert (G : forall g, 0 < g -> fit_som solve_ref inv mvn z runs0 f12 (H12 g) SuNone SwNone None (/ 10) = Ok (SomFit (par (H12 g)) None) /\
     par (H12 g) 0%nat = g).
  { intros g Hg. destruct (C76_exact solve_ref inv mvn z runs0 f12 (H12 g) SwNone (fun _ => 1) None (/ 10) g 1 (/ (2 * PI)))
      as (p & E & T); auto; try lra.
    - apply solve_ref_exact.
    - apply f12_two.
    - intros r; reflexivity.
    - intros; lra.
    - apply Rinv_0_lt_compat; lra.
    - intros; apply H12_response; auto; lra.
    - unfold par. rewrite E. split; [reflexivity|]. apply T. }
  destruct (C141_som solve_ref inv mvn z runs0 f12 (H12 2) (zeros2 4 4) SwNone 3 (/ 10) _ _ par
    (coin_runs (H12 1) (H12 3) 3) ltac:(lia) eq_refl I eq_refl eq_refl) as (m & U & E & Em & Eu).
  { apply (coin_in (fun q => alen q = (alen f12 + alen f12)%nat /\
      fit_som solve_ref inv mvn z runs0 f12 q SuNone SwNone None (/ 10) = Ok (SomFit (par q) None)));
    (split; [reflexivity|]); apply G; lra. }
  exists m, U. split; [exact E|]. rewrite Em, Eu by lia. unfold Cov. cbn [Ex].
  rewrite !(proj2 (G _ Rlt_0_1)), !(proj2 (G 3 ltac:(lra))). split; lra.
Qed.
(** The gain 2 with standard uncertainty 1, at frequency 0. *)
Example C141_sos_example : exists m U,
  let D := repeated (-1, 0, 0) [(1/2, (-1, 0, 0)); (1/2, (1, 0, 0))] 3 in
  (forall p w, In (p, w) D ->
     sos_realimag 2 (/2) 1 1 0 0 (of_list [0]) 3 (mkArr 3 (fun k => fst (fst (w k))))
       (mkArr 3 (fun k => snd (fst (w k)))) (mkArr 3 (fun k => snd (w k))) = Some (m w, U w)) /\
  Ex D (fun w => Re (m w 0%nat)) = 2 /\ Ex D (fun w => U w 0%nat 0%nat) = 1.
Proof.
  assert (Pi := PI_RGT_0).
  set (rs := fun (q : R * R * R) (_ : nat) => (2 + fst (fst q), 0) : C).
  destruct (C141_sos 2 (/2) 1 1 0 0 (of_list [0]) 3 _ _ rs
    (coin_runs (-1, 0, 0) (1, 0, 0) 3) ltac:(lia)) as (m & U & E & Em & Eu).
  { intros p w Hw k i Hi. revert p w Hw k.
    apply (coin_in (fun q => let '(zS, zd, zf) := q in
       second_order (2 + 1 * zS) (/2 + 0 * zd) (1 + 0 * zf) (of_list [0] i) (rs q i)));
    cbn in Hi; assert (i = 0%nat) by lia; subst i; unfold second_order, rs; cbn [of_list aget nth fst]; (split;
      [intros X; apply (f_equal fst) in X; cbn in X; nra|apply C_eq; cbn; ring]). }
  exists m, U. split; [exact E|]. rewrite (proj1 (Em 0%nat ltac:(cbn; lia))), (Eu 0%nat 0%nat) by (cbn; lia).
  unfold Cov, rs. cbn. split; lra.
Qed.
(** Amplitudes 1 and 3 with phase 0. *)
Example C141_freqresp_example : exists re im U,
  let D := repeated (of_list [1; 0]) [(1/2, of_list [1; 0]); (1/2, of_list [3; 0])] 3 in
  (forall w, FreqResp2RealImag (delivers w) (of_list [2]) (of_list [0]) (FrVec (of_list [1; 0])) 3
             = Ok (Some (re w), Some (im w), CovMat (U w))) /\
  Ex D re = 2 /\ Ex D (fun w => U w 0%nat 0%nat) = 1.
Proof.
  destruct (C141_freqresp (of_list [2]) (of_list [0]) (FrVec (of_list [1; 0])) 1 3 _ _
    (coin_runs (of_list [1; 0]) (of_list [3; 0]) 3) ltac:(lia) eq_refl ltac:(lia) eq_refl eq_refl) as (re & im & U & E & Er & _ & Eu).
  { intros m X. discriminate. }
  exists re, im, U. split; [exact E|]. rewrite Er, (Eu 0%nat 0%nat) by lia.
  unfold Cov, polar_part. cbn. rewrite cos_0. split; lra.
Qed.
