(** C184: order and repetition of the frequencies of filter and system fits.
    Model: M_Fit.v.  Vocabulary: S_Fit.v, S_Som.v. *)
From Coq Require Import Reals String List Arith Bool Lra Lia Psatz FunctionalExtensionality.
From Verif Require Import Base Sums Cplx M_DFT M_FilterStuff M_MC M_Fit S_Poly S_Fit S_MC S_Jac S_Som P_Poly P_MC P_Deriv
  P_LinAlg P_FStuff P_Fit P_Fit2 P_FitIIR P_Som T_Som T_Units T_SomGain T_Fit T_FitIIR T_FitGain.
Import ListNotations.
Local Notation length := Datatypes.length.
Open Scope R_scope.

(** ** C184 *)
(** The n' positions p 0, p 1, ... name each of 0, ..., n-1 exactly k times. *)
Definition listed (k n n' : nat) (p : nat -> nat) : Prop :=
  (forall i, (i < n')%nat -> (p i < n)%nat) /\
  forall i, (i < n)%nat -> length (filter (fun j => (p j =? i)%nat) (seq 0 n')) = k.
(** The measurements p 0, p 1, ... *)
Definition pick {A} (n' : nat) (p : nat -> nat) (v : arr A) : arr A := mkArr n' (fun i => v (p i)).
(** The same for real parts followed by imaginary parts. *)
Definition pick2 (n n' : nat) (p : nat -> nat) (v : nat -> R) (r : nat) : R :=
  if (r <? n')%nat then v (p r) else v (n + p (r - n'))%nat.

Lemma rsum_count n' (q : nat -> bool) c : rsum n' (fun j => if q j then c else 0) = INR (length (filter q (seq 0 n'))) * c.
Proof.
  induction n' as [|n' IH]; [cbn; ring|]. cbn [rsum]. rewrite IH, seq_S, filter_app, app_length, plus_INR. cbn [filter Nat.add].
  destruct (q n'); cbn [length INR]; ring.
Qed.
Lemma rsum_listed k n n' p (g : nat -> R) : listed k n n' p -> rsum n' (fun i => g (p i)) = INR k * rsum n g.
Proof.
  intros [Hp Hc]. rewrite (rsum_ext n' _ (fun j => rsum n (fun i => if (p j =? i)%nat then g i else 0))).
  - rewrite rsum_swap, <- rsum_scal. apply rsum_ext. intros i Hi. rewrite (rsum_count n' (fun j => (p j =? i)%nat)), Hc by exact Hi. reflexivity.
  - intros j Hj. symmetry. rewrite <- (rsum_delta n (p j) g) by (apply Hp; exact Hj). apply rsum_ext. intros i _. now rewrite Nat.eqb_sym.
Qed.
(** Repeated rows have the same least squares solutions. *)
Lemma least_listed k n n' p L (E : nat -> nat -> C) (t : nat -> C) E' t' (c c' : vec) : listed k n n' p -> (1 <= k)%nat ->
  (forall i, (i < n')%nat -> t' i = t (p i) /\ forall j, (j < L)%nat -> E' i j = E (p i) j) ->
  indep_cols (stack2 n L E) -> least_squares (stack2 n L E) (stack1 n t) c ->
  least_squares (stack2 n' L E') (stack1 n' t') c' -> veq c' c.
Proof.
  intros HL Hk HE I [Lc M] [Lc' M']. cbn [mrows stack2] in M, M'. fold (stack2 n L E) in M. fold (stack2 n' L E') in M'.
  assert (K : 0 < INR k) by (apply lt_0_INR; lia).
  assert (S' : forall d, sqdist (n' + n') (mv (stack2 n' L E') d) (stack1 n' t') = INR k * sqdist (n + n) (mv (stack2 n L E) d) (stack1 n t)).
  { intros d. rewrite !sqdist_stack, <- (rsum_listed k n n' p (fun i => cnorm2 (csub (lin L d (E i)) (t i))) HL).
    apply rsum_ext. intros i Hi. destruct (HE i Hi) as [-> Q]. do 2 f_equal. apply lin_ext. intros j Hj. split; [reflexivity|now apply Q]. }
  assert (LS : least_squares (stack2 n L E) (stack1 n t) c').
  { split; [exact Lc'|]. intros d. specialize (M' d). rewrite !S' in M'. cbn [mrows stack2]. fold (stack2 n L E). nra. }
  split; [cbn in Lc, Lc'; congruence|]. intros j Hj. cbn in Lc, Lc'.
  apply (normal_unique _ (stack1 n t) c' c I); [apply least_normal; exact LS|apply least_normal; split; [exact Lc|exact M]|cbn; lia].
Qed.

(** FIR filters. *)
Definition weights_listed (n' : nat) (p : nat -> nat) (Wt : weights) : weights :=
  match Wt with WtVec w => WtVec (pick n' p w) | _ => Wt end.
Theorem C184_fir : forall lstsq (H : arr C) N tau f Fs Wt k n' p,
  exact_lstsq lstsq -> alen H = alen f -> determines f Fs (S N) -> listed k (alen f) n' p -> (1 <= k)%nat ->
  match Wt with WtNone => True | WtVec w => alen w = alen f /\ forall i, (i < alen f)%nat -> w i <> 0 | WtMat _ => False end ->
  exists b b', invLSFIR lstsq H N tau f Fs Wt = Ok b /\ LSFIR lstsq H N tau f Fs Wt = Ok b /\
    invLSFIR lstsq (pick n' p H) N tau (pick n' p f) Fs (weights_listed n' p Wt) = Ok b' /\
    LSFIR lstsq (pick n' p H) N tau (pick n' p f) Fs (weights_listed n' p Wt) = Ok b' /\ veq b' b.
Proof.
  intros lstsq H N tau f Fs Wt k n' p X L D HL Hk HW.
  assert (G : exists E E', fir_design N f Fs Wt = Ok (stack2 (alen f) (S N) E) /\ indep_cols (stack2 (alen f) (S N) E) /\
     fir_design N (pick n' p f) Fs (weights_listed n' p Wt) = Ok (stack2 n' (S N) E') /\ forall i j, E' i j = E (p i) j).
  { unfold fir_design. destruct Wt as [|w|m]; [| |contradiction].
    - do 2 eexists. split; [reflexivity|]. split; [apply fir_indep; exact D|]. split; [reflexivity|]. reflexivity.
    - destruct HW as [Lw Hw]. cbn [weights_listed pick alen]. rewrite Lw, !Nat.eqb_refl. do 2 eexists. split; [reflexivity|].
      split; [apply weighted_indep; auto|]. split; [reflexivity|]. reflexivity. }
  destruct G as (E & E' & EG & I & EG' & EE).
  unfold LSFIR, invLSFIR. rewrite EG, EG'. cbn [bind]. unfold delayed. cbn [pick alen]. rewrite L, !Nat.eqb_refl. cbn [bind].
  unfold np_lstsq. cbn [mrows stack2 stack1 alen]. rewrite !Nat.eqb_refl.
  do 2 eexists. do 4 (split; [reflexivity|]).
  eapply (least_listed k (alen f) n' p (S N) E _ E' _ _ _ HL Hk); [|exact I|apply X; reflexivity|apply X; reflexivity].
  intros i Hi. split; [reflexivity|]. intros; apply EE.
Qed.

(** IIR filters, each frequency once: the results are the same for every solver. *)
Lemma fitIIR_order lstsq (H : arr C) tau f Fs Na Nb inv p : listed 1 (alen f) (alen f) p ->
  fitIIR lstsq (pick (alen f) p H) tau (pick (alen f) p f) Fs Na Nb inv = fitIIR lstsq H tau f Fs Na Nb inv.
Proof.
  intros HL. unfold fitIIR. cbn [pick alen].
  assert (G : forall g, rsum (alen f) (fun i => g (p i)) = rsum (alen f) g).
  { intros g. rewrite (rsum_listed 1 _ _ _ g HL). cbn [INR]. ring. }
  match goal with |- ?l = ?r => match l with context [lstsq ?A ?y] => match r with context [lstsq ?A' ?y'] =>
    replace (lstsq A y) with (lstsq A' y'); [reflexivity|]; replace A' with A; [replace y' with y; [reflexivity|]|] end end end.
  - f_equal. apply functional_extensionality. intros j.
    exact (G (fun i => Re (cmul (cconj (iir_D H f Fs tau Na inv i j)) (copp (iir_htau H f Fs tau inv i))))).
  - f_equal. apply functional_extensionality. intros j. apply functional_extensionality. intros l.
    exact (G (fun i => Re (cmul (cconj (iir_D H f Fs tau Na inv i j)) (iir_D H f Fs tau Na inv i l)))).
Qed.
Theorem C184_iir_order : forall lstsq roots fuel (H : arr C) Nb Na f Fs tau justFit p,
  alen H = alen f -> listed 1 (alen f) (alen f) p ->
  LSIIR lstsq roots fuel (pick (alen f) p H) Nb Na (pick (alen f) p f) Fs tau justFit = LSIIR lstsq roots fuel H Nb Na f Fs tau justFit /\
  invLSIIR lstsq roots fuel (pick (alen f) p H) Nb Na (pick (alen f) p f) Fs tau justFit = invLSIIR lstsq roots fuel H Nb Na f Fs tau justFit.
Proof.
  intros lstsq roots fuel H Nb Na f Fs tau justFit p L HL.
  assert (Q : forall inv t, fitIIR lstsq (pick (alen f) p H) t (pick (alen f) p f) Fs Na Nb inv = fitIIR lstsq H t f Fs Na Nb inv)
    by (intros; now apply fitIIR_order).
  assert (Q' : forall inv, (fun t => fitIIR lstsq (pick (alen f) p H) t (pick (alen f) p f) Fs Na Nb inv) = (fun t => fitIIR lstsq H t f Fs Na Nb inv))
    by (intros; apply functional_extensionality; auto).
  unfold LSIIR, invLSIIR, iir_values, iir_stabilise. change (alen (pick (alen f) p H)) with (alen f). change (alen (pick (alen f) p f)) with (alen f).
  rewrite L, !Nat.eqb_refl, !Q, !Q'. split; reflexivity.
Qed.
(** Each frequency k times. *)
Lemma fit_run lstsq (H : arr C) tau f Fs Na Nb inv : exact_lstsq lstsq ->
  let p := (Na + S Nb)%nat in
  exists ab, least_squares (stack2 (alen f) p (iir_D H f Fs tau Na inv)) (stack1 (alen f) (fun i => copp (iir_htau H f Fs tau inv i))) ab /\
    fitIIR lstsq H tau f Fs Na Nb inv = (slice ab Na (alen ab), mkArr (S Na) (fun i => match i with O => 1 | S j => ab j end)).
Proof.
  intros X p. unfold fitIIR. fold p. set (D := iir_D H f Fs tau Na inv).
  set (T1 := mkMat p p _). set (T2 := mkArr p _). exists (lstsq T1 T2). split; [|reflexivity].
  apply (gram_least _ _ _ p (alen f + alen f) T1 T2); auto.
  - intros j l Hj Hl. cbn [T1 mget]. rewrite (gram_entry _ p) by auto. apply rsum_ext. intros r Hr. f_equal.
  - intros j Hj. cbn [T2 aget]. rewrite (gram_entry _ p) by auto. auto.
Qed.
Lemma iir_indep (H : arr C) tau f Fs Na Nb inv t : iir_target inv H f Fs tau t -> iir_determines f Fs t Nb Na ->
  indep_cols (stack2 (alen f) (Na + S Nb) (iir_D H f Fs tau Na inv)).
Proof.
  intros T D. apply stack_indep. intros c Z.
  set (b := mkArr (S Nb) (fun j => c (Na + j)%nat) : vec). set (a := mkArr (S Na) (fun i => match i with O => 0 | S j => c j end) : vec).
  destruct (D b a eq_refl eq_refl eq_refl) as [Db Da].
  - intros i Hi. specialize (Z i Hi).
    set (a1 := mkArr (S Na) (fun i => match i with O => 1 | S j => c j end) : vec).
    pose proof (iir_lin H f Fs tau Na Nb inv b a1 c i eq_refl eq_refl eq_refl ltac:(reflexivity) ltac:(reflexivity)) as Q.
    rewrite Z in Q. rewrite (iir_htau_target H f Fs tau inv t T i Hi) in Q.
    assert (A1 : freq_resp a1 (radf f Fs i) = cadd C1 (freq_resp a (radf f Fs i))).
    { rewrite <- (lin_freq a1 f Fs i (S Na) eq_refl), <- (lin_freq a f Fs i (S Na) eq_refl). unfold lin. rewrite !(csum_S_l Na). cbn [a a1 aget].
      assert (E0 : Eexp f Fs i 0 = C1).
      { unfold Eexp. change (INR 0) with 0. rewrite Rmult_0_r, Ropp_0. unfold cis. rewrite cos_0, sin_0. reflexivity. }
      rewrite E0. apply C_eq; unfold cadd, cscal, C1; cbn [fst snd]; ring. }
    rewrite A1 in Q. revert Q. generalize (freq_resp a (radf f Fs i)), (freq_resp b (radf f Fs i)), (t i). intros u w s Q.
    pose proof (f_equal fst Q) as Q1. pose proof (f_equal snd Q) as Q2. unfold csub, cadd, cmul, copp, C0, C1 in Q1, Q2. cbn [fst snd] in Q1, Q2.
    apply C_eq; unfold cmul; cbn [fst snd]; lra.
  - intros j Hj. destruct (Nat.lt_ge_cases j Na).
    + apply (Da (S j)). lia.
    + replace j with (Na + (j - Na))%nat by lia. apply (Db (j - Na)%nat). lia.
Qed.
Theorem C184_iir_repeated : forall lstsq roots fuel (H : arr C) Nb Na f Fs tau (inv : bool) t k n' p,
  exact_lstsq lstsq -> alen H = alen f -> listed k (alen f) n' p -> (1 <= k)%nat ->
  iir_target inv H f Fs tau t -> iir_determines f Fs t Nb Na ->
  if inv then
    exists b a b' a', invLSIIR lstsq roots fuel H Nb Na f Fs tau true = Some (Ok (b, a, None)) /\
      invLSIIR lstsq roots fuel (pick n' p H) Nb Na (pick n' p f) Fs tau true = Some (Ok (b', a', None)) /\ veq b' b /\ veq a' a
  else
    exists b a b' a', LSIIR lstsq roots fuel H Nb Na f Fs tau true = Some (Ok (b, a, 0)) /\
      LSIIR lstsq roots fuel (pick n' p H) Nb Na (pick n' p f) Fs tau true = Some (Ok (b', a', 0)) /\ veq b' b /\ veq a' a.
Proof.
  intros lstsq roots fuel H Nb Na f Fs tau inv0 t k n' p X L HL Hk T D.
  assert (Q : forall inv s, iir_target inv H f Fs tau s -> iir_determines f Fs s Nb Na ->
    let r := fitIIR lstsq H tau f Fs Na Nb inv in let r' := fitIIR lstsq (pick n' p H) tau (pick n' p f) Fs Na Nb inv in
    veq (fst r') (fst r) /\ veq (snd r') (snd r)).
  { intros inv s Ts Ds r r'.
    destruct (fit_run lstsq H tau f Fs Na Nb inv X) as (ab & LS & E). destruct (fit_run lstsq (pick n' p H) tau (pick n' p f) Fs Na Nb inv X) as (ab' & LS' & E').
    assert (V : veq ab' ab).
    { refine (least_listed k (alen f) n' p (Na + S Nb) (iir_D H f Fs tau Na inv) (fun i => copp (iir_htau H f Fs tau inv i))
        (iir_D (pick n' p H) (pick n' p f) Fs tau Na inv) (fun i => copp (iir_htau (pick n' p H) (pick n' p f) Fs tau inv i))
        ab ab' HL Hk _ (iir_indep H tau f Fs Na Nb inv s Ts Ds) LS LS').
      intros i Hi. split; [reflexivity|]. intros j Hj. reflexivity. }
    assert (La : alen ab = (Na + S Nb)%nat) by (destruct LS as [L0 _]; exact L0).
    destruct V as [Lv V]. unfold r, r'. rewrite E, E'. cbn [fst snd]. split; split.
    - cbn [slice alen]. now rewrite Lv.
    - intros j Hj. cbn [slice aget alen] in *. apply V. lia.
    - reflexivity.
    - intros [|j] Hj; cbn [aget alen] in *; [reflexivity|]. apply V. lia. }
  unfold LSIIR, invLSIIR, iir_values. change (alen (pick n' p H)) with n'. change (alen (pick n' p f)) with n'. rewrite L, !Nat.eqb_refl.
  pose proof (Q inv0 t T D) as V. cbn zeta in V. destruct inv0.
  - destruct (fitIIR lstsq H tau f Fs Na Nb true) as [b a]. destruct (fitIIR lstsq (pick n' p H) tau (pick n' p f) Fs Na Nb true) as [b' a'].
    exists b, a, b', a'. auto.
  - destruct (fitIIR lstsq H tau f Fs Na Nb false) as [b a]. destruct (fitIIR lstsq (pick n' p H) tau (pick n' p f) Fs Na Nb false) as [b' a'].
    exists b, a, b', a'. auto.
Qed.

(** Second-order systems. *)
Definition som_listed (n n' : nat) (p : nat -> nat) (wgt : som_weighting) : som_weighting :=
  match wgt with SwArr a => SwArr (mkArr (n' + n') (pick2 n n' p a)) | _ => wgt end.
Lemma pick2_re n n' p v i : (i < n')%nat -> pick2 n n' p v i = v (p i).
Proof. intros Hi. unfold pick2. destruct (Nat.ltb_spec i n'); [reflexivity|lia]. Qed.
Lemma pick2_im n n' p v i : pick2 n n' p v (n' + i)%nat = v (n + p i)%nat.
Proof. unfold pick2. destruct (Nat.ltb_spec (n' + i) n'); [lia|]. do 3 f_equal. lia. Qed.
Lemma som_run solve inv mvn z runs0 (f H : vec) wgt v MCruns scaling :
  exact_solve solve -> alen H = (alen f + alen f)%nat -> two_frequencies f -> scaling <> 0 ->
  plain_weights (alen f) wgt v -> (forall r, (r < alen f + alen f)%nat -> 0 < v r) ->
  (forall i, (i < alen f)%nat -> resp (alen f) H i <> C0) ->
  exists mu, fit_som solve inv mvn z runs0 f H SuNone wgt MCruns scaling = Ok (SomFit (som_pars (som_rescale scaling mu)) None) /\
    fits_recip f v H (rescaled scaling mu).
Proof.
  intros S L F Hs PW P NZ. unfold fit_som. rewrite L, Nat.eqb_refl. cbn [negb som_draws bind].
  rewrite (plain_W _ _ _ _ PW). cbn [bind].
  assert (Q0 : (alen f =? 0)%nat = false) by (apply Nat.eqb_neq; destruct F as [i [_ [Hi _]]]; lia). rewrite Q0.
  rewrite no_zero by auto.
  destruct (gls_fits solve f scaling v S Hs F P H) as [mu [Em [Lm Hm]]]. rewrite Em. cbn [bind].
  exists mu. split; [reflexivity|]. apply (wnormal_recip f scaling v v H H (som_irow (alen f) H)); auto.
Qed.
Theorem C184_som : forall solve inv mvn z runs0 (f H : vec) wgt v MCruns scaling k n' p,
  exact_solve solve -> alen H = (alen f + alen f)%nat -> two_frequencies f -> scaling <> 0 ->
  plain_weights (alen f) wgt v -> (forall r, (r < alen f + alen f)%nat -> 0 < v r) ->
  (forall i, (i < alen f)%nat -> resp (alen f) H i <> C0) -> listed k (alen f) n' p -> (1 <= k)%nat ->
  exists q q', fit_som solve inv mvn z runs0 f H SuNone wgt MCruns scaling = Ok (SomFit q None) /\
    fit_som solve inv mvn z runs0 (pick n' p f) (mkArr (n' + n') (pick2 (alen f) n' p H)) SuNone (som_listed (alen f) n' p wgt) MCruns scaling
      = Ok (SomFit q' None) /\ veq q' q.
Proof.
  intros solve inv mvn z runs0 f H wgt v MCruns scaling k n' p X L F Hs PW P NZ HL Hk.
  destruct (som_run solve inv mvn z runs0 f H wgt v MCruns scaling X L F Hs PW P NZ) as (mu & E & Fm).
  set (f' := pick n' p f). set (H' := mkArr (n' + n') (pick2 (alen f) n' p H) : vec).
  assert (Hp : forall i, (i < n')%nat -> (p i < alen f)%nat) by apply HL.
  assert (Hit : forall i, (i < alen f)%nat -> exists j, (j < n')%nat /\ p j = i).
  { intros i Hi. destruct HL as [_ Hc]. specialize (Hc i Hi).
    destruct (filter (fun j => (p j =? i)%nat) (seq 0 n')) as [|j l] eqn:EF; [cbn in Hc; lia|].
    assert (I : In j (filter (fun j => (p j =? i)%nat) (seq 0 n'))) by (rewrite EF; now left).
    apply filter_In in I. destruct I as [I J]. apply in_seq in I. apply Nat.eqb_eq in J. exists j. split; [lia|exact J]. }
  assert (R' : forall i, (i < n')%nat -> resp n' H' i = resp (alen f) H (p i)).
  { intros i Hi. unfold resp. cbn [H' aget]. now rewrite pick2_re, pick2_im by exact Hi. }
  destruct (som_run solve inv mvn z runs0 f' H' (som_listed (alen f) n' p wgt) (pick2 (alen f) n' p v) MCruns scaling X) as (mu' & E' & Fm').
  - reflexivity.
  - destruct F as (i & j & Hi & Hj & N). destruct (Hit i Hi) as (i' & Hi' & <-). destruct (Hit j Hj) as (j' & Hj' & <-).
    exists i', j'. cbn [f' pick alen aget]. auto.
  - exact Hs.
  - destruct wgt as [|s|a]; cbn [som_listed plain_weights] in *.
    + intros r. unfold pick2. destruct (r <? n')%nat; apply PW.
    + destruct PW as (A & B & D). split; [exact A|]. split; [exact B|]. intros r. unfold pick2. destruct (r <? n')%nat; apply D.
    + destruct PW as [A B]. split; [reflexivity|]. intros r. cbn [aget]. unfold pick2. destruct (r <? n')%nat; apply B.
  - cbn [f' pick alen]. intros r Hr. destruct (Nat.lt_ge_cases r n') as [G|G].
    + rewrite pick2_re by exact G. apply P. specialize (Hp r G). lia.
    + replace r with (n' + (r - n'))%nat by lia. rewrite pick2_im. apply P. specialize (Hp (r - n')%nat ltac:(lia)). lia.
  - cbn [f' pick alen]. intros i Hi. rewrite R' by exact Hi. auto.
  - do 2 eexists. split; [exact E|]. split; [exact E'|].
    set (t := fun i => cinv (resp (alen f) H i)).
    assert (Ft : som_fits f v t (rescaled scaling mu)) by (apply Fm; intros i Hi; apply cmul_inv_r; auto).
    assert (Ft' : som_fits f' (pick2 (alen f) n' p v) (fun i => t (p i)) (rescaled scaling mu')).
    { apply Fm'. cbn [f' pick alen]. intros i Hi. rewrite R' by exact Hi. apply cmul_inv_r. auto. }
    assert (M : forall nu, som_misfit f' (pick2 (alen f) n' p v) (fun i => t (p i)) nu = INR k * som_misfit f v t nu).
    { intros nu. unfold som_misfit.
      rewrite <- (rsum_listed k (alen f) n' p (fun i => (fst (som_recip nu (f i)) - fst (t i)) ^ 2 / v i
        + (snd (som_recip nu (f i)) - snd (t i)) ^ 2 / v (alen f + i)%nat) HL).
      cbn [f' pick alen aget]. apply rsum_ext. intros i Hi. now rewrite pick2_re, pick2_im by exact Hi. }
    assert (K : 0 < INR k) by (apply lt_0_INR; lia).
    assert (Fs' : som_fits f v t (rescaled scaling mu')).
    { intros nu. specialize (Ft' nu). rewrite !M in Ft'. apply (Rmult_le_reg_l (INR k)); assumption. }
    pose proof (fits_unique f v t _ _ F P Fs' Ft) as U.
    split; [reflexivity|]. intros i _. unfold som_pars. rewrite !rescale_eq, !U by lia. reflexivity.
Qed.

(** Examples: two frequencies, each listed twice, in the order 1, 0, 0, 1; the reverse order. *)
Definition twice (i : nat) : nat := nth i [1; 0; 0; 1]%nat 0%nat.
Lemma twice_listed : listed 2 2 4 twice.
Proof. split; [intros [|[|[|[|i]]]] Hi; cbn; lia|]. intros [|[|i]] Hi; [reflexivity|reflexivity|lia]. Qed.
Lemma reversed_listed : listed 1 2 2 (fun i => (1 - i)%nat).
Proof. split; [intros i Hi; lia|]. intros [|[|i]] Hi; [reflexivity|reflexivity|lia]. Qed.
Lemma two_interior : interior_distinct (of_list [1; 3 / 2]) 4.
Proof. split; [intros [|[|i]] Hi; cbn in *; try lia; lra|]. intros [|[|i]] [|[|j]] Hi Hj N; cbn in *; try lia; lra. Qed.
Definition H184 : arr C := mkArr 2 (fun i => match i with O => (1, - / 2) | _ => (2, 1) end).
Example C184_fir_ex :
  (exists b b', LSFIR lstsq_ref H184 2 0 (of_list [1; 3 / 2]) 4 (WtVec (of_list [1; 2])) = Ok b /\
    LSFIR lstsq_ref (pick 4 twice H184) 2 0 (pick 4 twice (of_list [1; 3 / 2])) 4 (WtVec (pick 4 twice (of_list [1; 2]))) = Ok b' /\ veq b' b) /\
  map (pick 4 twice (of_list [1; 3 / 2])) (seq 0 4) = [3 / 2; 1; 1; 3 / 2].
Proof.
  split; [|reflexivity].
  destruct (C184_fir lstsq_ref H184 2 0 (of_list [1; 3 / 2]) 4 (WtVec (of_list [1; 2])) 2 4 twice lstsq_ref_exact eq_refl) as (b & b' & _ & E & _ & E' & V).
  - apply interior_determines; [apply two_interior|cbn; lia].
  - exact twice_listed.
  - lia.
  - split; [reflexivity|]. intros [|[|i]] Hi; cbn in *; try lia; lra.
  - exists b, b'. auto.
Qed.
Example C184_iir_order_ex roots :
  LSIIR lstsq_ref roots 9 (pick 2 (fun i => (1 - i)%nat) H184) 1 1 (pick 2 (fun i => (1 - i)%nat) (of_list [1; 3 / 2])) 4 0 false =
  LSIIR lstsq_ref roots 9 H184 1 1 (of_list [1; 3 / 2]) 4 0 false.
Proof. apply (C184_iir_order lstsq_ref roots 9 H184 1 1 (of_list [1; 3 / 2]) 4 0 false (fun i => (1 - i)%nat) eq_refl reversed_listed). Qed.
Example C184_iir_repeated_ex roots : exists b a b' a',
  LSIIR lstsq_ref roots 9 (mkArr 1 (fun _ => cinv (1, / 2))) 0 1 (of_list [1]) 4 0 true = Some (Ok (b, a, 0)) /\
  LSIIR lstsq_ref roots 9 (pick 3 (fun _ => 0%nat) (mkArr 1 (fun _ => cinv (1, / 2)))) 0 1 (pick 3 (fun _ => 0%nat) (of_list [1])) 4 0 true = Some (Ok (b', a', 0)) /\
  veq b' b /\ veq a' a.
Proof.
  assert (T : iir_target false (aget (mkArr 1 (fun _ : nat => cinv (1, / 2)))) (of_list [1]) 4 0 (fun _ => cinv (1, / 2))).
  { intros i Hi. cbn [aget]. rewrite Rmult_0_r, Ropp_0. unfold cis. rewrite cos_0, sin_0. symmetry. apply cmul_1_r. }
  apply (C184_iir_repeated lstsq_ref roots 9 (mkArr 1 (fun _ => cinv (1, / 2))) 0 1 (of_list [1]) 4 0 false (fun _ => cinv (1, / 2)) 3 3 (fun _ => 0%nat)
    lstsq_ref_exact eq_refl); [|lia|exact T|exact determines_ex].
  split; [intros; cbn; lia|]. intros [|i] Hi; [reflexivity|cbn in Hi; lia].
Qed.
Example C184_som_ex solve inv mvn : exact_solve solve -> exists q q',
  fit_som solve inv mvn z77 2 f12 (H12 1) SuNone SwNone None 1 = Ok (SomFit q None) /\
  fit_som solve inv mvn z77 2 (pick 4 twice f12) (mkArr 8 (pick2 2 4 twice (H12 1))) SuNone SwNone None 1 = Ok (SomFit q' None) /\ veq q' q.
Proof.
  intros X. exact (C184_som solve inv mvn z77 2 f12 (H12 1) SwNone (fun _ => 1) None 1 2 4 twice X eq_refl f12_two ltac:(lra) (fun r => eq_refl)
    case77_P case77_nonzero twice_listed ltac:(lia)).
Qed.
Print Assumptions C184_fir.
Print Assumptions C184_iir_order.
Print Assumptions C184_iir_repeated.
Print Assumptions C184_som.
