(** Arguments that are rejected, and with which exception: GUM_iDFT (C26), Time2AmpPhase_multi (C35), weight matrices of the filter fits (C73);
    the variance of a one-sample signal (C80).  Models: M_DFT.v, M_Fit.v, M_SigClass.v. *)
From Coq Require Import Reals List Arith ZArith Bool String Lia Lra.
From Verif Require Import Base Sums Cplx M_Filter M_DFT S_DFT P_DFT M_Fit M_MC M_SigClass T_AmpPhase T_Fit.
Import ListNotations.
Open Scope R_scope.

(** A vector of 2h spectral values belongs to a covariance of the same size; a covariance without lines, a longer signal than there is, a spectrum of another
    length (but for one missing-value pattern: a single imaginary part is broadcast) and a matrix that is not square are errors. *)
Theorem C26_rejects : forall F UF Nx Cc Cs,
  (forall v, UF = FuVec v -> (alen v <= 2)%nat -> GUM_iDFT F UF Nx Cc Cs = Err ValueError) /\
  (forall U, UF = FuMat U -> (mrows U <= 2)%nat -> GUM_iDFT F UF Nx Cc Cs = Err ValueError) /\
  (forall m k, (UF = FuVec m \/ exists U, UF = FuMat U /\ mrows U = alen m) -> Nx = Some k -> (alen m < k + 2)%nat ->
     GUM_iDFT F UF Nx Cc Cs = Err ValueError) /\
  (forall m h, (UF = FuVec m \/ exists U, UF = FuMat U /\ mrows U = alen m) -> alen m = (2 * h)%nat -> (2 <= h)%nat ->
     alen F <> (2 * h)%nat -> alen F <> (h + 1)%nat -> alen F <> 0%nat -> GUM_iDFT F UF Nx Cc Cs = Err ValueError) /\
  (forall U h, UF = FuMat U -> mrows U = (2 * h)%nat -> mcols U <> (2 * h)%nat -> GUM_iDFT F UF Nx None None = Err ValueError).
Proof.
  intros F UF Nx Cc Cs.
  assert (L : forall m : vec, (UF = FuVec m \/ exists U, UF = FuMat U /\ mrows U = alen m) -> fu_len UF = alen m).
  { intros m [->|(U & -> & E)]; [reflexivity|exact E]. }
  split; [|split; [|split; [|split]]].
  - intros v -> H. unfold GUM_iDFT. cbn [fu_len]. apply Nat.leb_le in H. rewrite H. reflexivity.
  - intros U -> H. unfold GUM_iDFT. cbn [fu_len]. apply Nat.leb_le in H. rewrite H. reflexivity.
  - intros m k HU -> Hk. unfold GUM_iDFT. rewrite (L m HU). destruct (Nat.leb_spec (alen m) 2); [reflexivity|].
    cbv zeta. destruct (Nat.ltb_spec (alen m - 2) k); [reflexivity|lia].
  - intros m h HU Hm Hh H1 H2 H3. unfold GUM_iDFT. rewrite (L m HU), Hm. destruct (Nat.leb_spec (2 * h) 2); [lia|].
    cbv zeta. assert (E : ((2 * h - 2) / 2 + 1 = h)%nat).
    { replace (2 * h - 2)%nat with ((h - 1) * 2)%nat by lia. rewrite Nat.div_mul by lia. lia. }
    rewrite E. destruct (match Nx with None => _ | Some v => _ end) as [nx|e] eqn:EN; cbn [bind].
    2:{ destruct Nx as [v|]; [|discriminate]. destruct (_ <? _)%nat; congruence. }
    unfold slice at 1 2 3. cbn [alen].
    destruct (Nat.eqb_spec (Nat.min (alen F) (alen F) - h) (Nat.min h (alen F) - 0)); [lia|].
    unfold slice at 1. cbn [alen].
    destruct (Nat.eqb_spec (Nat.min (alen F) (alen F) - h) 1); [lia|].
    destruct (Nat.eqb_spec (alen (slice F 0 h)) 1) as [E1|E1]; [|reflexivity]. cbn [bind].
    unfold irfft. cbn [alen slice] in E1 |- *.
    destruct (Nat.leb_spec (Nat.min (alen F) (alen F) - h) 1); [reflexivity|lia].
  - intros U h -> Hr Hc. unfold GUM_iDFT. cbn [fu_len]. rewrite Hr. destruct (Nat.leb_spec (2 * h) 2); [reflexivity|].
    cbv zeta. assert (E : ((2 * h - 2) / 2 + 1 = h)%nat).
    { replace (2 * h - 2)%nat with ((h - 1) * 2)%nat by lia. rewrite Nat.div_mul by lia. lia. }
    rewrite E. destruct (match Nx with None => _ | Some v => _ end) as [nx|e] eqn:EN; cbn [bind].
    2:{ destruct Nx as [v|]; [|discriminate]. destruct (_ <? _)%nat; congruence. }
    match goal with |- bind ?m _ = _ => destruct m as [[re im]|e] eqn:Ei end; cbn [bind].
    2:{ repeat match type of Ei with (if ?c then _ else _) = _ => destruct c end; congruence. }
    destruct (irfft _ im) as [xr|e] eqn:Ex; cbn [bind].
    2:{ unfold irfft in Ex. destruct (_ <=? _)%nat in Ex; congruence. }
    unfold dot at 1. cbn [sub2 transp mrows mcols idft_Cc]. rewrite E.
    destruct (Nat.eqb_spec (Nat.min h (mcols U) - 0) h); cbn [bind]; [|reflexivity].
    unfold dot at 1. cbn [sub2 transp mrows mcols idft_Cc idft_Cs]. rewrite E.
    match goal with |- context [(?a =? ?b)%nat] => destruct (Nat.eqb_spec a b) end; cbn [bind]; [|reflexivity].
    unfold dot at 1. cbn [sub2 transp mrows mcols idft_Cc idft_Cs]. rewrite E.
    destruct (Nat.eqb_spec (Nat.min (mcols U) (mcols U) - h) h); [lia|]. reflexivity.
Qed.
Example C26_rejects_ex : GUM_iDFT (of_list [1; 2; 3; 4; 5]) (FuVec (of_list [1; 1; 1; 1; 1; 1])) None None None = Err ValueError /\
  GUM_iDFT (of_list [1; 2; 3; 4; 5; 6]) (FuMat (mkMat 6 4 (fun _ _ => 1))) None None None = Err ValueError.
Proof.
  split.
  - destruct (C26_rejects (of_list [1; 2; 3; 4; 5]) (FuVec (of_list [1; 1; 1; 1; 1; 1])) None None None) as (_ & _ & _ & H & _).
    apply (H (of_list [1; 1; 1; 1; 1; 1]) 3%nat); cbn; auto; lia.
  - destruct (C26_rejects (of_list [1; 2; 3; 4; 5; 6]) (FuMat (mkMat 6 4 (fun _ _ => 1))) None None None) as (_ & _ & _ & _ & H).
    eapply (H _ 3%nat); [reflexivity|cbn; lia|cbn; lia].
Qed.

(** A selected line that does not exist. *)
Theorem C35_selector : forall nx (x : list vec) (Ux : vec) sel k,
  (1 <= nx)%nat -> (forall v, In v x -> alen v = nx) -> alen Ux = List.length x -> x <> [] ->
  In k sel -> (nx / 2 + 1 <= k)%nat -> Time2AmpPhase_multi nx x Ux (Some sel) = Err IndexError.
Proof.
  intros nx x Ux sel k Hn Hx HU Hne Hk Hb. unfold Time2AmpPhase_multi. rewrite HU, Nat.eqb_refl. cbn [negb].
  destruct x as [|x0 x]; [contradiction|]. cbn [List.length seq map combine].
  assert (Hx0 : alen x0 = nx) by (apply Hx; left; reflexivity).
  destruct (dft_scalar_rc x0 (Ux 0%nat)) as [o [o' [v [E1 [E2 [E3 [E4 [E5 [E6 [E7 E8]]]]]]]]]]; [lia|].
  rewrite Hx0 in *.
  destruct (d2ap_vec (dft_F o) v (nx / 2 + 1)) as [A [P [D [F1 [F2 [LA _]]]]]]; auto; [lia|].
  cbn [t2ap_loop as_window]. rewrite E1. cbv beta iota zeta delta [bind]. rewrite E3, E6, F1.
  unfold take_sel at 1. destruct (forallb _ sel) eqn:Fa; [|reflexivity].
  rewrite forallb_forall in Fa. apply Fa, Nat.ltb_lt in Hk. lia.
Qed.
Example C35_selector_ex : Time2AmpPhase_multi 2 [of_list [1; 2]] (of_list [1]) (Some [0%nat; 2%nat]) = Err IndexError.
Proof.
  apply (C35_selector 2 _ _ _ 2%nat); cbn; auto; try lia; try discriminate. intros v [<-|[]]. reflexivity.
Qed.

(** A weight matrix whose diagonal has another length than f. *)
Theorem C73_weight_matrix_size : forall lstsq (H : arr C) N tau f Fs m,
  Nat.min (mrows m) (mcols m) <> alen f ->
  LSFIR lstsq H N tau f Fs (WtMat m) = Err ValueError /\ invLSFIR lstsq H N tau f Fs (WtMat m) = Err ValueError.
Proof.
  intros lstsq H N tau f Fs m Hm. unfold LSFIR, invLSFIR, fir_design. apply Nat.eqb_neq in Hm. rewrite Hm. auto.
Qed.
Example C73_weight_matrix_size_ex lstsq : LSFIR lstsq (mkArr 2 (fun _ => C1)) 1 0 (of_list [1; 2]) 8 (WtMat (mkMat 3 3 (fun _ _ => 1))) = Err ValueError.
Proof. apply C73_weight_matrix_size. cbn. lia. Qed.

(** MC returns the variance of a one-sample signal as a number; applied to a signal with such a variance the next filter treats it
    as a covariance matrix with this variance for every sample. *)
Definition with_unc (s : signal) (u : M_SigClass.sunc) : signal := mkSig (sg_time s) (sg_values s) (sg_Ts s) (sg_Fs s) u.
Theorem C80_scalar_variance_partial : forall stable me theta z bdt dr s b a fu x r,
  sg_values s = Some x ->
  apply_filter stable me theta z bdt dr (with_unc s (M_SigClass.SuScalar r)) b (DenArr a) fu RunsOther =
  apply_filter stable me theta z bdt dr
    (with_unc s (M_SigClass.SuMat (mkMat (alen x) (alen x) (fun i j => if (i =? j)%nat then r else 0)))) b (DenArr a) fu RunsOther.
Proof.
  intros stable me theta z bdt dr s b a fu x r Hx. unfold apply_filter, with_unc. cbn [sg_values sg_unc sg_time sg_Ts sg_Fs]. rewrite Hx.
  unfold sig_mc. destruct fu; reflexivity.
Qed.
Example C80_scalar_variance_ex : exists s x, sg_values s = Some x /\ alen x = 1%nat.
Proof. exists (mkSig (of_list [0]) (Some (of_list [1])) (Num 1) (Num 1) M_SigClass.SuNaN), (of_list [1]). split; reflexivity. Qed.
Print Assumptions C26_rejects.
Print Assumptions C35_selector.
Print Assumptions C73_weight_matrix_size.
Print Assumptions C80_scalar_variance_partial.

(** ** C105: a covariance that does not fit the responses, or another number of responses than of frequencies.  (A single value left over as
    imaginary part would be broadcast by numpy and is left out.) *)
Theorem C105_rejects : forall mvn lstsq (H : arr C) UH N tau f Fs runs,
  (mrows UH <> (alen H + alen H)%nat \/ mcols UH <> (alen H + alen H)%nat \/ (alen H <> alen f /\ (alen H + alen H)%nat <> S (alen f))) ->
  invLSFIR_uncMC mvn lstsq H UH N tau f Fs runs = Err ValueError.
Proof.
  intros mvn lstsq H UH N tau f Fs runs Hy. unfold invLSFIR_uncMC, draw_mvn. cbn [stack1 alen].
  destruct (Nat.eqb_spec (mrows UH) (alen H + alen H)); cbn [andb bind]; auto.
  destruct (Nat.eqb_spec (mcols UH) (alen H + alen H)); cbn [andb bind]; auto.
  destruct (Nat.eqb_spec (alen H) (alen f)); auto. exfalso. tauto.
Qed.
Example C105_rejects_ex mvn lstsq :
  invLSFIR_uncMC mvn lstsq (mkArr 2 (fun _ => C1)) (zeros2 4 4) 1 0 (of_list [1]) 4 3 = Err ValueError /\
  invLSFIR_uncMC mvn lstsq (mkArr 1 (fun _ => C1)) (zeros2 4 4) 1 0 (of_list [1]) 4 3 = Err ValueError.
Proof. split; apply C105_rejects; cbn; lia. Qed.
Print Assumptions C105_rejects.

(** ** C78: an uncertainty with three axes *)
Theorem C78_cube_partial : forall time v Fs d0 d1, alen time = alen v ->
  (d0 <> d1 -> Signal time (Val1 v) TsNone Fs (UaCube d0 d1) = Err AssertionError) /\
  (d0 = d1 -> exists s, Signal time (Val1 v) TsNone Fs (UaCube d0 d1) = Ok s /\ sg_values s = Some v /\ sg_unc s = SuCube).
Proof.
  intros time v Fs d0 d1 E. unfold Signal. rewrite E, Nat.eqb_refl. cbn [negb].
  assert (Hb : exists p, time_base time TsNone Fs = Ok p) by (destruct Fs; eexists; reflexivity). destruct Hb as [p ->].
  cbn [bind initial_unc squeeze_unc]. destruct (Nat.eqb_spec d0 d1); split; intros; try contradiction; cbn [bind]; eauto.
Qed.
Example C78_cube_ex : Signal (of_list [0; 1]) (Val1 (of_list [3; 4])) TsNone None (UaCube 2 3) = Err AssertionError.
Proof. apply C78_cube_partial; [reflexivity|lia]. Qed.
Print Assumptions C78_cube_partial.
