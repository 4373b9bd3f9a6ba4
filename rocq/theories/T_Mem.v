(** The results when memory is short (C151). *)
From Coq Require Import Reals List Arith ZArith Bool Lra Lia.
From Verif Require Import Base Sums M_DFT M_Mem P_DFT P_iDFT P_AmpPhase T_AmpPhase T_APRound.
Import ListNotations.
Open Scope R_scope.

(** U = [[A, B], [B.T, D]], as the message printed by the code says. *)
Definition made_of (U A B D : mat) : Prop :=
  mrows A = mcols A /\ mrows D = mcols D /\ mrows B = mrows A /\ mcols B = mrows D /\
  mrows U = (mrows A + mrows D)%nat /\ mcols U = (mrows A + mrows D)%nat /\
  forall i j,
    ((i < mrows A)%nat -> (j < mrows A)%nat -> U i j = A i j) /\
    ((i < mrows A)%nat -> (j < mrows D)%nat -> U i (mrows A + j)%nat = B i j /\ U (mrows A + j)%nat i = B i j) /\
    ((i < mrows D)%nat -> (j < mrows D)%nat -> U (mrows A + i)%nat (mrows A + j)%nat = D i j).

Lemma stack4_made A B D : mrows A = mcols A -> mrows D = mcols D -> mrows B = mrows A -> mcols B = mrows D ->
  exists U, stack4 A B (transp B) D = Ok U /\ made_of U A B D.
Proof.
  intros HA HD HB HBD. unfold stack4. cbn [mrows mcols transp].
  replace ((mrows A =? mrows B)%nat && (mcols B =? mrows D)%nat && (mcols A + mcols B =? mrows B + mcols D)%nat) with true.
  2:{ symmetry. rewrite !andb_true_iff, !Nat.eqb_eq. lia. }
  eexists. split; [reflexivity|]. unfold made_of. cbn [mrows mcols mget transp].
  repeat (split; [solve [auto; lia]|]). intros i j.
  split; [|split; [intros Hi Hj; split|]]; [intros Hi Hj| | |intros Hi Hj].
  - destruct (Nat.ltb_spec i (mrows A)); [|lia]. destruct (Nat.ltb_spec j (mcols A)); [auto|lia].
  - destruct (Nat.ltb_spec i (mrows A)); [|lia]. destruct (Nat.ltb_spec (mrows A + j) (mcols A)); [lia|].
    f_equal. lia.
  - destruct (Nat.ltb_spec (mrows A + j) (mrows A)); [lia|]. destruct (Nat.ltb_spec i (mrows B)); [|lia].
    f_equal. lia.
  - destruct (Nat.ltb_spec (mrows A + i) (mrows A)); [lia|]. destruct (Nat.ltb_spec (mrows A + j) (mrows B)); [lia|].
    f_equal; lia.
Qed.
Lemma dot_dims A B M : dot A B = Ok M -> mrows M = mrows A /\ mcols M = mcols B.
Proof. unfold dot. destruct (_ =? _)%nat; [|discriminate]. intros E. injection E as <-. auto. Qed.

(** With enough memory the result is that of GUM_DFT; otherwise errors and diagonals of
    variances stay the same, a matrix is replaced by its blocks. *)
Theorem C151_gum_dft : forall fits x Ux N window CxCos CxSin returnC mask,
  match GUM_DFT x Ux N window CxCos CxSin returnC mask with
  | Err e => GUM_DFT_mem fits x Ux N window CxCos CxSin returnC mask = Err e
  | Ok o => exists U, GUM_DFT_mem fits x Ux N window CxCos CxSin returnC mask = Ok (dft_F o, U, dft_C o) /\
      match U with
      | MArr u => u = dft_U o
      | MBlocks A B D => fits = false /\ exists M, dft_U o = FuMat M /\ made_of M A B D
      end /\ (fits = true -> U = MArr (dft_U o)) /\ (forall M, dft_U o = FuMat M -> fits = false -> U <> MArr (FuMat M))
  end.
Proof.
  intros fits x Ux N window CxCos CxSin returnC mask. unfold GUM_DFT, GUM_DFT_mem.
  destruct (match window with Some w => apply_window x Ux w | None => Ok (x, Ux) end) as [[x1 U1]|e]; cbn [bind]; [|reflexivity].
  destruct (match N with Some z => _ | None => _ end) as [[xp L]|e]; cbn [bind]; [|reflexivity].
  destruct (rfft xp) as [[re im]|e]; cbn [bind]; [|reflexivity].
  destruct (match mask with Some m => _ | None => _ end) as [idx|e]; cbn [bind]; [|reflexivity].
  assert (G : forall U (F : vec),
    let old := do (cc, cs) <- match CxCos with
        | None => Ok (mkMat (List.length idx) (alen xp - L) (fun i m => Cxkc (alen xp) (nth i idx 0%nat) m),
                mkMat (List.length idx) (alen xp - L) (fun i m => Cxks (alen xp) (nth i idx 0%nat) m))
        | Some cc => match CxSin with Some cs => Ok (cc, cs) | None => Err AttributeError end
        end ;;
      do t1 <- dot U (transp cc) ;; do UFCC <- dot cc t1 ;;
      do t2 <- dot U (transp cs) ;; do UFCS <- dot cc t2 ;;
      do UFSS <- dot cs t2 ;;
      do UF <- stack4 UFCC UFCS (transp UFCS) UFSS ;;
      Ok (mkDft F (FuMat UF) (if returnC then Some (Some cc, Some cs) else None)) in
    let new := do (cc, cs) <- match CxCos with
        | None => Ok (mkMat (List.length idx) (alen xp - L) (fun i m => Cxkc (alen xp) (nth i idx 0%nat) m),
                mkMat (List.length idx) (alen xp - L) (fun i m => Cxks (alen xp) (nth i idx 0%nat) m))
        | Some cc => match CxSin with Some cs => Ok (cc, cs) | None => Err AttributeError end
        end ;;
      do t1 <- dot U (transp cc) ;; do UFCC <- dot cc t1 ;;
      do t2 <- dot U (transp cs) ;; do UFCS <- dot cc t2 ;;
      do UFSS <- dot cs t2 ;;
      do UF <- (if fits then do UF <- stack4 UFCC UFCS (transp UFCS) UFSS ;; Ok (MArr (FuMat UF))
                else Ok (MBlocks UFCC UFCS UFSS)) ;;
      Ok (F, UF, if returnC then Some (Some cc, Some cs) else None) in
    match old with
    | Err e => new = Err e
    | Ok o => exists U, new = Ok (dft_F o, U, dft_C o) /\
      match U with
      | MArr u => u = dft_U o
      | MBlocks A B D => fits = false /\ exists M, dft_U o = FuMat M /\ made_of M A B D
      end /\ (fits = true -> U = MArr (dft_U o)) /\ (forall M, dft_U o = FuMat M -> fits = false -> U <> MArr (FuMat M))
    end).
  { intros U F. cbv zeta.
    destruct (match CxCos with None => _ | Some cc => _ end) as [[cc cs]|e]; cbn [bind]; [|reflexivity].
    destruct (dot U (transp cc)) as [t1|e] eqn:E1; cbn [bind]; [|reflexivity].
    destruct (dot cc t1) as [A|e] eqn:E2; cbn [bind]; [|reflexivity].
    destruct (dot U (transp cs)) as [t2|e] eqn:E3; cbn [bind]; [|reflexivity].
    destruct (dot cc t2) as [B|e] eqn:E4; cbn [bind]; [|reflexivity].
    destruct (dot cs t2) as [D|e] eqn:E5; cbn [bind]; [|reflexivity].
    apply dot_dims in E1, E2, E3, E4, E5. cbn [transp mrows mcols] in *.
    destruct (stack4_made A B D ltac:(lia) ltac:(lia) ltac:(lia) ltac:(lia)) as (M & -> & HM).
    cbn [bind]. destruct fits; cbn [bind]; eexists; (split; [reflexivity|]); cbn [dft_U].
    - split; [reflexivity|]. split; [reflexivity|]. intros; discriminate.
    - split; [split; [reflexivity|]; exists M; auto|]. split; [discriminate|]. intros; discriminate. }
  destruct U1 as [u|v|M1].
  - eexists. split; [reflexivity|]. cbn [dft_U]. split; [reflexivity|]. split; [reflexivity|]. intros; discriminate.
  - apply G.
  - apply G.
Qed.
Example C151_gum_dft_ex : exists o, GUM_DFT (of_list [1; 2]) (SuVec (of_list [1; 1])) None None None None false None = Ok o /\
  exists M, dft_U o = FuMat M.
Proof. eexists. split; [reflexivity|]. eexists. reflexivity. Qed.

Lemma add2_dims A B M n : mrows A = n -> mrows B = n -> mcols A = n -> mcols B = n -> add2 A B = Ok M ->
  mrows M = n /\ mcols M = n.
Proof.
  intros H1 H2 H3 H4. unfold add2, bdim. rewrite H1, H2, H3, H4, !Nat.eqb_refl. cbn [bind].
  intros E. injection E as <-. auto.
Qed.

Lemma matprod_dims M (V W : vec) h S : alen V = (2 * h)%nat -> matprod M V W = Ok S -> mrows S = h /\ mcols S = h.
Proof.
  intros HV. unfold matprod. rewrite HV, half_2h. destruct M as [v|m|d].
  - destruct (negb _); [discriminate|]. intros E. injection E as <-. auto.
  - destruct (Nat.eqb_spec (mrows m) (mcols m)) as [Hs|]; [|discriminate].
    destruct (Nat.eqb_spec (mrows m) (2 * h)) as [Hr|]; [|discriminate].
    destruct (Nat.eqb_spec (2 * h) (alen W)) as [HW|]; [|discriminate]. cbn [andb negb].
    rewrite !prod3_ok by (cbn; lia).
    match goal with |- sum4 (Ok ?a) (Ok ?b) (Ok ?c) (Ok ?d) = _ -> _ =>
      destruct (sum4_ok a b c d h h ltac:(cbn; lia) ltac:(cbn; lia) ltac:(cbn; lia) ltac:(cbn; lia)
        ltac:(cbn; lia) ltac:(cbn; lia) ltac:(cbn; lia) ltac:(cbn; lia)) as (S' & -> & R & Q & _) end.
    intros E. injection E as <-. auto.
  - destruct (negb _); [discriminate|]. intros E. injection E as <-. auto.
Qed.
Theorem C151_deconv : forall fits H Y UH UY,
  match DFT_deconv H Y UH UY with
  | Err e => DFT_deconv_mem fits H Y UH UY = Err e
  | Ok (X, U) => exists V, DFT_deconv_mem fits H Y UH UY = Ok (X, V) /\
      (fits = true -> V = MArr (FuMat U)) /\
      (fits = false -> exists A B D, V = MBlocks A B D /\ made_of U A B D)
  end.
Proof.
  intros fits H Y UH UY. unfold DFT_deconv, DFT_deconv_mem.
  destruct (Nat.eqb_spec (alen H) (alen Y)) as [HY|]; cbn [negb]; [|reflexivity].
  assert (G : ap_len UH = alen H -> forall X RY IY RH IH : vec, Nat.odd (ap_len UH) = false ->
    alen RY = (alen H / 2 + alen H / 2)%nat -> alen IY = (alen H / 2 + alen H / 2)%nat ->
    alen RH = (alen H / 2 + alen H / 2)%nat -> alen IH = (alen H / 2 + alen H / 2)%nat ->
    match (do a <- matprod UY RY RY ;; do a' <- matprod UH RH RH ;; do URRX <- add2 a a' ;;
        do b <- matprod UY RY IY ;; do b' <- matprod UH RH IH ;; do URIX <- add2 b b' ;;
        do c <- matprod UY IY IY ;; do c' <- matprod UH IH IH ;; do UIIX <- add2 c c' ;;
        do UX <- stack4 URRX URIX (transp URIX) UIIX ;;
        Ok (X, UX)) with
    | Err e => (do a <- matprod UY RY RY ;; do a' <- matprod UH RH RH ;; do URRX <- add2 a a' ;;
        do b <- matprod UY RY IY ;; do b' <- matprod UH RH IH ;; do URIX <- add2 b b' ;;
        do c <- matprod UY IY IY ;; do c' <- matprod UH IH IH ;; do UIIX <- add2 c c' ;;
        do UX <- (if fits then do UX <- stack4 URRX URIX (transp URIX) UIIX ;; Ok (MArr (FuMat UX))
                  else Ok (MBlocks URRX URIX UIIX)) ;;
        Ok (X, UX)) = Err e
    | Ok (X', U) => exists V, (do a <- matprod UY RY RY ;; do a' <- matprod UH RH RH ;; do URRX <- add2 a a' ;;
        do b <- matprod UY RY IY ;; do b' <- matprod UH RH IH ;; do URIX <- add2 b b' ;;
        do c <- matprod UY IY IY ;; do c' <- matprod UH IH IH ;; do UIIX <- add2 c c' ;;
        do UX <- (if fits then do UX <- stack4 URRX URIX (transp URIX) UIIX ;; Ok (MArr (FuMat UX))
                  else Ok (MBlocks URRX URIX UIIX)) ;;
        Ok (X, UX)) = Ok (X', V) /\ (fits = true -> V = MArr (FuMat U)) /\
        (fits = false -> exists A B D, V = MBlocks A B D /\ made_of U A B D)
    end).
  { intros _ X RY IY RH IH _ L1 L2 L3 L4. set (h := (alen H / 2)%nat) in *.
    replace (h + h)%nat with (2 * h)%nat in * by lia.
    Ltac mp h := let E := fresh "E" in match goal with |- context [matprod ?M ?V ?W] =>
      destruct (matprod M V W) as [?|e] eqn:E; cbn [bind]; [apply (matprod_dims M V W h) in E; [|assumption]|reflexivity] end.
    Ltac ad h := let E := fresh "E" in match goal with |- context [add2 ?A ?B] =>
      destruct (add2 A B) as [?|e] eqn:E; cbn [bind];
      [apply (add2_dims A B _ h) in E; [|tauto|tauto|tauto|tauto]|reflexivity] end.
    mp h. mp h. ad h. mp h. mp h. ad h. mp h. mp h. ad h.
    match goal with |- context [stack4 ?A ?B _ ?D] =>
      destruct (stack4_made A B D ltac:(lia) ltac:(lia) ltac:(lia) ltac:(lia)) as (M & -> & HM) end.
    cbn [bind]. destruct fits; cbn [bind]; eexists; (split; [reflexivity|]).
    - split; [reflexivity|discriminate].
    - split; [discriminate|]. intros _. do 3 eexists. split; [reflexivity|exact HM]. }
  destruct UH as [v|m|d]; [| |reflexivity].
  - destruct (Nat.odd _) eqn:Ho; [reflexivity|]. destruct (negb _); [reflexivity|].
    destruct (Nat.eqb_spec (alen v) (alen H)) as [Hv|]; cbn [negb]; [|reflexivity]. apply G; auto; reflexivity.
  - destruct (Nat.odd _) eqn:Ho; [reflexivity|]. destruct (negb _); [reflexivity|].
    destruct (Nat.eqb_spec (mrows m) (alen H)) as [Hv|]; cbn [negb andb]; [|reflexivity].
    destruct (Nat.eqb_spec (mcols m) (alen H)) as [Hv'|]; cbn [negb andb]; [|reflexivity]. apply G; auto; reflexivity.
Qed.
Example C151_deconv_ex : exists r, DFT_deconv (of_list [1; 0]) (of_list [1; 1]) (ApVec (of_list [1; 1])) (ApVec (of_list [1; 1])) = Ok r.
Proof. eexists. reflexivity. Qed.

(** Full statement: Time2AmpPhase returns the same with and without enough memory. *)
Theorem C151_next_partial : forall x Ux r, Time2AmpPhase x Ux = Ok r ->
  Time2AmpPhase_mem true x Ux = Ok r /\
  match Ux with
  | SuFloat _ => Time2AmpPhase_mem false x Ux = Ok r
  | _ => Time2AmpPhase_mem false x Ux = Err AttributeError
  end.
Proof.
  intros x Ux r E. unfold Time2AmpPhase in E. unfold Time2AmpPhase_mem.
  pose proof (C151_gum_dft true x Ux None None None None false None) as T.
  pose proof (C151_gum_dft false x Ux None None None None false None) as F.
  destruct (GUM_DFT x Ux None None None None false None) as [o|e] eqn:Eo; [|discriminate]. cbn [bind] in E.
  destruct T as (U & -> & _ & HT & _). rewrite (HT eq_refl). cbn [bind DFT2AmpPhase_mem].
  split; [exact E|]. destruct F as (V & HF & HV & _ & HN).
  assert (Hk : match Ux with SuFloat _ => exists v, dft_U o = FuVec v | _ => exists M, dft_U o = FuMat M end).
  { unfold GUM_DFT in Eo. cbn [bind] in Eo. destruct (rfft x) as [[re im]|]; [|discriminate]. cbn [bind] in Eo.
    destruct Ux; [injection Eo as <-; eexists; reflexivity| |];
    (destruct (dot _ _) as [t1|]; [|discriminate]; cbn [bind] in Eo;
     destruct (dot _ t1) as [A|]; [|discriminate]; cbn [bind] in Eo;
     destruct (dot _ _) as [t2|] in Eo; [|discriminate]; cbn [bind] in Eo;
     destruct (dot _ t2) as [B|] in Eo; [|discriminate]; cbn [bind] in Eo;
     destruct (dot _ t2) as [D|] in Eo; [|discriminate]; cbn [bind] in Eo;
     destruct (stack4 _ _ _ _) as [U'|] in Eo; [|discriminate]; cbn [bind] in Eo;
     injection Eo as <-; eexists; reflexivity). }
  assert (Hl : exists k, alen (dft_F o) = (k + k)%nat).
  { unfold GUM_DFT in Eo. cbn [bind] in Eo. destruct (rfft x) as [[re im]|]; [|discriminate]. cbn [bind] in Eo.
    destruct Ux; [injection Eo as <-; eexists; cbn; reflexivity| |];
    (destruct (dot _ _) as [t1|]; [|discriminate]; cbn [bind] in Eo;
     destruct (dot _ t1) as [A|]; [|discriminate]; cbn [bind] in Eo;
     destruct (dot _ _) as [t2|] in Eo; [|discriminate]; cbn [bind] in Eo;
     destruct (dot _ t2) as [B|] in Eo; [|discriminate]; cbn [bind] in Eo;
     destruct (dot _ t2) as [D|] in Eo; [|discriminate]; cbn [bind] in Eo;
     destruct (stack4 _ _ _ _) as [U'|] in Eo; [|discriminate]; cbn [bind] in Eo;
     injection Eo as <-; eexists; cbn; reflexivity). }
  assert (Ev : bdim (alen (dft_F o) / 2) (alen (dft_F o) - alen (dft_F o) / 2) = Ok (alen (dft_F o) / 2)%nat).
  { destruct Hl as [k ->]. replace (k + k)%nat with (k * 2)%nat by lia. rewrite Nat.div_mul by lia.
    replace (k * 2 - k)%nat with k by lia. unfold bdim. now rewrite Nat.eqb_refl. }
  destruct Ux as [u|v|m]; destruct Hk as [w Hw]; rewrite HF; cbn [bind DFT2AmpPhase_mem].
  - destruct V as [a|A B D].
    + rewrite HV. exact E.
    + destruct HV as (_ & M & Q & _). congruence.
  - destruct V as [a|A B D]; [exfalso; apply (HN w Hw eq_refl); congruence|]. cbn [DFT2AmpPhase_mem]. rewrite Ev. cbn [bind]. reflexivity.
  - destruct V as [a|A B D]; [exfalso; apply (HN w Hw eq_refl); congruence|]. cbn [DFT2AmpPhase_mem]. rewrite Ev. cbn [bind]. reflexivity.
Qed.
Example C151_next_ex : exists r, Time2AmpPhase (of_list [3; 5]) (SuFloat 4) = Ok r.
Proof. destruct C35_example as (out & _ & _ & A & P & U & E & _). exists (A, P, U). exact E. Qed.
(** The blocks cannot be handed on: with them the following functions raise AttributeError,
    so that Time2AmpPhase fails where it would return with more memory. *)
Theorem C151_next_refuted : exists x Ux r,
  Time2AmpPhase x Ux = Ok r /\ Time2AmpPhase_mem false x Ux = Err AttributeError.
Proof.
  destruct C135_example as (A & P & U & x' & V & E & _).
  exists (of_list [1; 2]), (SuVec (of_list [1; 4])), (A, P, U). split; [exact E|]. apply (C151_next_partial _ _ _ E).
Qed.
(** Transforming back: the way through GUM_iDFT fails for every signal whose covariance is a matrix. *)
Theorem C151_back_partial : forall fits x Ux N window CxCos CxSin returnC mask o M,
  GUM_DFT x Ux N window CxCos CxSin returnC mask = Ok o -> dft_U o = FuMat M ->
  exists U, GUM_DFT_mem fits x Ux N window CxCos CxSin returnC mask = Ok (dft_F o, U, dft_C o) /\
    forall Nx Cc Cs, GUM_iDFT_mem (dft_F o) U Nx Cc Cs =
      if fits then GUM_iDFT (dft_F o) (FuMat M) Nx Cc Cs else Err AttributeError.
Proof.
  intros fits x Ux N window CxCos CxSin returnC mask o M E HM.
  pose proof (C151_gum_dft fits x Ux N window CxCos CxSin returnC mask) as T. rewrite E in T.
  destruct T as (U & HU & V & HT & HF). exists U. split; [exact HU|]. intros Nx Cc Cs. destruct fits.
  - rewrite (HT eq_refl), HM. reflexivity.
  - destruct U as [u|A B D]; [|reflexivity]. exfalso. apply (HF M HM eq_refl). now rewrite V, HM.
Qed.
Theorem C151_back_refuted : exists x Ux o U, GUM_DFT x Ux None None None None false None = Ok o /\
  (exists r, GUM_iDFT (dft_F o) (dft_U o) None None None = Ok r) /\
  GUM_DFT_mem false x Ux None None None None false None = Ok (dft_F o, U, dft_C o) /\
  GUM_iDFT_mem (dft_F o) U None None None = Err AttributeError.
Proof.
  exists (of_list [1; 2]), (SuVec (of_list [1; 4])).
  destruct (GUM_DFT (of_list [1; 2]) (SuVec (of_list [1; 4])) None None None None false None) as [o|e] eqn:E; [|discriminate E].
  assert (Q : exists M, dft_U o = FuMat M /\ exists r, GUM_iDFT (dft_F o) (FuMat M) None None None = Ok r)
    by (injection E as <-; eexists; split; [reflexivity|]; eexists; reflexivity).
  destruct Q as (M & HM & Hr).
  destruct (C151_back_partial false _ _ _ _ _ _ _ _ o M E HM) as (U & HU & B).
  exists o, U. split; [reflexivity|]. split; [now rewrite HM|]. split; [exact HU|]. apply B.
Qed.
Print Assumptions C151_back_partial.
Print Assumptions C151_back_refuted.
Print Assumptions C151_gum_dft.
Print Assumptions C151_deconv.
Print Assumptions C151_next_refuted.
Print Assumptions C151_next_partial.
