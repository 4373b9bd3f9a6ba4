(** Sizes of the uncertainties of spectra: what DFT_multiply and DFT2AmpPhase accept (C185). *)
From Coq Require Import Reals List Arith Bool Lra Lia.
From Verif Require Import Base Sums M_Filter M_DFT P_DFT P_AmpPhase P_Deconv.
Import ListNotations.
Open Scope R_scope.

(** ** shapes *)
Lemma bdim_abs p q r : bdim p q = Ok r -> bdim r p = Ok r /\ bdim r q = Ok r /\ bdim q p = Ok r.
Proof.
  unfold bdim. destruct (Nat.eqb_spec p q), (Nat.eqb_spec p 1), (Nat.eqb_spec q 1); intros E; inversion E; subst;
    rewrite ?Nat.eqb_refl; repeat split; auto;
    repeat match goal with |- context [(?a =? ?b)%nat] => destruct (Nat.eqb_spec a b) end; auto; try congruence; try lia.
Qed.
Lemma bdim_refl p : bdim p p = Ok p.
Proof. unfold bdim. now rewrite Nat.eqb_refl. Qed.
Lemma bdim_iff p q : (exists r, bdim p q = Ok r) <-> p = q \/ p = 1%nat \/ q = 1%nat.
Proof.
  unfold bdim. destruct (Nat.eqb_spec p q), (Nat.eqb_spec p 1), (Nat.eqb_spec q 1); split; intros H;
    try (eexists; reflexivity); auto; try (destruct H; discriminate); lia.
Qed.
Lemma add2_shape A B r c : bdim (mrows A) (mrows B) = Ok r -> bdim (mcols A) (mcols B) = Ok c ->
  exists S, add2 A B = Ok S /\ mrows S = r /\ mcols S = c.
Proof. intros E1 E2. unfold add2. rewrite E1, E2. cbn [bind]. eexists. repeat split. Qed.
Lemma prod3_shape v M w : (mrows M <= alen v)%nat -> (mcols M <= alen w)%nat ->
  exists S, prod3 v M w = Ok S /\ mrows S = mrows M /\ mcols S = mcols M.
Proof.
  intros H1 H2. unfold prod3, prod_mv. apply Nat.ltb_ge in H2. rewrite H2. cbn [bind]. unfold prod_vm. cbn [mrows mcols].
  apply Nat.ltb_ge in H1. rewrite H1. eexists. repeat split.
Qed.
Lemma prod3_ok_inv v M w S : prod3 v M w = Ok S ->
  (mrows M <= alen v)%nat /\ (mcols M <= alen w)%nat /\ mrows S = mrows M /\ mcols S = mcols M.
Proof.
  unfold prod3, prod_mv. destruct (Nat.ltb_spec (alen w) (mcols M)); [discriminate|]. cbn [bind].
  unfold prod_vm. cbn [mrows mcols]. destruct (Nat.ltb_spec (alen v) (mrows M)); [discriminate|].
  intros E. injection E as <-. cbn. auto.
Qed.
Definition sgn (s : bool) (m : res mat) : res mat := if s then (do m' <- m ;; Ok (scale2 (-1) m')) else m.
Lemma sgn_shape s v M w : (mrows M <= alen v)%nat -> (mcols M <= alen w)%nat ->
  exists S, sgn s (prod3 v M w) = Ok S /\ mrows S = mrows M /\ mcols S = mcols M.
Proof.
  intros H1 H2. destruct (prod3_shape v M w H1 H2) as [S [E [R C]]]. destruct s; cbn [sgn]; rewrite E.
  - cbn [bind]. eexists. split; [reflexivity|]. cbn. auto.
  - eauto.
Qed.
Lemma sgn_ok_inv s v M w S : sgn s (prod3 v M w) = Ok S ->
  (mrows M <= alen v)%nat /\ (mcols M <= alen w)%nat /\ mrows S = mrows M /\ mcols S = mcols M.
Proof.
  destruct s; cbn [sgn]; [|apply prod3_ok_inv]. destruct (prod3 v M w) as [T|] eqn:E; [|discriminate]. cbn [bind].
  intros Q. injection Q as <-. apply prod3_ok_inv in E. cbn. auto.
Qed.

Section FourBlocks.
Variables (h p q : nat) (RR RI II : mat).
Hypotheses (RR1 : mrows RR = p) (RR2 : mcols RR = p) (RI1 : mrows RI = p) (RI2 : mcols RI = q)
  (II1 : mrows II = q) (II2 : mcols II = q).
(** the order of _calcU *)
Lemma four_mul (v1 w1 v2 w2 v3 w3 v4 w4 : vec) s2 s3 s4 :
  alen v1 = h -> alen w1 = h -> alen v2 = h -> alen w2 = h -> alen v3 = h -> alen w3 = h -> alen v4 = h -> alen w4 = h ->
  forall r, (p <= h)%nat -> (q <= h)%nat -> bdim p q = Ok r ->
  exists S, sum4 (prod3 v1 RR w1) (sgn s2 (prod3 v2 (transp RI) w2)) (sgn s3 (prod3 v3 RI w3)) (sgn s4 (prod3 v4 II w4)) = Ok S
     /\ mrows S = r /\ mcols S = r.
Proof using All.
  intros A1 A2 A3 A4 A5 A6 A7 A8 r Hp Hq Hb. destruct (bdim_abs p q r Hb) as [B1 [B2 B3]].
  destruct (prod3_shape v1 RR w1) as [S1 [E1 [R1 C1]]]; try lia.
  destruct (sgn_shape s2 v2 (transp RI) w2) as [S2 [E2 [R2 C2]]]; cbn [transp mrows mcols]; try lia.
  destruct (sgn_shape s3 v3 RI w3) as [S3 [E3 [R3 C3]]]; try lia.
  destruct (sgn_shape s4 v4 II w4) as [S4 [E4 [R4 C4]]]; try lia.
  cbn [transp mrows mcols] in R2, C2.
  unfold sum4. rewrite E1, E2, E3, E4. cbn [bind].
  destruct (add2_shape S1 S2 r p) as [T1 [F1 [U1 V1]]]; [rewrite R1, R2; congruence|rewrite C1, C2, RR2, RI1; apply bdim_refl|].
  rewrite F1. cbn [bind].
  destruct (add2_shape T1 S3 r r) as [T2 [F2 [U2 V2]]]; [rewrite U1, R3; congruence|rewrite V1, C3; congruence|].
  rewrite F2. cbn [bind].
  destruct (add2_shape T2 S4 r r) as [T3 [F3 [U3 V3]]]; [rewrite U2, R4; congruence|rewrite V2, C4; congruence|].
  rewrite F3. eauto.
Qed.
Lemma four_mul_inv (v1 w1 v2 w2 v3 w3 v4 w4 : vec) s2 s3 s4 S :
  alen v2 = h ->
  sum4 (prod3 v1 RR w1) (sgn s2 (prod3 v2 (transp RI) w2)) (sgn s3 (prod3 v3 RI w3)) (sgn s4 (prod3 v4 II w4)) = Ok S ->
  (q <= h)%nat /\ exists r, bdim p q = Ok r.
Proof using All.
  intros A3. unfold sum4. destruct (prod3 v1 RR w1) as [S1|] eqn:E1; [|discriminate].
  destruct (sgn s2 _) as [S2|] eqn:E2; [|discriminate]. cbn [bind]. unfold add2 at 1.
  apply prod3_ok_inv in E1. apply sgn_ok_inv in E2. cbn [transp mrows mcols] in E2.
  destruct E1 as [_ [_ [R1 C1]]], E2 as [Q1 [_ [R2 C2]]]. rewrite R1, R2, RR1, RI2.
  destruct (bdim p q) as [r|]; [|discriminate]. intros _. split; [lia|eauto].
Qed.
(** the order of DFT2AmpPhase *)
Lemma four_ap (a b c d : vec) :
  alen a = h -> alen b = h -> alen c = h -> alen d = h ->
  forall r, (p <= h)%nat -> (q <= h)%nat -> bdim p q = Ok r ->
  exists S, sum4 (prod3 a RR c) (prod3 a RI d) (prod3 b (transp RI) c) (prod3 b II d) = Ok S /\ mrows S = r /\ mcols S = r.
Proof using All.
  intros A1 A2 A3 A4 r Hp Hq Hb. destruct (bdim_abs p q r Hb) as [B1 [B2 B3]].
  destruct (prod3_shape a RR c) as [S1 [E1 [R1 C1]]]; try lia.
  destruct (prod3_shape a RI d) as [S2 [E2 [R2 C2]]]; try lia.
  destruct (prod3_shape b (transp RI) c) as [S3 [E3 [R3 C3]]]; cbn [transp mrows mcols]; try lia.
  destruct (prod3_shape b II d) as [S4 [E4 [R4 C4]]]; try lia.
  cbn [transp mrows mcols] in R3, C3.
  unfold sum4. rewrite E1, E2, E3, E4. cbn [bind].
  destruct (add2_shape S1 S2 p r) as [T1 [F1 [U1 V1]]]; [rewrite R1, R2, RR1, RI1; apply bdim_refl|rewrite C1, C2; congruence|].
  rewrite F1. cbn [bind].
  destruct (add2_shape T1 S3 r r) as [T2 [F2 [U2 V2]]]; [rewrite U1, R3; congruence|rewrite V1, C3; congruence|].
  rewrite F2. cbn [bind].
  destruct (add2_shape T2 S4 r r) as [T3 [F3 [U3 V3]]]; [rewrite U2, R4; congruence|rewrite V2, C4; congruence|].
  rewrite F3. eauto.
Qed.
End FourBlocks.

Lemma stack_same (A B C D : mat) r : mrows A = r -> mcols A = r -> mrows B = r -> mcols B = r ->
  mrows C = r -> mcols C = r -> mrows D = r -> mcols D = r ->
  exists S, stack4 A B C D = Ok S /\ mrows S = (2 * r)%nat /\ mcols S = (2 * r)%nat.
Proof.
  intros A1 A2 B1 B2 C1 C2 D1 D2. unfold stack4. rewrite A1, A2, B1, B2, C1, C2, D1, D2, !Nat.eqb_refl. cbn [andb].
  eexists. split; [reflexivity|]. cbn. lia.
Qed.
Lemma blk_shapes M n h : mrows M = n -> mcols M = n ->
  mrows (blk11 M h) = Nat.min h n /\ mcols (blk11 M h) = Nat.min h n /\
  mrows (blk12 M h) = Nat.min h n /\ mcols (blk12 M h) = (n - h)%nat /\
  mrows (blk22 M h) = (n - h)%nat /\ mcols (blk22 M h) = (n - h)%nat.
Proof. intros R1 C1. unfold blk11, blk12, blk22, sub2. cbn [mrows mcols]. rewrite R1, C1. repeat split; lia. Qed.
Lemma halves (F : vec) h : alen F = (2 * h)%nat -> alen (slice F 0 h) = h /\ alen (slice F h (alen F)) = h.
Proof. intros H. unfold slice. cbn [alen]. lia. Qed.

(** ** vectors *)
Lemma bvec_hh op (a b : vec) h : alen a = h -> alen b = h -> bvec op a b = Ok (mkArr h (fun i => op (a i) (b i))).
Proof.
  intros H1 H2. unfold bvec. rewrite H1, H2, bdim_refl. cbn [bind]. unfold bidx. rewrite Nat.eqb_refl. reflexivity.
Qed.
Lemma bvec_h1 op (a b : vec) h : alen a = h -> alen b = 1%nat -> h <> 1%nat ->
  bvec op a b = Ok (mkArr h (fun i => op (a i) (b 0%nat))).
Proof.
  intros H1 H2 H3. unfold bvec. rewrite H1, H2. unfold bdim. apply Nat.eqb_neq in H3. rewrite H3. cbn [Nat.eqb bind].
  unfold bidx. rewrite Nat.eqb_refl, Nat.eqb_sym, H3. reflexivity.
Qed.
Lemma bvec_err op (a b : vec) : alen a <> alen b -> alen a <> 1%nat -> alen b <> 1%nat -> bvec op a b = Err ValueError.
Proof.
  intros H1 H2 H3. unfold bvec, bdim. apply Nat.eqb_neq in H1, H2, H3. now rewrite H1, H2, H3.
Qed.

(** ** C185.  Full statement: a spectrum of 2M values takes a vector of 2M variances or a
    2M x 2M covariance matrix, and DFT_multiply and DFT2AmpPhase reject every other size of the
    uncertainty and every spectrum of odd length.  False (below). *)

(** What is accepted, exactly, for two or more lines. *)
Theorem C185_multiply_matrix_partial : forall (Y F : vec) UY h n,
  alen Y = (2 * h)%nat -> alen F = (2 * h)%nat -> (2 <= h)%nat -> mrows UY = n -> mcols UY = n ->
  ((exists r, DFT_multiply Y F (SuMat UY) None = Ok r) <->
     n = (2 * h)%nat \/ n = (h + 1)%nat \/ (n <= 1)%nat) /\
  (forall YF U, DFT_multiply Y F (SuMat UY) None = Ok (YF, U) ->
     alen YF = (2 * h)%nat /\ mrows U = mcols U /\ mrows U = (if (n <=? 1)%nat then 0 else 2 * h)%nat).
Proof.
  intros Y F UY h n HY HF Hh R1 C1.
  destruct (blk_shapes UY n h R1 C1) as [S1 [S2 [S3 [S4 [S5 S6]]]]].
  destruct (halves F h HF) as [L1 L2].
  assert (Hb : (exists r, bdim (Nat.min h n) (n - h) = Ok r) /\ (n - h <= h)%nat <->
     n = (2 * h)%nat \/ n = (h + 1)%nat \/ (n <= 1)%nat).
  { rewrite bdim_iff. lia. }
  assert (HI : forall r, DFT_multiply Y F (SuMat UY) None = Ok r ->
     (n - h <= h)%nat /\ exists r, bdim (Nat.min h n) (n - h) = Ok r).
  { intros [YF U]. unfold DFT_multiply. rewrite HY, HF, Nat.eqb_refl. cbn [negb].
    rewrite (mul_est_even Y F h HY HF). cbn [bind]. unfold calcU. rewrite HF, half_2h. cbv zeta.
    match goal with |- bind (bind ?m _) _ = _ -> _ => destruct m as [rr|] eqn:E; [|discriminate] end. intros _.

    change (sum4 (prod3 (slice F 0 h) (blk11 UY h) (slice F 0 h))
       (sgn true (prod3 (slice F h (2 * h)) (transp (blk12 UY h)) (slice F 0 h)))
       (sgn true (prod3 (slice F 0 h) (blk12 UY h) (slice F h (2 * h))))
       (sgn false (prod3 (slice F h (2 * h)) (blk22 UY h) (slice F h (2 * h)))) = Ok rr) in E.
    eapply (four_mul_inv h (Nat.min h n) (n - h) (blk11 UY h) (blk12 UY h) (blk22 UY h) S1 S2 S3 S4 S5 S6) in E; [exact E|]. rewrite HF in L2. exact L2. }
  assert (HO : forall r, bdim (Nat.min h n) (n - h) = Ok r -> (n - h <= h)%nat ->
     exists YF U, DFT_multiply Y F (SuMat UY) None = Ok (YF, U) /\ alen YF = (2 * h)%nat /\
       mrows U = (2 * r)%nat /\ mcols U = (2 * r)%nat).
  { intros r Hr Hn. unfold DFT_multiply. rewrite HY, HF, Nat.eqb_refl. cbn [negb].
    rewrite (mul_est_even Y F h HY HF). cbn [bind]. unfold calcU. rewrite HF, half_2h. cbv zeta.
    rewrite HF in L2.
    assert (Hm : (Nat.min h n <= h)%nat) by lia.
    destruct (four_mul h (Nat.min h n) (n - h) (blk11 UY h) (blk12 UY h) (blk22 UY h) S1 S2 S3 S4 S5 S6
      (slice F 0 h) (slice F 0 h) (slice F h (2 * h)) (slice F 0 h) (slice F 0 h) (slice F h (2 * h))
      (slice F h (2 * h)) (slice F h (2 * h)) true true false L1 L1 L2 L1 L1 L2 L2 L2 r Hm Hn Hr) as [T1 [E1 [U1 V1]]].
    cbn [sgn] in E1. rewrite E1. cbn [bind].
    destruct (four_mul h (Nat.min h n) (n - h) (blk11 UY h) (blk12 UY h) (blk22 UY h) S1 S2 S3 S4 S5 S6
      (slice F 0 h) (slice F h (2 * h)) (slice F h (2 * h)) (slice F h (2 * h)) (slice F 0 h) (slice F 0 h)
      (slice F h (2 * h)) (slice F 0 h) true false true L1 L2 L2 L2 L1 L1 L2 L1 r Hm Hn Hr) as [T2 [E2 [U2 V2]]].
    cbn [sgn] in E2. rewrite E2. cbn [bind].
    destruct (four_mul h (Nat.min h n) (n - h) (blk11 UY h) (blk12 UY h) (blk22 UY h) S1 S2 S3 S4 S5 S6
      (slice F h (2 * h)) (slice F h (2 * h)) (slice F 0 h) (slice F h (2 * h)) (slice F h (2 * h)) (slice F 0 h)
      (slice F 0 h) (slice F 0 h) false false false L2 L2 L1 L2 L2 L1 L1 L1 r Hm Hn Hr) as [T3 [E3 [U3 V3]]].
    cbn [sgn] in E3. rewrite E3. cbn [bind blk_stack].
    destruct (stack_same T1 T2 (transp T2) T3 r) as [T [ET [UT VT]]]; auto.
    rewrite ET. cbn [bind]. eexists. eexists. split; [reflexivity|]. split; [cbn; lia|]. auto. }
  split; [split|].
  - intros [r E]. apply Hb. destruct (HI r E). tauto.
  - intros H. apply Hb in H. destruct H as [[r Hr] Hn]. destruct (HO r Hr Hn) as [YF [U [E _]]]. eauto.
  - intros YF U E. destruct (HI _ E) as [Hn [r Hr]]. destruct (HO r Hr Hn) as [YF' [U' [E' [LY [RU CU]]]]].
    rewrite E in E'. injection E' as <- <-. split; [exact LY|]. split; [congruence|]. rewrite RU.
    unfold bdim in Hr. destruct (Nat.leb_spec n 1).
    + destruct (Nat.eqb_spec (Nat.min h n) (n - h)), (Nat.eqb_spec (Nat.min h n) 1), (Nat.eqb_spec (n - h) 1);
        inversion Hr; lia.
    + destruct (Nat.eqb_spec (Nat.min h n) (n - h)), (Nat.eqb_spec (Nat.min h n) 1), (Nat.eqb_spec (n - h) 1);
        inversion Hr; lia.
Qed.


(** For a vector of M + 1 variances the last one is taken for all imaginary parts. *)
Theorem C185_multiply_vector_partial : forall (Y F uy : vec) h,
  alen Y = (2 * h)%nat -> alen F = (2 * h)%nat -> (2 <= h)%nat ->
  ((exists r, DFT_multiply Y F (SuVec uy) None = Ok r) <-> alen uy = (2 * h)%nat \/ alen uy = (h + 1)%nat) /\
  (alen uy = (h + 1)%nat -> exists YF U U',
     DFT_multiply Y F (SuVec uy) None = Ok (YF, U) /\
     DFT_multiply Y F (SuVec (mkArr (2 * h) (fun k => uy (Nat.min k h)))) None = Ok (YF, U') /\
     mrows U = mrows U' /\ mcols U = mcols U' /\
     forall i j, (i < mrows U)%nat -> (j < mcols U)%nat -> U i j = U' i j).
Proof.
  intros Y F uy h HY HF Hh. destruct (halves F h HF) as [L1 L2]. rewrite HF in L2.
  assert (HM : forall (v : vec), DFT_multiply Y F (SuVec v) None =
     do (rr, ri, ii) <- calcU F (SuVec v) ;; do U <- blk_stack rr ri ii ;;
     Ok (cat (mkArr h (fun k => slice Y 0 h k * slice F 0 h k - slice Y h (2 * h) k * slice F h (2 * h) k))
         (mkArr h (fun k => slice Y 0 h k * slice F h (2 * h) k + slice Y h (2 * h) k * slice F 0 h k)), U)).
  { intros v. unfold DFT_multiply. rewrite HY, HF, Nat.eqb_refl. cbn [negb].
    rewrite (mul_est_even Y F h HY HF). reflexivity. }
  assert (HO : forall v : vec, alen v = (2 * h)%nat -> exists r, DFT_multiply Y F (SuVec v) None = Ok r).
  { intros v Hv. rewrite HM. unfold calcU. rewrite HF, half_2h, Hv, Nat.eqb_refl. cbn [negb orb].
    cbv zeta. cbn [bind blk_stack alen]. rewrite Nat.eqb_refl. cbn [bind]. eexists. reflexivity. }
  assert (HB : alen uy = (h + 1)%nat ->
     calcU_bc (slice F 0 h) (slice F h (2 * h)) (slice uy 0 h) (slice uy h (alen uy)) =
     Ok (B1 (mkArr h (fun k => F k * uy k * F k + F (h + k)%nat * uy h * F (h + k)%nat)),
         B1 (mkArr h (fun k => F k * uy k * F (h + k)%nat - F (h + k)%nat * uy h * F k)),
         B1 (mkArr h (fun k => F (h + k)%nat * uy k * F (h + k)%nat + F k * uy h * F k)))).
  { intros Hu. assert (K1 : alen (slice uy 0 h) = h) by (cbn [slice alen]; lia).
    assert (K2 : alen (slice uy h (alen uy)) = 1%nat) by (cbn [slice alen]; lia).
    unfold calcU_bc, bmul3.
    rewrite !(bvec_hh Rmult _ (slice uy 0 h) h) by assumption.
    rewrite !(bvec_h1 Rmult _ (slice uy h (alen uy)) h) by (assumption || lia). cbn [bind].
    rewrite !(bvec_hh Rmult _ _ h) by (assumption || reflexivity). cbn [bind].
    rewrite !(bvec_hh _ _ _ h) by (assumption || reflexivity). cbn [bind].
    cbn [slice aget]. rewrite Nat.add_0_r. reflexivity. }
  assert (HC : alen uy = (h + 1)%nat -> calcU F (SuVec uy) = calcU_bc (slice F 0 h) (slice F h (2 * h)) (slice uy 0 h) (slice uy h (alen uy))).
  { intros Hu. unfold calcU. rewrite HF, half_2h, Nat.eqb_refl, Hu. cbn [negb orb].
    replace (h + 1 =? 2 * h)%nat with false by (symmetry; apply Nat.eqb_neq; lia). reflexivity. }
  split; [split|].
  - intros [r E]. destruct (Nat.eq_dec (alen uy) (2 * h)) as [|N1]; [auto|].
    destruct (Nat.eq_dec (alen uy) (h + 1)) as [|N2]; [auto|]. exfalso. revert E. rewrite HM. unfold calcU.
    rewrite HF, half_2h, Nat.eqb_refl. cbn [negb orb].
    replace (alen uy =? 2 * h)%nat with false by (symmetry; apply Nat.eqb_neq; lia). cbn [negb].
    unfold calcU_bc. destruct (bmul3 (slice F 0 h) _ _) as [x1|]; [|discriminate]. cbn [bind].
    unfold bmul3 at 1. rewrite bvec_err; [discriminate| | |]; rewrite ?L2; cbn [slice alen]; lia.
  - intros [Hu|Hu]; [auto|]. rewrite HM, (HC Hu), (HB Hu). cbn [bind blk_stack alen]. rewrite Nat.eqb_refl. cbn [bind]. eexists; reflexivity.
  - intros Hu. rewrite (HM uy), (HC Hu), (HB Hu). cbn [bind blk_stack alen]. rewrite Nat.eqb_refl. cbn [bind].
    rewrite HM. unfold calcU. rewrite HF, half_2h, Nat.eqb_refl. cbn [alen negb orb]. rewrite Nat.eqb_refl. cbn [negb].
    cbv zeta. cbn [bind blk_stack alen]. rewrite Nat.eqb_refl. cbn [bind].
    eexists. eexists. eexists. split; [reflexivity|]. split; [reflexivity|]. split; [reflexivity|]. split; [reflexivity|].
    cbn [mrows mcols mget]. intros i j Hi Hj.
    assert (Hm : forall k, (k < h)%nat -> Nat.min k h = k /\ Nat.min (h + k) h = h) by (intros; lia).
    unfold cat. cbn [alen aget slice Nat.add].
    destruct (i =? 0)%nat; (destruct (Nat.ltb_spec j h) as [Hjh|Hjh];
      [destruct (Hm j Hjh) as [-> ->]|destruct (Hm (j - h)%nat ltac:(lia)) as [-> ->]]); reflexivity.
Qed.

(** DFT2AmpPhase: the amplitudes divided by the uncertainties (for a warning) have to be
    broadcastable, which excludes the 1 x 1 matrix. *)
Theorem C185_ampphase_matrix_partial : forall (F : vec) M h n ks,
  alen F = (2 * h)%nat -> (2 <= h)%nat -> mrows M = n -> mcols M = n ->
  ((exists r, DFT2AmpPhase F (FuMat M) ks = Ok r) <-> n = (2 * h)%nat \/ n = (h + 1)%nat) /\
  (forall A P U, DFT2AmpPhase F (FuMat M) ks = Ok (A, P, U) ->
     alen A = h /\ alen P = h /\ exists V, U = UDense V /\ mrows V = (2 * h)%nat /\ mcols V = (2 * h)%nat).
Proof.
  intros F M h n ks HF Hh R1 C1. destruct (blk_shapes M n h R1 C1) as [S1 [S2 [S3 [S4 [S5 S6]]]]].
  assert (HI : (exists u, uf_check (diag_len (blk11 M h)) (diag_len (blk22 M h)) h = Ok u) <-> n = (2 * h)%nat \/ n = (h + 1)%nat).
  { unfold uf_check, diag_len. rewrite S1, S2, S5, S6, !Nat.min_id. split.
    - intros [u E]. destruct (bdim (Nat.min h n) (n - h)) as [r|] eqn:Eb; [|discriminate]. cbn [bind] in E.
      assert (Q : exists r, bdim (Nat.min h n) (n - h) = Ok r) by eauto. apply bdim_iff in Q.
      assert (Q2 : exists u, bdim h r = Ok u) by eauto. apply bdim_iff in Q2.
      unfold bdim in Eb. destruct (Nat.eqb_spec (Nat.min h n) (n - h)), (Nat.eqb_spec (Nat.min h n) 1), (Nat.eqb_spec (n - h) 1);
        inversion Eb; lia.
    - intros H. assert (E : bdim (Nat.min h n) (n - h) = Ok h).
      { unfold bdim. destruct (Nat.eqb_spec (Nat.min h n) (n - h)), (Nat.eqb_spec (Nat.min h n) 1), (Nat.eqb_spec (n - h) 1);
          try (f_equal; lia); lia. }
      rewrite E. cbn [bind]. rewrite bdim_refl. eauto. }
  assert (HO : n = (2 * h)%nat \/ n = (h + 1)%nat -> exists A P V, DFT2AmpPhase F (FuMat M) ks = Ok (A, P, UDense V) /\
     alen A = h /\ alen P = h /\ mrows V = (2 * h)%nat /\ mcols V = (2 * h)%nat).
  { intros H. unfold DFT2AmpPhase. rewrite HF, half_2h, Nat.eqb_refl. cbn [negb]. cbv zeta.
    destruct (proj2 HI H) as [u ->]. cbn [bind].
    assert (Eb : bdim (Nat.min h n) (n - h) = Ok h).
    { unfold bdim. destruct (Nat.eqb_spec (Nat.min h n) (n - h)), (Nat.eqb_spec (Nat.min h n) 1), (Nat.eqb_spec (n - h) 1);
        try (f_equal; lia); lia. }
    assert (Hm : (Nat.min h n <= h)%nat) by lia. assert (Hn : (n - h <= h)%nat) by lia.
    assert (Q : forall a b c d : vec, alen a = h -> alen b = h -> alen c = h -> alen d = h ->
      exists S, sum4 (prod3 a (blk11 M h) c) (prod3 a (blk12 M h) d) (prod3 b (transp (blk12 M h)) c) (prod3 b (blk22 M h) d) = Ok S
        /\ mrows S = h /\ mcols S = h).
    { intros a b c d Ha Hb Hc Hd.
      exact (four_ap h (Nat.min h n) (n - h) (blk11 M h) (blk12 M h) (blk22 M h) S1 S2 S3 S4 S5 S6 a b c d Ha Hb Hc Hd h Hm Hn Eb). }
    match goal with |- context [sum4 (prod3 ?a _ ?a) (prod3 ?a _ ?b) _ _] =>
      destruct (Q a b a b) as [T1 [E1 [U1 V1]]]; try reflexivity; rewrite E1; cbn [bind] end.
    match goal with |- context [sum4 (prod3 ?a _ ?c) (prod3 ?a _ ?d) (prod3 ?b _ ?c) _] =>
      destruct (Q a b c d) as [T2 [E2 [U2 V2]]]; try reflexivity; rewrite E2; cbn [bind] end.
    match goal with |- context [sum4 (prod3 ?a _ ?c) (prod3 ?a _ ?d) (prod3 ?b _ ?c) _] =>
      destruct (Q a b c d) as [T3 [E3 [U3 V3]]]; try reflexivity; rewrite E3; cbn [bind] end.
    destruct (stack_same T1 T2 (transp T2) T3 h) as [T [ET [UT VT]]]; auto.
    rewrite ET. cbn [bind]. eexists. eexists. eexists. split; [reflexivity|]. split; [reflexivity|]. split; [reflexivity|]. auto. }
  assert (HJ : forall r, DFT2AmpPhase F (FuMat M) ks = Ok r -> n = (2 * h)%nat \/ n = (h + 1)%nat).
  { intros r. unfold DFT2AmpPhase. rewrite HF, half_2h, Nat.eqb_refl. cbn [negb]. cbv zeta.
    destruct (uf_check _ _ h) as [u|] eqn:E; [|discriminate]. intros _. apply HI. eauto. }
  split; [split|].
  - intros [r E]. eauto.
  - intros H. destruct (HO H) as [A [P [V [E _]]]]. eauto.
  - intros A P U E. destruct (HO (HJ _ E)) as [A' [P' [V [E' [LA [LP [RV CV]]]]]]].
    rewrite E in E'. injection E' as -> -> ->. eauto 6.
Qed.
Theorem C185_ampphase_vector_partial : forall (F v : vec) h ks,
  alen F = (2 * h)%nat -> (2 <= h)%nat ->
  ((exists r, DFT2AmpPhase F (FuVec v) ks = Ok r) <-> alen v = (2 * h)%nat \/ alen v = (h + 1)%nat) /\
  (alen v = (h + 1)%nat -> exists A P U U',
     DFT2AmpPhase F (FuVec v) ks = Ok (A, P, U) /\
     DFT2AmpPhase F (FuVec (mkArr (2 * h) (fun k => v (Nat.min k h)))) ks = Ok (A, P, U') /\
     forall i j, (i < 2 * h)%nat -> (j < 2 * h)%nat ->
       match U, U' with
       | UDense V, UDense V' => V i j = V' i j
       | USparse D, USparse D' => dia_toarray D i j = dia_toarray D' i j
       | _, _ => False
       end).
Proof.
  intros F v h ks HF Hh. split.
  - unfold DFT2AmpPhase. rewrite HF, half_2h, Nat.eqb_refl. cbn [negb]. cbv zeta.
    replace (h =? 0)%nat with false by (symmetry; apply Nat.eqb_neq; lia).
    destruct (Nat.eqb_spec (alen v) (2 * h)), (Nat.eqb_spec (alen v) (S h)); cbn [negb andb orb]; split; intros H;
      try (eexists; reflexivity); try lia. destruct H; discriminate.
  - intros Hv. unfold DFT2AmpPhase. rewrite HF, half_2h, Nat.eqb_refl. cbn [negb]. cbv zeta.
    replace (h =? 0)%nat with false by (symmetry; apply Nat.eqb_neq; lia). cbn [alen]. rewrite Nat.eqb_refl.
    rewrite Hv. replace (h + 1 =? 2 * h)%nat with false by (symmetry; apply Nat.eqb_neq; lia).
    replace (h + 1 =? S h)%nat with true by (symmetry; apply Nat.eqb_eq; lia). cbn [negb andb orb].
    eexists. eexists. eexists. eexists. split; [reflexivity|]. split; [reflexivity|].
    intros i j Hi Hj.
    assert (Hm : forall k, (k < h)%nat -> Nat.min k h = k /\ Nat.min (h + k) h = h) by (intros; lia).
    destruct ks; unfold dia_toarray, cat; cbn [mget dia_half dia_main dia_up dia_lo aget alen slice Nat.add].
    + destruct (Nat.eqb_spec i j); [|destruct (Nat.eqb_spec j (i + h)); [|destruct (Nat.eqb_spec i (j + h)); [|reflexivity]]].
      * destruct (Nat.ltb_spec i h) as [Hih|Hih]; [destruct (Hm i Hih) as [-> ->]|destruct (Hm (i - h)%nat ltac:(lia)) as [-> ->]]; reflexivity.
      * destruct (Hm i ltac:(lia)) as [-> ->]; reflexivity.
      * destruct (Hm j ltac:(lia)) as [-> ->]; reflexivity.
    + destruct (Nat.eqb_spec i j); [|destruct (Nat.eqb_spec j (i + h)); [|destruct (Nat.eqb_spec i (j + h)); [|reflexivity]]].
      * destruct (Nat.ltb_spec i h) as [Hih|Hih]; [destruct (Hm i Hih) as [-> ->]|destruct (Hm (i - h)%nat ltac:(lia)) as [-> ->]]; reflexivity.
      * destruct (Hm i ltac:(lia)) as [-> ->]; reflexivity.
      * destruct (Hm j ltac:(lia)) as [-> ->]; reflexivity.
Qed.

(** Odd lengths from 5 on are rejected (for DFT_multiply see C38_length_errors). *)
Theorem C185_ampphase_odd_partial : forall (F : vec) UF ks,
  Nat.Odd (alen F) -> (5 <= alen F)%nat -> DFT2AmpPhase F UF ks = Err ValueError.
Proof.
  intros F UF ks [k H] H5. unfold DFT2AmpPhase.
  assert (Hh : (alen F / 2 = k)%nat) by (rewrite H, Nat.mul_comm, Nat.div_add_l by lia; cbn; lia).
  rewrite Hh. replace (alen F =? 2 * k)%nat with false by (symmetry; apply Nat.eqb_neq; lia). cbn [negb].
  destruct UF as [v|M]; [reflexivity|]. unfold ap_odd. rewrite Hh. cbv zeta.
  rewrite bvec_err; [reflexivity| | |]; cbn [slice alen]; lia.
Qed.

(** ** refutations and examples *)
Ltac run := cbv beta iota zeta delta -[Rplus Rmult Rminus Ropp Rdiv Rinv IZR sqrt pow arctan2 mget aget]; reflexivity.
Definition id3 : mat := mkMat 3 3 (fun i j => if (i =? j)%nat then 1 else 0).
Definition ones4 : vec := of_list [1; 1; 1; 1].

(** a 3 x 3 matrix for a spectrum of 2 lines (4 values): the third row and column are spread
    over both imaginary parts, so that uncorrelated input gives correlated real parts *)
Theorem C185_multiply_matrix_refuted : exists Y F UY YF U,
  alen Y = 4%nat /\ alen F = 4%nat /\ mrows UY = 3%nat /\ mcols UY = 3%nat /\
  (forall i j, (i < 3)%nat -> (j < 3)%nat -> UY i j = if (i =? j)%nat then 1 else 0) /\
  DFT_multiply Y F (SuMat UY) None = Ok (YF, U) /\ mrows U = 4%nat /\ mcols U = 4%nat /\ U 0%nat 1%nat <> 0.
Proof.
  exists ones4, ones4, id3. eexists. eexists. do 5 (split; [reflexivity|]). split; [run|].
  split; [reflexivity|]. split; [reflexivity|].
  cbv beta iota zeta delta -[Rplus Rmult Rminus Ropp IZR]. lra.
Qed.
(** a vector of 3 variances *)
Theorem C185_multiply_vector_refuted : exists Y F uy YF U,
  alen Y = 4%nat /\ alen F = 4%nat /\ alen uy = 3%nat /\ DFT_multiply Y F (SuVec uy) None = Ok (YF, U).
Proof. exists ones4, ones4, (of_list [1; 1; 1]). eexists. eexists. do 3 (split; [reflexivity|]). run. Qed.
(** a single number wrapped into a 1 x 1 matrix: the covariance is empty *)
Theorem C185_multiply_single_refuted : exists Y F UY YF U,
  alen Y = 4%nat /\ alen F = 4%nat /\ mrows UY = 1%nat /\ mcols UY = 1%nat /\
  DFT_multiply Y F (SuMat UY) None = Ok (YF, U) /\ alen YF = 4%nat /\ mrows U = 0%nat /\ mcols U = 0%nat.
Proof.
  exists ones4, ones4, (of_rows [[1]]). eexists. eexists. do 4 (split; [reflexivity|]). split; [run|].
  split; [reflexivity|]. split; reflexivity.
Qed.
(** spectra of 3 values: the product has 4 *)
Theorem C185_multiply_odd_refuted : exists Y F uy YF U,
  alen Y = 3%nat /\ alen F = 3%nat /\ alen uy = 3%nat /\
  DFT_multiply Y F (SuVec uy) None = Ok (YF, U) /\ alen YF = 4%nat.
Proof.
  exists (of_list [1; 1; 1]), (of_list [1; 1; 1]), (of_list [1; 1; 1]).
  eexists. eexists. do 3 (split; [reflexivity|]). split; [run|reflexivity].
Qed.
(** DFT2AmpPhase: 3 x 3 matrix and vector of 3 variances for 2 lines, spectrum of 3 values *)
Theorem C185_ampphase_refuted :
  (exists F M A P U, alen F = 4%nat /\ mrows M = 3%nat /\ mcols M = 3%nat /\
     DFT2AmpPhase F (FuMat M) false = Ok (A, P, UDense U) /\ mrows U = 4%nat /\ mcols U = 4%nat) /\
  (exists F v A P U, alen F = 4%nat /\ alen v = 3%nat /\
     DFT2AmpPhase F (FuVec v) false = Ok (A, P, UDense U) /\ mrows U = 4%nat /\ mcols U = 4%nat) /\
  (exists F M A P U, alen F = 3%nat /\ mrows M = 3%nat /\ mcols M = 3%nat /\
     DFT2AmpPhase F (FuMat M) false = Ok (A, P, UDense U) /\ alen A = 2%nat /\ mrows U = 4%nat).
Proof.
  split; [|split].
  - exists ones4, id3. eexists. eexists. eexists. do 3 (split; [reflexivity|]). split; [run|]. split; reflexivity.
  - exists ones4, (of_list [1; 1; 1]). eexists. eexists. eexists. do 2 (split; [reflexivity|]). split; [run|]. split; reflexivity.
  - exists (of_list [1; 1; 1]), id3. eexists. eexists. eexists. do 3 (split; [reflexivity|]). split; [run|]. split; reflexivity.
Qed.
(** For 3 lines a 5 x 5 matrix is refused, a 4 x 4 matrix is not. *)
Example C185_example : let Y := of_list [1; 2; 3; 0; 1; 0] in
  (forall r, DFT_multiply Y Y (SuMat (zeros2 5 5)) None <> Ok r) /\
  (exists r, DFT_multiply Y Y (SuMat (zeros2 4 4)) None = Ok r) /\
  (forall r, DFT2AmpPhase Y (FuMat (zeros2 5 5)) false <> Ok r) /\
  (exists r, DFT2AmpPhase Y (FuMat (zeros2 4 4)) false = Ok r) /\
  (exists r, DFT_multiply Y Y (SuVec (of_list [1; 1; 1; 1])) None = Ok r) /\
  (exists r, DFT2AmpPhase Y (FuVec (of_list [1; 1; 1; 1])) true = Ok r) /\
  (forall r, DFT2AmpPhase (of_list [1; 2; 3; 0; 1]) (FuMat (zeros2 5 5)) false <> Ok r).
Proof.
  intros Y.
  assert (E : alen Y = (2 * 3)%nat) by reflexivity. assert (H3 : (2 <= 3)%nat) by lia.
  pose proof (proj1 (C185_multiply_matrix_partial Y Y (zeros2 5 5) 3 5 E E H3 eq_refl eq_refl)) as M5.
  pose proof (proj1 (C185_multiply_matrix_partial Y Y (zeros2 4 4) 3 4 E E H3 eq_refl eq_refl)) as M4.
  pose proof (proj1 (C185_ampphase_matrix_partial Y (zeros2 5 5) 3 5 false E H3 eq_refl eq_refl)) as A5.
  pose proof (proj1 (C185_ampphase_matrix_partial Y (zeros2 4 4) 3 4 false E H3 eq_refl eq_refl)) as A4.
  split; [intros r Q; assert (X : exists r, DFT_multiply Y Y (SuMat (zeros2 5 5)) None = Ok r) by eauto; apply M5 in X; lia|].
  split; [apply M4; lia|].
  split; [intros r Q; assert (X : exists r, DFT2AmpPhase Y (FuMat (zeros2 5 5)) false = Ok r) by eauto; apply A5 in X; lia|].
  split; [apply A4; lia|].
  split; [apply (C185_multiply_vector_partial Y Y (of_list [1; 1; 1; 1]) 3 E E H3); right; reflexivity|].
  split; [apply (C185_ampphase_vector_partial Y (of_list [1; 1; 1; 1]) 3 true E H3); right; reflexivity|].
  intros r. rewrite C185_ampphase_odd_partial; [discriminate|exists 2%nat; reflexivity|cbn; lia].
Qed.
Print Assumptions C185_multiply_matrix_partial.
Print Assumptions C185_multiply_vector_partial.
Print Assumptions C185_ampphase_matrix_partial.
Print Assumptions C185_ampphase_vector_partial.
Print Assumptions C185_ampphase_odd_partial.
Print Assumptions C185_multiply_matrix_refuted.
Print Assumptions C185_multiply_vector_refuted.
Print Assumptions C185_multiply_single_refuted.
Print Assumptions C185_multiply_odd_refuted.
Print Assumptions C185_ampphase_refuted.
