(** Forms of uncertainty accepted by DFT_multiply and rejected by AmpPhase2Time:
    further theorems for C33 and C39.  Model: M_DFT.v.  Vocabulary: S_DFT.v. *)
From Coq Require Import Reals List Arith ZArith Bool Lia Lra Psatz.
From Verif Require Import Base Sums Stats StatsFacts M_DFT S_Jac S_DFT P_Jac P_Trig P_DFT P_iDFT
  P_Deriv P_AmpPhase P_APTime P_Deconv P_T2AP.
Import ListNotations.
Open Scope R_scope.

(** ** C33: amplitudes and phases of different lengths, and covariances of odd dimension,
    are rejected with ValueError. *)
Definition rows_given (u : apunc) : nat :=
  match u with ApVec v => alen v | ApMat m => mrows m | ApDia d => dia_half d + dia_half d end.
Theorem C33_rejected : forall (A P : vec) UAP,
  (alen A <> alen P -> AmpPhase2Time A P UAP = Err ValueError) /\
  ((exists k, rows_given UAP = (2 * k + 1)%nat) -> AmpPhase2Time A P UAP = Err ValueError) /\
  (forall r, AmpPhase2Time A P UAP = Ok r -> alen A = alen P /\ exists h, rows_given UAP = (2 * h)%nat).
Proof.
  intros A P UAP.
  assert (RG : rows_given UAP = ap_len UAP) by (destruct UAP; cbn [rows_given ap_len]; lia). rewrite RG.
  repeat split.
  - intro H. unfold AmpPhase2Time. apply Nat.eqb_neq in H. now rewrite H.
  - intros [k Hk]. unfold AmpPhase2Time. rewrite Hk.
    destruct (alen A =? alen P)%nat; [|reflexivity]. cbn [negb].
    assert (O : Nat.odd (2 * k + 1) = true) by (apply Nat.odd_spec; now exists k). now rewrite O.
  - intros. unfold AmpPhase2Time in H. destruct (Nat.eqb_spec (alen A) (alen P)) as [E|E]; [exact E|discriminate H].
  - unfold AmpPhase2Time in H. destruct (alen A =? alen P)%nat; [|discriminate H]. cbn [negb] in H.
    destruct (Nat.odd (ap_len UAP)) eqn:O; [discriminate H|].
    assert (Ev : Nat.even (ap_len UAP) = true) by (rewrite <- Nat.negb_odd, O; reflexivity).
    apply Nat.even_spec in Ev. destruct Ev as [h Hh]. now exists h.
Qed.
Example C33_rejected_example :
  AmpPhase2Time (of_list [3; 1]) (of_list [0; PI]) (ApVec (of_list [1; 1; 0])) = Err ValueError /\
  AmpPhase2Time (of_list [3; 1]) (of_list [0]) (ApVec (of_list [1; 1; 0; 0])) = Err ValueError.
Proof. split; reflexivity. Qed.
Print Assumptions C33_rejected.
(** A covariance matrix with as many rows as there are amplitudes and phases must be square. *)
Theorem C33_not_square : forall (A P : vec) U, alen P = alen A -> mrows U = (2 * alen A)%nat ->
  mcols U <> mrows U -> AmpPhase2Time A P (ApMat U) = Err ValueError.
Proof.
  intros A P U LP R NS. unfold AmpPhase2Time. cbn [ap_len]. rewrite LP, Nat.eqb_refl. cbn [negb].
  rewrite R, Nat.odd_mul. cbn [Nat.odd Nat.even negb andb]. unfold irfft. cbn [alen].
  destruct (Nat.leb_spec (alen A) 1); [reflexivity|]. cbn [bind].
  destruct (Nat.ltb_spec (2 * alen A) 2); [reflexivity|].
  assert (H2 : ((2 * alen A - 2) / 2 = alen A - 1)%nat) by (replace (2 * alen A - 2)%nat with ((alen A - 1) * 2)%nat by lia; now apply Nat.div_mul).
  rewrite H2. destruct (Nat.ltb_spec (alen A) (alen A - 1)); [lia|].
  replace (alen A - 1 + 1)%nat with (alen A) by lia.
  unfold dot at 1, blk11, sub2, transp, apt_Cc. cbn [mrows mcols]. rewrite H2, !Nat.sub_0_r.
  destruct (Nat.eqb_spec (Nat.min (alen A) (mcols U)) (alen A - 1 + 1)) as [E|_]; [|reflexivity].
  cbn [bind]. unfold dot at 1. cbn [mrows mcols]. rewrite R.
  destruct (Nat.eqb_spec (alen A - 1 + 1) (Nat.min (alen A) (2 * alen A))); [|lia]. cbn [bind].
  unfold dot at 1, blk12, sub2, apt_Cs. cbn [mrows mcols]. rewrite H2.
  destruct (Nat.eqb_spec (Nat.min (mcols U) (mcols U) - alen A) (alen A - 1 + 1)); [lia|reflexivity].
Qed.
Example C33_not_square_example :
  AmpPhase2Time (of_list [3; 1]) (of_list [0; PI]) (ApMat (mkMat 4 6 (fun _ _ => 1))) = Err ValueError.
Proof. apply C33_not_square; cbn; lia. Qed.
Print Assumptions C33_not_square.

(** ** C39: two vectors of variances.  As with an exactly known F the result has two rows;
    they hold the variances and same-line covariances that the matrices with these
    diagonals give. *)
Theorem C39_two_vectors_partial : forall (Y F uy uf : vec) h,
  alen Y = (2 * h)%nat -> alen F = (2 * h)%nat -> alen uy = (2 * h)%nat -> alen uf = (2 * h)%nat ->
  exists YF U YF' U', DFT_multiply Y F (SuVec uy) (Some (SuVec uf)) = Ok (YF, U) /\
    DFT_multiply Y F (SuMat (diagm uy)) (Some (SuMat (diagm uf))) = Ok (YF', U') /\
    mrows U = 2%nat /\ mcols U = (2 * h)%nat /\ mrows U' = (2 * h)%nat /\
    (forall i, (i < 2 * h)%nat -> YF i = YF' i) /\
    forall k, (k < h)%nat ->
      U 0%nat k = U' k k /\ U 0%nat (h + k)%nat = U' k (h + k)%nat /\
      U 1%nat k = U' k (h + k)%nat /\ U 1%nat (h + k)%nat = U' (h + k)%nat (h + k)%nat.
Proof.
  intros Y F uy uf h HY HF Hu Hf.
  destruct (DFT_multiply_run Y F (diagm uy) (Some (SuMat (diagm uf))) h) as [YF' [U' [E' [_ [R1 [_ [V W]]]]]]]; auto.
  { apply (diag_symm (2 * h) uy). } { split; assumption. } { apply (diag_symm (2 * h) uf). }
  assert (E : exists YF U, DFT_multiply Y F (SuVec uy) (Some (SuVec uf)) = Ok (YF, U) /\ mrows U = 2%nat /\ mcols U = (2 * h)%nat /\
     YF = YF' /\ forall k, (k < h)%nat ->
       U 0%nat k = F k * uy k * F k + F (h + k)%nat * uy (h + k)%nat * F (h + k)%nat
                 + (Y k * uf k * Y k + Y (h + k)%nat * uf (h + k)%nat * Y (h + k)%nat) /\
       U 0%nat (h + k)%nat = F k * uy k * F (h + k)%nat - F (h + k)%nat * uy (h + k)%nat * F k
                 + (Y k * uf k * Y (h + k)%nat - Y (h + k)%nat * uf (h + k)%nat * Y k) /\
       U 1%nat k = F k * uy k * F (h + k)%nat - F (h + k)%nat * uy (h + k)%nat * F k
                 + (Y k * uf k * Y (h + k)%nat - Y (h + k)%nat * uf (h + k)%nat * Y k) /\
       U 1%nat (h + k)%nat = F (h + k)%nat * uy k * F (h + k)%nat + F k * uy (h + k)%nat * F k
                 + (Y (h + k)%nat * uf k * Y (h + k)%nat + Y k * uf (h + k)%nat * Y k)).
  { unfold DFT_multiply in E' |- *. rewrite HY, HF, Nat.eqb_refl in E' |- *. cbn [negb] in E' |- *.
    rewrite (mul_est_even Y F h HY HF) in E' |- *. cbn [bind] in E' |- *.
    unfold calcU at 1 2. rewrite Hu, Hf, HF, HY, half_2h, Nat.eqb_refl. cbn [negb orb].
    cbv beta iota zeta delta [bind blk_stack blk_add bdim].
    cbn [alen]. rewrite Nat.eqb_refl. cbn [alen]. rewrite Nat.eqb_refl.
    eexists. eexists. split; [reflexivity|]. split; [reflexivity|]. split; [cbn [mcols]; lia|]. split.
    - cbv beta iota zeta delta [bind] in E'.
      repeat match type of E' with
             | match ?e with Ok _ => _ | Err _ => _ end = _ => destruct e; [|discriminate E']
             | match ?p with (_, _) => _ end = _ => destruct p end.
      injection E' as E1 _. exact E1.
    - intros k Hk. cbn [mget alen]. unfold cat. cbn [alen aget].
      replace (h + k <? h)%nat with false by (symmetry; apply Nat.ltb_ge; lia).
      replace (k <? h)%nat with true by (symmetry; now apply Nat.ltb_lt).
      replace (h + k - h)%nat with k by lia. unfold bidx. simpl. rewrite !Nat.eqb_refl. auto. }
  destruct E as [YF [U [E [RU [CU [EY HU]]]]]].
  exists YF, U, YF', U'. repeat (split; [assumption|]). split; [intros; now rewrite EY|].
  intros k Hk. destruct (HU k Hk) as [-> [-> [-> ->]]].
  assert (HD : forall v : vec, alen v = (2 * h)%nat -> forall a b c d,
    term4 h (fun i j => diagm v i j) a b k c d k = a * v k * c + b * v (h + k)%nat * d).
  { intros v Hv a b c d. apply (term4_diag h v); assumption. }
  rewrite !W by lia. rewrite !S4_term by lia. rewrite base_hi, (base_lo h k Hk).
  change (opt_U (Some (SuMat (diagm uf)))) with (fun i j : nat => diagm uf i j).
  rewrite !(HD uy Hu), !(HD uf Hf). unfold mul_al, mul_be. rewrite hi_false.
  replace (k <? h)%nat with true by (symmetry; now apply Nat.ltb_lt). replace (h + k - h)%nat with k by lia.
  repeat split; ring.
Qed.
Example C39_two_vectors_example : exists YF U,
  DFT_multiply (of_list [1; 2]) (of_list [3; 4]) (SuVec (of_list [1; 1])) (Some (SuVec (of_list [1; 2]))) = Ok (YF, U) /\
  mrows U = 2%nat /\ U 0%nat 0%nat = 34 /\ U 0%nat 1%nat = -2.
Proof. eexists. eexists. split; [reflexivity|]. split; [reflexivity|]. split; simpl; lra. Qed.
Print Assumptions C39_two_vectors_partial.

(** Variances of one factor with a covariance matrix of the other: the variances are added to
    every row of the four blocks of the contribution of the other factor.  So the variances and
    the covariances within a line are right, those between different lines are not. *)
Theorem C39_vector_and_matrix_partial : forall (Y F uy : vec) UF h,
  alen Y = (2 * h)%nat -> alen F = (2 * h)%nat -> alen uy = (2 * h)%nat ->
  mrows UF = (2 * h)%nat -> mcols UF = (2 * h)%nat -> symm (2 * h) (fun i j => UF i j) ->
  exists YF U YF' U' YF0 U0, DFT_multiply Y F (SuVec uy) (Some (SuMat UF)) = Ok (YF, U) /\
    DFT_multiply Y F (SuMat (diagm uy)) None = Ok (YF', U') /\
    DFT_multiply Y F (SuMat (zeros2 (2 * h) (2 * h))) (Some (SuMat UF)) = Ok (YF0, U0) /\
    mrows U = (2 * h)%nat /\ mcols U = (2 * h)%nat /\ (forall i, (i < 2 * h)%nat -> YF i = YF' i) /\
    forall k l, (k < h)%nat -> (l < h)%nat ->
      U k l = U0 k l + U' l l /\ U k (h + l)%nat = U0 k (h + l)%nat + U' l (h + l)%nat /\
      U (h + k)%nat l = U0 (h + k)%nat l + U' k (h + k)%nat /\
      U (h + k)%nat (h + l)%nat = U0 (h + k)%nat (h + l)%nat + U' (h + l)%nat (h + l)%nat.
Proof.
  intros Y F uy UF h HY HF Hu R1 C1 HS.
  destruct (DFT_multiply_run Y F (diagm uy) None h) as [YF' [U' [E' [_ [_ [_ [V' W']]]]]]]; auto.
  { apply (diag_symm (2 * h) uy). } { exact I. } { intros ? ? _ _; reflexivity. }
  destruct (DFT_multiply_run Y F (zeros2 (2 * h) (2 * h)) (Some (SuMat UF)) h) as [YF0 [U0 [E0 [_ [_ [_ [V0 W0]]]]]]]; auto.
  { intros ? ? _ _; reflexivity. } { split; assumption. }
  destruct (calcU_mat_ok Y UF h HY R1 C1 HS) as [rr [ri [ii [Ec [a1 [a2 [a3 [a4 [a5 [a6 HV]]]]]]]]]].
  assert (B1h : bdim 1 h = Ok h).
  { unfold bdim. destruct (Nat.eqb_spec 1 h); [congruence|]. reflexivity. }
  assert (Bhh : bdim h h = Ok h) by (unfold bdim; now rewrite Nat.eqb_refl).
  assert (E : exists YF U, DFT_multiply Y F (SuVec uy) (Some (SuMat UF)) = Ok (YF, U) /\ mrows U = (2 * h)%nat /\ mcols U = (2 * h)%nat /\
     YF = YF' /\ forall k l, (k < h)%nat -> (l < h)%nat ->
       U k l = F l * uy l * F l + F (h + l)%nat * uy (h + l)%nat * F (h + l)%nat + rr k l /\
       U k (h + l)%nat = F l * uy l * F (h + l)%nat - F (h + l)%nat * uy (h + l)%nat * F l + ri k l /\
       U (h + k)%nat l = F k * uy k * F (h + k)%nat - F (h + k)%nat * uy (h + k)%nat * F k + ri l k /\
       U (h + k)%nat (h + l)%nat = F (h + l)%nat * uy l * F (h + l)%nat + F l * uy (h + l)%nat * F l + ii k l).
  { unfold DFT_multiply in E' |- *. rewrite HY, HF, Nat.eqb_refl in E' |- *. cbn [negb] in E' |- *.
    rewrite (mul_est_even Y F h HY HF) in E' |- *. cbn [bind] in E' |- *.
    rewrite Ec. unfold calcU at 1. rewrite Hu, HF, half_2h, Nat.eqb_refl. cbn [negb orb].
    cbv beta iota zeta delta [bind blk_add add2]. cbn [mrows mcols alen]. rewrite a1, a2, a3, a4, a5, a6, B1h, Bhh. cbv iota.
    cbv beta iota zeta delta [blk_stack stack4 transp]. cbn [mrows mcols]. rewrite !Nat.eqb_refl. cbn [andb].
    eexists. eexists. split; [reflexivity|]. split; [cbn [mrows]; lia|]. split; [cbn [mcols]; lia|]. split.
    - cbv beta iota zeta delta [bind] in E'.
      repeat match type of E' with
             | match ?e with Ok _ => _ | Err _ => _ end = _ => destruct e; [|discriminate E']
             | match ?p with (_, _) => _ end = _ => destruct p end.
      injection E' as E1 _. exact E1.
    - intros k l Hk Hl. cbn [mget]. rewrite !hi_false.
      replace (k <? h)%nat with true by (symmetry; now apply Nat.ltb_lt). replace (l <? h)%nat with true by (symmetry; now apply Nat.ltb_lt).
      replace (h + k - h)%nat with k by lia. replace (h + l - h)%nat with l by lia. unfold bidx. rewrite !Nat.eqb_refl. cbn. auto. }
  destruct E as [YF [U [E [RU [CU [EY HU]]]]]].
  exists YF, U, YF', U', YF0, U0. repeat (split; [assumption|]). split; [intros; now rewrite EY|].
  intros k l Hk Hl. destruct (HU k l Hk Hl) as [-> [-> [-> ->]]].
  assert (HD : forall j, (j < h)%nat -> forall a b c d, term4 h (fun i j => diagm uy i j) a b j c d j = a * uy j * c + b * uy (h + j)%nat * d).
  { intros j Hj a b c d. apply (term4_diag h uy); assumption. }
  assert (HZ : forall a b i c d j, term4 h (fun i j => zeros2 (2 * h) (2 * h) i j) a b i c d j = 0) by (intros; unfold term4; cbn; ring).
  assert (HN : forall a b i c d j, term4 h (opt_U None) a b i c d j = 0) by (intros; unfold term4; cbn; ring).
  destruct (HV k l Hk Hl) as [-> [-> ->]]. destruct (HV l k Hl Hk) as [_ [-> _]].
  rewrite !W', !W0 by lia. rewrite !S4_term by lia. rewrite !base_hi, (base_lo h k Hk), (base_lo h l Hl).
  rewrite !HZ, ?HN, !(HD l Hl), !(HD k Hk). change (opt_U (Some (SuMat UF))) with (fun i j : nat => UF i j).
  assert (Sw : forall a b c d, term4 h (fun i j => UF i j) a b l c d k = term4 h (fun i j => UF i j) c d k a b l).
  { intros. unfold term4. rewrite (HS l k), (HS l (h + k)%nat), (HS (h + l)%nat k), (HS (h + l)%nat (h + k)%nat) by lia. ring. }
  rewrite !Sw. unfold mul_al, mul_be. rewrite !hi_false.
  replace (k <? h)%nat with true by (symmetry; now apply Nat.ltb_lt). replace (l <? h)%nat with true by (symmetry; now apply Nat.ltb_lt).
  replace (h + k - h)%nat with k by lia. replace (h + l - h)%nat with l by lia.
  repeat split; ring.
Qed.
Example C39_vector_and_matrix_example : exists YF U YF' U' YF0 U0,
  let Y := of_list [1; 2; 3; 0; 0; 0] in let F := of_list [1; 1; 1; 2; 0; 1] in let uy := of_list [1; 1; 1; 4; 4; 4] in let UF := diagm (of_list [1; 2; 3; 4; 5; 6]) in
  DFT_multiply Y F (SuVec uy) (Some (SuMat UF)) = Ok (YF, U) /\
  DFT_multiply Y F (SuMat (diagm uy)) None = Ok (YF', U') /\
  DFT_multiply Y F (SuMat (zeros2 6 6)) (Some (SuMat UF)) = Ok (YF0, U0) /\
  mrows U = 6%nat /\ U 0%nat 2%nat = U0 0%nat 2%nat + U' 2%nat 2%nat /\ U 4%nat 4%nat = U0 4%nat 4%nat + U' 4%nat 4%nat.
Proof.
  destruct (C39_vector_and_matrix_partial (of_list [1; 2; 3; 0; 0; 0]) (of_list [1; 1; 1; 2; 0; 1]) (of_list [1; 1; 1; 4; 4; 4])
    (diagm (of_list [1; 2; 3; 4; 5; 6])) 3 eq_refl eq_refl eq_refl eq_refl eq_refl (diag_symm 6 (of_list [1; 2; 3; 4; 5; 6])))
    as (YF & U & YF' & U' & YF0 & U0 & E & E' & E0 & R & _ & _ & K).
  exists YF, U, YF', U', YF0, U0. cbv zeta. split; [exact E|]. split; [exact E'|]. split; [exact E0|]. split; [exact R|].
  split; [apply (K 0%nat 2%nat); lia|]. apply (K 1%nat 1%nat); lia.
Qed.
Print Assumptions C39_vector_and_matrix_partial.

(** A single number for UY is the same variance at every line, whatever UF is; a number for
    UF is ignored. *)
Theorem C39_number_partial : forall (Y F : vec) u UF h,
  alen Y = (2 * h)%nat -> alen F = (2 * h)%nat ->
  DFT_multiply Y F (SuFloat u) UF = DFT_multiply Y F (SuVec (mkArr (2 * h) (fun _ => u))) UF /\
  (forall UY v, DFT_multiply Y F UY (Some (SuFloat v)) = DFT_multiply Y F UY None).
Proof.
  intros Y F u UF h HY HF. split; [|reflexivity].
  unfold DFT_multiply. rewrite HY, HF, Nat.eqb_refl. cbn [negb].
  assert (E : calcU F (SuFloat u) = calcU F (SuVec (mkArr (2 * h) (fun _ => u)))).
  { unfold calcU. cbn [alen]. rewrite HF, half_2h, Nat.eqb_refl. cbn [negb orb]. reflexivity. }
  now rewrite E.
Qed.
Example C39_number_example : exists YF U,
  DFT_multiply (of_list [1; 2]) (of_list [3; 4]) (SuFloat 2) None = Ok (YF, U) /\
  U 0%nat 0%nat = 50 /\ U 0%nat 1%nat = 0 /\ U 1%nat 0%nat = 0 /\ U 1%nat 1%nat = 50.
Proof. eexists. eexists. split; [reflexivity|]. simpl. repeat split; lra. Qed.
Print Assumptions C39_number_partial.
