(** Lemmas about the type dependent behaviour modelled in M_Typed.v. *)
From Coq Require Import Reals List Arith ZArith Bool Lia Lra Psatz.
From Verif Require Import Base Sums M_Interp M_Filter M_DFT M_Noise M_Typed P_DFT P_AmpPhase P_Deconv.
Import ListNotations.
Open Scope R_scope.

(** ** truncation *)
Definition integral (r : R) : Prop := exists z : Z, r = IZR z.

Lemma Int_part_IZR z : Int_part (IZR z) = z.
Proof.
  unfold Int_part. rewrite <- (tech_up (IZR z) (z + 1)); [lia| |]; rewrite plus_IZR; lra.
Qed.
Lemma Rtrunc_integral r : integral r -> Rtrunc r = r.
Proof.
  intros [z ->]. unfold Rtrunc. destruct (Rle_dec 0 (IZR z)).
  - now rewrite Int_part_IZR.
  - replace (- IZR z) with (IZR (- z)) by apply opp_IZR. rewrite Int_part_IZR, opp_IZR. lra.
Qed.
Lemma integral_mult a b : integral a -> integral b -> integral (a * b).
Proof. intros [x ->] [y ->]. exists (x * y)%Z. now rewrite mult_IZR. Qed.
Lemma Rtrunc_small r : Rabs r < 1 -> Rtrunc r = 0.
Proof.
  intros H. apply Rabs_def2 in H. unfold Rtrunc. destruct (Rle_dec 0 r).
  - unfold Int_part. rewrite <- (tech_up r 1); simpl; lra.
  - unfold Int_part. rewrite <- (tech_up (- r) 1); simpl; lra.
Qed.
Lemma Rtrunc_close r : Rabs (Rtrunc r - r) <= 1.
Proof.
  unfold Rtrunc. destruct (Rle_dec 0 r).
  - destruct (base_Int_part r). rewrite Rabs_left1 by lra. lra.
  - destruct (base_Int_part (- r)). rewrite Rabs_right by lra. lra.
Qed.
Lemma cast_close dt r : Rabs (cast dt r - r) <= 1.
Proof.
  destruct dt; simpl; [|apply Rtrunc_close]. replace (r - r) with 0 by ring. rewrite Rabs_R0. lra.
Qed.

(** ** one factor *)
Definition T3 (dt : dtype) (v m w : R) : R := cast dt (v * cast dt (m * w)).
Lemma T3_float v m w : T3 DFloat v m w = v * (m * w).
Proof. reflexivity. Qed.
Lemma T3_int v m w : integral v -> integral m -> integral w -> T3 DInt v m w = v * (m * w).
Proof.
  intros Hv Hm Hw. unfold T3; simpl. rewrite (Rtrunc_integral (m * w)) by now apply integral_mult.
  apply Rtrunc_integral. repeat apply integral_mult; auto.
Qed.
Lemma T3_zero v m w : Rabs (m * w) < 1 -> T3 DInt v m w = 0.
Proof. intros H. unfold T3; simpl. rewrite (Rtrunc_small _ H), Rmult_0_r. apply Rtrunc_small. rewrite Rabs_R0. lra. Qed.
Lemma T3_close dt v m w : Rabs (T3 dt v m w - v * (m * w)) <= 1 + Rabs v.
Proof.
  unfold T3. set (c := cast dt (m * w)).
  replace (cast dt (v * c) - v * (m * w)) with ((cast dt (v * c) - v * c) + v * (c - m * w)) by ring.
  eapply Rle_trans; [apply Rabs_triang|]. apply Rplus_le_compat; [apply cast_close|].
  rewrite Rabs_mult. pose proof (cast_close dt (m * w)). fold c in H.
  rewrite <- (Rmult_1_r (Rabs v)) at 2. apply Rmult_le_compat_l; auto. apply Rabs_pos.
Qed.

Lemma prod3_dt_ok dt v M w : (mrows M <= alen v)%nat -> (mcols M <= alen w)%nat ->
  prod3_dt dt v M w = Ok (mkMat (mrows M) (mcols M) (fun i j => T3 dt (v i) (M i j) (w j))).
Proof.
  intros H1 H2. unfold prod3_dt, prod_mv_dt, prod_vm_dt.
  replace (alen w <? mcols M)%nat with false by (symmetry; apply Nat.ltb_ge; lia). simpl.
  replace (alen v <? mrows M)%nat with false by (symmetry; apply Nat.ltb_ge; lia). reflexivity.
Qed.
Lemma prod3_dt_float v M w : prod3_dt DFloat v M w = prod3 v M w.
Proof. reflexivity. Qed.

Lemma bind_ok {A B} (a : A) (f : A -> res B) : bind (Ok a) f = f a.
Proof. reflexivity. Qed.

(** ** sums of four products of h x h blocks *)
Lemma sum4_p3 dt h v1 M1 w1 v2 M2 w2 v3 M3 w3 v4 M4 w4 :
  mrows M1 = h -> mcols M1 = h -> mrows M2 = h -> mcols M2 = h ->
  mrows M3 = h -> mcols M3 = h -> mrows M4 = h -> mcols M4 = h ->
  alen v1 = h -> alen w1 = h -> alen v2 = h -> alen w2 = h ->
  alen v3 = h -> alen w3 = h -> alen v4 = h -> alen w4 = h ->
  exists S, sum4 (prod3_dt dt v1 M1 w1) (prod3_dt dt v2 M2 w2) (prod3_dt dt v3 M3 w3)
                 (prod3_dt dt v4 M4 w4) = Ok S /\ mrows S = h /\ mcols S = h /\
    forall i j, S i j = T3 dt (v1 i) (M1 i j) (w1 j) + T3 dt (v2 i) (M2 i j) (w2 j)
                        + T3 dt (v3 i) (M3 i j) (w3 j) + T3 dt (v4 i) (M4 i j) (w4 j).
Proof.
  intros. rewrite !prod3_dt_ok by lia.
  apply (sum4_ok (mkMat (mrows M1) (mcols M1) (fun i j => T3 dt (v1 i) (M1 i j) (w1 j)))
                 (mkMat (mrows M2) (mcols M2) (fun i j => T3 dt (v2 i) (M2 i j) (w2 j)))
                 (mkMat (mrows M3) (mcols M3) (fun i j => T3 dt (v3 i) (M3 i j) (w3 j)))
                 (mkMat (mrows M4) (mcols M4) (fun i j => T3 dt (v4 i) (M4 i j) (w4 j))) h h);
    simpl; assumption.
Qed.

(** Entry (k, l) of the block with left factors (a, b) and right factors (c, d). *)
Definition q4 (dt : dtype) (h : nat) (M : mat) (a b c d : nat -> R) (k l : nat) : R :=
  T3 dt (a k) (M k l) (c l) + T3 dt (b k) (M l (h + k)%nat) (c l)
  + T3 dt (a k) (M k (h + l)%nat) (d l) + T3 dt (b k) (M (h + k)%nat (h + l)%nat) (d l).
(** The stacked matrix of the blocks f11, f12, f12 transposed, f22. *)
Definition stk4 (h : nat) (f11 f12 f22 : nat -> nat -> R) (i j : nat) : R :=
  if (i <? h)%nat then (if (j <? h)%nat then f11 i j else f12 i (j - h)%nat)
  else (if (j <? h)%nat then f12 j (i - h)%nat else f22 (i - h)%nat (j - h)%nat).

Lemma stack4_blocks h S11 S12 S22 :
  mrows S11 = h -> mcols S11 = h -> mrows S12 = h -> mcols S12 = h -> mrows S22 = h -> mcols S22 = h ->
  exists U, stack4 S11 S12 (transp S12) S22 = Ok U /\ mrows U = (2 * h)%nat /\ mcols U = (2 * h)%nat /\
    forall i j, U i j = stk4 h S11 S12 S22 i j.
Proof.
  intros H1 H2 H3 H4 H5 H6. unfold stack4. simpl. rewrite H1, H2, H3, H4, H5, H6, !Nat.eqb_refl.
  simpl. eexists. split; [reflexivity|]. simpl. repeat split; try lia.
Qed.

Lemma AmpPhase2DFT_dt_run dt (A P : vec) M h :
  alen A = h -> alen P = h -> mrows M = (2 * h)%nat -> mcols M = (2 * h)%nat ->
  let ca k := cos (P k) in let cp k := - A k * sin (P k) in
  let sa k := sin (P k) in let sp k := A k * cos (P k) in
  exists F U, AmpPhase2DFT_dt dt A P M = Ok (F, U) /\ mrows U = (2 * h)%nat /\ mcols U = (2 * h)%nat /\
    forall i j, U i j = stk4 h (q4 dt h M ca cp ca cp) (q4 dt h M ca cp sa sp) (q4 dt h M sa sp sa sp) i j.
Proof.
  intros HA HP HR HC ca cp sa sp. unfold AmpPhase2DFT_dt. rewrite HA, HP, HR, HC, !Nat.eqb_refl. simpl negb.
  cbv iota zeta.
  set (c1 := mkArr h (fun k => cos (P k))). set (c2 := mkArr h (fun k => - A k * sin (P k))).
  set (c3 := mkArr h (fun k => sin (P k))). set (c4 := mkArr h (fun k => A k * cos (P k))).
  assert (B1 : mrows (blk11 M h) = h /\ mcols (blk11 M h) = h) by (unfold blk11, sub2; simpl; lia).
  assert (B2 : mrows (blk12 M h) = h /\ mcols (blk12 M h) = h) by (unfold blk12, sub2; simpl; lia).
  assert (B3 : mrows (blk22 M h) = h /\ mcols (blk22 M h) = h) by (unfold blk22, sub2; simpl; lia).
  destruct B1 as [B1 B1'], B2 as [B2 B2'], B3 as [B3 B3'].
  assert (R1 : forall (a b c d : vec), alen a = h -> alen b = h -> alen c = h -> alen d = h ->
    exists S, sum4 (prod3_dt dt a (blk11 M h) c) (prod3_dt dt b (transp (blk12 M h)) c)
                   (prod3_dt dt a (blk12 M h) d) (prod3_dt dt b (blk22 M h) d) = Ok S /\
      mrows S = h /\ mcols S = h /\ forall i j, S i j = q4 dt h M a b c d i j).
  { intros a b c d Ha Hb Hc Hd.
    destruct (sum4_p3 dt h a (blk11 M h) c b (transp (blk12 M h)) c a (blk12 M h) d b (blk22 M h) d)
      as [S [E [SR [SC SV]]]]; try assumption; try reflexivity.
    exists S. split; [exact E|]. split; [exact SR|]. split; [exact SC|].
    intros i j. rewrite SV. unfold q4. simpl. reflexivity. }
  destruct (R1 c1 c2 c1 c2) as [S11 [E11 [R11 [C11 V11]]]]; try reflexivity.
  destruct (R1 c1 c2 c3 c4) as [S12 [E12 [R12 [C12 V12]]]]; try reflexivity.
  destruct (R1 c3 c4 c3 c4) as [S22 [E22 [R22 [C22 V22]]]]; try reflexivity.
  rewrite E11, E12, E22. simpl bind.
  destruct (stack4_blocks h S11 S12 S22) as [U [EU [RU [CU VU]]]]; try assumption.
  rewrite EU. simpl bind. eexists; eexists. split; [reflexivity|]. split; [exact RU|]. split; [exact CU|].
  intros i j. rewrite VU. unfold stk4. rewrite V11, V12, V12, V22. reflexivity.
Qed.

Lemma DFT2AmpPhase_dt_run dt (F : vec) M h :
  alen F = (2 * h)%nat -> mrows M = (2 * h)%nat -> mcols M = (2 * h)%nat ->
  let am k := sqrt (F k ^ 2 + F (h + k)%nat ^ 2) in
  let ar k := F k / am k in let ai k := F (h + k)%nat / am k in
  let pr k := - F (h + k)%nat / am k ^ 2 in let pi k := F k / am k ^ 2 in
  exists A P U, DFT2AmpPhase_dt dt F M = Ok (A, P, U) /\ mrows U = (2 * h)%nat /\ mcols U = (2 * h)%nat /\
    forall i j, U i j = stk4 h (q4 dt h M ar ai ar ai) (q4 dt h M ar ai pr pi) (q4 dt h M pr pi pr pi) i j.
Proof.
  intros HF HR HC am ar ai pr pi. unfold DFT2AmpPhase_dt. rewrite HF, half_2h, Nat.eqb_refl. simpl negb.
  cbv iota zeta. rewrite (uf_check_ok M h HR HC). cbn [bind].
  match goal with |- context [sum4 (prod3_dt dt ?a _ _) _ _ (prod3_dt dt ?b _ _)] =>
    set (c1 := a); set (c2 := b) end.
  match goal with |- context [sum4 (prod3_dt dt c1 _ ?a) _ _ (prod3_dt dt c2 _ ?b)] =>
    lazymatch a with c1 => fail | _ => set (c3 := a); set (c4 := b) end end.
  assert (B1 : mrows (blk11 M h) = h /\ mcols (blk11 M h) = h) by (unfold blk11, sub2; simpl; lia).
  assert (B2 : mrows (blk12 M h) = h /\ mcols (blk12 M h) = h) by (unfold blk12, sub2; simpl; lia).
  assert (B3 : mrows (blk22 M h) = h /\ mcols (blk22 M h) = h) by (unfold blk22, sub2; simpl; lia).
  destruct B1 as [B1 B1'], B2 as [B2 B2'], B3 as [B3 B3'].
  assert (R1 : forall (a b c d : vec), alen a = h -> alen b = h -> alen c = h -> alen d = h ->
    exists S, sum4 (prod3_dt dt a (blk11 M h) c) (prod3_dt dt a (blk12 M h) d)
                   (prod3_dt dt b (transp (blk12 M h)) c) (prod3_dt dt b (blk22 M h) d) = Ok S /\
      mrows S = h /\ mcols S = h /\ forall i j, S i j = q4 dt h M a b c d i j).
  { intros a b c d Ha Hb Hc Hd.
    destruct (sum4_p3 dt h a (blk11 M h) c a (blk12 M h) d b (transp (blk12 M h)) c b (blk22 M h) d)
      as [S [E [SR [SC SV]]]]; try assumption; try reflexivity.
    exists S. split; [exact E|]. split; [exact SR|]. split; [exact SC|].
    intros i j. rewrite SV. unfold q4. simpl. ring. }
  destruct (R1 c1 c2 c1 c2) as [S11 [E11 [R11 [C11 V11]]]]; try reflexivity.
  destruct (R1 c1 c2 c3 c4) as [S12 [E12 [R12 [C12 V12]]]]; try reflexivity.
  destruct (R1 c3 c4 c3 c4) as [S22 [E22 [R22 [C22 V22]]]]; try reflexivity.
  rewrite E11, E12, E22. simpl bind.
  destruct (stack4_blocks h S11 S12 S22) as [U [EU [RU [CU VU]]]]; try assumption.
  rewrite EU. simpl bind. eexists; eexists; eexists. split; [reflexivity|]. split; [exact RU|]. split; [exact CU|].
  intros i j. rewrite VU. unfold stk4. rewrite V11, V12, V12, V22. reflexivity.
Qed.

(** DFT_multiply: the signs are applied to the truncated products. *)
Definition m4 (dt : dtype) (h : nat) (M : mat) (s2 s3 s4 : R) (a b c d e f g i : nat -> R) (k l : nat) : R :=
  T3 dt (a k) (M k l) (b l) + s2 * T3 dt (c k) (M l (h + k)%nat) (d l)
  + s3 * T3 dt (e k) (M k (h + l)%nat) (f l) + s4 * T3 dt (g k) (M (h + k)%nat (h + l)%nat) (i l).

Lemma DFT_multiply_dt_run dt (Y F : vec) M h :
  alen Y = (2 * h)%nat -> alen F = (2 * h)%nat -> mrows M = (2 * h)%nat -> mcols M = (2 * h)%nat ->
  let r k := F k in let i k := F (h + k)%nat in
  exists V U, DFT_multiply_dt dt Y F M = Ok (V, U) /\ mrows U = (2 * h)%nat /\ mcols U = (2 * h)%nat /\
    forall p q, U p q = stk4 h (m4 dt h M (-1) (-1) 1 r r i r r i i i)
                               (m4 dt h M (-1) 1 (-1) r i i i r r i r)
                               (m4 dt h M 1 1 1 i i r i i r r r) p q.
Proof.
  intros HY HF HR HC r i. unfold DFT_multiply_dt. rewrite (mul_est_even Y F h HY HF), HY, HF, half_2h, !Nat.eqb_refl. simpl negb.
  cbv iota zeta. cbn [bind].
  set (c1 := slice F 0 h). set (c2 := slice F h (2 * h)).
  assert (L1 : alen c1 = h) by (subst c1; unfold slice; cbn [alen]; rewrite HF; lia).
  assert (L2 : alen c2 = h) by (subst c2; unfold slice; cbn [alen]; rewrite HF; lia).
  assert (B1 : mrows (blk11 M h) = h /\ mcols (blk11 M h) = h) by (unfold blk11, sub2; simpl; lia).
  assert (B2 : mrows (blk12 M h) = h /\ mcols (blk12 M h) = h) by (unfold blk12, sub2; simpl; lia).
  assert (B3 : mrows (blk22 M h) = h /\ mcols (blk22 M h) = h) by (unfold blk22, sub2; simpl; lia).
  destruct B1 as [B1 B1'], B2 as [B2 B2'], B3 as [B3 B3'].
  assert (N1 : forall v X w, mrows X = h -> mcols X = h -> alen v = h -> alen w = h ->
    (do m' <- prod3_dt dt v X w ;; Ok (scale2 (-1) m'))
    = Ok (mkMat h h (fun a b => -1 * T3 dt (v a) (X a b) (w b)))).
  { intros v X w X1 X2 X3 X4. rewrite prod3_dt_ok by lia. simpl. unfold scale2; simpl. rewrite X1, X2. reflexivity. }
  assert (N2 : forall v X w, mrows X = h -> mcols X = h -> alen v = h -> alen w = h ->
    prod3_dt dt v X w = Ok (mkMat h h (fun a b => T3 dt (v a) (X a b) (w b)))).
  { intros v X w X1 X2 X3 X4. rewrite prod3_dt_ok by lia. rewrite X1, X2. reflexivity. }
  rewrite !N1 by (try assumption; try exact B2'; try exact B2; reflexivity).
  rewrite !N2 by (try assumption; try exact B2'; try exact B2; reflexivity).
  match goal with |- context [sum4 (Ok ?a) (Ok ?b) (Ok ?c) (Ok ?d)] =>
    destruct (sum4_ok a b c d h h) as [S11 [E11 [R11 [C11 V11]]]]; try reflexivity; rewrite E11 end.
  rewrite bind_ok.
  match goal with |- context [sum4 (Ok ?a) (Ok ?b) (Ok ?c) (Ok ?d)] =>
    destruct (sum4_ok a b c d h h) as [S12 [E12 [R12 [C12 V12]]]]; try reflexivity; rewrite E12 end.
  rewrite bind_ok.
  match goal with |- context [sum4 (Ok ?a) (Ok ?b) (Ok ?c) (Ok ?d)] =>
    destruct (sum4_ok a b c d h h) as [S22 [E22 [R22 [C22 V22]]]]; try reflexivity; rewrite E22 end.
  rewrite bind_ok.
  destruct (stack4_blocks h S11 S12 S22) as [U [EU [RU [CU VU]]]]; try assumption.
  rewrite EU. simpl bind. eexists; eexists. split; [reflexivity|]. split; [exact RU|]. split; [exact CU|].
  intros p q. rewrite VU. unfold stk4. rewrite V11, V12, V12, V22. unfold m4. cbn [mget transp].
  destruct (p <? h)%nat, (q <? h)%nat; simpl; unfold r, i; ring.
Qed.

Lemma apply_window_dt_run dt (x w : vec) M n :
  alen x = n -> alen w = n -> mrows M = n -> mcols M = n ->
  exists U, apply_window_dt dt x M w = Ok (vmul x w, SuMat U) /\ mrows U = n /\ mcols U = n /\
    forall i j, U i j = T3 dt (w i) (M i j) (w j).
Proof.
  intros Hx Hw HR HC. unfold apply_window_dt. rewrite Hx, Hw, HR, HC, !Nat.eqb_refl. simpl negb. cbv iota.
  rewrite prod3_dt_ok by lia. simpl. eexists. split; [reflexivity|]. simpl. auto.
Qed.
