(** Lemmas about the model of propagate_DFT.py: GUM_DFT and GUM_iDFT. *)
From Coq Require Import Reals List Arith ZArith Lia Lra Psatz Bool.
From Verif Require Import Base Sums Stats StatsFacts S_Jac P_Jac M_DFT S_DFT P_Trig.
Import ListNotations.
Open Scope R_scope.

(** ** Array operations *)
Lemma dot_ok A B : mcols A = mrows B ->
  dot A B = Ok (mkMat (mrows A) (mcols B) (fun i j => rsum (mcols A) (fun k => A i k * B k j))).
Proof. intros H. unfold dot. now rewrite H, Nat.eqb_refl. Qed.

Lemma add2_ok A B : mrows A = mrows B -> mcols A = mcols B ->
  exists C, add2 A B = Ok C /\ mrows C = mrows A /\ mcols C = mcols A /\
    forall i j, C i j = A i j + B i j.
Proof.
  intros H1 H2. unfold add2, bdim. rewrite <- H1, <- H2, !Nat.eqb_refl. simpl.
  eexists. split; [reflexivity|]. simpl. repeat split.
  intros i j. unfold bidx. now rewrite !Nat.eqb_refl.
Qed.

Lemma stack4_ok A B C D r c : mrows A = r -> mcols A = c -> mrows B = r -> mcols C = c ->
  mrows D = mrows C -> mcols D = mcols B ->
  exists S, stack4 A B C D = Ok S /\ mrows S = (r + mrows C)%nat /\ mcols S = (c + mcols B)%nat /\
    forall i j, S i j = if (i <? r)%nat then (if (j <? c)%nat then A i j else B i (j - c)%nat)
                        else (if (j <? c)%nat then C (i - r)%nat j else D (i - r)%nat (j - c)%nat).
Proof.
  intros H1 H2 H3 H4 H5 H6. unfold stack4. rewrite H1, H2, H3, H4, H5, H6, !Nat.eqb_refl. simpl.
  eexists. split; [reflexivity|]. simpl. repeat split.
Qed.

Lemma prod3_ok v M w : (mrows M <= alen v)%nat -> (mcols M <= alen w)%nat ->
  prod3 v M w = Ok (mkMat (mrows M) (mcols M) (fun i j => v i * (M i j * w j))).
Proof.
  intros H1 H2. unfold prod3, prod_mv, prod_vm.
  replace (alen w <? mcols M)%nat with false by (symmetry; apply Nat.ltb_ge; lia). simpl.
  replace (alen v <? mrows M)%nat with false by (symmetry; apply Nat.ltb_ge; lia). reflexivity.
Qed.

Lemma prod_vm_ok a B : (mrows B <= alen a)%nat ->
  prod_vm a B = Ok (mkMat (mrows B) (mcols B) (fun i j => a i * B i j)).
Proof.
  intros H. unfold prod_vm.
  replace (alen a <? mrows B)%nat with false by (symmetry; apply Nat.ltb_ge; lia). reflexivity.
Qed.

Lemma sum4_ok A B C D r c :
  mrows A = r -> mcols A = c -> mrows B = r -> mcols B = c ->
  mrows C = r -> mcols C = c -> mrows D = r -> mcols D = c ->
  exists S, sum4 (Ok A) (Ok B) (Ok C) (Ok D) = Ok S /\ mrows S = r /\ mcols S = c /\
    forall i j, S i j = A i j + B i j + C i j + D i j.
Proof.
  intros. unfold sum4. simpl.
  destruct (add2_ok A B) as [S1 [E1 [R1 [C1 V1]]]]; [congruence|congruence|].
  rewrite E1. simpl.
  destruct (add2_ok S1 C) as [S2 [E2 [R2 [C2 V2]]]]; [congruence|congruence|].
  rewrite E2. simpl.
  destruct (add2_ok S2 D) as [S3 [E3 [R3 [C3 V3]]]]; [congruence|congruence|].
  exists S3. split; [exact E3|]. split; [congruence|]. split; [congruence|].
  intros i j. now rewrite V3, V2, V1.
Qed.

Lemma nth_seq0 n i : (i < n)%nat -> nth i (seq 0 n) 0%nat = i.
Proof. intros H. rewrite seq_nth by assumption. reflexivity. Qed.

(** ** GUM_DFT *)
Definition lines (n : nat) (mask : option (arr bool)) : list nat :=
  match mask with Some m => true_idx m | None => seq 0 (n / 2 + 1) end.

Lemma row_nomask n i : (i < 2 * (n / 2 + 1))%nat -> row (n / 2 + 1) (lines n None) i = i.
Proof.
  intros Hi. unfold row, lines. rewrite seq_length.
  destruct (Nat.ltb_spec i (n / 2 + 1)).
  - apply nth_seq0; assumption.
  - rewrite nth_seq0 by lia. lia.
Qed.

Lemma lines_lt n mask k : mask_fits n mask -> In k (lines n mask) -> (k < n / 2 + 1)%nat.
Proof.
  destruct mask as [m|]; simpl; intros Hf Hin.
  - unfold true_idx in Hin. apply filter_In in Hin. destruct Hin as [Hin _].
    apply in_seq in Hin. lia.
  - apply in_seq in Hin. lia.
Qed.
Lemma row_nth_lt n mask i : mask_fits n mask -> (i < length (lines n mask))%nat ->
  (nth i (lines n mask) 0 < n / 2 + 1)%nat.
Proof. intros Hf Hi. eapply lines_lt; eauto. now apply nth_In. Qed.

Lemma Cxkc_coeff n H k m : (k < H)%nat -> Cxkc n k m = dft_coeff n H k m.
Proof.
  intros Hk. unfold Cxkc, beta_dft, dft_coeff. apply Nat.ltb_lt in Hk. rewrite Hk. f_equal.
  unfold Rdiv. ring.
Qed.
Lemma Cxks_coeff n H k m : Cxks n k m = dft_coeff n H (H + k) m.
Proof.
  unfold Cxks, beta_dft, dft_coeff.
  replace (H + k <? H)%nat with false by (symmetry; apply Nat.ltb_ge; lia).
  replace (H + k - H)%nat with k by lia. do 2 f_equal. unfold Rdiv. ring.
Qed.

Lemma rfft_re_map (x : vec) H k : (k < H)%nat -> rfft_re x k = dft_map (alen x) H (alen x) x k.
Proof.
  intros Hk. unfold rfft_re, dft_map, rfft_angle. apply rsum_ext; intros m _.
  unfold dft_coeff. apply Nat.ltb_lt in Hk. rewrite Hk. ring.
Qed.
Lemma rfft_im_map (x : vec) H k : rfft_im x k = dft_map (alen x) H (alen x) x (H + k).
Proof.
  unfold rfft_im, dft_map, rfft_angle. apply rsum_ext; intros m _.
  unfold dft_coeff. replace (H + k <? H)%nat with false by (symmetry; apply Nat.ltb_ge; lia).
  replace (H + k - H)%nat with k by lia. ring.
Qed.

Lemma dft_map_pad n H L (x : nat -> R) (xp : nat -> R) i : (L <= n)%nat ->
  (forall m, (m < L)%nat -> xp m = x m) -> (forall m, (L <= m < n)%nat -> xp m = 0) ->
  dft_map n H n xp i = dft_map n H L x i.
Proof.
  intros HL H1 H2. unfold dft_map. rewrite (rsum_split n L) by assumption.
  rewrite (rsum_zero (n - L)), Rplus_0_r.
  - apply rsum_ext; intros m Hm. now rewrite H1.
  - intros m Hm. rewrite H2 by lia. ring.
Qed.


Lemma dft_len_ge L N : pad_fits L N -> (L <= dft_len L N)%nat.
Proof. destruct N; simpl; lia. Qed.

Definition unc_ok (L : nat) (U : nat -> nat -> R) (n : nat) (rw : nat -> nat) (q : nat)
           (isvec : Prop) (u : funcert) : Prop :=
  match u with
  | FuVec v => isvec /\ alen v = (2 * q)%nat /\
      forall i, (i < 2 * q)%nat ->
        v i = sandwich L (fun r m => dft_coeff n (n / 2 + 1) (rw r) m) U
                       (fun r m => dft_coeff n (n / 2 + 1) (rw r) m) i i
  | FuMat M => ~ isvec /\ mrows M = (2 * q)%nat /\ mcols M = (2 * q)%nat /\
      forall i j, (i < 2 * q)%nat -> (j < 2 * q)%nat ->
        M i j = sandwich L (fun r m => dft_coeff n (n / 2 + 1) (rw r) m) U
                       (fun r m => dft_coeff n (n / 2 + 1) (rw r) m) i j
  end.

Definition is_scalar (u : sunc) : Prop := match u with SuFloat _ => True | _ => False end.

Ltac dft_matrix_case L H q n idx U SU HU Hr Hc Hsym HF Hcoef ESU :=
    rewrite (dot_ok U) by (simpl; assumption);
    rewrite dot_ok by (simpl; congruence);
    rewrite (dot_ok U) by (simpl; assumption);
    rewrite dot_ok by (simpl; congruence);
    rewrite dot_ok by (simpl; congruence);
    match goal with |- context [stack4 ?A ?B ?C ?D] =>
      let S := fresh "S" in let ES := fresh "ES" in let SR := fresh "SR" in
      let SC := fresh "SC" in let SV := fresh "SV" in
      destruct (stack4_ok A B C D q q) as [S [ES [SR [SC SV]]]];
        [reflexivity|reflexivity|reflexivity|reflexivity|reflexivity|reflexivity|];
      rewrite ES; eexists; split; [reflexivity|]; cbn [dft_F dft_U dft_C];
      split; [simpl; fold q; lia|];
      split; [exact HF|]; split; [|match goal with |- _ = (if ?b then _ else _) => destruct b end; reflexivity];
      cbn [unc_ok is_scalar]; split; [tauto|]; rewrite SR, SC; simpl transp; simpl mrows; simpl mcols;
      fold q; split; [lia|]; split; [lia|];
      let i := fresh "i" in let j := fresh "j" in let Hi := fresh "Hi" in let Hj := fresh "Hj" in
      intros i j Hi Hj; rewrite SV; rewrite <- ?ESU; clear ESU; unfold sandwich; fold L H;
      rewrite (rsum_ext L (fun a => rsum L (fun b => dft_coeff n H (row H idx i) a * _ * _))
         (fun a => rsum L (fun b =>
          (if (i <? q)%nat then Cxkc n (nth i idx 0%nat) a else Cxks n (nth (i - q) idx 0%nat) a) *
          SU a b *
          (if (j <? q)%nat then Cxkc n (nth j idx 0%nat) b else Cxks n (nth (j - q) idx 0%nat) b))))
       by (intros; apply rsum_ext; intros; now rewrite !Hcoef);
      destruct (i <? q)%nat eqn:?, (j <? q)%nat eqn:?; simpl; rewrite ?Hc;
      [ apply rsum_ext; intros; rewrite <- rsum_scal; apply rsum_ext; intros; rewrite HU; ring
      | apply rsum_ext; intros; rewrite <- rsum_scal; apply rsum_ext; intros; rewrite HU; ring
      | rewrite rsum_swap; apply rsum_ext; intros; rewrite <- rsum_scal; apply rsum_ext; intros;
        rewrite HU; rewrite Hsym by assumption; ring
      | apply rsum_ext; intros; rewrite <- rsum_scal; apply rsum_ext; intros; rewrite HU; ring ]
    end.

Lemma GUM_DFT_core x Ux N rc mask :
  let L := alen x in let n := dft_len L N in let idx := lines n mask in
  let q := length idx in let H := (n / 2 + 1)%nat in
  sig_fits L Ux -> symm L (sig_U Ux) -> pad_fits L N -> (1 <= n)%nat -> mask_fits n mask ->
  exists o, GUM_DFT x Ux N None None None rc mask = Ok o /\
    alen (dft_F o) = (2 * q)%nat /\
    (forall i, (i < 2 * q)%nat -> dft_F o i = dft_map n H L x (row H idx i)) /\
    unc_ok L (sig_U Ux) n (row H idx) q (is_scalar Ux) (dft_U o) /\
    dft_C o = (if rc then Some match Ux with
                           | SuFloat _ => (None, None)
                           | _ => (Some (mkMat q L (fun i m => Cxkc n (nth i idx 0%nat) m)),
                                   Some (mkMat q L (fun i m => Cxks n (nth i idx 0%nat) m)))
                           end else None).
Proof.
  intros L n idx q H Hs Hsym Hp Hn Hm.
  pose proof (dft_len_ge L N Hp) as HLn. fold n in HLn.
  (* padding *)
  set (xp := match N with
             | Some z => cat x (mkArr (Z.to_nat z - alen x) (fun _ => 0)) | None => x end).
  assert (Hpad : match N with
                 | Some z => if (z <? Z.of_nat (alen x))%Z then Err ValueError
                     else let L := (Z.to_nat z - alen x)%nat in
                          Ok (cat x (mkArr L (fun _ => 0)), L)
                 | None => Ok (x, 0%nat) end = Ok (xp, (n - L)%nat)).
  { unfold xp, n, dft_len. destruct N as [z|]; simpl in Hp.
    - replace (z <? Z.of_nat (alen x))%Z with false by (symmetry; apply Z.ltb_ge; exact Hp).
      reflexivity.
    - f_equal. f_equal. lia. }
  assert (Hxl : alen xp = n).
  { unfold xp, n, dft_len in *. destruct N; simpl; unfold L in *; lia. }
  assert (Hx1 : forall m, (m < L)%nat -> xp m = x m).
  { intros m Hm'. unfold xp. destruct N; [|reflexivity]. simpl. unfold L in Hm'.
    apply Nat.ltb_lt in Hm'. now rewrite Hm'. }
  assert (Hx2 : forall m, (L <= m < n)%nat -> xp m = 0).
  { intros m Hm'. unfold xp. destruct N; simpl; [|unfold n, dft_len, L in *; lia].
    replace (m <? alen x)%nat with false by (symmetry; apply Nat.ltb_ge; unfold L in *; lia).
    reflexivity. }
  assert (Hrf : rfft xp = Ok (mkArr H (rfft_re xp), mkArr H (rfft_im xp))).
  { unfold rfft. rewrite Hxl.
    replace (n =? 0)%nat with false by (symmetry; apply Nat.eqb_neq; lia). reflexivity. }
  assert (Hidx : match mask with
            | Some m => if (alen m =? alen (mkArr H (rfft_re xp)))%nat then Ok (true_idx m) else Err IndexError
            | None => Ok (seq 0 (alen (mkArr H (rfft_re xp)))) end = Ok idx).
  { unfold idx, lines. destruct mask as [m|]; simpl; [|reflexivity].
    simpl in Hm. rewrite Hm. unfold H. now rewrite Nat.eqb_refl. }
  assert (HF : forall i, (i < 2 * q)%nat ->
     cat (take_list (mkArr H (rfft_re xp)) idx) (take_list (mkArr H (rfft_im xp)) idx) i
     = dft_map n H L x (row H idx i)).
  { intros i Hi. unfold cat, take_list, row. simpl. fold q.
    destruct (Nat.ltb_spec i q).
    - rewrite (rfft_re_map xp H) by (apply row_nth_lt; assumption).
      rewrite Hxl. now apply dft_map_pad.
    - rewrite (rfft_im_map xp H), Hxl. now apply dft_map_pad. }
  cbv zeta in Hpad. unfold GUM_DFT. cbv beta iota zeta delta [bind]. rewrite Hpad. rewrite Hrf. rewrite Hidx.
  rewrite Hxl. replace (n - (n - L))%nat with L by lia.
  assert (Hcoef : forall r m, (r < 2 * q)%nat -> dft_coeff n H (row H idx r) m =
      if (r <? q)%nat then Cxkc n (nth r idx 0%nat) m else Cxks n (nth (r - q) idx 0%nat) m).
  { intros r m Hr. unfold row. fold q. destruct (Nat.ltb_spec r q).
    - symmetry. apply Cxkc_coeff. now apply row_nth_lt.
    - symmetry. apply Cxks_coeff. }
  destruct Ux as [u|v|U].
  - (* float *)
    eexists. split; [reflexivity|]. cbn [dft_F dft_U dft_C]. split.
    { simpl. fold q. lia. }
    split; [exact HF|]. split.
    + cbn [unc_ok]. split; [exact I|]. split; [simpl; fold q; lia|].
      intros i Hi. fold L H. unfold sandwich.
      rewrite (rsum_ext L _ (fun a => u * dft_coeff n H (row H idx i) a ^ 2)).
      2:{ intros a Ha. rewrite (rsum_single L a); auto.
          - simpl. rewrite Nat.eqb_refl. ring.
          - intros b _ Hb. simpl. apply Nat.neq_sym, Nat.eqb_neq in Hb. rewrite Hb. ring. }
      rewrite (rsum_ext L _ (fun a => u * (if (i <? q)%nat then Cxkc n (nth i idx 0%nat) a else Cxks n (nth (i - q) idx 0%nat) a) ^ 2))
        by (intros; now rewrite Hcoef).
      unfold cat, take_list. simpl. fold q. destruct (i <? q)%nat; reflexivity.
    + destruct rc; reflexivity.
  - (* vector *)
    assert (Hsh : mrows (diagm v) = L /\ mcols (diagm v) = L) by (simpl in *; auto).
    assert (HU : forall a b, diagm v a b = sig_U (SuVec v) a b) by reflexivity.
    remember (diagm v) as U eqn:EU. clear EU. remember (sig_U (SuVec v)) as SU eqn:ESU.
    destruct Hsh as [Hr Hc].
    cbv zeta. dft_matrix_case L H q n idx U SU HU Hr Hc Hsym HF Hcoef ESU.
  - (* matrix *)
    assert (Hsh : mrows U = L /\ mcols U = L) by (simpl in *; auto).
    assert (HU : forall a b, U a b = sig_U (SuMat U) a b) by reflexivity.
    remember (sig_U (SuMat U)) as SU eqn:ESU.
    destruct Hsh as [Hr Hc].
    cbv zeta. dft_matrix_case L H q n idx U SU HU Hr Hc Hsym HF Hcoef ESU.
Qed.

Lemma GUM_DFT_window x Ux N w x' U' c s rc mask : apply_window x Ux w = Ok (x', U') ->
  GUM_DFT x Ux N (Some w) c s rc mask = GUM_DFT x' U' N None c s rc mask.
Proof. intros H. unfold GUM_DFT. rewrite H. reflexivity. Qed.

Lemma apply_window_ok x Ux w : let L := alen x in
  sig_fits L Ux -> win_fits L Ux (Some w) ->
  exists x' U', apply_window x Ux w = Ok (x', U') /\ alen x' = L /\
    (forall m, x' m = w m * x m) /\ sig_fits L U' /\ ~ is_scalar U' /\
    forall a b, sig_U U' a b = w a * sig_U Ux a b * w b.
Proof.
  intros L Hs [Hw Hv]. unfold apply_window. rewrite Hw. unfold L. rewrite Nat.eqb_refl. simpl negb.
  cbv iota. destruct Ux as [u|v|M]; [|contradiction|].
  - eexists. eexists. split; [reflexivity|]. simpl. split; [reflexivity|].
    split; [intros; simpl; ring|]. split; [exact Hw|]. split; [tauto|].
    intros a b. destruct (Nat.eqb_spec a b); [subst|]; simpl; ring.
  - destruct Hs as [H1 H2]. rewrite H1, H2. unfold L. rewrite !Nat.eqb_refl. simpl negb. cbv iota.
    rewrite prod3_ok by (rewrite ?H1, ?H2, Hw; lia). simpl bind.
    eexists. eexists. split; [reflexivity|]. simpl. split; [reflexivity|].
    split; [intros; simpl; ring|]. split; [split; assumption|]. split; [tauto|].
    intros a b. ring.
Qed.

(** GUM_DFT on all admissible arguments. *)
Lemma GUM_DFT_run x Ux N w rc mask :
  let L := alen x in let n := dft_len L N in let idx := lines n mask in
  let q := length idx in let H := (n / 2 + 1)%nat in
  sig_fits L Ux -> symm L (sig_U Ux) -> win_fits L Ux w -> pad_fits L N -> (1 <= n)%nat ->
  mask_fits n mask ->
  exists o, GUM_DFT x Ux N w None None rc mask = Ok o /\
    alen (dft_F o) = (2 * q)%nat /\
    (forall i, (i < 2 * q)%nat -> dft_F o i = dft_map n H L (fun m => win w m * x m) (row H idx i)) /\
    unc_ok L (fun a b => win w a * sig_U Ux a b * win w b) n (row H idx) q
           (is_scalar Ux /\ w = None) (dft_U o).
Proof.
  intros L n idx q H Hs Hsym Hw Hp Hn Hm. destruct w as [w|].
  - destruct (apply_window_ok x Ux w Hs Hw) as [x' [U' [E [Hl [Hx [Hf [Hns HU]]]]]]].
    rewrite (GUM_DFT_window _ _ _ _ _ _ _ _ _ _ E).
    destruct (GUM_DFT_core x' U' N rc mask) as [o [E1 [E2 [E3 [E4 _]]]]]; rewrite ?Hl; auto.
    { intros a b Ha Hb. rewrite !HU. rewrite Hsym by assumption. ring. }
    rewrite Hl in *. fold L n idx q H in E2, E3, E4.
    exists o. split; [exact E1|]. split; [exact E2|]. split.
    + intros i Hi. rewrite E3 by assumption. unfold dft_map. apply rsum_ext; intros m _.
      rewrite Hx. reflexivity.
    + unfold unc_ok in *. destruct (dft_U o) as [v|M].
      * destruct E4 as [? _]. contradiction.
      * destruct E4 as [_ [R1 [R2 R3]]]. split; [intros [_ ?]; discriminate|].
        split; [exact R1|]. split; [exact R2|]. intros i j Hi Hj. rewrite R3 by assumption.
        unfold sandwich. apply rsum_ext; intros a _. apply rsum_ext; intros b _.
        rewrite HU. reflexivity.
  - destruct (GUM_DFT_core x Ux N rc mask) as [o [E1 [E2 [E3 [E4 _]]]]]; auto.
    fold L n idx q H in E2, E3, E4.
    exists o. split; [exact E1|]. split; [exact E2|]. split.
    + intros i Hi. rewrite E3 by assumption. unfold dft_map. apply rsum_ext; intros m _.
      simpl. ring.
    + unfold unc_ok in *. destruct (dft_U o) as [v|M].
      * destruct E4 as [R0 [R1 R3]]. split; [split; [exact R0|reflexivity]|].
        split; [exact R1|]. intros i Hi. rewrite R3 by assumption.
        unfold sandwich. apply rsum_ext; intros a _. apply rsum_ext; intros b _. simpl. ring.
      * destruct E4 as [R0 [R1 [R2 R3]]]. split; [intros [? _]; contradiction|].
        split; [exact R1|]. split; [exact R2|]. intros i j Hi Hj. rewrite R3 by assumption.
        unfold sandwich. apply rsum_ext; intros a _. apply rsum_ext; intros b _. simpl. ring.
Qed.

(** The coefficients of one line are orthogonal to those of any other one. *)
Lemma dft_orth n i j : (1 <= n)%nat -> let H := (n / 2 + 1)%nat in
  (i < 2 * H)%nat -> (j < 2 * H)%nat -> i <> j ->
  rsum n (fun m => dft_coeff n H i m * dft_coeff n H j m) = 0.
Proof.
  intros Hn H Hi Hj Hne.
  assert (HH : (2 * (H - 1) <= n)%nat).
  { unfold H. pose proof (Nat.div_mod n 2 ltac:(lia)). lia. }
  unfold dft_coeff. destruct (Nat.ltb_spec i H), (Nat.ltb_spec j H).
  - apply (cc_sum n i j); lia.
  - rewrite (rsum_ext n _ (fun m => - (cos (ang n i m) * sin (ang n (j - H) m)))).
    + rewrite rsum_opp, cs_sum by lia. ring.
    + intros. unfold ang. ring.
  - rewrite (rsum_ext n _ (fun m => - (cos (ang n j m) * sin (ang n (i - H) m)))).
    + rewrite rsum_opp, cs_sum by lia. ring.
    + intros. unfold ang. ring.
  - rewrite (rsum_ext n _ (fun m => sin (ang n (i - H) m) * sin (ang n (j - H) m))).
    + apply ss_sum; lia.
    + intros. unfold ang. ring.
Qed.

(** ** Transform without window, padding and mask *)
Lemma dft_plain x Ux rc : let n := alen x in let H := (n / 2 + 1)%nat in
  sig_fits n Ux -> symm n (sig_U Ux) -> (1 <= n)%nat ->
  exists o, GUM_DFT x Ux None None None None rc None = Ok o /\ alen (dft_F o) = (2 * H)%nat /\
    (forall i, (i < 2 * H)%nat -> dft_F o i = dft_map n H n x i) /\
    fun_fits (2 * H) (dft_U o) /\ symm (2 * H) (fun_U (dft_U o)) /\
    forall i j, (i < 2 * H)%nat -> (j < 2 * H)%nat ->
      fun_U (dft_U o) i j = sandwich n (fun r m => dft_coeff n H r m) (sig_U Ux) (fun r m => dft_coeff n H r m) i j.
Proof.
  intros n H Hs Hy Hn.
  destruct (GUM_DFT_run x Ux None None rc None) as [o [E [HL [HF HU]]]]; auto; try exact I.
  change (dft_len (alen x) None) with n in HL, HF, HU. unfold lines in HL, HF, HU. fold n H in HL, HF, HU.
  rewrite seq_length in HL, HF, HU.
  assert (Hrow : forall i, (i < 2 * H)%nat -> row H (seq 0 H) i = i) by (intros; apply row_nomask; assumption).
  assert (HV : fun_fits (2 * H) (dft_U o) /\ forall i j, (i < 2 * H)%nat -> (j < 2 * H)%nat ->
      fun_U (dft_U o) i j = sandwich n (fun r m => dft_coeff n H r m) (sig_U Ux) (fun r m => dft_coeff n H r m) i j).
  { unfold unc_ok in HU. fold H in HU. destruct (dft_U o) as [v|M].
    - destruct HU as [[Hsc _] [Hl Hv]]. split; [exact Hl|]. intros i j Hi Hj. cbn [fun_U].
      destruct (Nat.eqb_spec i j) as [<-|Hne].
      + rewrite Hv by assumption. unfold sandwich. rewrite Hrow by assumption.
        apply rsum_ext; intros a _. apply rsum_ext; intros b _. simpl. ring.
      + destruct Ux as [u| |]; try contradiction. unfold sandwich. symmetry.
        rewrite (rsum_ext n _ (fun a => u * (dft_coeff n H i a * dft_coeff n H j a))).
        * rewrite rsum_scal. rewrite dft_orth by assumption. ring.
        * intros a Ha. rewrite (rsum_single n a); auto; cbn [sig_U].
          -- rewrite Nat.eqb_refl. ring.
          -- intros b _ Hb. apply Nat.neq_sym, Nat.eqb_neq in Hb. rewrite Hb. ring.
    - destruct HU as [_ [Hr [Hc HM]]]. split; [split; assumption|]. intros i j Hi Hj. cbn [fun_U].
      rewrite HM by assumption. unfold sandwich. rewrite !Hrow by assumption.
      apply rsum_ext; intros a _. apply rsum_ext; intros b _. simpl. ring. }
  destruct HV as [Hf HV].
  exists o. split; [exact E|]. split; [exact HL|]. split.
  { intros i Hi. rewrite HF, Hrow by assumption. unfold dft_map. apply rsum_ext; intros; simpl; ring. }
  split; [exact Hf|]. split; [|exact HV].
  intros i j Hi Hj. rewrite !HV by assumption. now apply sandwich_symm.
Qed.

