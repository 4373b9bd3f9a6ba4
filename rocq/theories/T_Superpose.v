(** Sums of signals, offsets and reversed signals in the frequency domain (C164).  Model: M_DFT.v.  Vocabulary: S_DFT.v. *)
From Coq Require Import Reals List Arith ZArith Bool Lia Lra Psatz String.
From Verif Require Import Base Sums Stats StatsFacts M_Filter S_Filter S_Conv P_Filter P_Filter2 P_Filter3 P_Conv
  M_DFT S_Jac S_DFT P_Jac P_Trig P_DFT P_AmpPhase P_Deconv T_DFT T_AmpPhase T_ConvThm T_Delay.
Import ListNotations.
Open Scope R_scope.

Lemma sandwich_plus m J K U V W i j : (forall a b, (a < m)%nat -> (b < m)%nat -> W a b = U a b + V a b) ->
  sandwich m J W K i j = sandwich m J U K i j + sandwich m J V K i j.
Proof.
  intros H. unfold sandwich. rewrite <- rsum_plus. apply rsum_ext. intros a Ha. rewrite <- rsum_plus. apply rsum_ext. intros b Hb.
  rewrite H by assumption. ring.
Qed.
Lemma run_U L U n rw q isvec u i j : unc_ok L U n rw q isvec u -> (i < 2 * q)%nat -> (j < 2 * q)%nat -> (i = j \/ ~ isvec) ->
  fun_U u i j = sandwich L (fun r m => dft_coeff n (n / 2 + 1) (rw r) m) U (fun r m => dft_coeff n (n / 2 + 1) (rw r) m) i j.
Proof.
  intros H Hi Hj D. destruct u as [v|M]; cbn [unc_ok fun_U] in *.
  - destruct H as (V & _ & H). destruct D as [<-|D]; [|contradiction]. rewrite Nat.eqb_refl. now apply H.
  - destruct H as (_ & _ & _ & H). now apply H.
Qed.

(** The signal x + y with x and y independent, i.e. with the sum of the covariance matrices: lines and variances add up, also with
    zero padding, window and mask; so do the covariances wherever they are returned (matrices, or a window). *)
Theorem C164_superposition : forall x y z Ux Uy Uz N w rc mask,
  let L := alen x in let n := dft_len L N in
  alen y = L -> alen z = L -> (forall m, (m < L)%nat -> z m = x m + y m) ->
  sig_fits L Ux -> sig_fits L Uy -> sig_fits L Uz -> symm L (sig_U Ux) -> symm L (sig_U Uy) ->
  (forall a b, (a < L)%nat -> (b < L)%nat -> sig_U Uz a b = sig_U Ux a b + sig_U Uy a b) ->
  win_fits L Ux w -> win_fits L Uy w -> win_fits L Uz w -> pad_fits L N -> (1 <= n)%nat -> mask_fits n mask ->
  exists ox oy oz, GUM_DFT x Ux N w None None rc mask = Ok ox /\ GUM_DFT y Uy N w None None rc mask = Ok oy /\
    GUM_DFT z Uz N w None None rc mask = Ok oz /\
    alen (dft_F oz) = alen (dft_F ox) /\ alen (dft_F oy) = alen (dft_F ox) /\
    (forall i, (i < alen (dft_F ox))%nat -> dft_F oz i = dft_F ox i + dft_F oy i /\
       fun_U (dft_U oz) i i = fun_U (dft_U ox) i i + fun_U (dft_U oy) i i) /\
    (w <> None \/ ((forall c, Ux <> SuFloat c) /\ (forall c, Uy <> SuFloat c) /\ (forall c, Uz <> SuFloat c)) ->
     forall i j, (i < alen (dft_F ox))%nat -> (j < alen (dft_F ox))%nat ->
       fun_U (dft_U oz) i j = fun_U (dft_U ox) i j + fun_U (dft_U oy) i j).
Proof.
  intros x y z Ux Uy Uz N w rc mask L n Ly Lz Hz Fx Fy Fz Sx Sy HU Wx Wy Wz Hp Hn Hm.
  assert (Sz : symm L (sig_U Uz)) by (intros a b Ha Hb; rewrite !HU by assumption; rewrite Sx, Sy by assumption; reflexivity).
  destruct (GUM_DFT_run x Ux N w rc mask) as (ox & E1 & A1 & B1 & D1); auto.
  destruct (GUM_DFT_run y Uy N w rc mask) as (oy & E2 & A2 & B2 & D2); rewrite ?Ly; auto.
  destruct (GUM_DFT_run z Uz N w rc mask) as (oz & E3 & A3 & B3 & D3); rewrite ?Lz; auto.
  cbv zeta in *. rewrite Ly in A2, B2, D2. rewrite Lz in A3, B3, D3. fold L in A1, B1, D1. fold n in A1, B1, D1, A2, B2, D2, A3, B3, D3.
  set (idx := lines n mask) in *. set (q := Datatypes.length idx) in *. set (H := (n / 2 + 1)%nat) in *.
  assert (K : forall i j, (i < 2 * q)%nat -> (j < 2 * q)%nat ->
     i = j \/ (~ (is_scalar Ux /\ w = None) /\ ~ (is_scalar Uy /\ w = None) /\ ~ (is_scalar Uz /\ w = None)) ->
     fun_U (dft_U oz) i j = fun_U (dft_U ox) i j + fun_U (dft_U oy) i j).
  { intros i j Hi Hj D. rewrite (run_U _ _ _ _ _ _ _ i j D1), (run_U _ _ _ _ _ _ _ i j D2), (run_U _ _ _ _ _ _ _ i j D3) by tauto.
    apply sandwich_plus. intros a b Ha Hb. rewrite HU by assumption. ring. }
  exists ox, oy, oz. repeat (split; [assumption||congruence|]). rewrite A1. split.
  - intros i Hi. split; [|apply K; auto]. rewrite B1, B2, B3 by assumption. unfold dft_map. rewrite <- rsum_plus. apply rsum_ext.
    intros m Hmm. rewrite Hz by assumption. ring.
  - intros D i j Hi Hj. apply K; try assumption. right. destruct D as [D|(Dx & Dy & Dz)]; [tauto|].
    split; [|split]; intros [X _]; [destruct Ux|destruct Uy|destruct Uz]; try contradiction; [apply (Dx u)|apply (Dy u)|apply (Dz u)]; reflexivity.
Qed.

(** A constant added to all samples appears in the real part of line 0, n times; all other lines and all uncertainties stay. *)
Theorem C164_offset : forall x Ux c rc,
  let n := alen x in let h := (n / 2 + 1)%nat in
  sig_fits n Ux -> symm n (sig_U Ux) -> (1 <= n)%nat ->
  exists o o', GUM_DFT x Ux None None None None rc None = Ok o /\
    GUM_DFT (mkArr n (fun m => x m + c)) Ux None None None None rc None = Ok o' /\
    alen (dft_F o) = (2 * h)%nat /\ alen (dft_F o') = (2 * h)%nat /\
    dft_F o' 0%nat = dft_F o 0%nat + INR n * c /\
    (forall i, (0 < i < 2 * h)%nat -> dft_F o' i = dft_F o i) /\
    forall i j, (i < 2 * h)%nat -> (j < 2 * h)%nat -> fun_U (dft_U o') i j = fun_U (dft_U o) i j.
Proof.
  intros x Ux c rc n h Hs Hy Hn.
  destruct (dft_plain x Ux rc Hs Hy Hn) as (o & E & HL & HF & _ & _ & HV).
  destruct (dft_plain (mkArr n (fun m => x m + c)) Ux rc Hs Hy Hn) as (o' & E' & HL' & HF' & _ & _ & HV').
  cbn [alen] in HL', HF', HV'. fold n h in HL, HF, HV, HL', HF', HV'.
  assert (C0 : forall m, dft_coeff n h 0 m = 1).
  { intros m. unfold dft_coeff. destruct (Nat.ltb_spec 0 h); [|unfold h in *; lia]. simpl INR.
    replace (2 * PI * 0 * INR m / INR n) with 0 by (unfold Rdiv; ring). apply cos_0. }
  assert (S : forall i, dft_map n h n (fun m => x m + c) i = dft_map n h n x i + c * rsum n (dft_coeff n h i)).
  { intros i. unfold dft_map. rewrite <- rsum_scal, <- rsum_plus. apply rsum_ext. intros m _. ring. }
  exists o, o'. repeat (split; [assumption|]). split; [|split].
  - rewrite HF, HF' by (unfold h; lia). cbn [aget]. rewrite S. f_equal. rewrite (rsum_ext n _ (fun _ => 1)) by (intros; apply C0).
    rewrite rsum_const. ring.
  - intros i Hi. rewrite HF, HF' by lia. cbn [aget]. rewrite S.
    replace (rsum n (dft_coeff n h i)) with 0; [ring|].
    pose proof (dft_orth n i 0 Hn) as O. cbv zeta in O. fold h in O. rewrite <- O by lia.
    apply rsum_ext. intros m _. rewrite C0. ring.
  - intros i j Hi Hj. rewrite HV, HV' by assumption. reflexivity.
Qed.

(** Sample n - m in place of sample m (sample 0 stays). *)
Definition turn_idx (n m : nat) : nat := if (m =? 0)%nat then 0%nat else (n - m)%nat.
Definition turned (x : vec) : vec := mkArr (alen x) (fun m => x (turn_idx (alen x) m)).
Definition turned_unc (U : sunc) : sunc :=
  match U with
  | SuFloat u => SuFloat u
  | SuVec v => SuVec (turned v)
  | SuMat M => SuMat (mkMat (mrows M) (mcols M) (fun a b => M (turn_idx (mrows M) a) (turn_idx (mcols M) b)))
  end.
Definition sign_at (h i : nat) : R := if (i <? h)%nat then 1 else -1.
Lemma turn_lt n m : (m < n)%nat -> (turn_idx n m < n)%nat.
Proof. unfold turn_idx. destruct (Nat.eqb_spec m 0); lia. Qed.
Lemma turn_inj n a b : (a < n)%nat -> (b < n)%nat -> turn_idx n a = turn_idx n b -> a = b.
Proof. unfold turn_idx. destruct (Nat.eqb_spec a 0), (Nat.eqb_spec b 0); lia. Qed.
Lemma rsum_turn n f : rsum n (fun m => f (turn_idx n m)) = rsum n f.
Proof.
  destruct n as [|n]; [reflexivity|]. rewrite !rsum_S_l. f_equal. rewrite (rsum_rev n (fun i => f (S i))). apply rsum_ext.
  intros i Hi. unfold turn_idx. cbn [Nat.eqb]. f_equal. lia.
Qed.
Lemma dft_coeff_turn n h i m : (1 <= n)%nat -> (m < n)%nat -> dft_coeff n h i m = sign_at h i * dft_coeff n h i (turn_idx n m).
Proof.
  intros Hn Hm. unfold dft_coeff, sign_at, turn_idx. destruct (Nat.eqb_spec m 0) as [->|Hm0].
  - simpl INR. destruct (i <? h)%nat; [ring|]. replace (2 * PI * INR (i - h) * 0 / INR n) with 0 by (unfold Rdiv; ring). rewrite sin_0. ring.
  - assert (INR n <> 0) by (apply not_0_INR; lia). rewrite (minus_INR n m) by lia.
    assert (G : forall k, 2 * PI * INR k * (INR n - INR m) / INR n = - (2 * PI * INR k * INR m / INR n) + 2 * INR k * PI) by (intros; field; assumption).
    rewrite !G. rewrite cos_period, sin_period, cos_neg, sin_neg. destruct (i <? h)%nat; ring.
Qed.
Lemma turned_unc_ok n U : sig_fits n U -> symm n (sig_U U) ->
  sig_fits n (turned_unc U) /\ symm n (sig_U (turned_unc U)) /\
  forall a b, (a < n)%nat -> (b < n)%nat -> sig_U (turned_unc U) a b = sig_U U (turn_idx n a) (turn_idx n b).
Proof.
  intros Hf Hs.
  assert (E : forall a b, (a < n)%nat -> (b < n)%nat -> sig_U (turned_unc U) a b = sig_U U (turn_idx n a) (turn_idx n b)).
  { intros a b Ha Hb.
    assert (Ei : (a =? b)%nat = (turn_idx n a =? turn_idx n b)%nat).
    { destruct (Nat.eqb_spec a b); [subst; symmetry; apply Nat.eqb_refl|]. symmetry. apply Nat.eqb_neq. intros E. apply (turn_inj n a b) in E; auto. }
    destruct U as [u|v|M]; cbn [turned_unc sig_U turned aget mget] in *.
    - rewrite Ei. reflexivity.
    - rewrite Ei, Hf. reflexivity.
    - destruct Hf as [-> ->]. reflexivity. }
  split; [destruct U; exact Hf|]. split; [|exact E]. intros a b Ha Hb. rewrite !E by assumption. apply Hs; now apply turn_lt.
Qed.
(** A signal read backwards (cyclically) has the complex conjugate lines: variances stay, covariances between a real and an
    imaginary part change their sign. *)
Theorem C164_reversed : forall x Ux rc,
  let n := alen x in let h := (n / 2 + 1)%nat in
  sig_fits n Ux -> symm n (sig_U Ux) -> (1 <= n)%nat ->
  exists o o', GUM_DFT x Ux None None None None rc None = Ok o /\
    GUM_DFT (turned x) (turned_unc Ux) None None None None rc None = Ok o' /\
    alen (dft_F o) = (2 * h)%nat /\ alen (dft_F o') = (2 * h)%nat /\
    (forall k, (k < h)%nat -> dft_F o' k = dft_F o k /\ dft_F o' (h + k)%nat = - dft_F o (h + k)%nat) /\
    (forall i j, (i < 2 * h)%nat -> (j < 2 * h)%nat ->
       fun_U (dft_U o') i j = sign_at h i * sign_at h j * fun_U (dft_U o) i j).
Proof.
  intros x Ux rc n h Hs Hy Hn. destruct (turned_unc_ok n Ux Hs Hy) as (Hs' & Hy' & HU).
  destruct (dft_plain x Ux rc Hs Hy Hn) as (o & E & HL & HF & _ & _ & HV).
  destruct (dft_plain (turned x) (turned_unc Ux) rc Hs' Hy' Hn) as (o' & E' & HL' & HF' & _ & _ & HV').
  change (alen (turned x)) with n in HL', HF', HV'. fold n h in HL, HF, HV, HL', HF', HV'.
  assert (D : forall i, dft_map n h n (turned x) i = sign_at h i * dft_map n h n x i).
  { intros i. unfold dft_map. rewrite <- rsum_scal. rewrite <- (rsum_turn n (fun m => sign_at h i * _)). apply rsum_ext. intros m Hm.
    rewrite (dft_coeff_turn n h i m) by assumption. unfold turned. cbn [aget]. fold n. ring. }
  exists o, o'. repeat (split; [assumption|]). split.
  - intros k Hk. rewrite !HF, !HF' by lia. rewrite !D. unfold sign_at.
    destruct (Nat.ltb_spec k h); [|lia]. destruct (Nat.ltb_spec (h + k) h); [lia|]. split; ring.
  - intros i j Hi Hj. rewrite HV, HV' by assumption. unfold sandwich.
    rewrite <- (rsum_turn n (fun a => rsum n (fun b => dft_coeff n h i a * sig_U Ux a b * dft_coeff n h j b))), <- rsum_scal. apply rsum_ext. intros a Ha.
    rewrite <- (rsum_turn n (fun b => dft_coeff n h i (turn_idx n a) * sig_U Ux (turn_idx n a) b * dft_coeff n h j b)), <- rsum_scal. apply rsum_ext. intros b Hb.
    rewrite HU by assumption. rewrite (dft_coeff_turn n h i a), (dft_coeff_turn n h j b) by assumption. ring.
Qed.

(** [1; 2] plus [3; 5]; the offset 10 on [1; 2]; a signal of three samples turned round. *)
Example C164_superposition_example : exists ox oy oz,
  GUM_DFT (of_list [1; 2]) (SuVec (of_list [1; 2])) None None None None false None = Ok ox /\
  GUM_DFT (of_list [3; 5]) (SuMat (of_rows [[4; 1]; [1; 3]])) None None None None false None = Ok oy /\
  GUM_DFT (of_list [4; 7]) (SuMat (of_rows [[5; 1]; [1; 5]])) None None None None false None = Ok oz /\
  dft_F oz 1%nat = dft_F ox 1%nat + dft_F oy 1%nat /\ dft_F oz 1%nat = -3 /\
  fun_U (dft_U oz) 0 1 = fun_U (dft_U ox) 0 1 + fun_U (dft_U oy) 0 1.
Proof.
  assert (S2 : forall M : nat -> nat -> R, M 0%nat 1%nat = M 1%nat 0%nat -> symm 2 M).
  { intros M HM [|[|a]] [|[|b]] Ha Hb; try lia; auto. }
  destruct (C164_superposition (of_list [1; 2]) (of_list [3; 5]) (of_list [4; 7]) (SuVec (of_list [1; 2])) (SuMat (of_rows [[4; 1]; [1; 3]])) (SuMat (of_rows [[5; 1]; [1; 5]])) None None false None)
    as (ox & oy & oz & E1 & E2 & E3 & A & B & C & D); auto; try exact I; try (apply S2; reflexivity); try (split; reflexivity); try reflexivity.
  - intros [|[|m]] Hm; [| |cbn in Hm; lia]; cbn; ring.
  - intros [|[|a]] [|[|b]] Ha Hb; try (cbn in Ha, Hb; lia); cbn; ring.
  - cbn; lia.
  - exists ox, oy, oz. repeat (split; [assumption|]).
    destruct (C22_dft_estimate _ _ _ _ _ _ _ _ E1) as [_ [HL1 HF1]]. destruct (C22_dft_estimate _ _ _ _ _ _ _ _ E3) as [_ [HL3 HF3]].
    cbn in HL1. split; [apply C; rewrite HL1; cbn; lia|]. split.
    + rewrite HF3 by (cbn; lia). change (alen (of_list [4; 7])) with 2%nat. change (dft_len 2 None) with 2%nat. change (2 / 2 + 1)%nat with 2%nat.
      destruct (dft2 (fun m => win None m * of_list [4; 7] m)) as [_ [-> _]]. cbn. lra.
    + apply D; [right|rewrite HL1; lia|rewrite HL1; lia]. repeat split; discriminate.
Qed.
Example C164_offset_example : exists o',
  GUM_DFT (mkArr 2 (fun m => ex_x m + 10)) (SuFloat 1) None None None None false None = Ok o' /\ dft_F o' 0%nat = 23 /\ dft_F o' 1%nat = -1.
Proof.
  destruct (C164_offset ex_x (SuFloat 1) 10 false) as (o & o' & E & E' & _ & _ & H0 & H1 & _); [exact I| |cbn; lia|].
  { intros a b _ _. simpl. rewrite (Nat.eqb_sym b a). reflexivity. }
  exists o'. split; [exact E'|]. destruct (C22_dft_estimate _ _ _ _ _ _ _ _ E) as [_ [HL HF]].
  rewrite H0, H1 by (cbn; lia). rewrite !HF by (cbn; lia).
  change (alen ex_x) with 2%nat. change (dft_len 2 None) with 2%nat. change (2 / 2 + 1)%nat with 2%nat.
  destruct (dft2 (fun m => win None m * ex_x m)) as [-> [-> _]]. cbn. split; lra.
Qed.
Example C164_reversed_example : turned (of_list [1; 2; 5]) 0%nat = 1 /\ turned (of_list [1; 2; 5]) 1%nat = 5 /\ turned (of_list [1; 2; 5]) 2%nat = 2 /\
  exists o o', GUM_DFT (of_list [1; 2; 5]) (SuVec (of_list [1; 2; 3])) None None None None false None = Ok o /\
    GUM_DFT (turned (of_list [1; 2; 5])) (SuVec (turned (of_list [1; 2; 3]))) None None None None false None = Ok o' /\
    dft_F o' 3%nat = - dft_F o 3%nat /\ fun_U (dft_U o') 1 3 = - fun_U (dft_U o) 1 3 /\ fun_U (dft_U o') 3 3 = fun_U (dft_U o) 3 3.
Proof.
  split; [reflexivity|]. split; [reflexivity|]. split; [reflexivity|].
  destruct (C164_reversed (of_list [1; 2; 5]) (SuVec (of_list [1; 2; 3])) false) as (o & o' & E & E' & _ & _ & H1 & H2); [reflexivity| |cbn; lia|].
  { intros a b _ _. simpl. rewrite (Nat.eqb_sym b a). destruct (Nat.eqb_spec a b); [subst|]; reflexivity. }
  exists o, o'. split; [exact E|]. split; [exact E'|]. change (alen (of_list [1%R; 2%R; 5%R]) / 2 + 1)%nat with 2%nat in *.
  destruct (H1 1%nat) as [_ A]; [lia|]. split; [exact A|]. rewrite !H2 by lia. unfold sign_at. cbn [Nat.ltb Nat.leb]. split; ring.
Qed.
Print Assumptions C164_superposition.
Print Assumptions C164_offset.
Print Assumptions C164_reversed.
