(** C162: group delays and stabilised fits in another unit of the response.
    Models: M_FilterStuff.v (grpdelay), M_Fit.v (LSIIR). *)
From Coq Require Import Reals String List Arith Bool Lra Lia Psatz Permutation Sorted.
From Verif Require Import Base Sums Cplx M_DFT M_FilterStuff M_MC M_Fit S_Poly S_Filter S_Fit P_Poly P_FStuff P_FStuff2
  P_LinAlg P_Fit P_FitIIR T_FilterStuff T_GrpDelay T_Fit T_FitIIR T_FitGain.
Import ListNotations.
Local Notation length := Datatypes.length.
Open Scope R_scope.

(** ** grpdelay: a gain does not change the delays where the response is above the
    tolerance 1e-12 *)
Definition with_gain (c : R) (b : vec) : vec := mkArr (alen b) (fun i => c * b i).
Lemma freq_gain c b w : freq_resp (with_gain c b) w = cscal c (freq_resp b w).
Proof. unfold freq_resp, with_gain. cbn [alen aget]. apply C_eq; unfold cscal; cbn [fst snd]; rewrite ?csum_fst, ?csum_snd, <- !rsum_scal; apply rsum_ext; intros; cbn; ring. Qed.
Lemma wresp_gain c b w : wresp (with_gain c b) w = cscal c (wresp b w).
Proof. unfold wresp, with_gain. cbn [alen aget]. apply C_eq; unfold cscal; cbn [fst snd]; rewrite ?csum_fst, ?csum_snd, <- !rsum_scal; apply rsum_ext; intros; cbn; ring. Qed.
Theorem C162_group_delay_partial : forall b a Fs nfft c gd f gd' f' k,
  grpdelay b a Fs nfft = Ok (gd, f) -> grpdelay (with_gain c b) a Fs nfft = Ok (gd', f') -> Fs <> 0 ->
  (alen b + alen a - 1 <= 2 * nfft)%nat -> (k < alen gd)%nat ->
  let w := 2 * PI * f k / Fs in
  / 10 ^ 12 <= cabs (freq_resp b w) * cabs (freq_resp a w) ->
  / 10 ^ 12 <= cabs (freq_resp (with_gain c b) w) * cabs (freq_resp a w) ->
  f' k = f k /\ gd' k = gd k.
Proof.
  intros b a Fs nfft c gd f gd' f' k E E' HF Hl Hk w T T'.
  assert (Q : forall b a g f, grpdelay b a Fs nfft = Ok (g, f) ->
     alen g = Nat.min (nfft + 1) (2 * nfft - 1) /\ f = mkArr (Nat.min (nfft + 1) (2 * nfft - 1)) (fun k => INR k / INR (2 * nfft) * Fs)).
  { clear. intros b a g f E. unfold grpdelay in E. destruct (convolve_full b (reversed_arr a)) as [c|] eqn:Ec; [|discriminate].
    cbn [bind] in E. destruct (Nat.eqb_spec nfft 0); [discriminate|]. injection E as <- <-. split; reflexivity. }
  destruct (Q _ _ _ _ E) as [L F]. destruct (Q _ _ _ _ E') as [L' F']. assert (Ff : f' = f) by congruence. clear F F'. subst f'.
  split; [reflexivity|].
  destruct (grpdelay_closed b a Fs nfft gd f k E HF Hl Hk T) as (_ & Nb & Na & ->).
  destruct (grpdelay_closed (with_gain c b) a Fs nfft gd' f k E' HF Hl ltac:(lia) T') as (_ & Nb' & _ & ->).
  fold w in Nb, Na, Nb' |- *. f_equal. rewrite freq_gain in Nb' |- *. rewrite wresp_gain.
  revert Nb Nb'. generalize (freq_resp b w), (wresp b w). intros [x y] [u v] N N'.
  assert (c <> 0). { intros ->. apply N'. unfold cscal, C0. cbn [fst snd]. f_equal; ring. }
  apply cnorm2_pos in N. unfold cnorm2 in N. cbn [fst snd] in N.
  unfold cdiv, cinv, cmul, cscal, cnorm2, Re. cbn [fst snd].
  assert (0 < c * c) by (apply Rsqr_pos_lt; auto). field.
  repeat split; auto; nra.
Qed.

(** ** A median is at most B if more than half of the values are. *)
Definition above (B : R) (l : list R) : nat := length (filter (fun x => rltb B x) l).
Lemma above_perm B l l' : Permutation l l' -> above B l = above B l'.
Proof.
  unfold above. induction 1; cbn [filter]; auto.
  - destruct (rltb B x); cbn [length]; congruence.
  - destruct (rltb B x), (rltb B y); reflexivity.
  - congruence.
Qed.
Lemma above_app B l l' : above B (l ++ l') = (above B l + above B l')%nat.
Proof. unfold above. rewrite filter_app, app_length. reflexivity. Qed.
Lemma above_le B l : (above B l <= length l)%nat.
Proof. unfold above. induction l as [|x l IH]; cbn [filter length]; [lia|]. destruct (rltb B x); cbn [length]; lia. Qed.
Lemma above_none B l : (forall x, In x l -> x <= B) -> above B l = 0%nat.
Proof.
  unfold above. induction l as [|x l IH]; intros H; cbn [filter]; auto. unfold rltb at 1. destruct (Rlt_dec B x).
  - specialize (H x (or_introl eq_refl)). lra.
  - apply IH. intros; apply H; right; auto.
Qed.
Lemma above_all B l : (forall x, In x l -> B < x) -> above B l = length l.
Proof.
  unfold above. induction l as [|x l IH]; intros H; cbn [filter]; auto. unfold rltb at 1. destruct (Rlt_dec B x).
  - cbn [length]. f_equal. apply IH. intros; apply H; right; auto.
  - specialize (H x (or_introl eq_refl)). lra.
Qed.
Lemma sorted_skip s i x : Sorted Rle s -> In x (skipn i s) -> nth i s 0 <= x.
Proof.
  intros S. apply Sorted_StronglySorted in S; [|intros p q r; apply Rle_trans]. revert i. induction S as [|y l SS IH F]; intros i Ix.
  - rewrite skipn_nil in Ix. destruct Ix.
  - destruct i as [|i]; cbn [skipn nth] in *; [|apply IH; auto]. destruct Ix as [<-|Ix]; [lra|]. rewrite Forall_forall in F. auto.
Qed.
Lemma sorted_nth_le s i B : Sorted Rle s -> (i + above B s < length s)%nat -> nth i s 0 <= B.
Proof.
  intros S H. apply Rnot_lt_le. intros L. rewrite <- (firstn_skipn i s), above_app in H.
  rewrite (above_all B (skipn i s)) in H.
  - rewrite app_length in H. rewrite firstn_length, skipn_length in H. lia.
  - intros x Ix. apply (sorted_skip s i x S) in Ix. lra.
Qed.
Lemma median_le v m B j : is_median v m -> (j <= alen v)%nat -> (alen v / 2 + j < alen v)%nat ->
  (forall k, (j <= k < alen v)%nat -> v k <= B) -> m <= B.
Proof.
  intros (s & P & S & ->) Hj Hlt Hv.
  assert (L : length s = alen v) by (rewrite <- (Permutation_length P), map_length, seq_length; reflexivity).
  assert (Ab : (above B s <= j)%nat).
  { rewrite <- (above_perm B _ _ P). replace (alen v) with (j + (alen v - j))%nat by lia.
    rewrite seq_app, map_app, above_app, (above_none B (map v (seq (0 + j) _))).
    - pose proof (above_le B (map v (seq 0 j))) as K. rewrite map_length, seq_length in K. lia.
    - intros x Ix. apply in_map_iff in Ix. destruct Ix as (k & <- & Ik). apply in_seq in Ik. apply Hv. lia. }
  assert (D : ((alen v - 1) / 2 <= alen v / 2)%nat) by (apply Nat.div_le_mono; lia).
  pose proof (sorted_nth_le s ((alen v - 1) / 2) B S ltac:(lia)). pose proof (sorted_nth_le s (alen v / 2) B S ltac:(lia)). lra.
Qed.
Lemma median_gt v m A : is_median v m -> (0 < alen v)%nat -> (forall k, (k < alen v)%nat -> A < v k) -> A < m.
Proof.
  intros (s & P & S & ->) Hn Hv.
  assert (L : length s = alen v) by (rewrite <- (Permutation_length P), map_length, seq_length; reflexivity).
  assert (I : forall i, (i < alen v)%nat -> A < nth i s 0).
  { intros i Hi. assert (Ix : In (nth i s 0) (map v (seq 0 (alen v)))) by (apply (Permutation_in _ (Permutation_sym P)); apply nth_In; lia).
    apply in_map_iff in Ix. destruct Ix as (k & <- & Ik). apply in_seq in Ik. apply Hv. lia. }
  assert (D : ((alen v - 1) / 2 < alen v)%nat) by (apply Nat.div_lt_upper_bound; lia).
  assert (D2 : (alen v / 2 < alen v)%nat) by (apply Nat.div_lt_upper_bound; lia).
  pose proof (I _ D). pose proof (I _ D2). lra.
Qed.
Lemma median_const v m A : is_median v m -> (0 < alen v)%nat -> (forall k, (k < alen v)%nat -> v k = A) -> m = A.
Proof.
  intros (s & P & S & ->) Hn Hv.
  assert (L : length s = alen v) by (rewrite <- (Permutation_length P), map_length, seq_length; reflexivity).
  assert (I : forall i, (i < alen v)%nat -> nth i s 0 = A).
  { intros i Hi. assert (Ix : In (nth i s 0) (map v (seq 0 (alen v)))) by (apply (Permutation_in _ (Permutation_sym P)); apply nth_In; lia).
    apply in_map_iff in Ix. destruct Ix as (k & <- & Ik). apply in_seq in Ik. apply Hv. lia. }
  assert (D : ((alen v - 1) / 2 < alen v)%nat) by (apply Nat.div_lt_upper_bound; lia).
  assert (D2 : (alen v / 2 < alen v)%nat) by (apply Nat.div_lt_upper_bound; lia).
  rewrite (I _ D), (I _ D2). lra.
Qed.

(** ** One frequency, a quarter of the sampling rate, a filter b0 / (1 + a1 z^-1) *)
Notation f162 := (of_list [1%R]).
Lemma freq_a (a : vec) : alen a = 2%nat -> freq_resp a (radf f162 4 0) = (a 0%nat, - a 1%nat).
Proof. intros L. rewrite <- freq_quarter. unfold freq_resp. rewrite L. reflexivity. Qed.
Lemma freq_b (b : vec) w : alen b = 1%nat -> freq_resp b w = (b 0%nat, 0).
Proof.
  intros L. unfold freq_resp. rewrite L. change (csum 1 ?g) with (cadd C0 (g 0%nat)). cbv beta. change (INR 0) with 0.
  rewrite Rmult_0_r, Ropp_0. unfold cis. rewrite cos_0, sin_0. apply C_eq; cbn; ring.
Qed.
Lemma det162 t : Re t <> 0 -> iir_determines f162 4 (fun _ => t) 0 1.
Proof.
  destruct t as [u v]. cbn [Re fst]. intros N b a Lb La A0 E. specialize (E 0%nat ltac:(cbn; lia)).
  rewrite freq_a, freq_b, A0 in E by auto. unfold cmul in E. cbn [fst snd] in E. injection E as E1 E2.
  assert (A1 : a 1%nat = 0). { apply (Rmult_eq_reg_l u); auto. lra. }
  rewrite A1 in E1. split; intros j Hj.
  - assert (j = 0%nat) by lia. subst. lra.
  - assert (j = 0%nat \/ j = 1%nat) as [-> | ->] by lia; auto.
Qed.
Lemma fit162 t (b a : vec) : Re t <> 0 -> iir_fits f162 4 (fun _ => t) 0 1 b a ->
  alen b = 1%nat /\ alen a = 2%nat /\ a 0%nat = 1 /\ a 1%nat = Im t / Re t /\ b 0%nat = cnorm2 t / Re t.
Proof.
  intros N F.
  destruct (fit_unique f162 4 (fun _ => t) 0 1 b a (of_list [cnorm2 t / Re t]) (of_list [1; Im t / Re t]) F (det162 t N) eq_refl eq_refl eq_refl)
    as [[Lb Vb] [La Va]].
  - intros i Hi. cbn in Hi. assert (i = 0%nat) by lia. subst. rewrite freq_a, freq_b by reflexivity. cbn [of_list aget nth].
    destruct t as [u v]. unfold cmul, cnorm2, Re, Im in *. cbn [fst snd] in *. apply C_eq; cbn; field; auto.
  - cbn in Lb, La. rewrite (Vb 0%nat), (Va 0%nat), (Va 1%nat) by lia. auto.
Qed.
(** the responses 1/(1 + 2i) of an unstable filter *)
Definition H162 : arr C := mkArr 1 (fun _ => (/ 5, - 2 / 5)).
Definition c162 : R := / 10 ^ 13.
Lemma c162_pos : 0 < c162.
Proof. unfold c162. apply Rinv_0_lt_compat. apply pow_lt. lra. Qed.
Definition root1 (roots : vec -> list C) : Prop :=
  forall a : vec, alen a = 2%nat -> a 0%nat <> 0 -> roots a = [RtoC (- a 1%nat / a 0%nat)].
Lemma mapped1 roots (a astab : vec) : root1 roots -> alen a = 2%nat -> a 0%nat = 1 -> a 1%nat = -2 ->
  alen astab = alen (mapinside roots a) -> (forall i, astab i = Re (mapinside roots a i)) ->
  alen astab = 2%nat /\ astab 0%nat = 1 /\ astab 1%nat = - / 2.
Proof.
  intros R1 L A0 A1 La Ea. unfold mapinside in La, Ea. rewrite (R1 a L) in La, Ea by lra. rewrite A0, A1 in La, Ea.
  assert (M : map_root (RtoC (- -2 / 1)) = RtoC (/ 2)).
  { unfold map_root, rltb. destruct (Rlt_dec 1 (cabs (RtoC (- -2 / 1)))) as [|N].
    - unfold cinv, cconj, RtoC, cnorm2. cbn [fst snd]. apply C_eq; cbn [fst snd]; field.
    - exfalso. apply N. rewrite cabs_real. rewrite Rabs_right; lra. }
  cbn [map] in La, Ea. rewrite M in La, Ea. split; [exact La|]. rewrite !Ea.
  unfold np_poly, poly_step, poly_one, RtoC. cbn. lra.
Qed.
Lemma two_terms (a : vec) w : alen a = 2%nat -> a 0%nat = 1 ->
  freq_resp a w = (1 + a 1%nat * cos w, - (a 1%nat * sin w)) /\ wresp a w = (a 1%nat * cos w, - (a 1%nat * sin w)).
Proof.
  intros L A0. unfold freq_resp, wresp. rewrite L. change (csum 2 ?g) with (cadd (cadd C0 (g 0%nat)) (g 1%nat)). cbv beta.
  change (INR 0) with 0. change (INR 1) with 1. rewrite Rmult_0_r, Ropp_0, Rmult_1_r. unfold cis. rewrite cos_0, sin_0, cos_neg, sin_neg, A0.
  split; apply C_eq; cbn; ring.
Qed.
Lemma gd162 (b a : vec) Fs gd f k x : grpdelay b a Fs 512 = Ok (gd, f) -> Fs <> 0 -> (k < alen gd)%nat ->
  alen b = 1%nat -> b 0%nat = 1 -> alen a = 2%nat -> a 0%nat = 1 -> a 1%nat = x ->
  let c := cos (2 * PI * INR k / 1024) in
  / 10 ^ 24 <= 1 + 2 * x * c + x * x -> gd k = - ((x * c + x * x) / (1 + 2 * x * c + x * x)).
Proof.
  intros E HF Hk Lb B0 La A0 A1 c Hc.
  assert (W : 2 * PI * f k / Fs = 2 * PI * INR k / 1024).
  { unfold grpdelay in E. destruct (convolve_full b (reversed_arr a)); [|discriminate]. cbn [bind] in E.
    change (512 =? 0)%nat with false in E. injection E as _ <-. cbn [aget]. replace (INR (2 * 512)) with 1024 by (rewrite INR_IZR_INZ; reflexivity). field. exact HF. }
  destruct (two_terms a (2 * PI * INR k / 1024) La A0) as [Fa Wa].
  pose proof (sin2_cos2 (2 * PI * INR k / 1024)) as SC. unfold Rsqr in SC. fold c in SC.
  assert (N : cnorm2 (freq_resp a (2 * PI * INR k / 1024)) = 1 + 2 * x * c + x * x).
  { rewrite Fa, A1. unfold cnorm2. cbn [fst snd]. fold c. nra. }
  destruct (grpdelay_closed b a Fs 512 gd f k E HF ltac:(lia) Hk) as (_ & _ & _ & ->).
  - rewrite W. rewrite freq_b by auto. rewrite B0. 
    replace (cabs (1, 0)) with 1 by (unfold cabs, cnorm2; cbn [fst snd]; replace (1 * 1 + 0 * 0) with 1 by ring; symmetry; apply sqrt_1).
    rewrite Rmult_1_l. unfold cabs. rewrite N. rewrite <- (sqrt_square (/ 10 ^ 12)) by (left; apply Rinv_0_lt_compat; apply pow_lt; lra).
    apply sqrt_le_1_alt. eapply Rle_trans; [|exact Hc]. right. field.
  - rewrite W. 
    assert (Wb : wresp b (2 * PI * INR k / 1024) = C0).
    { unfold wresp. rewrite Lb. change (csum 1 ?g) with (cadd C0 (g 0%nat)). cbv beta. change (INR 0) with 0. apply C_eq; cbn; ring. }
    assert (Z : forall z, Re (cdiv C0 z) = 0) by (intros z; unfold cdiv, cmul, C0, Re; cbn [fst snd]; ring).
    rewrite Wb, Z. unfold cdiv, cinv. rewrite N, Wa, Fa, A1.
    assert (P : 0 < 1 + 2 * x * c + x * x) by (eapply Rlt_le_trans; [|exact Hc]; apply Rinv_0_lt_compat; apply pow_lt; lra).
    unfold cdiv, cmul, C0, Re. cbn [fst snd]. fold c. set (s := sin (2 * PI * INR k / 1024)) in *.
    assert (Hs : s * s = 1 - c * c) by lra.
    transitivity (- ((x * c * (1 + x * c) + x * x * (s * s)) / (1 + 2 * x * c + x * x))); [field; lra|].
    rewrite Hs. f_equal. f_equal. ring.
Qed.
(** below the tolerance everything counts as a pole *)
Lemma gd162_small (b a : vec) Fs gd f k : grpdelay b a Fs 512 = Ok (gd, f) -> (k < alen gd)%nat ->
  alen b = 1%nat -> b 0%nat = c162 -> alen a = 2%nat -> a 0%nat = 1 -> -2 <= a 1%nat <= 2 -> gd k = -1.
Proof.
  intros E Hk Lb B0 La A0 A1. unfold grpdelay, convolve_full in E. cbn [reversed_arr alen] in E. rewrite Lb, La in E. cbn [Nat.eqb orb bind] in E.
  injection E as <- _. cbn [aget]. unfold gd_bin.
  match goal with |- context [rltb (cabs ?d) gd_tol] => assert (T : rltb (cabs d) gd_tol = true) end.
  { unfold rltb. destruct (Rlt_dec _ _) as [|N]; auto. exfalso. apply N. clear N.
    unfold fft_n. cbn [alen]. change (Nat.min 2 1024) with 2%nat.
    change (csum 2 ?g) with (cadd (cadd C0 (g 0%nat)) (g 1%nat)). cbv beta. cbn [aget].
    assert (CS : forall x w, cabs (cscal x (cis w)) = Rabs x).
    { intros x w. replace (cscal x (cis w)) with (cmul (RtoC x) (cis w)) by (unfold RtoC, cscal, cmul; apply C_eq; cbn [fst snd]; ring).
      rewrite cabs_mul, cabs_real. unfold cabs, cis, cnorm2. cbn [fst snd].
      pose proof (sin2_cos2 w) as K. unfold Rsqr in K. replace (cos w * cos w + sin w * sin w) with 1 by lra. rewrite sqrt_1. ring. }
    eapply Rle_lt_trans; [apply cabs_triangle|].
    match goal with |- context [cadd C0 ?z] => replace (cadd C0 z) with z by (apply C_eq; cbn [fst snd cadd C0]; ring) end.
    rewrite !CS. unfold vpad, reversed_arr. cbn [alen aget]. rewrite La. cbn [Nat.sub Nat.ltb Nat.leb]. rewrite A0, B0.
    pose proof c162_pos as P. rewrite (Rabs_right (0 + c162 * 1)) by lra.
    assert (K : Rabs (0 + c162 * a 1%nat) <= 2 * c162) by (apply Rabs_le; nra).
    assert (G : 10 * c162 = gd_tol) by (unfold c162, gd_tol; field). lra. }
  rewrite T. unfold cdiv, cinv, cmul, C0, C1, cnorm2, Re. cbn [fst snd]. change (INR 1) with 1. field.
Qed.
Lemma target162 (tau : R) c : iir_target false (aget (resp_units c H162)) f162 4 tau
  (fun _ => cscal c (cmul (/ 5, - 2 / 5) (cis (- (PI / 2 * tau))))).
Proof.
  intros i Hi. cbn in Hi. assert (i = 0%nat) by lia. subst. rewrite quarter_radf. cbn [resp_units H162 aget]. symmetry. apply cmul_gain.
Qed.
Lemma cis_0_r : cis (- (PI / 2 * 0)) = C1.
Proof. rewrite Rmult_0_r, Ropp_0. unfold cis. rewrite cos_0, sin_0. reflexivity. Qed.
Lemma cis_1_r : cis (- (PI / 2 * 1)) = (0, -1).
Proof. rewrite Rmult_1_r. unfold cis. rewrite cos_neg, sin_neg, cos_PI2, sin_PI2. apply C_eq; cbn; ring. Qed.
Lemma fit162_0 c (b a : vec) : c <> 0 ->
  (forall t, iir_target false (aget (resp_units c H162)) f162 4 0 t -> iir_fits f162 4 t 0 1 b a) ->
  alen b = 1%nat /\ alen a = 2%nat /\ a 0%nat = 1 /\ a 1%nat = -2 /\ b 0%nat = c.
Proof.
  intros Hc F. specialize (F _ (target162 0 c)). rewrite cis_0_r in F.
  destruct (fit162 (cscal c (cmul (/ 5, - 2 / 5) C1)) b a) as (Lb & La & A0 & A1 & B0); [|exact F|].
  - unfold cscal, cmul, C1, Re. cbn [fst snd]. intros Z. apply Hc. lra.
  - repeat (split; auto).
    + rewrite A1. unfold cscal, cmul, C1, Re, Im. cbn [fst snd]. field. auto.
    + rewrite B0. unfold cscal, cmul, C1, Re, cnorm2. cbn [fst snd]. field. auto.
Qed.
Lemma fit162_1 (b a : vec) :
  (forall t, iir_target false (aget H162) f162 4 1 t -> iir_fits f162 4 t 0 1 b a) ->
  alen b = 1%nat /\ alen a = 2%nat /\ a 0%nat = 1 /\ a 1%nat = / 2 /\ b 0%nat = - / 2.
Proof.
  intros F. assert (T : iir_target false (aget H162) f162 4 1 (fun _ => cmul (/ 5, - 2 / 5) (cis (- (PI / 2 * 1))))).
  { intros i Hi. cbn in Hi. assert (i = 0%nat) by lia. subst. rewrite quarter_radf. reflexivity. }
  specialize (F _ T). rewrite cis_1_r in F.
  destruct (fit162 (cmul (/ 5, - 2 / 5) (0, -1)) b a) as (Lb & La & A0 & A1 & B0); [|exact F|].
  - unfold cmul, Re. cbn [fst snd]. lra.
  - repeat (split; auto).
    + rewrite A1. unfold cmul, Re, Im. cbn [fst snd]. field_simplify; lra.
    + rewrite B0. unfold cmul, Re, cnorm2. cbn [fst snd]. field_simplify; lra.
Qed.
Lemma gd_len (b a : vec) Fs g f : grpdelay b a Fs 512 = Ok (g, f) -> alen g = 513%nat.
Proof.
  unfold grpdelay. destruct (convolve_full b (reversed_arr a)); [|discriminate]. cbn [bind].
  change (512 =? 0)%nat with false. intros E. injection E as <- _. reflexivity.
Qed.
Lemma ceil_one m y : is_ceil (0 + m) y -> 0 < m <= 1 -> y = 1.
Proof.
  intros [[z ->] [L U]] H. assert (0 < IZR z < 2) as [P Q] by lra. apply (lt_IZR 0) in P. apply (lt_IZR z 2) in Q.
  f_equal. lia.
Qed.
Lemma delay162 roots (b a : vec) tau' : root1 roots -> alen b = 1%nat -> b 0%nat = 1 -> alen a = 2%nat -> a 0%nat = 1 -> a 1%nat = -2 ->
  new_delay roots 4 b a 0 tau' -> tau' = 1.
Proof.
  intros R1 Lb B0 La A0 A1 (astab & g1 & f1 & g2 & f2 & m & Ls & Es & G1 & G2 & M & Ce).
  destruct (mapped1 roots a astab R1 La A0 A1 Ls Es) as (Ls2 & S0 & S1).
  pose proof (gd_len _ _ _ _ _ G1) as L1. pose proof (gd_len _ _ _ _ _ G2) as L2.
  assert (V : forall k, (k < 513)%nat -> g2 k - g1 k = 3 / (5 - 4 * cos (2 * PI * INR k / 1024))).
  { intros k Hk. pose proof (COS_bound (2 * PI * INR k / 1024)) as CB.
    assert (T24 : / 10 ^ 24 <= / 4). { apply Rinv_le_contravar; [lra|]. replace 4 with (4 ^ 1) by ring.
      eapply Rle_trans; [apply (Rle_pow 4 1 24); [lra|lia]|]. apply pow_incr. lra. }
    rewrite (gd162 b a 4 g1 f1 k (-2) G1) by (try lra; auto; try lia).
    rewrite (gd162 b astab 4 g2 f2 k (- / 2) G2) by (try lra; auto; try lia).
    field. lra. }
  apply (ceil_one m); [exact Ce|]. split.
  - apply (median_gt _ _ 0 M); cbn [alen aget]; rewrite ?L1; [lia|]. intros k Hk. rewrite V by auto.
    pose proof (COS_bound (2 * PI * INR k / 1024)) as CB. apply Rdiv_lt_0_compat; lra.
  - apply (median_le _ _ 1 171 M); cbn [alen aget]; rewrite ?L1; [lia|change (513 / 2)%nat with 256%nat; lia|].
    intros k Hk. rewrite V by lia.
    assert (I1 : 171 <= INR k) by (replace 171 with (INR 171) by (rewrite INR_IZR_INZ; reflexivity); apply le_INR; lia).
    assert (I2 : INR k <= 512) by (replace 512 with (INR 512) by (rewrite INR_IZR_INZ; reflexivity); apply le_INR; lia).
    pose proof PI_RGT_0 as PP.
    assert (Cb : cos (2 * PI * INR k / 1024) <= 1 / 2).
    { rewrite <- cos_PI3. apply cos_decr_1; try lra; try nra. }
    apply Rmult_le_reg_r with (5 - 4 * cos (2 * PI * INR k / 1024)); [lra|].
    unfold Rdiv at 1. rewrite Rmult_assoc, Rinv_l by lra. lra.
Qed.
Lemma delay162_small roots (b a : vec) tau' : root1 roots -> alen b = 1%nat -> b 0%nat = c162 -> alen a = 2%nat -> a 0%nat = 1 -> a 1%nat = -2 ->
  new_delay roots 4 b a 0 tau' -> tau' = 0.
Proof.
  intros R1 Lb B0 La A0 A1 (astab & g1 & f1 & g2 & f2 & m & Ls & Es & G1 & G2 & M & Ce).
  destruct (mapped1 roots a astab R1 La A0 A1 Ls Es) as (Ls2 & S0 & S1).
  pose proof (gd_len _ _ _ _ _ G1) as L1. pose proof (gd_len _ _ _ _ _ G2) as L2.
  assert (m = 0).
  { apply (median_const _ _ 0 M); cbn [alen aget]; rewrite ?L1; [lia|]. intros k Hk.
    rewrite (gd162_small b a 4 g1 f1 k G1), (gd162_small b astab 4 g2 f2 k G2) by (auto; try lia; lra). lra. }
  subst m. destruct Ce as [[z ->] [L U]]. assert (-1 < IZR z < 1) as [P Q] by lra. apply (lt_IZR (-1)) in P. apply (lt_IZR z 1) in Q.
  f_equal. lia.
Qed.

(** The responses of 1/(1 - 2 z^-1) in two units: in one unit the fit is made stable by a
    delay of one sample, in a unit 1e13 times as large LSIIR gives up and returns the unstable
    filter. *)
Theorem C162_stabilisation_refuted : exists (H : arr C) Nb Na f Fs c, 0 < c /\
  forall lstsq roots, exact_lstsq lstsq -> root1 roots ->
  exists b a b' a', LSIIR lstsq roots 49 H Nb Na f Fs 0 false = Some (Ok (b, a, 1)) /\ (forall z, In z (roots a) -> cabs z <= 1) /\
    LSIIR lstsq roots 49 (resp_units c H) Nb Na f Fs 0 false = Some (Ok (b', a', 0)) /\ (exists z, In z (roots a') /\ 1 < cabs z) /\
    a 1%nat = / 2 /\ a' 1%nat = -2.
Proof.
  exists H162, 0%nat, 1%nat, f162, 4, c162. split; [apply c162_pos|]. intros lstsq roots X R1.
  destruct (C75_integer_delay lstsq roots 49 H162 0 1 f162 4 0 X eq_refl ltac:(lia)) as [(n & taus & fits & (Ln & T0 & _ & F & P & St) & E) _].
  destruct (C75_integer_delay lstsq roots 49 (resp_units c162 H162) 0 1 f162 4 0 X eq_refl ltac:(lia)) as [(n' & taus' & fits' & (Ln' & T0' & _ & F' & P' & St') & E') _].
  assert (Root : forall a : vec, alen a = 2%nat -> a 0%nat = 1 -> roots a = [RtoC (- a 1%nat)]).
  { intros a L A0. rewrite (R1 a L) by lra. rewrite A0. do 2 f_equal. field. }
  pose proof c162_pos as Pc.
  (* the first unit *)
  assert (I : forall t, iir_target false (aget H162) f162 4 0 t -> iir_target false (aget (resp_units 1 H162)) f162 4 0 t).
  { intros t Ht i Hi. rewrite (Ht i Hi). cbn [resp_units aget]. f_equal. unfold cscal. apply C_eq; cbn [fst snd]; ring. }
  assert (I' : forall t, iir_target false (aget (resp_units 1 H162)) f162 4 0 t -> iir_target false (aget H162) f162 4 0 t).
  { intros t Ht i Hi. rewrite (Ht i Hi). cbn [resp_units aget]. f_equal. unfold cscal. apply C_eq; cbn [fst snd]; ring. }
  destruct (fit162_0 1 (fst (fits 0%nat)) (snd (fits 0%nat))) as (Lb0 & La0 & A00 & A01 & B00); [lra| |].
  { intros t Ht. apply F; [lia|]. rewrite T0. apply I'. exact Ht. }
  assert (Hn : (1 <= n)%nat).
  { destruct n as [|n]; [|lia]. exfalso. specialize (St ltac:(lia) (RtoC (- snd (fits 0%nat) 1%nat))).
    rewrite (Root _ La0 A00), A01, cabs_real in St. specialize (St (or_introl eq_refl)). rewrite Rabs_right in St; lra. }
  destruct (P 0%nat ltac:(lia)) as [_ ND]. rewrite T0 in ND.
  pose proof (delay162 roots _ _ _ R1 Lb0 B00 La0 A00 A01 ND) as T1.
  destruct (fit162_1 (fst (fits 1%nat)) (snd (fits 1%nat))) as (Lb1 & La1 & A10 & A11 & B10).
  { intros t Ht. apply F; [lia|]. rewrite T1. exact Ht. }
  assert (n = 1%nat).
  { destruct (Nat.eq_dec n 1); auto. exfalso. destruct (P 1%nat ltac:(lia)) as [(z & Iz & Oz) _].
    rewrite (Root _ La1 A10), A11 in Iz. destruct Iz as [<-|[]]. rewrite cabs_real, Rabs_Ropp, Rabs_right in Oz; lra. }
  subst n.
  (* the second unit *)
  assert (Z : forall k, (k <= n')%nat -> taus' k = 0 /\ alen (fst (fits' k)) = 1%nat /\ alen (snd (fits' k)) = 2%nat /\
    snd (fits' k) 0%nat = 1 /\ snd (fits' k) 1%nat = -2 /\ fst (fits' k) 0%nat = c162).
  { induction k as [|k IH]; intros Hk.
    - split; [exact T0'|]. apply (fit162_0 c162); [lra|]. intros t Ht. apply F'; [lia|]. rewrite T0'. exact Ht.
    - destruct (IH ltac:(lia)) as (Tk & Lb & La & A0 & A1 & B0). destruct (P' k ltac:(lia)) as [_ ND']. rewrite Tk in ND'.
      pose proof (delay162_small roots _ _ _ R1 Lb B0 La A0 A1 ND') as Tk1. split; [exact Tk1|].
      apply (fit162_0 c162); [lra|]. intros t Ht. apply F'; [lia|]. rewrite Tk1. exact Ht. }
  destruct (Z n' (le_n _)) as (Tn & _ & La' & A0' & A1' & _).
  exists (fst (fits 1%nat)), (snd (fits 1%nat)), (fst (fits' n')), (snd (fits' n')).
  split; [rewrite E, T1; reflexivity|]. split.
  { intros z Iz. rewrite (Root _ La1 A10), A11 in Iz. destruct Iz as [<-|[]]. rewrite cabs_real, Rabs_Ropp, Rabs_right; lra. }
  split; [rewrite E', Tn; reflexivity|]. split; [|auto].
  exists (RtoC 2). rewrite (Root _ La' A0'), A1'. split; [left; f_equal; lra|]. rewrite cabs_real, Rabs_right; lra.
Qed.
Print Assumptions C162_group_delay_partial.
Print Assumptions C162_stabilisation_refuted.
Example C162_group_delay_ex : exists gd f gd' f', grpdelay (of_list [1; /2]) (of_list [1]) 1 4 = Ok (gd, f) /\
  grpdelay (with_gain 10 (of_list [1; /2])) (of_list [1]) 1 4 = Ok (gd', f') /\ gd' 0%nat = gd 0%nat.
Proof.
  destruct (grpdelay (of_list [1; /2]) (of_list [1]) 1 4) as [[gd f]|] eqn:E; [|unfold grpdelay, convolve_full in E; cbn in E; discriminate].
  destruct (grpdelay (with_gain 10 (of_list [1; /2])) (of_list [1]) 1 4) as [[gd' f']|] eqn:E'; [|unfold grpdelay, convolve_full in E'; cbn in E'; discriminate].
  exists gd, f, gd', f'. split; [reflexivity|]. split; [reflexivity|].
  assert (F0 : f 0%nat = 0) by (unfold grpdelay, convolve_full in E; cbn in E; injection E as _ <-; cbn; field).
  assert (L : (0 < alen gd)%nat) by (unfold grpdelay, convolve_full in E; cbn in E; injection E as <- _; cbn; lia).
  assert (T : / 10 ^ 12 <= 1) by (rewrite <- Rinv_1; apply Rinv_le_contravar; [lra|]; apply pow_R1_Rle; lra).
  assert (W : 2 * PI * f 0%nat / 1 = 0) by (rewrite F0; field).
  assert (Fb : freq_resp (of_list [1; /2]) 0 = RtoC (3 / 2)).
  { destruct (two_terms (of_list [1; /2]) 0 eq_refl eq_refl) as [-> _]. rewrite cos_0, sin_0. cbn. apply C_eq; cbn; lra. }
  assert (Fa : freq_resp (of_list [1]) 0 = RtoC 1) by (rewrite freq_b by reflexivity; reflexivity).
  apply (C162_group_delay_partial (of_list [1; /2]) (of_list [1]) 1 4 10 gd f gd' f' 0 E E'); [lra|cbn; lia|exact L| |]; rewrite W.
  - rewrite Fa, Fb, !cabs_real, !Rabs_right; lra.
  - rewrite freq_gain, Fa, Fb. replace (cscal 10 (RtoC (3 / 2))) with (RtoC 15) by (apply C_eq; cbn; lra). rewrite !cabs_real, !Rabs_right; lra.
Qed.
