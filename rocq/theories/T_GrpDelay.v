(** grpdelay: filters of linear phase, cascades, inverse filters (C158).  Model: M_FilterStuff.v.  Vocabulary: S_Poly.v, S_Filter.v. *)
From Coq Require Import Reals List Arith Bool Lia Lra.
From Verif Require Import Base Sums Cplx M_FilterStuff S_Poly S_Filter P_Poly P_FStuff P_FStuff2 T_FilterStuff.
Import ListNotations.
Open Scope R_scope.

(** sum_n n c_n exp(-i w n) *)
Definition wresp (c : vec) (w : R) : C := csum (alen c) (fun n => cscal (c n * INR n) (cis (- (w * INR n)))).
(** c is the product of the filters (polynomials) b and r. *)
Definition is_cascade (b r c : vec) : Prop :=
  alen c = (alen b + alen r - 1)%nat /\ forall n, (n < alen c)%nat -> c n = full_conv (alen b) (alen r) b r n.

Lemma cascade_sum b r c g : is_cascade b r c -> (1 <= alen b)%nat -> (1 <= alen r)%nat ->
  rsum (alen c) (fun n => c n * g n) = rsum (alen b) (fun i => rsum (alen r) (fun j => b i * r j * g (i + j)%nat)).
Proof.
  intros [Lc Ec] Hb Hr.
  rewrite (rsum_ext (alen c) _ (fun n => rsum (alen b) (fun i => rsum (alen r) (fun j => if (i + j =? n)%nat then b i * r j * g (i + j)%nat else 0)))).
  - rewrite rsum_swap. apply rsum_ext. intros i Hi. rewrite rsum_swap. apply rsum_ext. intros j Hj.
    rewrite (rsum_single (alen c) (i + j)%nat); [now rewrite Nat.eqb_refl|lia|].
    intros n Hn Hne. destruct (Nat.eqb_spec (i + j) n); [lia|reflexivity].
  - intros n Hn. rewrite Ec by auto. unfold full_conv. rewrite <- rsum_scal_r. apply rsum_ext. intros i Hi.
    rewrite <- rsum_scal_r. apply rsum_ext. intros j Hj. destruct (Nat.eqb_spec (i + j) n) as [<-|]; ring.
Qed.
Lemma cascade_csum b r c (z : nat -> C) : is_cascade b r c -> (1 <= alen b)%nat -> (1 <= alen r)%nat ->
  csum (alen c) (fun n => cscal (c n) (z n)) = csum (alen b) (fun i => csum (alen r) (fun j => cscal (b i * r j) (z (i + j)%nat))).
Proof. intros. apply C_eq; unfold csum; cbn [fst snd cscal]; rewrite (cascade_sum b r c) by auto; reflexivity. Qed.

Lemma cascade_resp b r c w : is_cascade b r c -> (1 <= alen b)%nat -> (1 <= alen r)%nat ->
  freq_resp c w = cmul (freq_resp b w) (freq_resp r w) /\
  wresp c w = cadd (cmul (wresp b w) (freq_resp r w)) (cmul (freq_resp b w) (wresp r w)).
Proof.
  intros Hc Hb Hr. split.
  - unfold freq_resp at 1. rewrite (cascade_csum b r c) by auto. unfold freq_resp. rewrite <- csum_mul_r. apply csum_ext. intros i Hi.
    rewrite <- csum_mul_l. apply csum_ext. intros j Hj. rewrite plus_INR.
    replace (- (w * (INR i + INR j))) with (- (w * INR i) + - (w * INR j)) by ring. rewrite cis_add. cfield.
  - unfold wresp at 1.
    rewrite (csum_ext (alen c) _ (fun n => cscal (c n) (cscal (INR n) (cis (- (w * INR n)))))) by (intros; cfield).
    rewrite (cascade_csum b r c (fun n => cscal (INR n) (cis (- (w * INR n))))) by auto.
    unfold wresp, freq_resp. rewrite <- !csum_mul_r, <- csum_add. apply csum_ext. intros i Hi.
    rewrite <- !csum_mul_l, <- csum_add. apply csum_ext. intros j Hj. rewrite plus_INR.
    replace (- (w * (INR i + INR j))) with (- (w * INR i) + - (w * INR j)) by ring. rewrite cis_add. cfield.
Qed.
Lemma rev_resp a w : (1 <= alen a)%nat ->
  freq_resp (reversed_arr a) w = cmul (cis (- (w * INR (alen a - 1)))) (cconj (freq_resp a w)) /\
  wresp (reversed_arr a) w = cmul (cis (- (w * INR (alen a - 1)))) (cconj (csub (cscal (INR (alen a - 1)) (freq_resp a w)) (wresp a w))).
Proof.
  intros Ha.
  assert (R : forall f, csum (alen a) f = csum (alen a) (fun i => f (alen a - 1 - i)%nat)).
  { intros f. apply C_eq; unfold csum; cbn [fst snd]; apply rsum_rev. }
  assert (P : forall i, (i < alen a)%nat -> cis (- (w * INR (alen a - 1 - i))) = cmul (cis (- (w * INR (alen a - 1)))) (cconj (cis (- (w * INR i))))).
  { intros i Hi. rewrite <- cis_neg, <- cis_add. f_equal. rewrite (minus_INR _ i) by lia. ring. }
  split.
  - unfold freq_resp. cbn [reversed_arr alen aget]. rewrite R, <- csum_conj, <- csum_mul_l. apply csum_ext. intros i Hi.
    rewrite P by auto. replace (alen a - 1 - (alen a - 1 - i))%nat with i by lia. cfield.
  - unfold wresp, freq_resp. cbn [reversed_arr alen aget]. rewrite R.
    rewrite (csum_ext (alen a) _ (fun i => cmul (cis (- (w * INR (alen a - 1)))) (cconj (csub (cscal (INR (alen a - 1)) (cscal (a i) (cis (- (w * INR i))))) (cscal (a i * INR i) (cis (- (w * INR i)))))))).
    + rewrite csum_mul_l, csum_conj, csum_sub. f_equal. f_equal. f_equal.
      rewrite cscal_mul, <- csum_mul_l. apply csum_ext. intros i _. apply cscal_mul.
    + intros i Hi. rewrite P by auto. replace (alen a - 1 - (alen a - 1 - i))%nat with i by lia.
      rewrite (minus_INR (alen a - 1) i) by lia. cfield.
Qed.
Lemma convolve_full_cascade b r c : convolve_full b r = Ok c -> is_cascade b r c /\ (1 <= alen b)%nat /\ (1 <= alen r)%nat.
Proof.
  unfold convolve_full. destruct (Nat.eqb_spec (alen b) 0); [discriminate|]. destruct (Nat.eqb_spec (alen r) 0); [discriminate|].
  cbn [orb]. intros E. assert (Ec := f_equal (fun x => match x with Ok v => v | Err _ => c end) E). cbn in Ec. subst c. clear E.
  split; [|lia]. split; [reflexivity|]. cbn [alen aget]. intros k Hk. unfold full_conv. apply rsum_ext. intros i Hi.
  destruct (Nat.leb_spec i k) as [H|H].
  - unfold vpad. destruct (Nat.ltb_spec (k - i) (alen r)).
    + rewrite (rsum_single (alen r) (k - i)%nat); [|lia|].
      * destruct (Nat.eqb_spec (i + (k - i)) k); [reflexivity|lia].
      * intros j Hj Hne. destruct (Nat.eqb_spec (i + j) k); [lia|reflexivity].
    + rewrite rsum_zero; [ring|]. intros j Hj. destruct (Nat.eqb_spec (i + j) k); [lia|reflexivity].
  - rewrite rsum_zero; [reflexivity|]. intros j Hj. destruct (Nat.eqb_spec (i + j) k); [lia|reflexivity].
Qed.
Lemma Re_conj z : Re (cconj z) = Re z. Proof. reflexivity. Qed.
(** What grpdelay computes where the response does not vanish. *)
Lemma grpdelay_closed b a Fs nfft gd f k :
  grpdelay b a Fs nfft = Ok (gd, f) -> Fs <> 0 -> (alen b + alen a - 1 <= 2 * nfft)%nat -> (k < alen gd)%nat ->
  let w := 2 * PI * f k / Fs in
  / 10 ^ 12 <= cabs (freq_resp b w) * cabs (freq_resp a w) ->
  w = 2 * PI * INR k / INR (2 * nfft) /\ freq_resp b w <> C0 /\ freq_resp a w <> C0 /\
  gd k = Re (cdiv (wresp b w) (freq_resp b w)) - Re (cdiv (wresp a w) (freq_resp a w)).
Proof.
  intros E HF Hfit Hk w Htol. unfold grpdelay in E.
  destruct (convolve_full b (reversed_arr a)) as [c|] eqn:Ec; [|discriminate].
  cbn [bind] in E. destruct (Nat.eqb_spec nfft 0) as [|Hn]; [discriminate|].
  assert (Egd : gd = mkArr (Nat.min (nfft + 1) (2 * nfft - 1))
            (gd_bin c (mkArr (alen c) (fun n => c n * INR n)) (alen a - 1) (2 * nfft))) by congruence.
  assert (Ef : f = mkArr (Nat.min (nfft + 1) (2 * nfft - 1)) (fun k => INR k / INR (2 * nfft) * Fs)) by congruence.
  clear E.
  destruct (convolve_full_cascade _ _ _ Ec) as (Hc & Hb & Ha). cbn [reversed_arr alen] in Ha.
  destruct (cascade_resp _ _ _ w Hc Hb Ha) as [C1' C2'].
  destruct (rev_resp a w Ha) as [A1 A2].
  assert (Hw : w = 2 * PI * INR k / INR (2 * nfft)).
  { unfold w. rewrite Ef. cbn [aget]. field. split; auto. apply not_0_INR. lia. }
  assert (P12 : 0 < / 10 ^ 12) by (apply Rinv_0_lt_compat, pow_lt; lra).
  assert (Nb : freq_resp b w <> C0) by (intros Z; rewrite Z, cabs_0 in Htol; lra).
  assert (Na : freq_resp a w <> C0) by (intros Z; rewrite Z, cabs_0 in Htol; lra).
  split; [exact Hw|]. split; [exact Nb|]. split; [exact Na|].
  assert (Ac : cabs (freq_resp c w) = cabs (freq_resp b w) * cabs (freq_resp a w)).
  { rewrite C1', A1, !cabs_mul, cabs_conj, cabs_cis. ring. }
  destruct Hc as [Lc _]. cbn [reversed_arr alen] in Lc.
  rewrite Egd. cbn [aget]. unfold gd_bin.
  rewrite (fft_n_freq c) by lia.
  rewrite (fft_n_freq (mkArr (alen c) (fun n => c n * INR n))) by (cbn [alen]; lia).
  rewrite <- Hw.
  assert (L : rltb (cabs (freq_resp c w)) gd_tol = false) by (apply rltb_false; unfold gd_tol; rewrite Ac; exact Htol).
  rewrite L. change (freq_resp (mkArr (alen c) (fun n => c n * INR n)) w) with (wresp c w).
  set (e := cis (- (w * INR (alen a - 1)))) in *. assert (Ne : e <> C0) by apply cis_neq_0.
  assert (Nac : cconj (freq_resp a w) <> C0) by (intros Z; apply Na; rewrite <- (cconj_invol (freq_resp a w)), Z; apply cconj_0).
  assert (Q : cdiv (wresp c w) (freq_resp c w) =
     cadd (cdiv (wresp b w) (freq_resp b w)) (cconj (csub (RtoC (INR (alen a - 1))) (cdiv (wresp a w) (freq_resp a w))))).
  { symmetry. apply cdiv_unique.
    - rewrite C1', A1. apply cmul_neq_0; [exact Nb|]. apply cmul_neq_0; assumption.
    - rewrite C2', C1', A1, A2. rewrite cmul_add_r. f_equal.
      + rewrite cmul_assoc, cdiv_mul by exact Nb. reflexivity.
      + rewrite (cmul_assoc _ (freq_resp b w)), (cmul_comm _ (freq_resp b w)), <- cmul_assoc. f_equal.
        rewrite cmul_assoc, (cmul_comm _ e), <- cmul_assoc. f_equal. rewrite <- cconj_mul. f_equal.
        rewrite cmul_comm, cmul_sub_l, (cmul_comm _ (cdiv _ _)), cdiv_mul by exact Na. f_equal. rewrite cscal_mul. apply cmul_comm. }
  rewrite Q. unfold Re. cbn [cadd cconj csub RtoC fst snd]. ring.
Qed.

(** Filters of linear phase (symmetric or antisymmetric coefficients) delay every frequency by (L-1)/2 samples. *)
Theorem C158_linear_phase : forall (b a : vec) Fs nfft gd f k s,
  grpdelay b a Fs nfft = Ok (gd, f) -> Fs <> 0 -> (alen b <= 2 * nfft)%nat -> (k < alen gd)%nat ->
  alen a = 1%nat -> (s = 1 \/ s = -1) -> (forall i, (i < alen b)%nat -> b (alen b - 1 - i)%nat = s * b i) ->
  let w := 2 * PI * f k / Fs in
  / 10 ^ 12 <= cabs (freq_resp b w) * cabs (freq_resp a w) ->
  gd k = INR (alen b - 1) / 2.
Proof.
  intros b a Fs nfft gd f k s E HF Hfit Hk La Hs Hsym w Htol.
  destruct (grpdelay_closed b a Fs nfft gd f k E HF ltac:(lia) Hk Htol) as (_ & Nb & Na & G). fold w in Nb, Na, G.
  rewrite G. assert (Wa : wresp a w = C0).
  { unfold wresp. rewrite La. apply csum_zero. intros i Hi. replace i with 0%nat by lia. cbn [INR]. cfield. }
  rewrite Wa. unfold cdiv at 2. rewrite cmul_0_l. unfold Re at 2. cbn [fst C0]. rewrite Rminus_0_r.
  assert (Hb : (1 <= alen b)%nat).
  { destruct (Nat.eq_dec (alen b) 0) as [Z|]; [|lia]. exfalso. apply Nb. unfold freq_resp. rewrite Z. reflexivity. }
  destruct (rev_resp b w Hb) as [R1 R2].
  assert (S1 : freq_resp (reversed_arr b) w = cscal s (freq_resp b w)).
  { unfold freq_resp. cbn [reversed_arr alen aget]. rewrite cscal_mul, <- csum_mul_l. apply csum_ext. intros i Hi. rewrite Hsym by auto. cfield. }
  assert (S2 : wresp (reversed_arr b) w = cscal s (wresp b w)).
  { unfold wresp. cbn [reversed_arr alen aget]. rewrite cscal_mul, <- csum_mul_l. apply csum_ext. intros i Hi. rewrite Hsym by auto. cfield. }
  rewrite S1 in R1. rewrite S2 in R2. set (B := freq_resp b w) in *. set (W := wresp b w) in *.
  set (e := cis _) in *. set (n := INR (alen b - 1)) in *. set (q := cdiv W B).
  assert (EW : W = cmul q B) by (symmetry; apply cdiv_mul; exact Nb).
  (* s q B = e conj (n B - q B) = conj (n - q) e conj B = conj (n - q) s B *)
  assert (Eq : q = cconj (csub (RtoC n) q)).
  { apply (cmul_reg_l (cscal s B)).
    - rewrite cscal_mul. apply cmul_neq_0; [|exact Nb]. intros Z. apply (f_equal fst) in Z. cbn in Z. destruct Hs; lra.
    - transitivity (cscal s W); [rewrite EW; cfield|]. rewrite R2, R1, EW. cfield. }
  apply (f_equal Re) in Eq. unfold Re in Eq |- *. cbn [cconj csub RtoC fst] in Eq. lra.
Qed.

(** Group delays of filters in series add; the inverse filter has the negative delay. *)
Theorem C158_cascade : forall b1 a1 b2 a2 b a Fs nfft g1 g2 g f1 f2 f k,
  is_cascade b1 b2 b -> is_cascade a1 a2 a ->
  grpdelay b1 a1 Fs nfft = Ok (g1, f1) -> grpdelay b2 a2 Fs nfft = Ok (g2, f2) -> grpdelay b a Fs nfft = Ok (g, f) ->
  Fs <> 0 -> (alen b + alen a - 1 <= 2 * nfft)%nat -> (k < alen g)%nat ->
  let w := 2 * PI * f k / Fs in
  let resp (b a : vec) := cabs (freq_resp b w) * cabs (freq_resp a w) in
  / 10 ^ 12 <= resp b1 a1 -> / 10 ^ 12 <= resp b2 a2 -> / 10 ^ 12 <= resp b a ->
  g k = g1 k + g2 k.
Proof.
  intros b1 a1 b2 a2 b a Fs nfft g1 g2 g f1 f2 f k Hb Ha E1 E2 E HF Hfit Hk w resp T1 T2 T.
  assert (Q : forall b a g f, grpdelay b a Fs nfft = Ok (g, f) ->
     alen g = Nat.min (nfft + 1) (2 * nfft - 1) /\ f = mkArr (Nat.min (nfft + 1) (2 * nfft - 1)) (fun k => INR k / INR (2 * nfft) * Fs) /\
     (1 <= alen b)%nat /\ (1 <= alen a)%nat).
  { clear. intros b a g f E. unfold grpdelay in E. destruct (convolve_full b (reversed_arr a)) as [c|] eqn:Ec; [|discriminate].
    apply convolve_full_cascade in Ec. cbn [reversed_arr alen] in Ec.
    cbn [bind] in E. destruct (Nat.eqb_spec nfft 0) as [|Hn]; [discriminate|].
    split; [|split; [congruence|tauto]].
    apply (f_equal (fun r => match r with Ok p => alen (fst p) | _ => 0%nat end)) in E. exact (eq_sym E). }
  destruct (Q _ _ _ _ E1) as (L1 & F1 & B1 & A1). destruct (Q _ _ _ _ E2) as (L2 & F2 & B2 & A2). destruct (Q _ _ _ _ E) as (L & F & _ & _).
  pose proof (proj1 Hb) as LB. pose proof (proj1 Ha) as LA.
  assert (X1 : f1 = f) by congruence. assert (X2 : f2 = f) by congruence. rewrite X1 in E1. rewrite X2 in E2. clear X1 X2 F1 F2.
  destruct (grpdelay_closed b1 a1 Fs nfft g1 f k E1 HF ltac:(lia) ltac:(lia) T1) as (_ & Nb1 & Na1 & ->).
  destruct (grpdelay_closed b2 a2 Fs nfft g2 f k E2 HF ltac:(lia) ltac:(lia) T2) as (_ & Nb2 & Na2 & ->).
  destruct (grpdelay_closed b a Fs nfft g f k E HF ltac:(lia) ltac:(lia) T) as (_ & Nb & Na & ->).
  fold w in Nb1, Na1, Nb2, Na2, Nb, Na |- *.
  assert (S : forall x y z, is_cascade x y z -> (1 <= alen x)%nat -> (1 <= alen y)%nat -> freq_resp x w <> C0 -> freq_resp y w <> C0 ->
     cdiv (wresp z w) (freq_resp z w) = cadd (cdiv (wresp x w) (freq_resp x w)) (cdiv (wresp y w) (freq_resp y w))).
  { intros x y z Hz Hx Hy Nx Ny. destruct (cascade_resp x y z w Hz Hx Hy) as [C1' C2']. symmetry. apply cdiv_unique.
    - rewrite C1'. apply cmul_neq_0; assumption.
    - rewrite C1', C2', cmul_add_r. f_equal.
      + rewrite cmul_assoc, cdiv_mul by assumption. reflexivity.
      + rewrite (cmul_comm (freq_resp x w)), cmul_assoc, cdiv_mul by assumption. apply cmul_comm. }
  rewrite (S b1 b2 b), (S a1 a2 a) by assumption. unfold Re. cbn [cadd fst]. ring.
Qed.
Theorem C158_inverse : forall b a Fs nfft g h f f' k,
  grpdelay b a Fs nfft = Ok (g, f) -> grpdelay a b Fs nfft = Ok (h, f') ->
  Fs <> 0 -> (alen b + alen a - 1 <= 2 * nfft)%nat -> (k < alen g)%nat -> (k < alen h)%nat ->
  let w := 2 * PI * f k / Fs in
  / 10 ^ 12 <= cabs (freq_resp b w) * cabs (freq_resp a w) ->
  h k = - g k.
Proof.
  intros b a Fs nfft g h f f' k E E' HF Hfit Hk Hk' w T.
  assert (Ff : forall b a g f, grpdelay b a Fs nfft = Ok (g, f) ->
     f = mkArr (Nat.min (nfft + 1) (2 * nfft - 1)) (fun k => INR k / INR (2 * nfft) * Fs)).
  { clear. intros b a g f E. unfold grpdelay in E. destruct (convolve_full b (reversed_arr a)) as [c|] eqn:Ec; [|discriminate].
    cbn [bind] in E. destruct (Nat.eqb_spec nfft 0) as [|Hn]; [discriminate|]. congruence. }
  assert (f' = f) by (rewrite (Ff _ _ _ _ E), (Ff _ _ _ _ E'); reflexivity). subst f'.
  destruct (grpdelay_closed b a Fs nfft g f k E HF Hfit Hk T) as (_ & _ & _ & ->).
  destruct (grpdelay_closed a b Fs nfft h f k E' HF ltac:(lia) Hk') as (_ & _ & _ & ->).
  - rewrite Rmult_comm. exact T.
  - ring.
Qed.

(** [1, 2, 1] delays by one sample, its square by two samples. *)
Lemma fr121 w : freq_resp (of_list [1; 2; 1]) w = cscal (2 + 2 * cos w) (cis (- w)).
Proof.
  unfold freq_resp, csum, of_list, cis. cbn [alen aget length rsum nth cscal fst snd]. change (INR 2) with 2. change (INR 1) with 1. change (INR 0) with 0.
  rewrite Rmult_0_r, Ropp_0, cos_0, sin_0, Rmult_1_r. rewrite !sin_neg, !cos_neg, (Rmult_comm w 2), sin_2a, cos_2a.
  pose proof (sin2_cos2 w) as S. unfold Rsqr in S. apply C_eq; cbn [cscal fst snd]; rewrite ?sin_neg, ?cos_neg, ?Rmult_1_r; [|ring].
  replace (cos w * cos w - sin w * sin w) with (2 * (cos w * cos w) - 1) by lra. ring.
Qed.
Lemma fr_one w : freq_resp (of_list [1]) w = C1.
Proof. unfold freq_resp, csum, of_list, cscal, cis. cbn. rewrite Rmult_0_r, Ropp_0, cos_0, sin_0. cfield. Qed.
Example C158_example : exists gd f, grpdelay (of_list [1; 2; 1]) (of_list [1]) 1 4 = Ok (gd, f) /\ gd 2%nat = 1.
Proof.
  destruct (grpdelay (of_list [1; 2; 1]) (of_list [1]) 1 4) as [[gd f]|e] eqn:E;
    [|unfold grpdelay, convolve_full in E; cbn in E; discriminate].
  exists gd, f. split; [reflexivity|].
  assert (L : alen gd = 5%nat) by (unfold grpdelay, convolve_full in E; cbn in E; injection E as <- _; reflexivity).
  assert (F2 : f 2%nat = 1 / 4) by (unfold grpdelay, convolve_full in E; cbn in E; injection E as _ <-; cbn; field).
  rewrite (C158_linear_phase (of_list [1; 2; 1]) (of_list [1]) 1 4 gd f 2 1 E); try (cbn; lra); auto.
  - cbn. lia.
  - rewrite L. lia.
  - intros i Hi. cbn in Hi. destruct i as [|[|[|i]]]; [| | |lia]; cbn; lra.
  - rewrite fr_one, fr121, F2. replace (2 * PI * (1 / 4) / 1) with (PI / 2) by field. rewrite cos_PI2.
    rewrite cscal_mul, cabs_mul, cabs_cis. unfold cabs at 1 2, cnorm2, RtoC, C1. cbn [fst snd].
    replace ((2 + 2 * 0) * (2 + 2 * 0) + 0 * 0) with (2 * 2) by ring. rewrite sqrt_square by lra.
    replace (1 * 1 + 0 * 0) with (1 * 1) by ring. rewrite sqrt_square by lra.
    assert (P : 1 <= 10 ^ 12) by (apply pow_R1_Rle; lra). apply Rinv_le_contravar in P; lra.
Qed.
Example C158_cascade_example : is_cascade (of_list [1; 1]) (of_list [1; 1]) (of_list [1; 2; 1]).
Proof.
  split; [reflexivity|]. intros n Hn. cbn in Hn. destruct n as [|[|[|n]]]; [| | |lia]; cbn; lra.
Qed.
Print Assumptions C158_linear_phase.
Print Assumptions C158_cascade.
Print Assumptions C158_inverse.
