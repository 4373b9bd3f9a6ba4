(** Lemmas on stability, group delay, smoothing, unwrapping and impulse invariance. *)
From Coq Require Import Reals List Arith ZArith Lia Lra Psatz Permutation Bool.
From Verif Require Import Base Sums Cplx S_Poly S_MC M_FilterStuff P_Poly P_Deriv.
Import ListNotations.
Open Scope R_scope.

(** ** Bounded output *)
Lemma cabs_triangle a b : cabs (cadd a b) <= cabs a + cabs b.
Proof.
  pose proof (cabs_nonneg a) as Ha. pose proof (cabs_nonneg b) as Hb.
  apply Rsqr_incr_0_var; [|lra]. unfold Rsqr. rewrite cabs_sq.
  replace ((cabs a + cabs b) * (cabs a + cabs b)) with (cabs a * cabs a + cabs b * cabs b + 2 * (cabs a * cabs b)) by ring.
  rewrite !cabs_sq.
  assert (K : fst a * fst b + snd a * snd b <= cabs a * cabs b).
  { rewrite <- cabs_mul. destruct (Rle_dec (fst a * fst b + snd a * snd b) 0) as [L|L].
    - pose proof (cabs_nonneg (cmul a b)). lra.
    - apply Rsqr_incr_0_var; [|apply cabs_nonneg]. unfold Rsqr. rewrite cabs_sq, cnorm2_mul.
      unfold cnorm2. pose proof (pow2_ge_0 (fst a * snd b - snd a * fst b)). nra. }
  unfold cnorm2, cadd in *. cbn. nra.
Qed.
Lemma cabs_real x : cabs (RtoC x) = Rabs x.
Proof. unfold cabs, cnorm2, RtoC. cbn. replace (x * x + 0 * 0) with (Rsqr x) by (unfold Rsqr; ring). apply sqrt_Rsqr_abs. Qed.

Definition cv (p y : nat -> C) (n : nat) : C := csum (S n) (fun j => cmul (p j) (y (n - j)%nat)).
Definition prev (g : nat -> C) (n : nat) : C := match n with O => C0 | S m => g m end.

Lemma csum_S_l n f : csum (S n) f = cadd (f O) (csum n (fun i => f (S i))).
Proof. apply C_eq; unfold csum; cbn [fst snd cadd]; apply rsum_S_l. Qed.
Lemma csum_sub n f g : csum n (fun i => csub (f i) (g i)) = csub (csum n f) (csum n g).
Proof. apply C_eq; cbn; apply rsum_minus. Qed.

Lemma cv_step p v y n : cv (poly_step p v) y n = csub (cv p y n) (cmul v (prev (cv p y) n)).
Proof.
  destruct n as [|n].
  - unfold cv, csum. cbn. cfield.
  - unfold prev, cv. rewrite csum_S_l, (csum_S_l (S n) (fun j => cmul (p j) _)).
    rewrite <- csum_mul_l.
    rewrite (csum_ext (S n) _ (fun i => csub (cmul (p (S i)) (y (S n - S i)%nat)) (cmul v (cmul (p i) (y (n - i)%nat))))).
    + rewrite csum_sub. cbn [poly_step]. cfield.
    + intros i _. cbn [poly_step Nat.sub]. cfield.
Qed.
Lemma cv_ext p q y n : (forall j, p j = q j) -> cv p y n = cv q y n.
Proof. intros H. apply csum_ext. intros j _. rewrite H. reflexivity. Qed.
Lemma cv_one y n : cv poly_one y n = y n.
Proof.
  unfold cv. rewrite csum_S_l. cbn [poly_one]. rewrite csum_zero by (intros; apply cmul_0_l).
  rewrite Nat.sub_0_r. cfield.
Qed.

Lemma one_pole_bound v g L M : cabs v < 1 -> 0 <= M ->
  (forall n, (n < L)%nat -> cabs (csub (g n) (cmul v (prev g n))) <= M) ->
  forall n, (n < L)%nat -> cabs (g n) <= M / (1 - cabs v).
Proof.
  intros Hv HM H. pose proof (cabs_nonneg v) as Hv0.
  assert (D : M / (1 - cabs v) * (1 - cabs v) = M) by (field; lra).
  assert (D0 : 0 <= M / (1 - cabs v)) by (apply Rmult_le_pos; [auto|left; apply Rinv_0_lt_compat; lra]).
  induction n as [|n IH]; intros Hn.
  - pose proof (H 0%nat Hn) as K. cbn in K. rewrite cmul_0_r, csub_0_r in K. nra.
  - pose proof (H (S n) Hn) as K. cbn [prev] in K. specialize (IH ltac:(lia)).
    assert (T : cabs (g (S n)) <= cabs (csub (g (S n)) (cmul v (g n))) + cabs (cmul v (g n))).
    { eapply Rle_trans; [|apply cabs_triangle]. right. f_equal. cfield. }
    rewrite cabs_mul in T. nra.
Qed.

Definition gain (l : list C) : R := fold_right (fun v k => k / (1 - cabs v)) 1 l.
Lemma gain_nonneg l : (forall v, In v l -> cabs v < 1) -> 0 <= gain l.
Proof.
  induction l as [|v l IH]; intros H; cbn; [lra|].
  apply Rmult_le_pos; [apply IH; intros; apply H; right; auto|left; apply Rinv_0_lt_compat].
  pose proof (H v (or_introl eq_refl)). lra.
Qed.
Lemma cascade_bound l : forall y L M, (forall v, In v l -> cabs v < 1) -> 0 <= M ->
  (forall n, (n < L)%nat -> cabs (cv (pc l) y n) <= M) ->
  forall n, (n < L)%nat -> cabs (y n) <= M * gain l.
Proof.
  induction l as [|v l IH]; intros y L M Hv HM H n Hn.
  - cbn. rewrite Rmult_1_r. rewrite <- (cv_one y n). apply H; auto.
  - assert (Hv1 : cabs v < 1) by (apply Hv; left; auto).
    assert (B : forall n, (n < L)%nat -> cabs (cv (pc l) y n) <= M / (1 - cabs v)).
    { apply one_pole_bound; auto. intros k Hk. rewrite <- cv_step.
      rewrite <- (cv_ext (pc (v :: l))) by (intros j; apply pc_cons). apply H; auto. }
    assert (D0 : 0 <= M / (1 - cabs v)) by (apply Rmult_le_pos; [auto|left; apply Rinv_0_lt_compat; lra]).
    pose proof (IH y L _ ltac:(intros; apply Hv; right; auto) D0 B n Hn) as K.
    cbn [gain fold_right]. fold (gain l).
    replace (M * (gain l / (1 - cabs v))) with (M / (1 - cabs v) * gain l) by (field; lra). exact K.
Qed.

Lemma filter_sum_vpad a y n :
  rsum (alen a) (fun j => if (j <=? n)%nat then a j * y (n - j)%nat else 0)
  = rsum (S n) (fun j => vpad a j * y (n - j)%nat).
Proof.
  transitivity (rsum (alen a + S n) (fun j => if (j <=? n)%nat then vpad a j * y (n - j)%nat else 0)).
  - rewrite rsum_app, (rsum_zero (S n)).
    + rewrite Rplus_0_r. apply rsum_ext. intros j Hj. unfold vpad. rewrite (proj2 (Nat.ltb_lt _ _)) by auto. reflexivity.
    + intros i _. unfold vpad. rewrite (proj2 (Nat.ltb_ge (alen a + i) (alen a))) by lia. destruct (_ <=? _)%nat; ring.
  - rewrite Nat.add_comm, rsum_app, (rsum_zero (alen a)).
    + rewrite Rplus_0_r. apply rsum_ext. intros j Hj. rewrite (proj2 (Nat.leb_le _ _)) by lia. reflexivity.
    + intros i _. rewrite (proj2 (Nat.leb_gt (S n + i) n)) by lia. reflexivity.
Qed.

Lemma bibo b a v : exact_roots a v -> vpad a 0 <> 0 -> (forall u, In u v -> cabs u < 1) ->
  exists K, 0 <= K /\ forall x y M, filter_response b a x y -> 0 <= M ->
    (forall n, (n < alen x)%nat -> Rabs (x n) <= M) ->
    forall n, (n < alen x)%nat -> Rabs (y n) <= K * M.
Proof.
  intros HR H0 Hv. destruct (exact_roots_coef a v HR) as [lead [k [Hl [Hk [Hz E]]]]].
  assert (k = 0)%nat.
  { destruct k as [|k]; auto. exfalso. apply H0. unfold vpad.
    destruct (0 <? alen a)%nat; auto. apply Hz. lia. }
  subst k. cbn in E.
  set (B := rsum (alen b) (fun j => Rabs (b j))).
  assert (HB : 0 <= B) by (apply rsum_nonneg; intros; apply Rabs_pos).
  assert (Hal : 0 < Rabs lead) by (apply Rabs_pos_lt; auto).
  exists (B / Rabs lead * gain v). split.
  { apply Rmult_le_pos; [|apply gain_nonneg; auto]. apply Rmult_le_pos; auto. left. apply Rinv_0_lt_compat; auto. }
  intros x y M [Hlen HF] HM Hx n Hn.
  set (yc := fun n => RtoC (y n)).
  assert (C : forall n, (n < alen x)%nat -> cabs (cv (pc v) yc n) <= B * M / Rabs lead).
  { intros m Hm. pose proof (HF m Hm) as K. rewrite (filter_sum_vpad a) in K.
    assert (A : cscal lead (cv (pc v) yc m) = RtoC (rsum (S m) (fun j => vpad a j * y (m - j)%nat))).
    { rewrite cscal_mul. unfold cv. rewrite <- csum_mul_l.
      rewrite (csum_ext (S m) _ (fun j => RtoC (vpad a j * y (m - j)%nat))).
      - apply C_eq; unfold csum, RtoC; cbn [fst snd]; auto. apply rsum_zero; auto.
      - intros j _. rewrite cmul_assoc, <- cscal_mul, <- E. unfold yc. cfield. }
    apply (f_equal cabs) in A. rewrite cscal_mul, cabs_mul, !cabs_real, K in A.
    apply Rmult_le_reg_l with (Rabs lead); auto.
    replace (Rabs lead * (B * M / Rabs lead)) with (B * M) by (field; lra).
    rewrite A. eapply Rle_trans; [apply rsum_Rabs|]. unfold B. rewrite <- rsum_scal_r. apply rsum_le.
    intros j Hj. destruct (Nat.leb_spec j m).
    - rewrite Rabs_mult. apply Rmult_le_compat_l; [apply Rabs_pos|apply Hx; lia].
    - rewrite Rabs_R0. apply Rmult_le_pos; [apply Rabs_pos|auto]. }
  pose proof (cascade_bound v yc (alen x) (B * M / Rabs lead) Hv
    ltac:(apply Rmult_le_pos; [nra|left; apply Rinv_0_lt_compat; auto]) C n Hn) as K.
  unfold yc in K. rewrite cabs_real in K.
  replace (B / Rabs lead * gain v * M) with (B * M / Rabs lead * gain v) by (field; lra). exact K.
Qed.

(** ** Group delay *)
Lemma rsum_conv la lb (F : nat -> nat -> R) : (1 <= la)%nat -> (1 <= lb)%nat ->
  (forall i j, (lb <= j)%nat -> F i j = 0) ->
  rsum (la + lb - 1) (fun n => rsum la (fun i => if (i <=? n)%nat then F i (n - i)%nat else 0))
  = rsum la (fun i => rsum lb (F i)).
Proof.
  intros Ha Hb HF. rewrite rsum_swap. apply rsum_ext. intros i Hi.
  replace (la + lb - 1)%nat with (i + (lb + (la - 1 - i)))%nat by lia.
  rewrite rsum_app, rsum_zero, rsum_app, Rplus_0_l.
  - rewrite (rsum_zero (la - 1 - i)), Rplus_0_r.
    + apply rsum_ext. intros j Hj. rewrite (proj2 (Nat.leb_le _ _)) by lia. f_equal. lia.
    + intros j Hj. rewrite (proj2 (Nat.leb_le _ _)) by lia. apply HF. lia.
  - intros j Hj. rewrite (proj2 (Nat.leb_gt _ _)) by lia. reflexivity.
Qed.

(** spectrum of the convolution with the reversed denominator *)
Lemma conv_rev_spectrum b a c w : convolve_full b (reversed_arr a) = Ok c ->
  (1 <= alen b)%nat /\ (1 <= alen a)%nat /\ alen c = (alen b + alen a - 1)%nat /\
  freq_resp c w = cmul (cmul (freq_resp b w) (cconj (freq_resp a w))) (cis (- (w * INR (alen a - 1)))).
Proof.
  unfold convolve_full. cbn [reversed_arr alen].
  destruct (Nat.eqb_spec (alen b) 0) as [|Nb]; [discriminate|].
  destruct (Nat.eqb_spec (alen a) 0) as [|Na]; [discriminate|]. cbn [orb]. intros E.
  assert (Ec : c = mkArr (alen b + alen a - 1)
             (fun n => rsum (alen b) (fun i => if (i <=? n)%nat then b i * vpad (reversed_arr a) (n - i) else 0)))
    by congruence.
  repeat split; try lia; try (rewrite Ec; reflexivity).
  assert (K : forall g : nat -> R,
    rsum (alen c) (fun n => c n * g n) =
    rsum (alen b) (fun i => rsum (alen a) (fun j => b i * a j * g (i + (alen a - 1 - j))%nat))).
  { intros g. rewrite Ec. cbn [alen aget].
    transitivity (rsum (alen b + alen a - 1) (fun n => rsum (alen b) (fun i => if (i <=? n)%nat then
       (fun i j => b i * vpad (reversed_arr a) j * g (i + j)%nat) i (n - i)%nat else 0))).
    - apply rsum_ext. intros n Hn. rewrite <- rsum_scal_r. apply rsum_ext. intros i Hi.
      destruct (Nat.leb_spec i n); [|ring]. cbn beta. replace (i + (n - i))%nat with n by lia. ring.
    - rewrite (rsum_conv (alen b) (alen a) (fun i j => b i * vpad (reversed_arr a) j * g (i + j)%nat)); try lia.
      + apply rsum_ext. intros i Hi. rewrite rsum_rev. apply rsum_ext. intros j Hj.
        unfold vpad, reversed_arr. cbn [alen aget]. rewrite (proj2 (Nat.ltb_lt _ _)) by lia.
        replace (alen a - 1 - (alen a - 1 - j))%nat with j by lia. reflexivity.
      + intros i j Hj. unfold vpad. cbn [reversed_arr alen]. rewrite (proj2 (Nat.ltb_ge _ _)) by lia. ring. }
  assert (P : forall i j, (j < alen a)%nat ->
     cis (- (w * INR (i + (alen a - 1 - j)))) =
     cmul (cmul (cis (- (w * INR i))) (cconj (cis (- (w * INR j))))) (cis (- (w * INR (alen a - 1))))).
  { intros i j Hj. rewrite <- cis_neg, <- !cis_add. f_equal. rewrite plus_INR, (minus_INR _ j) by lia. ring. }
  assert (Kc : forall z : nat -> C, csum (alen c) (fun n => cscal (c n) (z n)) =
     csum (alen b) (fun i => csum (alen a) (fun j => cscal (b i * a j) (z (i + (alen a - 1 - j))%nat)))).
  { intros z. apply C_eq; unfold csum; cbn [fst snd cscal]; rewrite K; reflexivity. }
  unfold freq_resp. rewrite Kc.
  rewrite (csum_ext (alen b) _ (fun i => cmul (cmul (cscal (b i) (cis (- (w * INR i)))) (cconj (csum (alen a) (fun j => cscal (a j) (cis (- (w * INR j)))))))
      (cis (- (w * INR (alen a - 1)))))).
  - rewrite csum_mul_r, csum_mul_r. reflexivity.
  - intros i Hi. rewrite <- csum_conj, <- csum_mul_l, <- csum_mul_r. apply csum_ext. intros j Hj.
    rewrite P by auto. cfield.
Qed.

Lemma dl_rsum n (f : nat -> R -> R) (d : nat -> R) x :
  (forall i, (i < n)%nat -> derivable_pt_lim (f i) x (d i)) ->
  derivable_pt_lim (fun t => rsum n (fun i => f i t)) x (rsum n d).
Proof.
  induction n as [|n IH]; intros H.
  - exact (dl_const 0 x).
  - cbn [rsum]. apply (dl_plus (fun t => rsum n (fun i => f i t)) (f n)); [apply IH; auto|apply H; lia].
Qed.
Lemma dl_local f g x l d : 0 < d -> (forall u, Rabs (u - x) < d -> f u = g u) ->
  derivable_pt_lim f x l -> derivable_pt_lim g x l.
Proof.
  intros Hd E H eps He. destruct (H eps He) as [r Hr].
  assert (Hm : 0 < Rmin d r) by (apply Rmin_glb_lt; [auto|apply cond_pos]).
  exists (mkposreal _ Hm). intros t Ht Hlt. cbn in Hlt.
  rewrite <- !E.
  - apply Hr; auto. eapply Rlt_le_trans; [exact Hlt|apply Rmin_r].
  - rewrite Rminus_diag_eq, Rabs_R0 by auto. auto.
  - replace (x + t - x) with t by ring. eapply Rlt_le_trans; [exact Hlt|apply Rmin_l].
Qed.

(** derivative of the real and imaginary part of a frequency response *)
Lemma freq_resp_deriv c w :
  derivable_pt_lim (fun u => fst (freq_resp c u)) w (rsum (alen c) (fun n => - (c n * INR n * sin (w * INR n)))) /\
  derivable_pt_lim (fun u => snd (freq_resp c u)) w (rsum (alen c) (fun n => - (c n * INR n * cos (w * INR n)))).
Proof.
  split.
  - apply (dl_ext (fun u => rsum (alen c) (fun n => c n * cos (u * INR n)))).
    + intros t. unfold freq_resp, csum. cbn [fst]. apply rsum_ext. intros n _. unfold cscal, cis. cbn.
      rewrite cos_neg. reflexivity.
    + apply (dl_rsum _ (fun n u => c n * cos (u * INR n))). intros n _.
      eapply dl_eq; [dl|]. cbv beta. ring.
  - apply (dl_ext (fun u => rsum (alen c) (fun n => - (c n * sin (u * INR n))))).
    + intros t. unfold freq_resp, csum. cbn [snd]. apply rsum_ext. intros n _. unfold cscal, cis. cbn.
      rewrite sin_neg. ring.
    + apply (dl_rsum _ (fun n u => - (c n * sin (u * INR n)))). intros n _.
      eapply dl_eq; [dl|]. cbv beta. ring.
Qed.

Lemma grp_key b a c w l : convolve_full b (reversed_arr a) = Ok c ->
  has_phase_slope b a w l -> freq_resp c w <> C0 ->
  Re (cdiv (freq_resp (mkArr (alen c) (fun n => c n * INR n)) w) (freq_resp c w)) - INR (alen a - 1) = - l.
Proof.
  intros Ec [rho [phi [rho' [[d [Hd HP]] [Hphi Hrho]]]]] Hnz.
  set (Na := INR (alen a - 1)).
  set (q := fun u => rho u * (fst (freq_resp a u) * fst (freq_resp a u) + snd (freq_resp a u) * snd (freq_resp a u))).
  set (psi := fun u => phi u - u * Na).
  assert (EQ : forall u, Rabs (u - w) < d -> freq_resp c u = cscal (q u) (cis (psi u))).
  { intros u Hu. destruct (conv_rev_spectrum b a c u Ec) as [_ [_ [_ E]]]. rewrite E, (HP u Hu).
    unfold psi. replace (phi u - u * Na) with (phi u + - (u * Na)) by ring. rewrite cis_add. unfold q. fold Na.
    cfield. }
  destruct (freq_resp_deriv a w) as [A1 A2].
  assert (Hq : exists q', derivable_pt_lim q w q').
  { eexists. unfold q. eapply dl_mult; [exact Hrho|].
    eapply dl_plus; (eapply dl_mult; [|]); first [exact A1|exact A2]. }
  destruct Hq as [q' Hq].
  assert (Hpsi : derivable_pt_lim psi w (l - Na)).
  { unfold psi. eapply dl_eq; [eapply dl_minus; [exact Hphi|dl]|]. cbv beta. ring. }
  destruct (freq_resp_deriv c w) as [C1' C2'].
  assert (D1 : derivable_pt_lim (fun u => fst (freq_resp c u)) w (q' * cos (psi w) + q w * (- sin (psi w) * (l - Na)))).
  { apply (dl_local (fun u => q u * cos (psi u)) _ w _ d Hd).
    - intros u Hu. rewrite EQ by auto. reflexivity.
    - apply (dl_mult q (fun u => cos (psi u))); auto. apply dl_cos; auto. }
  assert (D2 : derivable_pt_lim (fun u => snd (freq_resp c u)) w (q' * sin (psi w) + q w * (cos (psi w) * (l - Na)))).
  { apply (dl_local (fun u => q u * sin (psi u)) _ w _ d Hd).
    - intros u Hu. rewrite EQ by auto. reflexivity.
    - apply (dl_mult q (fun u => sin (psi u))); auto. apply dl_sin; auto. }
  pose proof (uniqueness_limite _ _ _ _ C1' D1) as U1.
  pose proof (uniqueness_limite _ _ _ _ C2' D2) as U2.
  set (CR := freq_resp (mkArr (alen c) (fun n => c n * INR n)) w).
  assert (R1 : fst CR = - (q' * sin (psi w) + q w * (cos (psi w) * (l - Na)))).
  { rewrite <- U2, <- rsum_opp. unfold CR, freq_resp, csum. cbn [fst alen aget]. apply rsum_ext. intros n _.
    unfold cscal, cis. cbn. rewrite cos_neg. ring. }
  assert (R2 : snd CR = q' * cos (psi w) + q w * (- sin (psi w) * (l - Na))).
  { rewrite <- U1. unfold CR, freq_resp, csum. cbn [snd alen aget]. apply rsum_ext. intros n _.
    unfold cscal, cis. cbn. rewrite sin_neg. ring. }
  assert (E0 : freq_resp c w = cscal (q w) (cis (psi w))).
  { apply EQ. rewrite Rminus_diag_eq, Rabs_R0 by auto. auto. }
  assert (Hqn : q w <> 0).
  { intros Z. apply Hnz. rewrite E0, Z. cfield. }
  rewrite E0. unfold Re, cdiv, cinv, cmul, cnorm2, cscal, cis. cbn [fst snd].
  assert (T : q w * cos (psi w) * (q w * cos (psi w)) + q w * sin (psi w) * (q w * sin (psi w)) = q w * q w).
  { pose proof (sin2_cos2 (psi w)) as S. unfold Rsqr in S.
    replace (q w * cos (psi w) * (q w * cos (psi w)) + q w * sin (psi w) * (q w * sin (psi w)))
      with (q w * q w * (sin (psi w) * sin (psi w) + cos (psi w) * cos (psi w))) by ring. rewrite S. ring. }
  rewrite T, R1, R2.
  pose proof (sin2_cos2 (psi w)) as S. unfold Rsqr in S.
  set (s := sin (psi w)) in *. set (k := cos (psi w)) in *.
  replace (- (q' * s + q w * (k * (l - Na))) * (q w * k / (q w * q w)) -
           (q' * k + q w * (- s * (l - Na))) * (- (q w * s) / (q w * q w)) - Na)
    with (- (l - Na) * (s * s + k * k) - Na) by (field; auto).
  rewrite S. ring.
Qed.

Lemma fft_n_freq x n k : (alen x <= n)%nat -> (0 < n)%nat ->
  fft_n x n k = freq_resp x (2 * PI * INR k / INR n).
Proof.
  intros H Hn. unfold fft_n, freq_resp. rewrite Nat.min_l by auto. apply csum_ext. intros m _.
  f_equal. f_equal. f_equal. field. apply not_0_INR. lia.
Qed.
