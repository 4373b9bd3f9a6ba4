(** Lemmas on the fits of FIR and IIR filters. *)
From Coq Require Import Reals List Arith Lra Lia Permutation.
From Verif Require Import Base Sums Cplx M_DFT M_FilterStuff M_MC M_Fit S_Poly S_Fit P_Poly P_FStuff P_FStuff2 P_LinAlg.
Import ListNotations.
Open Scope R_scope.

(** ** Real and imaginary parts stacked *)
Definition lin (n : nat) (c : nat -> R) (e : nat -> C) : C := csum n (fun j => cscal (c j) (e j)).
Lemma csum_fst n g : fst (csum n g) = rsum n (fun j => fst (g j)).
Proof. induction n; cbn [csum rsum]; [auto|]. rewrite <- IHn. auto. Qed.
Lemma csum_snd n g : snd (csum n g) = rsum n (fun j => snd (g j)).
Proof. induction n; cbn [csum rsum]; [auto|]. rewrite <- IHn. auto. Qed.
Lemma mv_stack_re m n E c i : (i < m)%nat -> mv (stack2 m n E) c i = fst (lin n c (E i)).
Proof.
  intros H. unfold mv, lin. rewrite csum_fst. cbn [mcols mget stack2]. apply rsum_ext. intros j Hj.
  assert (Q : (i <? m)%nat = true) by (apply Nat.ltb_lt; auto). rewrite Q. unfold cscal, Re. cbn [fst]. ring.
Qed.
Lemma mv_stack_im m n E c i : mv (stack2 m n E) c (m + i)%nat = snd (lin n c (E i)).
Proof.
  unfold mv, lin. rewrite csum_snd. cbn [mcols mget stack2]. apply rsum_ext. intros j Hj.
  assert (Q : (m + i <? m)%nat = false) by (apply Nat.ltb_ge; lia). rewrite Q.
  replace (m + i - m)%nat with i by lia. unfold cscal, Im. cbn [snd]. ring.
Qed.
Lemma stack1_re m t i : (i < m)%nat -> stack1 m t i = fst (t i).
Proof. intros H. cbn [stack1 aget]. assert (Q : (i <? m)%nat = true) by (apply Nat.ltb_lt; auto). rewrite Q. auto. Qed.
Lemma stack1_im m t i : stack1 m t (m + i)%nat = snd (t i).
Proof.
  cbn [stack1 aget]. assert (Q : (m + i <? m)%nat = false) by (apply Nat.ltb_ge; lia). rewrite Q.
  replace (m + i - m)%nat with i by lia. auto.
Qed.
Lemma sqdist_stack m n E c t : sqdist (m + m) (mv (stack2 m n E) c) (stack1 m t) =
  rsum m (fun i => cnorm2 (csub (lin n c (E i)) (t i))).
Proof.
  unfold sqdist. rewrite rsum_app, <- rsum_plus. apply rsum_ext. intros i Hi.
  rewrite mv_stack_re, mv_stack_im, stack1_re, stack1_im by auto. unfold cnorm2, csub. cbn [fst snd]. ring.
Qed.
Lemma stack_solves m n E c t : (forall i, (i < m)%nat -> lin n c (E i) = t i) ->
  forall i, (i < m + m)%nat -> mv (stack2 m n E) c i = stack1 m t i.
Proof.
  intros H i Hi. destruct (Nat.lt_ge_cases i m).
  - rewrite mv_stack_re, stack1_re, H by auto. auto.
  - replace i with (m + (i - m))%nat by lia. rewrite mv_stack_im, stack1_im, H by lia. auto.
Qed.
Lemma stack_indep m n E :
  (forall c, (forall i, (i < m)%nat -> lin n c (E i) = C0) -> forall j, (j < n)%nat -> c j = 0) ->
  indep_cols (stack2 m n E).
Proof.
  intros H c Hc j Hj. apply H; auto. intros i Hi. apply C_eq.
  - rewrite <- (mv_stack_re m) by auto. apply Hc. cbn [stack2 mrows]. lia.
  - rewrite <- (mv_stack_im m). apply Hc. cbn [stack2 mrows]. lia.
Qed.
Lemma lin_ext n c d e e' : (forall j, (j < n)%nat -> c j = d j /\ e j = e' j) -> lin n c e = lin n d e'.
Proof. intros H. apply csum_ext. intros j Hj. destruct (H j Hj) as [-> ->]. auto. Qed.

(** The rows of the FIR design give the frequency response. *)
Lemma lin_freq (c : vec) f Fs i L : alen c = L -> lin L c (Eexp f Fs i) = freq_resp c (radf f Fs i).
Proof. intros <-. reflexivity. Qed.

(** ** Frequencies that determine the filter *)
Fixpoint synth (p : nat -> C) (v : C) (n : nat) : C :=
  match n with O => p O | S m => cadd (p (S m)) (cmul v (synth p v m)) end.
Lemma synth_evd p v m : synth p v m = evd m p v.
Proof.
  induction m; [unfold evd; cbn; apply C_eq; cbn; ring|].
  rewrite evd_S, <- IHm. cbn [synth]. apply cadd_comm.
Qed.
Lemma synth_step p v n : p n = poly_step (synth p v) v n.
Proof. destruct n; cbn [poly_step synth]; [auto|]. apply C_eq; cbn; ring. Qed.
Lemma many_roots m : forall p (l : list C), NoDup l -> (m < length l)%nat ->
  (forall z, In z l -> evd m p z = C0) -> forall i, (i <= m)%nat -> p i = C0.
Proof.
  induction m as [|m IH]; intros p l ND Hl Hz i Hi.
  - destruct l as [|z l]; [cbn in Hl; lia|]. specialize (Hz z (or_introl eq_refl)).
    unfold evd in Hz. cbn in Hz. assert (i = 0%nat) by lia. subst i. rewrite <- Hz. apply C_eq; cbn; ring.
  - destruct l as [|v l]; [cbn in Hl; lia|]. inversion ND as [|? ? Nin ND']; subst.
    set (q := fun n => if (n <=? m)%nat then synth p v n else C0).
    assert (Hv : synth p v (S m) = C0) by (rewrite synth_evd; apply Hz; left; auto).
    assert (Q : forall n, (n <= S m)%nat -> p n = poly_step q v n).
    { intros n Hn. rewrite (synth_step p v n). destruct n as [|n]; cbn [poly_step]; unfold q; cbn [Nat.leb]; auto.
      assert (A : (n <=? m)%nat = true) by (apply Nat.leb_le; lia). rewrite A.
      destruct (Nat.eq_dec n m) as [->|Ne].
      - rewrite Hv. destruct m; cbn; auto. rewrite Nat.leb_refl || idtac.
        assert (B : (S m <=? m)%nat = false) by (apply Nat.leb_gt; lia). cbn in B. rewrite B. auto.
      - assert (B : match m with O => false | S m' => (n <=? m')%nat end = true).
        { destruct m; [lia|]. apply Nat.leb_le. lia. } rewrite B. auto. }
    assert (Qz : q (S m) = C0).
    { unfold q. assert (B : (S m <=? m)%nat = false) by (apply Nat.leb_gt; lia). rewrite B. auto. }
    assert (Hq : forall j, (j <= m)%nat -> q j = C0).
    { apply (IH q l); auto; [cbn in Hl; lia|]. intros z Hin.
      specialize (Hz z (or_intror Hin)). rewrite (evd_ext (S m) p (poly_step q v) z) in Hz by auto.
      rewrite evd_step in Hz by auto. apply cmul_eq_0 in Hz. destruct Hz as [Hz|Hz]; auto.
      apply csub_eq_0 in Hz. subst. contradiction. }
    rewrite Q by auto. destruct i as [|i]; cbn [poly_step].
    + apply Hq. lia.
    + rewrite (Hq i) by lia.
      assert (E : q (S i) = C0).
      { destruct (Nat.eq_dec (S i) (S m)) as [->|]; auto. apply Hq. lia. }
      rewrite E, cmul_0_r. apply csub_0_r.
Qed.

Lemma cis_pow t n : cpow (cis t) n = cis (t * INR n).
Proof.
  induction n as [|n IH]; [cbn [cpow]; change (INR 0) with 0; rewrite Rmult_0_r; unfold cis; rewrite cos_0, sin_0; auto|].
  cbn [cpow]. rewrite IH, S_INR. replace (t * (INR n + 1)) with (t + t * INR n) by ring.
  apply C_eq; unfold cmul, cis; cbn [fst snd].
  - rewrite cos_plus. auto.
  - rewrite sin_plus. ring.
Qed.
Lemma freq_evd (c : vec) m w : alen c = S m ->
  freq_resp c w = evd m (fun i => RtoC (c (m - i)%nat)) (cis (- w)).
Proof.
  intros E. unfold freq_resp, evd. rewrite E.
  rewrite (csum_ext (S m) (fun i => cmul (RtoC (c (m - i)%nat)) (cpow (cis (- w)) (m - i)%nat))
     (fun i => (fun n => cscal (c n) (cis (- (w * INR n)))) (m - i)%nat)).
  - apply C_eq; rewrite ?csum_fst, ?csum_snd; rewrite rsum_flip; auto.
  - intros i Hi. rewrite cis_pow. replace (- (w * INR (m - i)))%R with (- w * INR (m - i)) by ring.
    symmetry. apply cscal_mul.
Qed.
Lemma evd_conj m (c : nat -> R) z : evd m (fun i => RtoC (c i)) (cconj z) = cconj (evd m (fun i => RtoC (c i)) z).
Proof.
  unfold evd. rewrite <- csum_conj. apply csum_ext. intros i Hi. rewrite cconj_mul, cpow_conj. f_equal.
  apply C_eq; cbn; ring.
Qed.
Lemma NoDup_map_seq {A} (g : nat -> A) n : (forall i j, (i < n)%nat -> (j < n)%nat -> g i = g j -> i = j) ->
  NoDup (map g (seq 0 n)).
Proof.
  intros H.
  induction n as [|n IH]; [constructor|].
  rewrite seq_S, map_app. cbn [map]. apply Permutation_NoDup with (g (0 + n)%nat :: map g (seq 0 n)).
  - apply Permutation_cons_append.
  - constructor.
    + intros K. apply in_map_iff in K. destruct K as [x [E K]]. apply in_seq in K.
      specialize (H x n ltac:(lia) ltac:(lia) E). lia.
    + apply IH. intros. apply H; auto; lia.
Qed.

Lemma radf_range (f : vec) Fs i : 0 < f i < Fs / 2 -> 0 < radf f Fs i < PI.
Proof.
  intros H. unfold radf. pose proof PI_RGT_0. assert (0 < Fs) by lra. split.
  - apply Rmult_lt_0_compat; [|apply Rinv_0_lt_compat; lra]. nra.
  - apply Rmult_lt_reg_r with Fs; auto. unfold Rdiv. rewrite Rmult_assoc, Rinv_l by lra. nra.
Qed.
Lemma cis_inj_half s t : 0 < s < PI -> 0 < t < PI -> cos s = cos t -> s = t.
Proof.
  intros Hs Ht E. destruct (Rtotal_order s t) as [L|[L|L]]; auto.
  - pose proof (cos_decreasing_1 s t). lra.
  - pose proof (cos_decreasing_1 t s). lra.
Qed.

Theorem interior_determines f Fs L : interior_distinct f Fs -> (L <= 2 * alen f)%nat -> determines f Fs L.
Proof.
  intros [I D] HL c Hc Hz j Hj. destruct L as [|m]; [lia|].
  set (M := alen f) in *. set (w := radf f Fs).
  set (l := map (fun i => cis (- w i)) (seq 0 M) ++ map (fun i => cis (w i)) (seq 0 M)).
  assert (Rg : forall i, (i < M)%nat -> 0 < w i < PI) by (intros; apply radf_range, I; auto).
  assert (Inj : forall i k, (i < M)%nat -> (k < M)%nat -> cos (w i) = cos (w k) -> i = k).
  { intros i k Hi Hk E. apply cis_inj_half in E; auto.
    destruct (Nat.eq_dec i k); auto. exfalso. apply (D i k); auto.
    unfold w, radf in E. assert (0 < Fs) by (pose proof (I i Hi); lra). pose proof PI_RGT_0.
    apply (f_equal (fun x => x * Fs / (2 * PI))) in E.
    replace (2 * PI * f i / Fs * Fs / (2 * PI)) with (f i) in E by (field; lra).
    replace (2 * PI * f k / Fs * Fs / (2 * PI)) with (f k) in E by (field; lra). auto. }
  assert (K : forall i, (i <= m)%nat -> (fun i => RtoC (c (m - i)%nat)) i = C0).
  { apply (many_roots m _ l).
    - unfold l. clear l.
      assert (Dj : forall a, In a (map (fun i => cis (- w i)) (seq 0 M)) -> ~ In a (map (fun i => cis (w i)) (seq 0 M))).
      { intros a Ha Hb. apply in_map_iff in Ha, Hb. destruct Ha as [i [Ei Hi]], Hb as [k [Ek Hk]].
        apply in_seq in Hi, Hk. subst a. apply (f_equal snd) in Ek. cbn in Ek. rewrite sin_neg in Ek.
        pose proof (Rg i ltac:(lia)). pose proof (Rg k ltac:(lia)).
        pose proof (sin_gt_0 (w i)). pose proof (sin_gt_0 (w k)). lra. }
      assert (N1 : NoDup (map (fun i => cis (- w i)) (seq 0 M))).
      { apply NoDup_map_seq. intros i k Hi Hk E. apply (f_equal fst) in E. cbn in E. rewrite !cos_neg in E. auto. }
      assert (N2 : NoDup (map (fun i => cis (w i)) (seq 0 M))).
      { apply NoDup_map_seq. intros i k Hi Hk E. apply (f_equal fst) in E. cbn in E. auto. }
      revert Dj N1 N2. generalize (map (fun i => cis (- w i)) (seq 0 M)) (map (fun i => cis (w i)) (seq 0 M)).
      intros l1 l2 Dj N1 N2. induction l1 as [|a l1 IH]; auto. cbn. inversion N1; subst. constructor.
      + rewrite in_app_iff. intros [X|X]; [contradiction|]. apply (Dj a); auto. left. auto.
      + apply IH; auto. intros x Hx. apply Dj. right. auto.
    - unfold l. rewrite app_length, !map_length, seq_length. lia.
    - intros z Hin. unfold l in Hin. apply in_app_iff in Hin. destruct Hin as [Hin|Hin];
        apply in_map_iff in Hin; destruct Hin as [i [Ei Hi]]; apply in_seq in Hi; subst z.
      + rewrite <- (freq_evd c m (w i)) by auto. apply Hz. lia.
      + replace (cis (w i)) with (cconj (cis (- w i))) by (apply C_eq; cbn; [apply cos_neg|rewrite sin_neg; ring]).
        rewrite evd_conj. rewrite <- (freq_evd c m (w i)) by auto. unfold w. rewrite Hz by lia. apply cconj_0. }
  specialize (K (m - j)%nat ltac:(lia)). cbv beta in K. replace (m - (m - j))%nat with j in K by lia.
  apply (f_equal fst) in K. auto.
Qed.

(** ** FIR fits *)
Lemma fir_indep f Fs L : determines f Fs L -> indep_cols (stack2 (alen f) L (Eexp f Fs)).
Proof.
  intros D. apply stack_indep. intros c Hc j Hj. apply (D (mkArr L c)); auto.
Qed.

(** ** Normal equations solved by least squares *)
Lemma gram_least X (y ab : vec) p m (T1 : mat) (T2 : vec) : mcols X = p -> mrows X = m ->
  mrows T1 = p -> mcols T1 = p -> alen T2 = p ->
  (forall j l, (j < p)%nat -> (l < p)%nat -> T1 j l = rsum m (fun i => X i j * X i l)) ->
  (forall j, (j < p)%nat -> T2 j = rsum m (fun i => X i j * y i)) ->
  least_squares T1 T2 ab -> least_squares X y ab.
Proof.
  intros Xc Xr T1r T1c T2l E1 E2 LS.
  assert (Row : forall c j, (j < p)%nat -> mv T1 c j = rsum m (fun i => X i j * mv X c i)).
  { intros c j Hj. unfold mv at 1. rewrite T1c.
    rewrite (rsum_ext p _ (fun l => rsum m (fun i => X i j * X i l * c l))).
    - rewrite rsum_swap. apply rsum_ext. intros i Hi. unfold mv. rewrite Xc, <- rsum_scal.
      apply rsum_ext; intros; ring.
    - intros l Hl. rewrite E1, <- rsum_scal_r by auto. auto. }
  pose proof LS as [L _]. apply normal_least; [congruence|].
  intros j Hj. rewrite Xc in Hj. rewrite Xr.
  assert (S0 : forall i, (i < mrows T1)%nat -> mv T1 ab i = T2 i).
  { apply (least_consistent T1 T2 ab (lstsq_ref X y)); auto. intros k Hk. rewrite T1r in Hk.
    rewrite Row, E2 by auto. pose proof (lstsq_ref_normal X y k ltac:(rewrite Xc; auto)) as N. rewrite Xr in N.
    rewrite (rsum_ext m _ (fun i => X i k * mv X (lstsq_ref X y) i - X i k * y i)) in N by (intros; ring).
    rewrite rsum_minus in N. lra. }
  rewrite T1r in S0. specialize (S0 j Hj). rewrite Row, E2 in S0 by auto.
  rewrite (rsum_ext m _ (fun i => X i j * mv X ab i - X i j * y i)) by (intros; ring).
  rewrite rsum_minus. lra.
Qed.

Lemma lsq_stack lstsq m n E t : exact_lstsq lstsq ->
  alen (lstsq (stack2 m n E) (stack1 m t)) = n /\
  forall c : nat -> R,
    rsum m (fun i => cnorm2 (csub (lin n (lstsq (stack2 m n E) (stack1 m t)) (E i)) (t i)))
    <= rsum m (fun i => cnorm2 (csub (lin n c (E i)) (t i))).
Proof.
  intros X. destruct (X (stack2 m n E) (stack1 m t) eq_refl) as [L Min]. split; [exact L|].
  intros c. specialize (Min c). cbn [mrows stack2] in Min. fold (stack2 m n E) in Min.
  rewrite !sqdist_stack in Min. exact Min.
Qed.
