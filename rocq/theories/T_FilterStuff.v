(** Theorems on filterstuff.py (isstable, mapinside, grpdelay, kaiser_lowpass,
    savitzky_golay, ua) and impinvar.py. *)
From Coq Require Import Reals String List Arith ZArith Lia Lra Psatz Permutation Bool.
From Verif Require Import Base Sums Cplx S_Poly S_MC S_DFT M_DFT M_FilterStuff P_Poly P_Deriv P_AmpPhase P_FStuff P_FStuff2.
Import ListNotations.
Local Notation length := Datatypes.length.
Open Scope R_scope.

Lemma cabs_cis t : cabs (cis t) = 1.
Proof. unfold cabs. rewrite cis_norm. apply sqrt_1. Qed.

Lemma cabs_0 : cabs C0 = 0.
Proof. change C0 with (RtoC 0). rewrite cabs_real. apply Rabs_R0. Qed.

(** ** C61: isstable, digital *)
Theorem C61_digital : forall roots b a, exact_roots a (roots a) ->
  exists s, isstable roots b a "digital" = Ok s /\
    (s = true <-> forall z, ceval (real_poly a) z = C0 -> cabs z <= 1).
Proof.
  intros roots b a HR. unfold isstable. cbn [String.eqb Ascii.eqb Bool.eqb].
  eexists. split; [reflexivity|]. split.
  - intros H z Hz. apply (exact_roots_root a (roots a) z HR) in Hz.
    apply negb_true_iff in H. destruct (Rle_dec (cabs z) 1) as [|N]; auto. exfalso.
    assert (E : existsb (fun z => rltb 1 (cabs z)) (roots a) = true).
    { apply existsb_exists. exists z. split; auto. apply rltb_true. lra. }
    congruence.
  - intros H. apply negb_true_iff. destruct (existsb _ _) eqn:E; auto. exfalso.
    apply existsb_exists in E. destruct E as [z [I L]]. apply rltb_true in L.
    apply (exact_roots_root a (roots a) z HR) in I. apply H in I. lra.
Qed.
Theorem C61_unknown_type : forall roots b a t, t <> "digital"%string -> t <> "analog"%string ->
  isstable roots b a t = Err ValueError.
Proof.
  intros roots b a t H1 H2. unfold isstable.
  apply String.eqb_neq in H1, H2. rewrite H1, H2. reflexivity.
Qed.
(** z^2 - 3/2 z + 1/2 = (z-1)(z-1/2) *)
Example C61_ex : exact_roots (of_list [1; -3/2; 1/2]) [C1; RtoC (1/2)].
Proof.
  exists 1. split; [lra|]. intros z. unfold ceval, lin_prod, csum, real_poly, of_list. cbn. destruct z. cfield; field.
Qed.

(** ** C62: isstable, analog *)
(** The claim: forall roots b a s, exact_roots a (roots a) ->
    isstable roots b a "analog" = Ok s ->
    (s = true <-> forall z, ceval (real_poly a) z = C0 -> Re z < 0). *)
(** 1/(s+1) is reported as unstable. *)
Theorem C62_analog_refuted : exists roots b a,
  exact_roots a (roots a) /\ (forall z, ceval (real_poly a) z = C0 -> Re z < 0) /\
  isstable roots b a "analog" = Ok false.
Proof.
  exists (fun _ => [RtoC (-1)]), (of_list [1]), (of_list [1; 1]).
  assert (E : exact_roots (of_list [1; 1]) [RtoC (-1)]).
  { exists 1. split; [lra|]. intros z. unfold ceval, lin_prod, csum, real_poly, of_list. cbn. destruct z. cfield. }
  split; [exact E|]. split.
  - intros z Hz. apply (exact_roots_root _ _ z E) in Hz. destruct Hz as [<-|[]]. cbn. lra.
  - unfold isstable. cbn [String.eqb Ascii.eqb Bool.eqb existsb]. cbn [Re RtoC fst].
    rewrite (proj2 (rltb_true (-1) 0)) by lra. reflexivity.
Qed.
(** ... and 1/(s-1) as stable. *)
Theorem C62_unstable_refuted : exists roots b a,
  exact_roots a (roots a) /\ (exists z, ceval (real_poly a) z = C0 /\ 0 < Re z) /\
  isstable roots b a "analog" = Ok true.
Proof.
  exists (fun _ => [RtoC 1]), (of_list [1]), (of_list [1; -1]).
  assert (E : exact_roots (of_list [1; -1]) [RtoC 1]).
  { exists 1. split; [lra|]. intros z. unfold ceval, lin_prod, csum, real_poly, of_list. cbn. destruct z. cfield. }
  split; [exact E|]. split.
  - exists (RtoC 1). split; [|cbn; lra]. apply (exact_roots_root _ _ _ E). left; auto.
  - unfold isstable. cbn [String.eqb Ascii.eqb Bool.eqb existsb]. cbn [Re RtoC fst].
    rewrite (proj2 (rltb_false 1 0)) by lra. reflexivity.
Qed.
(** What the code decides instead: no root in the open left half plane, i.e. the
    verdict is inverted for every filter without roots on the imaginary axis.
    Missing for C62: the right verdict. *)
Theorem C62_analog_partial : forall roots b a, exact_roots a (roots a) ->
  exists s, isstable roots b a "analog" = Ok s /\
    (s = true <-> forall z, ceval (real_poly a) z = C0 -> 0 <= Re z).
Proof.
  intros roots b a HR. unfold isstable. cbn [String.eqb Ascii.eqb Bool.eqb].
  eexists. split; [reflexivity|]. split.
  - intros H z Hz. apply (exact_roots_root a (roots a) z HR) in Hz.
    apply negb_true_iff in H. destruct (Rle_dec 0 (Re z)) as [|N]; auto. exfalso.
    assert (E : existsb (fun z => rltb (Re z) 0) (roots a) = true).
    { apply existsb_exists. exists z. split; auto. apply rltb_true. lra. }
    congruence.
  - intros H. apply negb_true_iff. destruct (existsb _ _) eqn:E; auto. exfalso.
    apply existsb_exists in E. destruct E as [z [I L]]. apply rltb_true in L.
    apply (exact_roots_root a (roots a) z HR) in I. apply H in I. lra.
Qed.

(** ** C63: mapinside *)
Theorem C63_mapinside : forall roots a, exact_roots a (roots a) ->
  let r := mapinside roots a in
  exists u, Forall2 mirrored (roots a) u /\ alen r = S (length (roots a)) /\ r 0%nat = C1 /\
    (forall z, ceval r z = lin_prod u z) /\ (forall z, ceval r z = C0 -> cabs z <= 1).
Proof.
  intros roots a HR r. exists (map map_root (roots a)).
  assert (E : forall z, ceval r z = lin_prod (map map_root (roots a)) z) by (intros; apply ceval_poly).
  repeat split.
  - clear. induction (roots a) as [|v l IH]; constructor; auto. apply map_root_mirrored.
  - unfold r, mapinside, np_poly. cbn [alen]. rewrite map_length. reflexivity.
  - apply pc_0.
  - exact E.
  - intros z Hz. rewrite E in Hz. apply lin_prod_zero in Hz. apply in_map_iff in Hz.
    destruct Hz as [v [<- _]]. apply (mirrored_inside v), map_root_mirrored.
Qed.
(** Roots inside are kept, roots outside are replaced by their reciprocal conjugates,
    and there are no others. *)
Theorem C63_roots : forall roots a z, exact_roots a (roots a) ->
  (ceval (mapinside roots a) z = C0 <->
   exists u, ceval (real_poly a) u = C0 /\ mirrored u z).
Proof.
  intros roots a z HR. unfold mapinside. rewrite ceval_poly, lin_prod_zero, in_map_iff. split.
  - intros [u [<- I]]. exists u. split; [apply (exact_roots_root a _ u HR); auto|apply map_root_mirrored].
  - intros [u [Hu M]]. exists u. split; [|apply (exact_roots_root a _ u HR); auto].
    destruct (map_root_mirrored u) as [[L ->]|[L E]]; destruct M as [[L' ->]|[L' E']]; auto; try lra.
    apply (cmul_reg_l (cconj u)).
    + intros Z. rewrite Z, cmul_0_r in E. apply (f_equal fst) in E. cbn in E. lra.
    + rewrite (cmul_comm _ z), E'. rewrite cmul_comm. exact E.
Qed.
(** The coefficients are real. *)
Theorem C63_real : forall roots a i, exact_roots a (roots a) -> Im (mapinside roots a i) = 0.
Proof. intros roots a i HR. exact (mapped_real a (roots a) HR i). Qed.
(** On the unit circle the magnitude changes by a constant factor only. *)
Theorem C63_magnitude : forall roots a, exact_roots a (roots a) ->
  exists g, 0 < g /\ forall z, cabs z = 1 ->
    cabs (ceval (real_poly a) z) = g * cabs (ceval (mapinside roots a) z).
Proof.
  intros roots a [lead [Hl E]].
  exists (Rabs lead * fold_right (fun u k => Rmax 1 (cabs u) * k) 1 (roots a)). split.
  - apply Rmult_lt_0_compat; [apply Rabs_pos_lt; auto|]. clear E.
    induction (roots a) as [|u l IH]; cbn; [lra|]. apply Rmult_lt_0_compat; auto.
    pose proof (Rmax_l 1 (cabs u)). lra.
  - intros z Hz. rewrite E, cscal_mul, cabs_mul, cabs_real. unfold mapinside. rewrite ceval_poly.
    rewrite Rmult_assoc. f_equal. clear E.
    induction (roots a) as [|u l IH]; unfold lin_prod in *; cbn [map cprod fold_right].
    + unfold cabs, cnorm2, C1; cbn. ring.
    + rewrite !cabs_mul, IH, (mirrored_factor u (map_root u) z (map_root_mirrored u) Hz). ring.
Qed.
(** z^2 - 5/2 z + 1 = (z-2)(z-1/2): both roots become 1/2 *)
Example C63_ex : exact_roots (of_list [1; -5/2; 1]) [RtoC 2; RtoC (1/2)] /\
  mapinside (fun _ => [RtoC 2; RtoC (1/2)]) (of_list [1; -5/2; 1]) 1%nat = RtoC (-1).
Proof.
  split.
  - exists 1. split; [lra|]. intros z. unfold ceval, lin_prod, csum, real_poly, of_list. cbn. destruct z. cfield; field.
  - unfold mapinside, np_poly. cbn [aget map].
    assert (A : map_root (RtoC 2) = RtoC (1/2)).
    { unfold map_root. rewrite cabs_real, Rabs_right by lra. rewrite (proj2 (rltb_true 1 2)) by lra.
      unfold cinv, cconj, cnorm2, RtoC. cbn. apply C_eq; cbn; field. }
    assert (B : map_root (RtoC (1/2)) = RtoC (1/2)).
    { unfold map_root. rewrite cabs_real, Rabs_right by lra. rewrite (proj2 (rltb_false 1 (1/2))) by lra. reflexivity. }
    rewrite A, B. cbn. cfield. field.
Qed.

(** ** C102: isstable and bounded outputs *)
(** The claim: isstable = True implies that bounded inputs give bounded outputs.
    Refuted: poles on the unit circle count as stable; the summation filter
    1/(1 - z^-1) answers a step by an unbounded ramp. *)
Theorem C102_marginal_refuted : exists roots b a,
  exact_roots a (roots a) /\ a 0%nat = 1 /\ isstable roots b a "digital" = Ok true /\
  forall K, exists x y n, filter_response b a x y /\ (n < alen x)%nat /\
    (forall i, (i < alen x)%nat -> Rabs (x i) <= 1) /\ K < Rabs (y n).
Proof.
  exists (fun _ => [RtoC 1]), (of_list [1]), (of_list [1; -1]).
  split; [|split; [reflexivity|split]].
  - exists 1. split; [lra|]. intros z. unfold ceval, lin_prod, csum, real_poly, of_list. cbn. destruct z. cfield.
  - unfold isstable. cbn [String.eqb Ascii.eqb Bool.eqb existsb].
    rewrite cabs_real, Rabs_right by lra. rewrite (proj2 (rltb_false 1 1)) by lra. reflexivity.
  - intros K. destruct (archimed (Rabs K)) as [HU _].
    set (N := Z.to_nat (up (Rabs K))).
    exists (mkArr (S N) (fun _ => 1)), (mkArr (S N) (fun n => INR n + 1)), N. cbn [alen aget].
    split; [|split; [lia|split]].
    + split; [reflexivity|]. cbn [alen]. intros n Hn.
      destruct n as [|n]; unfold of_list; cbn [alen aget length rsum nth Nat.leb].
      * cbn. lra.
      * rewrite Nat.sub_0_r. replace (S n - 1)%nat with n by lia. rewrite S_INR. ring.
    + intros i _. rewrite Rabs_R1. lra.
    + assert (HN : Rabs K <= INR N).
      { unfold N. rewrite INR_IZR_INZ, Z2Nat.id; [lra|].
        apply le_IZR. pose proof (Rabs_pos K). lra. }
      pose proof (pos_INR N). rewrite Rabs_right by lra. pose proof (Rle_abs K). lra.
Qed.
(** With every pole strictly inside the unit circle outputs are bounded by a
    constant times the bound of the input.  Missing for C102: isstable does not
    exclude poles on the circle. *)
Theorem C102_strictly_inside_partial : forall b a v,
  exact_roots a v -> (1 <= alen a)%nat -> a 0%nat <> 0 ->
  (forall z, ceval (real_poly a) z = C0 -> cabs z < 1) ->
  exists K, 0 <= K /\ forall x y M, filter_response b a x y -> 0 <= M ->
    (forall n, (n < alen x)%nat -> Rabs (x n) <= M) ->
    forall n, (n < alen x)%nat -> Rabs (y n) <= K * M.
Proof.
  intros b a v HR Ha H0 Hz. apply (bibo b a v HR).
  - unfold vpad. rewrite (proj2 (Nat.ltb_lt _ _)) by lia. exact H0.
  - intros u Hu. apply Hz. apply (exact_roots_root a v u HR). exact Hu.
Qed.
Example C102_ex : exact_roots (of_list [1; -1/2]) [RtoC (1/2)].
Proof.
  exists 1. split; [lra|]. intros z. unfold ceval, lin_prod, csum, real_poly, of_list. cbn. destruct z. cfield; field.
Qed.

(** ** C93: group delay *)
(** Whenever the coefficients fit into the transform (len b + len a - 1 <= 2 nfft)
    and the response does not vanish, each value is the negative slope of the phase
    at the returned frequency.  Missing for C93: longer filters, see below, and
    frequencies where |B| |A| < 1e-12. *)
Theorem C93_group_delay_partial : forall b a Fs nfft gd f k l,
  grpdelay b a Fs nfft = Ok (gd, f) -> Fs <> 0 -> (alen b + alen a - 1 <= 2 * nfft)%nat ->
  (k < alen gd)%nat ->
  let w := 2 * PI * f k / Fs in
  has_phase_slope b a w l ->
  / 10 ^ 12 <= cabs (freq_resp b w) * cabs (freq_resp a w) ->
  gd k = - l.
Proof.
  intros b a Fs nfft gd f k l E HF Hfit Hk w HP Htol. unfold grpdelay in E.
  destruct (convolve_full b (reversed_arr a)) as [c|] eqn:Ec; [|discriminate].
  cbn [bind] in E. destruct (Nat.eqb_spec nfft 0) as [|Hn]; [discriminate|].
  assert (Egd : gd = mkArr (Nat.min (nfft + 1) (2 * nfft - 1))
            (gd_bin c (mkArr (alen c) (fun n => c n * INR n)) (alen a - 1) (2 * nfft))) by congruence.
  assert (Ef : f = mkArr (Nat.min (nfft + 1) (2 * nfft - 1)) (fun k => INR k / INR (2 * nfft) * Fs)) by congruence.
  clear E.
  destruct (conv_rev_spectrum b a c w Ec) as [Hb [Ha [Lc Ew]]].
  assert (Hw : w = 2 * PI * INR k / INR (2 * nfft)).
  { unfold w. rewrite Ef. cbn [aget]. field. split; auto. apply not_0_INR. lia. }
  assert (Ac : cabs (freq_resp c w) = cabs (freq_resp b w) * cabs (freq_resp a w)).
  { rewrite Ew, !cabs_mul, cabs_conj, cabs_cis. ring. }
  rewrite Egd. cbn [aget]. unfold gd_bin.
  rewrite (fft_n_freq c) by lia.
  rewrite (fft_n_freq (mkArr (alen c) (fun n => c n * INR n))) by (cbn [alen]; lia).
  rewrite <- Hw.
  assert (L : rltb (cabs (freq_resp c w)) gd_tol = false).
  { apply rltb_false. unfold gd_tol. rewrite Ac. exact Htol. }
  rewrite L. apply (grp_key b a c w l Ec HP).
  intros Z. rewrite Z in Ac.
  assert (cabs C0 = 0) by exact cabs_0.
  assert (0 < / 10 ^ 12) by (apply Rinv_0_lt_compat, pow_lt; lra). lra.
Qed.
(** Returned frequencies: k Fs/(2 nfft), from 0 on, at most Fs/2; shapes agree. *)
Theorem C93_frequencies : forall b a Fs nfft gd f, grpdelay b a Fs nfft = Ok (gd, f) ->
  alen f = alen gd /\ (forall k, (k < alen f)%nat -> f k * (2 * INR nfft) = INR k * Fs) /\
  (2 <= nfft -> alen f = nfft + 1)%nat.
Proof.
  intros b a Fs nfft gd f E. unfold grpdelay in E.
  destruct (convolve_full b (reversed_arr a)) as [c|] eqn:Ec; [|discriminate].
  cbn [bind] in E. destruct (Nat.eqb_spec nfft 0) as [|Hn]; [discriminate|].
  assert (Ef : f = mkArr (Nat.min (nfft + 1) (2 * nfft - 1)) (fun k => INR k / INR (2 * nfft) * Fs)) by congruence.
  assert (Eg : alen gd = Nat.min (nfft + 1) (2 * nfft - 1)) by (apply (f_equal (fun r => match r with Ok p => alen (fst p) | _ => 0%nat end)) in E; exact (eq_sym E)).
  split; [rewrite Ef, Eg; reflexivity|]. split.
  - intros k _. rewrite Ef. cbn [aget]. rewrite mult_INR. change (INR 2) with 2. field. apply not_0_INR; auto.
  - intros H2. rewrite Ef. cbn [alen]. lia.
Qed.
Lemma fr1 u : freq_resp (of_list [1]) u = C1.
Proof.
  unfold freq_resp, csum, of_list, cscal, cis. cbn. rewrite Rmult_0_r, Ropp_0, cos_0, sin_0. cfield.
Qed.
Lemma fr01 u : freq_resp (of_list [0; 1]) u = cis (- u).
Proof.
  unfold freq_resp, csum, of_list, cscal, cis. cbn. rewrite Rmult_1_r. cfield.
Qed.
(** A pure delay by one sample has phase slope -1: the hypotheses are met. *)
Example C93_ex : has_phase_slope (of_list [0; 1]) (of_list [1]) (2 * PI * (INR 1 / 4)) (-1) /\
  cabs (freq_resp (of_list [0; 1]) (2 * PI * (INR 1 / 4))) = 1.
Proof.
  split.
  - exists (fun _ => 1), (fun u => - u), 0. split; [|split].
    + exists 1. split; [lra|]. intros u _. rewrite fr1, fr01. cfield.
    + eapply dl_eq; [dl|]. ring.
    + apply dl_const.
  - rewrite fr01. apply cabs_cis.
Qed.
(** Longer filters are silently cut to 2 nfft coefficients: a delay by two samples
    with nfft = 1 is reported as no delay. *)
Theorem C93_long_filter_refuted : exists b a Fs nfft gd f l,
  grpdelay b a Fs nfft = Ok (gd, f) /\ (0 < alen gd)%nat /\
  has_phase_slope b a (2 * PI * f 0%nat / Fs) l /\
  cabs (freq_resp b (2 * PI * f 0%nat / Fs)) = 1 /\ gd 0%nat <> - l.
Proof.
  exists (of_list [0; 0; 1]), (of_list [1]), 1, 1%nat. eexists. eexists. exists (-2).
  split; [unfold grpdelay, convolve_full; cbn [of_list alen reversed_arr length Nat.eqb orb bind]; reflexivity|].
  cbn [alen]. split; [cbn; lia|].
  assert (Hr : forall u, freq_resp (of_list [0; 0; 1]) u = cis (- (u * 2))).
  { intros u. change 2 with (INR 2). unfold freq_resp, csum, of_list, cis.
    cbn [alen length rsum aget nth cscal fst snd]. apply C_eq; cbn [fst snd]; ring. }
  split; [|split].
  - exists (fun _ => 1), (fun u => - (u * 2)), 0. split; [|split].
    + exists 1. split; [lra|]. intros u _. rewrite Hr, fr1. cfield.
    + eapply dl_eq; [dl|]. cbv beta. ring.
    + apply dl_const.
  - rewrite Hr. unfold cabs. rewrite cis_norm. apply sqrt_1.
  - cbn [aget]. unfold gd_bin.
    set (c := mkArr _ _). 
    assert (Z : fft_n c (2 * 1) 0 = C0).
    { unfold fft_n, csum. unfold c. cbn. unfold vpad, reversed_arr, of_list. cbn. cfield. }
    rewrite Z. assert (Z0 : cabs C0 = 0) by exact cabs_0.
    rewrite Z0. assert (L : rltb 0 gd_tol = true).
    { apply rltb_true. unfold gd_tol. apply Rinv_0_lt_compat, pow_lt. lra. }
    rewrite L. unfold cdiv. rewrite cmul_0_l. cbn. lra.
Qed.

(** ** C96: kaiser_lowpass *)
(** firwin returns the requested number of coefficients, symmetric. *)
Definition firwin_symmetric (firwin : nat -> R -> res vec) : Prop :=
  forall L c h, firwin L c = Ok h -> alen h = L /\ forall i, (i < L)%nat -> h i = h (L - 1 - i)%nat.

(** The returned filter has odd length and is delayed by half a sample less than
    the returned shift.  Missing for C96: shift being the delay. *)
Theorem C96_delay_partial : forall firwin L fcut Fs blow shift,
  firwin_symmetric firwin -> kaiser_lowpass firwin L fcut Fs = Ok (blow, shift) ->
  Nat.Odd (alen blow) /\ (L <= alen blow <= L + 1)%nat /\
  shift = INR (alen blow) / 2 /\ has_delay blow (shift - 1 / 2).
Proof.
  intros firwin L fcut Fs blow shift HS E. unfold kaiser_lowpass in E.
  destruct (Req_EM_T Fs 0) as [|HFs]; [discriminate|].
  set (L' := if Nat.even L then (L + 1)%nat else L) in *.
  destruct (firwin L' (2 * fcut / Fs)) as [h|] eqn:Eh; [|discriminate]. cbn [bind] in E.
  assert (blow = h) by congruence. assert (shift = INR L' / 2) by congruence. subst h. clear E.
  destruct (HS _ _ _ Eh) as [Hlen Hsym].
  assert (HO : Nat.Odd L' /\ (L <= L' <= L + 1)%nat).
  { unfold L'. destruct (Nat.even L) eqn:Ev.
    - apply Nat.even_spec in Ev. destruct Ev as [j ->]. split; [exists j; lia|lia].
    - rewrite <- Nat.negb_odd in Ev. apply negb_false_iff, Nat.odd_spec in Ev. split; auto; lia. }
  rewrite Hlen. split; [tauto|]. split; [tauto|]. split; [auto|].
  subst shift. set (D := INR L' / 2 - 1 / 2).
  assert (HL1 : (1 <= L')%nat) by (destruct HO as [[j ->] _]; lia).
  assert (HD : INR (L' - 1) = 2 * D).
  { rewrite minus_INR by lia. unfold D. change (INR 1) with 1. field. }
  intros w. exists (rsum L' (fun n => blow n * cos (w * (D - INR n)))).
  unfold freq_resp. rewrite Hlen.
  rewrite (csum_ext L' _ (fun n => cmul (cscal (blow n) (cis (w * (D - INR n)))) (cis (- (w * D))))).
  - rewrite csum_mul_r. rewrite cscal_mul. f_equal.
    apply C_eq; unfold csum, cscal, cis, RtoC; cbn [fst snd]; [reflexivity|].
    set (S := rsum L' (fun i => blow i * sin (w * (D - INR i)))).
    assert (A : S = - S).
    { unfold S at 1. rewrite rsum_rev. unfold S. rewrite <- rsum_opp. apply rsum_ext. intros i Hi.
      rewrite <- Hsym by auto. replace (w * (D - INR (L' - 1 - i))) with (- (w * (D - INR i))).
      - rewrite sin_neg. ring.
      - rewrite minus_INR by lia. rewrite HD. ring. }
    lra.
  - intros n Hn. assert (Ec : cis (- (w * INR n)) = cmul (cis (w * (D - INR n))) (cis (- (w * D)))).
    { rewrite <- cis_add. f_equal. ring. }
    rewrite Ec. cfield.
Qed.
(** A sampling rate of zero is refused; any other one is passed on as cutoff 2 fcut/Fs, with the length made odd, and the
    error of firwin is the error of kaiser_lowpass. *)
Theorem C96_rate_partial : forall firwin L fcut Fs,
  (Fs = 0 -> kaiser_lowpass firwin L fcut Fs = Err ZeroDivisionError) /\
  (Fs <> 0 -> forall n, Nat.Odd n -> (L <= n <= L + 1)%nat ->
     match firwin n (fcut / (Fs / 2)) with
     | Ok blow => exists shift, kaiser_lowpass firwin L fcut Fs = Ok (blow, shift)
     | Err e => kaiser_lowpass firwin L fcut Fs = Err e
     end).
Proof.
  intros firwin L fcut Fs. unfold kaiser_lowpass. split.
  - intros ->. destruct (Req_EM_T 0 0); [reflexivity|contradiction].
  - intros H n Ho Hn. destruct (Req_EM_T Fs 0); [contradiction|].
    assert (E : (if Nat.even L then (L + 1)%nat else L) = n).
    { destruct (Nat.even L) eqn:Ev.
      - apply Nat.even_spec in Ev. destruct Ev as [q ->], Ho as [m ->]. lia.
      - assert (Od : Nat.odd L = true) by (rewrite <- Nat.negb_even, Ev; reflexivity).
        apply Nat.odd_spec in Od. destruct Od as [q ->], Ho as [m ->]. lia. }
    rewrite E. replace (fcut / (Fs / 2)) with (2 * fcut / Fs) by (field; auto).
    destruct (firwin n (2 * fcut / Fs)); [eexists; reflexivity|reflexivity].
Qed.
Example C96_rate_ex : Nat.Odd 5 /\ (4 <= 5 <= 4 + 1)%nat /\ kaiser_lowpass (fun _ _ => Err ValueError) 4 1 10 = Err ValueError.
Proof.
  split; [now exists 2%nat|]. split; [lia|].
  assert (H := proj2 (C96_rate_partial (fun _ _ => Err ValueError) 4 1 10) ltac:(lra) 5%nat ltac:(now exists 2%nat) ltac:(lia)). exact H.
Qed.

(** shift is not the delay. *)
Theorem C96_shift_refuted : exists firwin L fcut Fs blow shift,
  firwin_symmetric firwin /\ kaiser_lowpass firwin L fcut Fs = Ok (blow, shift) /\ ~ has_delay blow shift.
Proof.
  exists (fun L _ => Ok (mkArr L (fun i => if (i =? (L - 1) / 2)%nat then if Nat.odd L then 1 else 0 else 0))), 3%nat, 1, 4.
  eexists. eexists. split; [|split; [unfold kaiser_lowpass; destruct (Req_EM_T 4 0) as [X|_]; [exfalso; lra|reflexivity]|]].
  - intros L c h E. assert (h = mkArr L (fun i => if (i =? (L - 1) / 2)%nat then if Nat.odd L then 1 else 0 else 0)) by congruence.
    subst h. cbn [alen aget]. split; auto. intros i Hi.
    destruct (Nat.odd L) eqn:O.
    + apply Nat.odd_spec in O. destruct O as [j ->].
      replace (2 * j + 1 - 1)%nat with (j * 2)%nat by lia. rewrite Nat.div_mul by lia.
      destruct (Nat.eqb_spec i j), (Nat.eqb_spec (j * 2 - i) j); auto; lia.
    + destruct (_ =? _)%nat, (_ =? _)%nat; auto.
  - intros H. destruct (H PI) as [A E].
    assert (R1 : freq_resp (mkArr 3 (fun i => if (i =? (3 - 1) / 2)%nat then if Nat.odd 3 then 1 else 0 else 0)) PI = RtoC (-1)).
    { transitivity (cis (- (PI * INR 1))).
      - unfold freq_resp, csum, cis. cbn [alen rsum aget cscal fst snd].
        change ((3 - 1) / 2)%nat with 1%nat. cbn [Nat.eqb Nat.odd Nat.even negb].
        change (Nat.odd 3) with true. cbv iota. apply C_eq; cbn [fst snd]; ring.
      - change (INR 1) with 1. rewrite Rmult_1_r. unfold cis. rewrite cos_neg, sin_neg, cos_PI, sin_PI. cfield. }
    cbn [Nat.even] in E. rewrite R1 in E.
    apply (f_equal fst) in E. unfold RtoC, cscal, cis in E. cbn [fst] in E.
    replace (- (PI * (INR 3 / 2))) with (- (3 * (PI / 2))) in E by (cbn; field).
    rewrite cos_neg, cos_3PI2 in E. lra.
Qed.

(** ** C94: savitzky_golay reproduces polynomials and their derivatives *)
(** What numpy.linalg.pinv returns for a matrix with independent columns. *)
Definition left_inverse (P B : mat) : Prop :=
  forall d e, (d < mcols B)%nat -> (e < mcols B)%nat ->
    rsum (mrows B) (fun j => P d j * B j e) = if (d =? e)%nat then 1 else 0.
(** The design matrix of polynomials of degree at most o on the points -h, ..., h. *)
Definition window_design (h o : nat) (B : mat) : Prop :=
  mrows B = (2 * h + 1)%nat /\ mcols B = (o + 1)%nat /\
  forall k e, (k < 2 * h + 1)%nat -> (e < o + 1)%nat -> B k e = (INR k - INR h) ^ e.
Lemma sg_window h o : window_design h o (sg_design h o).
Proof. split; [reflexivity|]. split; reflexivity. Qed.

(** Where the samples around i agree with a polynomial c (in units of samples,
    centred at i) of degree at most order, the result at i is its derivative
    of order deriv, divided by delta^deriv. *)
Theorem C94_polynomials : forall pinv y w o d delta ys h (c : list R) i,
  savitzky_golay pinv y w o d delta = Ok ys -> Z.abs_nat w = (2 * h + 1)%nat ->
  (forall B, window_design h (Z.abs_nat o) B -> left_inverse (pinv B) B) ->
  (length c <= Z.abs_nat o + 1)%nat -> (h <= i)%nat -> (i + h < alen y)%nat ->
  (forall j, (j < 2 * h + 1)%nat -> y (i - h + j)%nat = peval c (INR j - INR h)) ->
  alen ys = alen y /\ ys i = peval (Nat.iter d pderiv c) 0 / delta ^ d.
Proof.
  intros pinv y w o d delta ys h c i E Hw HP Hc Hi Hih Hy. specialize (HP _ (sg_window h (Z.abs_nat o))).
  destruct (sg_inv _ _ _ _ _ _ _ E) as [h' [W [O1 [D1 [_ Eys]]]]].
  assert (h' = h) by lia. subst h'.
  set (m := sg_weights pinv h (Z.abs_nat o) d delta) in *.
  destruct (sg_conv m h y eq_refl ltac:(lia)) as [Ly Vy]. rewrite <- Eys in Ly, Vy.
  split; [exact Ly|]. rewrite Vy by lia.
  set (P := pinv (sg_design h (Z.abs_nat o))) in *.
  rewrite (rsum_ext _ _ (fun j => INR (fact d) / delta ^ d * (P d j * rsum (Z.abs_nat o + 1) (fun e => nth e c 0 * (INR j - INR h) ^ e)))).
  - rewrite rsum_scal.
    assert (K : rsum (2 * h + 1) (fun j => P d j * rsum (Z.abs_nat o + 1) (fun e => nth e c 0 * (INR j - INR h) ^ e)) = nth d c 0).
    { rewrite (rsum_ext _ _ (fun j => rsum (Z.abs_nat o + 1) (fun e => nth e c 0 * (P d j * (INR j - INR h) ^ e)))).
      - rewrite rsum_swap.
        rewrite (rsum_ext _ _ (fun e => if (e =? d)%nat then nth e c 0 else 0)).
        + apply (rsum_delta _ d (fun e => nth e c 0)). lia.
        + intros e He. rewrite rsum_scal.
          pose proof (HP d e ltac:(cbn; lia) ltac:(cbn; lia)) as Q. cbn [sg_design mrows mget] in Q.
          unfold sg_design in Q. cbn [mrows mget] in Q. fold P in Q. 
          replace (rsum (2 * h + 1) (fun i0 => P d i0 * (INR i0 - INR h) ^ e)) with (if (d =? e)%nat then 1 else 0) by (symmetry; exact Q).
          rewrite Nat.eqb_sym. destruct (e =? d)%nat; ring.
      - intros j _. rewrite <- rsum_scal. apply rsum_ext. intros e _. ring. }
    rewrite K. rewrite peval_0. pose proof (iter_pderiv_nth d c 0) as Q. cbn [fact Nat.add] in Q.
    change (INR 1) with 1 in Q. rewrite Rmult_1_r in Q. rewrite Q. unfold Rdiv. ring.
  - intros j Hj. unfold m, sg_weights. cbn [aget]. fold P.
    replace (i + j)%nat with (h + (i - h + j))%nat by lia. rewrite sg_pad_mid by lia.
    rewrite Hy by auto. rewrite peval_sum.
    assert (X : rsum (Z.abs_nat o + 1) (fun e => nth e c 0 * (INR j - INR h) ^ e) = rsum (length c) (fun e => nth e c 0 * (INR j - INR h) ^ e)).
    { rewrite (rsum_split (Z.abs_nat o + 1) (length c)) by lia. rewrite (rsum_zero (_ - _)); [ring|].
      intros e _. rewrite nth_overflow by lia. ring. }
    rewrite X. unfold Rdiv. ring.
Qed.
(** [pderiv] is the derivative. *)
Theorem C94_pderiv : forall c x, derivable_pt_lim (peval c) x (peval (pderiv c) x).
Proof. exact pderiv_true. Qed.
(** Every value is taken from the polynomial fitted to the padded samples around it by least squares,
    if pinv(B) B fulfils the normal equations B^T B pinv(B) = B^T. *)
Definition normal_equations (P B : mat) : Prop :=
  forall e j, (e < mcols B)%nat -> (j < mrows B)%nat ->
    rsum (mrows B) (fun k => B k e * rsum (mcols B) (fun f => B k f * P f j)) = B j e.
Definition misfit (h o : nat) (z : nat -> R) (c : nat -> R) : R :=
  rsum (2 * h + 1) (fun j => (z j - rsum (o + 1) (fun e => c e * (INR j - INR h) ^ e)) ^ 2).
Theorem C94_least_squares : forall pinv y w o d delta ys h i,
  savitzky_golay pinv y w o d delta = Ok ys -> Z.abs_nat w = (2 * h + 1)%nat ->
  (forall B, window_design h (Z.abs_nat o) B -> normal_equations (pinv B) B) ->
  (h <= i)%nat -> (i + h < alen y)%nat ->
  exists c, ys i = c d * INR (fact d) / delta ^ d /\
    forall c', misfit h (Z.abs_nat o) (fun j => y (i - h + j)%nat) c <= misfit h (Z.abs_nat o) (fun j => y (i - h + j)%nat) c'.
Proof.
  intros pinv y w o d delta ys h i E Hw HN Hi Hih. specialize (HN _ (sg_window h (Z.abs_nat o))).
  destruct (sg_inv _ _ _ _ _ _ _ E) as [h' [W [O1 [D1 [_ Eys]]]]].
  assert (h' = h) by lia. subst h'.
  set (m := sg_weights pinv h (Z.abs_nat o) d delta) in *.
  destruct (sg_conv m h y eq_refl ltac:(lia)) as [Ly Vy]. rewrite <- Eys in Ly, Vy.
  set (P := pinv (sg_design h (Z.abs_nat o))) in *.
  set (z := fun j => y (i - h + j)%nat). set (W1 := (2 * h + 1)%nat) in *. set (o1 := (Z.abs_nat o + 1)%nat).
  set (B := fun (j e : nat) => (INR j - INR h) ^ e).
  set (c := fun e => rsum W1 (fun j => P e j * z j)).
  exists c. split.
  - rewrite Vy by lia. unfold c, Rdiv. rewrite <- !rsum_scal_r. apply rsum_ext. intros j Hj.
    unfold m, sg_weights. cbn [aget]. fold P. unfold z.
    replace (i + j)%nat with (h + (i - h + j))%nat by lia. rewrite sg_pad_mid by (unfold W1 in *; lia).
    unfold Rdiv. ring.
  - intros c'. unfold misfit. fold W1 o1.
    set (fit := fun (c : nat -> R) j => rsum o1 (fun e => c e * B j e)).
    change (rsum W1 (fun j => (z j - fit c j) ^ 2) <= rsum W1 (fun j => (z j - fit c' j) ^ 2)).
    (* normal equations for c *)
    assert (NE : forall e, (e < o1)%nat -> rsum W1 (fun k => B k e * (z k - fit c k)) = 0).
    { intros e He.
      rewrite (rsum_ext _ _ (fun k => B k e * z k - B k e * fit c k)) by (intros; ring).
      rewrite rsum_minus.
      rewrite (rsum_ext W1 (fun k => B k e * fit c k) (fun k => rsum W1 (fun j => (B k e * rsum o1 (fun f => B k f * P f j)) * z j))).
      - rewrite rsum_swap.
        rewrite (rsum_ext W1 (fun j => rsum W1 (fun i0 => _)) (fun j => B j e * z j)); [ring|].
        intros j Hj. rewrite rsum_scal_r. f_equal.
        exact (HN e j He Hj).
      - intros k _. unfold fit, c.
        rewrite (rsum_ext o1 _ (fun f => rsum W1 (fun j => B k f * P f j * z j))).
        + rewrite rsum_swap, <- rsum_scal. apply rsum_ext. intros j _.
          rewrite rsum_scal_r. ring.
        + intros f _. rewrite <- rsum_scal_r. apply rsum_ext. intros j _. ring. }
    rewrite (rsum_ext W1 (fun j => (z j - fit c' j) ^ 2)
       (fun j => ((z j - fit c j) ^ 2 + (fit c j - fit c' j) ^ 2) + 2 * ((fit c j - fit c' j) * (z j - fit c j)))) by (intros; ring).
    rewrite rsum_plus, rsum_scal, rsum_plus.
    assert (X : rsum W1 (fun j => (fit c j - fit c' j) * (z j - fit c j)) = 0).
    { rewrite (rsum_ext _ _ (fun j => rsum o1 (fun e => (c e - c' e) * (B j e * (z j - fit c j))))).
      - rewrite rsum_swap. apply rsum_zero. intros e He. rewrite rsum_scal, NE by auto. ring.
      - intros j _. unfold fit at 1 2. rewrite <- rsum_minus, <- rsum_scal_r. apply rsum_ext. intros e _. ring. }
    rewrite X.
    assert (0 <= rsum W1 (fun j => (fit c j - fit c' j) ^ 2)) by (apply rsum_nonneg; intros; apply pow2_ge_0).
    lra.
Qed.
(** Errors and the length of the result. *)
Theorem C94_shape : forall pinv y w o d delta,
  (Z.even w = true \/ (Z.abs_nat w < Z.abs_nat o + 2)%nat -> savitzky_golay pinv y w o d delta = Err TypeError) /\
  (forall ys, savitzky_golay pinv y w o d delta = Ok ys -> (Z.abs_nat w <= 2 * alen y - 1)%nat -> alen ys = alen y).
Proof.
  intros pinv y w o d delta. split.
  - unfold savitzky_golay. intros [H|H].
    + assert (M : (Z.abs_nat w mod 2 = 0)%nat).
      { apply Nat.mod_divide; [lia|]. apply Z.even_spec in H. destruct H as [q ->].
        exists (Z.abs_nat q). rewrite Zabs2Nat.inj_mul. cbn. lia. }
      rewrite M. reflexivity.
    + destruct (_ || _)%bool; [reflexivity|]. rewrite (proj2 (Nat.ltb_lt _ _)) by auto. reflexivity.
  - intros ys E HL. destruct (sg_inv _ _ _ _ _ _ _ E) as [h [W [O1 [D1 [Hy Eys]]]]].
    rewrite Eys. apply sg_conv; [reflexivity|lia].
Qed.
(** A derivative beyond the order of the polynomial, or no sample at all: IndexError. *)
Theorem C94_index_error : forall pinv y w o d delta,
  Z.odd w = true -> (Z.abs_nat o + 2 <= Z.abs_nat w)%nat -> (Z.abs_nat o < d)%nat \/ alen y = 0%nat ->
  savitzky_golay pinv y w o d delta = Err IndexError.
Proof.
  intros pinv y w o d delta Hw Ho Hd. unfold savitzky_golay.
  assert (M : (Z.abs_nat w mod 2 = 1)%nat).
  { apply Z.odd_spec in Hw. destruct Hw as [q Eq].
    assert (Hm : Z.of_nat (Z.abs_nat w mod 2) = 1%Z).
    { rewrite Nat2Z.inj_mod. rewrite Zabs2Nat.id_abs, Eq. change (Z.of_nat 2) with 2%Z.
      destruct (Z.abs_eq_or_opp (2 * q + 1)) as [-> | ->].
      - rewrite Z.add_comm, Z.mul_comm, Z_mod_plus_full. reflexivity.
      - replace (- (2 * q + 1))%Z with (1 + (- q - 1) * 2)%Z by ring. rewrite Z_mod_plus_full. reflexivity. }
    lia. }
  rewrite M. cbn [Nat.eqb negb orb].
  destruct (Nat.ltb_spec (Z.abs_nat w) 1); [lia|]. destruct (Nat.ltb_spec (Z.abs_nat w) (Z.abs_nat o + 2)); [lia|].
  destruct (Nat.ltb_spec (Z.abs_nat o) d); [reflexivity|]. destruct Hd as [Hd|Hd]; [lia|]. rewrite Hd. reflexivity.
Qed.
Example C94_index_example : savitzky_golay (fun B => B) (of_list [1; 2; 3]) 5 2 3 1 = Err IndexError.
Proof. apply C94_index_error; [reflexivity|cbn; lia|left; cbn; lia]. Qed.
Definition pinv31 : mat -> mat := fun _ => of_rows [[1/3; 1/3; 1/3]; [-1/2; 0; 1/2]].
Example C94_ex :
  (forall B, window_design 1 1 B -> left_inverse (pinv31 B) B) /\
  (forall B, window_design 1 1 B -> normal_equations (pinv31 B) B) /\
  exists ys, savitzky_golay pinv31 (of_list [5; 7; 9]) 3 1 1 (1/2) = Ok ys /\ ys 1%nat = 4.
Proof.
  split; [|split].
  - intros B (Hr & Hc & HB) d e Hd He. rewrite Hr, Hc in *. cbn [rsum Nat.mul Nat.add]. rewrite !HB by lia. 
    destruct d as [|[|d]]; [| |lia]; (destruct e as [|[|e]]; [| |lia]); cbn; field.
  - intros B (Hr & Hc & HB) e j He Hj. rewrite Hr, Hc in *. cbn [rsum Nat.mul Nat.add]. rewrite !HB by lia.
    destruct e as [|[|e]]; [| |lia]; (destruct j as [|[|[|j]]]; [| | |lia]); cbn; field.
  - exists (conv1_valid (reversed_arr (sg_weights pinv31 1 1 1 (1/2))) (sg_pad 1 (of_list [5; 7; 9]))).
    split; [reflexivity|]. cbn. field.
Qed.

(** ** C95: linearity of savitzky_golay *)
(** The claim: negating the signal negates the result.  Refuted at the edges: the
    padding takes absolute values, so a falling signal is padded differently. *)
Theorem C95_linearity_refuted : exists pinv y ys ys',
  (forall B, window_design 1 0 B -> left_inverse (pinv B) B) /\
  savitzky_golay pinv y 3 0 0 1 = Ok ys /\
  savitzky_golay pinv (mkArr (alen y) (fun i => - y i)) 3 0 0 1 = Ok ys' /\
  ys' 0%nat <> - ys 0%nat.
Proof.
  set (pinv := fun _ : mat => of_rows [[1/3; 1/3; 1/3]]).
  exists pinv, (of_list [0; 1; 2]),
    (conv1_valid (reversed_arr (sg_weights pinv 1 0 0 1)) (sg_pad 1 (of_list [0; 1; 2]))),
    (conv1_valid (reversed_arr (sg_weights pinv 1 0 0 1)) (sg_pad 1 (mkArr 3 (fun i => - of_list [0; 1; 2] i)))).
  split; [|split; [reflexivity|split; [reflexivity|]]].
  - intros B (Hr & Hc & HB) d e Hd He. rewrite Hr, Hc in *. cbn [rsum Nat.mul Nat.add]. rewrite !HB by lia.
    destruct d; [|lia]. destruct e; [|lia]. cbn. field.
  - cbn. unfold Rabs.
    repeat match goal with |- context [Rcase_abs ?x] => destruct (Rcase_abs x); try lra end.
Qed.
(** Away from the edges the result is linear in the signal.  Missing for C95: the
    first and last (window_size-1)/2 values. *)
Theorem C95_interior_linear_partial : forall pinv y1 y2 (y : vec) k1 k2 w o d delta s1 s2 s h i,
  savitzky_golay pinv y1 w o d delta = Ok s1 -> savitzky_golay pinv y2 w o d delta = Ok s2 ->
  savitzky_golay pinv y w o d delta = Ok s -> alen y1 = alen y -> alen y2 = alen y ->
  (forall j, (j < alen y)%nat -> y j = k1 * y1 j + k2 * y2 j) ->
  Z.abs_nat w = (2 * h + 1)%nat -> (h <= i)%nat -> (i + h < alen y)%nat ->
  s i = k1 * s1 i + k2 * s2 i.
Proof.
  intros pinv y1 y2 y k1 k2 w o d delta s1 s2 s h i E1 E2 E L1 L2 Hy Hw Hi Hih.
  assert (V : forall y s, savitzky_golay pinv y w o d delta = Ok s -> (i + h < alen y)%nat ->
     s i = rsum (2 * h + 1) (fun j => sg_weights pinv h (Z.abs_nat o) d delta j * y (i - h + j)%nat)).
  { intros y0 s0 E0 H0. destruct (sg_inv _ _ _ _ _ _ _ E0) as [h' [W [O1 [D1 [_ Eys]]]]].
    assert (h' = h) by lia. subst h'.
    destruct (sg_conv (sg_weights pinv h (Z.abs_nat o) d delta) h y0 eq_refl ltac:(lia)) as [_ Vy].
    rewrite Eys, Vy by lia. apply rsum_ext. intros j Hj. f_equal.
    replace (i + j)%nat with (h + (i - h + j))%nat by lia. apply sg_pad_mid; lia. }
  rewrite (V y s E Hih), (V y1 s1 E1 ltac:(lia)), (V y2 s2 E2 ltac:(lia)).
  rewrite <- !rsum_scal, <- rsum_plus. apply rsum_ext. intros j Hj. rewrite Hy by lia. ring.
Qed.
(** Scaling by a non-negative factor and (for deriv = 0) adding a constant commute
    with the filter everywhere. *)
Theorem C95_scale_shift_partial : forall pinv (y : vec) k s0 w o delta ys ys' h,
  0 <= k -> savitzky_golay pinv y w o 0 delta = Ok ys ->
  savitzky_golay pinv (mkArr (alen y) (fun i => k * y i + s0)) w o 0 delta = Ok ys' ->
  Z.abs_nat w = (2 * h + 1)%nat ->
  (forall B, window_design h (Z.abs_nat o) B -> left_inverse (pinv B) B) ->
  forall i, (h + 1 <= alen y)%nat -> (i < alen y)%nat -> ys' i = k * ys i + s0.
Proof.
  intros pinv y k s0 w o delta ys ys' h Hk E E' Hw HP i Hh Hi. specialize (HP _ (sg_window h (Z.abs_nat o))).
  destruct (sg_inv _ _ _ _ _ _ _ E) as [h1 [W [O1 [D1 [_ Eys]]]]]. assert (h1 = h) by lia. subst h1.
  destruct (sg_inv _ _ _ _ _ _ _ E') as [h2 [W' [_ [_ [_ Eys']]]]]. assert (h2 = h) by lia. subst h2.
  set (m := sg_weights pinv h (Z.abs_nat o) 0 delta) in *.
  destruct (sg_conv m h y eq_refl Hh) as [_ V]. 
  destruct (sg_conv m h (mkArr (alen y) (fun i => k * y i + s0)) eq_refl Hh) as [_ V'].
  rewrite Eys, Eys', V, V' by auto.
  assert (M1 : rsum (2 * h + 1) m = 1).
  { pose proof (HP 0%nat 0%nat ltac:(cbn; lia) ltac:(cbn; lia)) as Q. cbn [Nat.eqb] in Q.
    transitivity (rsum (2 * h + 1) (fun j => pinv (sg_design h (Z.abs_nat o)) 0%nat j * (INR j - INR h) ^ 0)); [|exact Q].
    apply rsum_ext. intros j _. unfold m, sg_weights. cbn [aget pow fact]. change (INR 1) with 1. field. }
  assert (PD : forall t, sg_pad h (mkArr (alen y) (fun i => k * y i + s0)) t = k * sg_pad h y t + s0).
  { intros t. unfold sg_pad. cbn [alen aget].
    assert (A : forall u v, Rabs (k * u + s0 - (k * v + s0)) = k * Rabs (u - v)).
    { intros u v. replace (k * u + s0 - (k * v + s0)) with (k * (u - v)) by ring. rewrite Rabs_mult, (Rabs_right k) by lra. reflexivity. }
    destruct (t <? _)%nat; [rewrite A; ring|]. destruct (t <? _)%nat; [ring|]. rewrite A. ring. }
  rewrite (rsum_ext _ _ (fun j => k * (m j * sg_pad h y (i + j)%nat) + s0 * m j)).
  - rewrite rsum_plus, !rsum_scal, M1. ring.
  - intros j _. rewrite PD. ring.
Qed.
Example C95_ex : exists ys, savitzky_golay pinv31 (of_list [0; 1; 2; 4]) 3 1 0 1 = Ok ys /\ ys 2%nat = 7/3.
Proof.
  exists (conv1_valid (reversed_arr (sg_weights pinv31 1 1 0 1)) (sg_pad 1 (of_list [0; 1; 2; 4]))).
  split; [reflexivity|]. cbn. field.
Qed.

(** ** C103: ua *)
Theorem C103_angle : forall (vals : arr C) n, vals n <> C0 ->
  vals n = cscal (cabs (vals n)) (cis (ua vals n)).
Proof.
  intros vals n H. unfold ua. set (p := mkArr _ _).
  destruct (unwrap_mod p n) as [z ->]. rewrite cis_2pi. unfold p. cbn [aget].
  destruct (vals n) as [x y] eqn:E. unfold Re, Im. cbn [fst snd].
  assert (A : cabs (x, y) = amp x y).
  { unfold cabs, cnorm2, amp. reflexivity. }
  assert (0 < amp x y).
  { rewrite <- A. destruct (Rle_lt_or_eq_dec 0 (cabs (x, y)) (cabs_nonneg _)) as [|Z]; auto.
    exfalso. apply H. apply cnorm2_zero. rewrite <- cabs_sq, <- Z. ring. }
  destruct (arctan2_polar x y H0) as [Hc [Hs _]]. rewrite A.
  apply C_eq; unfold cscal, cis; cbn [fst snd]; auto.
Qed.
Theorem C103_jumps : forall (vals : arr C) n, Rabs (ua vals (S n) - ua vals n) <= PI.
Proof. intros vals n. apply unwrap_jump. Qed.
(** A phase course theta with steps below pi is recovered up to one constant
    multiple of 2 pi. *)
Theorem C103_recovers : forall (vals : arr C) (rho theta : nat -> R) N,
  (forall n, (n <= N)%nat -> 0 < rho n /\ vals n = cscal (rho n) (cis (theta n))) ->
  (forall n, (n < N)%nat -> Rabs (theta (S n) - theta n) < PI) ->
  exists z, forall n, (n <= N)%nat -> ua vals n = theta n + 2 * PI * IZR z.
Proof.
  intros vals rho theta N H HJ. pose proof PI_RGT_0 as HPI.
  assert (K : forall n, (n <= N)%nat -> exists z, ua vals n = theta n + 2 * PI * IZR z).
  { intros n Hn. destruct (H n Hn) as [Hr E]. apply cis_inj_mod.
    assert (NZ : vals n <> C0).
    { rewrite E. intros Z. apply (f_equal cnorm2) in Z. rewrite cscal_mul, cnorm2_mul, cis_norm in Z.
      unfold cnorm2, RtoC, C0 in Z. cbn in Z. nra. }
    pose proof (C103_angle vals n NZ) as A.
    assert (B : cabs (vals n) = rho n).
    { rewrite E, cscal_mul, cabs_mul, cabs_real, Rabs_right by lra. rewrite cabs_cis. ring. }
    rewrite B in A. rewrite E in A at 1.
    apply C_eq; [apply (f_equal fst) in A|apply (f_equal snd) in A]; unfold cscal in A; cbn [fst snd] in A;
      apply Rmult_eq_reg_l with (rho n); lra. }
  destruct (K 0%nat ltac:(lia)) as [z0 E0]. exists z0.
  induction n as [|n IH]; intros Hn; auto.
  specialize (IH ltac:(lia)). destruct (K (S n) Hn) as [z1 E1].
  pose proof (C103_jumps vals n) as J1. pose proof (HJ n ltac:(lia)) as J2.
  rewrite E1, IH in J1.
  assert (z1 = z0); [|subst; auto].
  assert (A : Rabs (2 * PI * (IZR z1 - IZR z0)) < 2 * PI).
  { replace (2 * PI * (IZR z1 - IZR z0)) with
      ((theta (S n) + 2 * PI * IZR z1 - (theta n + 2 * PI * IZR z0)) + - (theta (S n) - theta n)) by ring.
    eapply Rle_lt_trans; [apply Rabs_triang|]. rewrite Rabs_Ropp. lra. }
  rewrite Rabs_mult, (Rabs_right (2 * PI)) in A by lra. rewrite <- minus_IZR in A.
  assert (B : Rabs (IZR (z1 - z0)) < 1) by nra.
  rewrite <- abs_IZR in B. apply lt_IZR in B. lia.
Qed.
Example C103_ex : forall n, 0 < 1 /\ cis (3 / 2 * INR n) = cscal 1 (cis (3 / 2 * INR n)) /\
  Rabs (3 / 2 * INR (S n) - 3 / 2 * INR n) < PI.
Proof.
  intros n. split; [lra|]. split; [cfield|]. rewrite S_INR.
  replace (3 / 2 * (INR n + 1) - 3 / 2 * INR n) with (3 / 2) by field. rewrite Rabs_right by lra.
  pose proof PI2_3_2. lra.
Qed.

(** ** C97: impulse invariance *)
(** invres as described in S_Poly exists. *)
Definition ref_invres (r p : list C) (k : R) : arr C * arr C :=
  (if Req_EM_T k 0 then mkArr (length p) (pfc r p)
   else mkArr (S (length p)) (fun i => cadd (cscal k (pc p i)) (prev (pfc r p) i)),
   np_poly p).
Lemma ref_invres_exact r p k : length r = length p -> invres_exact ref_invres r p k.
Proof.
  intros HL. unfold invres_exact, ref_invres.
  split; [reflexivity|]. split; [apply ceval_poly|]. destruct (Req_EM_T k 0) as [->|Hk].
  - split; [reflexivity|]. intros z. destruct p as [|p0 p].
    + destruct r; [|discriminate]. unfold ceval, csum. cbn. cfield.
    + rewrite (ceval_evd _ (length p)) by reflexivity. cbn [aget].
      replace (length p) with (length (p0 :: p) - 1)%nat by (cbn; lia).
      rewrite pfc_eval by (auto; cbn; lia). cfield.
  - split; [reflexivity|]. intros z. rewrite (ceval_evd _ (length p)) by reflexivity. cbn [aget].
    transitivity (cadd (cscal k (evd (length p) (pc p) z)) (evd (length p) (prev (pfc r p)) z)).
    { unfold evd. rewrite cscal_mul, <- csum_mul_l, <- csum_add. apply csum_ext. intros i _. cfield. }
    rewrite evd_pc. f_equal. destruct p as [|p0 p].
    + destruct r; [|discriminate]. unfold evd, csum. cbn. cfield.
    + replace (length (p0 :: p)) with (S (length (p0 :: p) - 1)) by (cbn; lia).
      rewrite evd_prev. apply pfc_eval; auto. cbn; lia.
Qed.

(** For simple poles with real residues and a response that does not start at 0,
    the filter returned by impinvar has the impulse response ts h(n ts), where
    h(t) = sum_l r_l exp(p_l t) is the impulse response of b(s)/a(s).
    Missing for C97: complex residues, repeated poles, h(0) = 0 (see below). *)
Theorem C97_impulse_invariance_partial : forall residue invres b a fs tol r p bz az,
  residue b a = (r, p, []) -> partial_fractions b a r p ->
  (forall r p k, length r = length p -> invres_exact invres r p k) ->
  fs <> 0 -> apart tol p -> conj_closed r p -> (forall x, In x r -> Im x = 0) ->
  modes r p 0 <> C0 ->
  impinvar residue invres b a fs tol = Ok (bz, az) ->
  (forall n, Im (modes r p (INR n / fs)) = 0) /\
  impulse_resp bz az (fun n => 1 / fs * Re (modes r p (INR n / fs))).
Proof.
  intros residue invres b a fs tol r p bz az HR [HL _] HI Hfs HA HC Hre H0 E.
  apply (impinvar_ok residue invres b a fs tol r p bz az HR HL HA Hfs Hre); auto.
  intros Z. apply H0. rewrite <- Z. clear - HL. revert r HL.
  induction p as [|p0 p IH]; intros [|r0 r] HL; try discriminate; auto.
  cbn [modes]. unfold ctot in *. cbn [fold_right]. rewrite (IH r) by (cbn in HL; lia).
  rewrite !Rmult_0_l, exp_0, cis_0. set (q := fold_right cadd C0 r). cfield.
Qed.
(** (2s+3)/((s+1)(s+2)) = 1/(s+1) + 1/(s+2) *)
Definition real_r : list C := [C1; C1].
Definition real_p : list C := [RtoC (-1); RtoC (-2)].
Example C97_ex :
  partial_fractions (of_list [2; 3]) (of_list [1; 3; 2]) real_r real_p /\ apart (1/10000) real_p /\
  conj_closed real_r real_p /\ modes real_r real_p 0 <> C0 /\
  exists bz az, impinvar (fun _ _ => (real_r, real_p, [])) ref_invres (of_list [2; 3]) (of_list [1; 3; 2]) 10 (1/10000) = Ok (bz, az).
Proof.
  split; [|split; [|split; [|split]]].
  - split; [reflexivity|]. exists 1. split; [lra|]. split.
    + intros s. unfold ceval, lin_prod, csum, real_poly, of_list. cbn. destruct s. cfield.
    + intros s. unfold ceval, csum, real_poly, of_list, lin_prod. cbn. destruct s. cfield.
  - cbn. split; auto. replace (csub (RtoC (-1)) (RtoC (-2))) with (RtoC 1) by cfield.
    rewrite cabs_real, Rabs_R1. lra.
  - unfold conj_closed. cbn. rewrite cconj_1.
    replace (cconj (RtoC (-1))) with (RtoC (-1)) by (symmetry; apply cconj_real; reflexivity).
    replace (cconj (RtoC (-2))) with (RtoC (-2)) by (symmetry; apply cconj_real; reflexivity).
    apply Permutation_refl.
  - cbn. rewrite !Rmult_0_l, exp_0, cis_0. intros Z. apply (f_equal fst) in Z. cbn in Z. lra.
  - unfold impinvar. destruct (Req_EM_T 10 0); [lra|]. cbn [fst snd].
    rewrite imp_loop_simple; [|cbn; split; auto; replace (csub (RtoC (-1)) (RtoC (-2))) with (RtoC 1) by cfield; rewrite cabs_real, Rabs_R1; lra|reflexivity|auto].
    cbn [bind]. destruct (ref_invres _ _ _) as [bo ao]. eexists. eexists. reflexivity.
Qed.

(** Complex residues: the direct term is computed as sum |r| sign(Re r) instead of
    sum r.  (s+2)/(s^2+2s+2) starts with h(0) = 1, the filter returned with sqrt 2. *)
Definition cplx_r : list C := [(1/2, -1/2); (1/2, 1/2)].
Definition cplx_p : list C := [(-1, 1); (-1, -1)].
Theorem C97_complex_residues_refuted : exists residue invres b a r p bz az,
  residue b a = (r, p, []) /\ partial_fractions b a r p /\
  (forall r p k, length r = length p -> invres_exact invres r p k) /\ apart (1/10000) p /\
  conj_closed r p /\ modes r p 0 <> C0 /\
  impinvar residue invres b a 1 (1/10000) = Ok (bz, az) /\
  forall h, impulse_resp bz az h -> h 0%nat <> 1 / 1 * Re (modes r p (INR 0 / 1)).
Proof.
  exists (fun _ _ => (cplx_r, cplx_p, [])), ref_invres, (of_list [1; 2]), (of_list [1; 2; 2]), cplx_r, cplx_p.
  assert (HA : apart (1/10000) cplx_p).
  { cbn. split; auto.
    assert (E : cnorm2 (csub (-1, 1) (-1, -1)) = 4) by (unfold cnorm2, csub; cbn; ring).
    unfold cabs. rewrite E. replace 4 with (2 * 2) by ring. rewrite sqrt_square by lra. lra. }
  assert (M0 : modes cplx_r cplx_p 0 = C1).
  { cbn. rewrite !Rmult_0_l, exp_0, cis_0. unfold cmul, cscal, C1, cadd. cbn. apply C_eq; cbn; field. }
  eexists. eexists.
  split; [reflexivity|]. split; [|split; [exact ref_invres_exact|split; [exact HA|split; [|split]]]].
  - split; [reflexivity|]. exists 1. split; [lra|]. split.
    + intros s. unfold ceval, lin_prod, csum, real_poly, of_list. cbn. destruct s. cfield.
    + intros s. unfold ceval, csum, real_poly, of_list, lin_prod. cbn. destruct s. cfield; field.
  - unfold conj_closed, cplx_r, cplx_p, cconj. cbn.
    replace (- (-1/2)) with (1/2) by field. replace (- (1/2)) with (-1/2) by field.
    replace (- (1)) with (-1) by ring. replace (- -1) with 1 by ring. apply perm_swap.
  - rewrite M0. intros Z. apply (f_equal fst) in Z. cbn in Z. lra.
  - assert (N : 1 <> 0) by lra.
    split.
    { unfold impinvar. destruct (Req_EM_T 1 0); [contradiction|]. rewrite imp_loop_simple by auto. cbn [bind].
      unfold ref_invres at 1. reflexivity. }
    set (k := fold_left _ cplx_r 0).
    assert (Hk : 1 < k).
    { unfold k, cplx_r. cbn [fold_left].
      assert (T : forall y, y * y = 1/4 -> 1/2 < to_real (cscal (1 / 1) (1/2, y))).
      { intros y Hy. unfold to_real, Re, rsign. cbn [cscal fst]. destruct (Rlt_dec 0 (1 / 1 * (1 / 2))); [|lra].
        rewrite Rmult_1_r. unfold cabs. apply Rsqr_incrst_0; [|lra|apply sqrt_pos].
        rewrite Rsqr_sqrt by apply cnorm2_nonneg. unfold cnorm2, Rsqr. cbn [cscal fst snd]. nra. }
      pose proof (T (-1/2) ltac:(field)). pose proof (T (1/2) ltac:(field)). lra. }
    destruct (Req_EM_T k 0); [lra|].
    intros h Hh. pose proof (Hh 0%nat) as K. rewrite filter_sum_vpad in K.
    cbn [rsum] in K. unfold vpad in K. cbn [alen aget] in K.
    cbn in K. 
    assert (A1 : to_real C1 = 1) by (rewrite to_real_real; reflexivity).
    assert (B1 : to_real (cadd (cscal k C1) C0) = k).
    { rewrite to_real_real; cbn; ring. }
    replace (INR 0 / 1) with 0 by (cbn; field). rewrite M0. cbn [Re C1 fst].
    change (0 + to_real C1 * h 0%nat = to_real (cadd (cscal k C1) C0)) in K.
    rewrite A1, B1 in K. lra.
Qed.

(** A response starting at 0 (sum of residues exactly 0): scipy's invres drops the
    vanishing constant, the numerator has one coefficient less, and cutting the last
    coefficient shifts the impulse response by one sample: 1/((s+1)(s+2)). *)
Definition zero_r : list C := [C1; RtoC (-1)].
Theorem C97_zero_start_refuted : exists residue invres b a r p bz az,
  residue b a = (r, p, []) /\ partial_fractions b a r p /\
  (forall r p k, length r = length p -> invres_exact invres r p k) /\ apart (1/10000) p /\
  conj_closed r p /\ (forall x, In x r -> Im x = 0) /\
  impinvar residue invres b a 1 (1/10000) = Ok (bz, az) /\
  forall h, impulse_resp bz az h -> h 0%nat <> 1 / 1 * Re (modes r p (INR 0 / 1)).
Proof.
  exists (fun _ _ => (zero_r, real_p, [])), ref_invres, (of_list [1]), (of_list [1; 3; 2]), zero_r, real_p.
  assert (HA : apart (1/10000) real_p).
  { cbn. split; auto. replace (csub (RtoC (-1)) (RtoC (-2))) with (RtoC 1) by cfield.
    rewrite cabs_real, Rabs_R1. lra. }
  assert (M0 : modes zero_r real_p 0 = C0).
  { cbn. rewrite !Rmult_0_l, exp_0, cis_0. cfield. }
  eexists. eexists.
  split; [reflexivity|]. split; [|split; [exact ref_invres_exact|split; [exact HA|split; [|split]]]].
  - split; [reflexivity|]. exists 1. split; [lra|]. split.
    + intros s. unfold ceval, lin_prod, csum, real_poly, of_list. cbn. destruct s. cfield.
    + intros s. unfold ceval, csum, real_poly, of_list, lin_prod. cbn. destruct s. cfield.
  - unfold conj_closed. cbn. rewrite cconj_1.
    replace (cconj (RtoC (-1))) with (RtoC (-1)) by (symmetry; apply cconj_real; reflexivity).
    replace (cconj (RtoC (-2))) with (RtoC (-2)) by (symmetry; apply cconj_real; reflexivity).
    apply Permutation_refl.
  - intros x [<-|[<-|[]]]; reflexivity.
  - split.
    { unfold impinvar. destruct (Req_EM_T 1 0); [lra|]. rewrite imp_loop_simple by auto. cbn [bind].
      unfold ref_invres at 1. reflexivity. }
    set (k := fold_left _ zero_r 0).
    assert (Hk : k = 0).
    { unfold k, zero_r. cbn [fold_left]. rewrite !to_real_real by (cbn; ring). cbn. ring. }
    destruct (Req_EM_T k 0); [|contradiction].
    intros h Hh. pose proof (Hh 0%nat) as K. rewrite filter_sum_vpad in K.
    cbn [rsum] in K. unfold vpad in K. cbn [alen aget] in K. cbn in K.
    assert (A1 : to_real C1 = 1) by (rewrite to_real_real; reflexivity).
    replace (INR 0 / 1) with 0 by (cbn; field). rewrite M0. cbn [Re C0 fst].
    match type of K with _ = to_real ?x => set (b0 := x) in K end.
    assert (B0 : b0 = RtoC (exp (-1) - exp (-2))).
    { unfold b0, cexp, cscal, cmul, cadd, RtoC, C1, C0, Re, Im, cis. cbn [fst snd].
      replace (1 / 1 * -1) with (-1) by field. replace (1 / 1 * -2) with (-2) by field.
      replace (1 / 1 * 0) with 0 by field. rewrite cos_0, sin_0. apply C_eq; cbn [fst snd]; field. }
    rewrite B0 in K. rewrite A1, to_real_real in K by reflexivity. cbn [fst RtoC] in K.
    pose proof (exp_increasing (-2) (-1) ltac:(lra)). lra.
Qed.
(** Repeated poles (two consecutive ones closer than tol) are never transformed: TypeError
    if one of the poles is not real, else ValueError. *)
Theorem C97_repeated_poles : forall residue invres b a fs tol r p,
  residue b a = (r, p, []) -> length r = length p -> fs <> 0 -> ~ apart tol p ->
  ((exists z, In z p /\ snd z <> 0) -> impinvar residue invres b a fs tol = Err TypeError) /\
  ((forall z, In z p -> snd z = 0) -> impinvar residue invres b a fs tol = Err ValueError).
Proof.
  intros residue invres b a fs tol r p HR HL Hfs HA. unfold impinvar.
  destruct (Req_EM_T fs 0); [contradiction|]. rewrite HR. cbv zeta beta. cbn [bind].
  rewrite imp_loop_repeated by auto. cbn [bind]. split.
  - intros [z [Iz Nz]]. replace (complex_dtype p) with true; [reflexivity|]. symmetry. apply existsb_exists.
    exists z. split; [exact Iz|]. unfold Im. destruct (Req_EM_T (snd z) 0); [contradiction|reflexivity].
  - intros H. replace (complex_dtype p) with false; [reflexivity|]. symmetry.
    destruct (complex_dtype p) eqn:E; [|reflexivity]. apply existsb_exists in E. destruct E as [z [Iz E]].
    unfold Im in E. destruct (Req_EM_T (snd z) 0) as [_|N]; [discriminate|]. exfalso. apply N, H, Iz.
Qed.
(** A direct part (numerator of the order of the denominator or more) is rejected, a
    vanishing one is ignored. *)
Theorem C97_direct_part : forall residue invres b a fs tol r p k,
  residue b a = (r, p, k) -> fs <> 0 ->
  ((exists c, In c k /\ c <> C0) -> impinvar residue invres b a fs tol = Err ValueError) /\
  (k = [C0] -> impinvar residue invres b a fs tol = impinvar (fun _ _ => (r, p, [])) invres b a fs tol).
Proof.
  intros residue invres b a fs tol r p k HR Hfs. unfold impinvar. destruct (Req_EM_T fs 0); [contradiction|].
  rewrite HR. cbv zeta beta. split.
  - intros (c & Ic & Nc). destruct k as [|c1 [|c2 k]]; [contradiction| |reflexivity].
    destruct Ic as [->|[]].
    replace (rltb 0 (cabs c)) with true; [reflexivity|]. symmetry. apply rltb_true. apply sqrt_lt_R0, cnorm2_pos. exact Nc.
  - intros ->. replace (rltb 0 (cabs C0)) with false; [reflexivity|]. symmetry. apply rltb_false. rewrite cabs_0. lra.
Qed.
Example C97_direct_example :
  impinvar (fun _ _ => ([C1], [RtoC (-1)], [RtoC 2])) ref_invres (of_list [2; 3]) (of_list [1; 1]) 1 (1/10000)
    = Err ValueError.
Proof.
  eapply C97_direct_part; [reflexivity|lra|]. exists (RtoC 2). split; [left; reflexivity|].
  intros H. apply (f_equal fst) in H. cbn in H. lra.
Qed.
Example C97_repeated_ex :
  impinvar (fun _ _ => ([C1; C1], [RtoC (-1); RtoC (-1)], [])) ref_invres (of_list [1; 2]) (of_list [1; 2; 1]) 1 (1/10000)
    = Err ValueError /\
  impinvar (fun _ _ => ([C1; C1; C1; C1], [(-1, 1); (-1, 1); (-1, -1); (-1, -1)], [])) ref_invres
    (of_list [1]) (of_list [1; 4; 8; 8; 4]) 1 (1/10000) = Err TypeError.
Proof.
  assert (Z : forall c, ~ 1 / 10000 <= cabs (csub c c)) by (intros c; rewrite csub_diag, cabs_0; lra).
  split.
  - eapply C97_repeated_poles; [reflexivity|reflexivity|lra| |].
    + intros [H _]. exact (Z _ H).
    + intros z [<-|[<-|[]]]; reflexivity.
  - eapply C97_repeated_poles; [reflexivity|reflexivity|lra| |].
    + intros [H _]. exact (Z _ H).
    + exists (-1, 1). split; [left; reflexivity|cbn; lra].
Qed.

(** ** C104: impinvar_causal *)
(** The correction sets the first value of the impulse response to 0 and leaves the
    others unchanged. *)
Theorem C104_causal : forall residue invres b a fs tol bz az b' a' h,
  impinvar residue invres b a fs tol = Ok (bz, az) -> (1 <= alen az)%nat -> az 0%nat <> 0 ->
  impulse_resp bz az h ->
  impinvar_causal residue invres b a fs tol = Ok (b', a') ->
  a' = az /\ exists h', impulse_resp b' a' h' /\ h' 0%nat = 0 /\ forall n, (1 <= n)%nat -> h' n = h n.
Proof.
  intros residue invres b a fs tol bz az b' a' h E Ha H0 Hh Ec.
  unfold impinvar_causal in Ec. rewrite E in Ec. cbn [bind] in Ec.
  destruct (causal_ok bz az b' a' h) as [-> HI]; auto.
  { unfold vpad. rewrite (proj2 (Nat.ltb_lt _ _)) by lia. auto. }
  split; auto. exists (fun n => match n with O => 0 | S _ => h n end).
  split; [exact HI|]. split; [reflexivity|]. intros [|n] Hn; [lia|reflexivity].
Qed.
Example C104_ex : exists bz az b' a',
  impinvar (fun _ _ => ([C1], [RtoC (-1)], [])) ref_invres (of_list [1]) (of_list [1; 1]) 1 (1/10000) = Ok (bz, az) /\
  az 0%nat = 1 /\ make_causal bz az = Ok (b', a') /\ b' 0%nat = 0.
Proof.
  eexists. eexists. eexists. eexists. split; [|split; [|split]].
  - unfold impinvar. destruct (Req_EM_T 1 0); [lra|]. cbn [imp_loop length same_pole firstn z_res bind skipn].
    unfold ref_invres.
    destruct (Req_EM_T (0 + to_real (cscal (1 / 1) C1)) 0) as [Z|Z].
    { exfalso. rewrite to_real_real in Z by (cbn; ring). cbn in Z. lra. }
    reflexivity.
  - cbn. rewrite to_real_real; reflexivity.
  - unfold make_causal. cbn [alen Nat.eqb orb length app repeat np_poly Nat.sub]. reflexivity.
  - cbn. rewrite !to_real_real by (cbn; rewrite ?to_real_real; cbn; ring). cbn. field.
Qed.

Print Assumptions C61_digital.
Print Assumptions C61_unknown_type.
Print Assumptions C62_analog_refuted.
Print Assumptions C62_unstable_refuted.
Print Assumptions C62_analog_partial.
Print Assumptions C63_mapinside.
Print Assumptions C63_roots.
Print Assumptions C63_real.
Print Assumptions C63_magnitude.
Print Assumptions C102_marginal_refuted.
Print Assumptions C102_strictly_inside_partial.
Print Assumptions C93_group_delay_partial.
Print Assumptions C93_frequencies.
Print Assumptions C93_long_filter_refuted.
Print Assumptions C96_delay_partial.
Print Assumptions C96_rate_partial.
Print Assumptions C96_shift_refuted.
Print Assumptions C94_polynomials.
Print Assumptions C94_pderiv.
Print Assumptions C94_least_squares.
Print Assumptions C94_shape.
Print Assumptions C95_linearity_refuted.
Print Assumptions C95_interior_linear_partial.
Print Assumptions C95_scale_shift_partial.
Print Assumptions C103_angle.
Print Assumptions C103_jumps.
Print Assumptions C103_recovers.
Print Assumptions C97_impulse_invariance_partial.
Print Assumptions C97_complex_residues_refuted.
Print Assumptions C97_zero_start_refuted.
Print Assumptions C97_repeated_poles.
Print Assumptions C97_direct_part.
Print Assumptions C94_index_error.
Print Assumptions C104_causal.
