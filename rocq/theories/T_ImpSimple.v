(** Impulse invariance for all filters with simple poles (C97).  Model: M_FilterStuff.v.  Vocabulary: S_Poly.v. *)
From Coq Require Import Reals String List Arith ZArith Lia Lra Psatz Permutation Bool.
From Verif Require Import Base Sums Cplx S_Poly M_FilterStuff P_Poly P_FStuff P_FStuff2 P_ImpRes T_FilterStuff.
Import ListNotations.
Local Notation length := Datatypes.length.
Open Scope R_scope.

(** sum_l |r_l| sign(Re r_l) *)
Fixpoint signed_sum (r : list C) : R :=
  match r with
  | [] => 0
  | x :: l => (if Rlt_dec 0 (Re x) then cabs x else if Rlt_dec (Re x) 0 then - cabs x else 0) + signed_sum l
  end.
Lemma to_real_scal t x : t <> 0 ->
  to_real (cscal t x) = t * (if Rlt_dec 0 (Re x) then cabs x else if Rlt_dec (Re x) 0 then - cabs x else 0).
Proof.
  intros Ht. unfold to_real, rsign. rewrite cscal_mul, cabs_mul, cabs_real.
  assert (E : Re (cmul (RtoC t) x) = t * Re x) by (unfold Re; cbn; ring). rewrite E.
  unfold Rabs. destruct (Rcase_abs t); destruct (Rlt_dec 0 (t * Re x)); destruct (Rlt_dec (t * Re x) 0);
    destruct (Rlt_dec 0 (Re x)); destruct (Rlt_dec (Re x) 0); try (exfalso; nra); nra.
Qed.
Lemma k_signed t r : t <> 0 -> forall k, fold_left (fun k r => k + to_real (cscal t r)) r k = k + t * signed_sum r.
Proof.
  intros Ht. induction r as [|x r IH]; intros k; cbn [fold_left signed_sum]; [ring|].
  rewrite IH, to_real_scal by auto. ring.
Qed.
Lemma modes_0 : forall p r, length r = length p -> modes r p 0 = ctot r.
Proof.
  induction p as [|p0 p IH]; intros [|r0 r] HL; try discriminate; auto.
  cbn [modes]. unfold ctot in *. cbn [fold_right]. rewrite IH by (cbn in HL; lia).
  rewrite !Rmult_0_l, exp_0, cis_0. set (q := fold_right cadd C0 r). cfield.
Qed.
Lemma ctot_scal t r : ctot (map (cscal t) r) = cscal t (ctot r).
Proof. induction r as [|r0 r IH]; unfold ctot in *; cbn; [cfield|]. rewrite IH. cfield. Qed.

(** The coefficients of the filter returned, in terms of the sampled modes: with Z = exp(p/fs) and T = sum r/fs, the denominator
    is prod (z - Z_l), and the numerator is the one of the impulse invariant filter plus (k - T) times the denominator. *)
Section Coef.
Variables (b a : vec) (fs : R) (r p : list C).
Hypothesis HP : partial_fractions b a r p.
Hypothesis ND : NoDup p.
Hypothesis Hfs : fs <> 0.
Let ts := 1 / fs.
Let Z := zp ts p.
Let rr := map (cscal ts) r.
Let T := Re (modes r p 0).
Let HL : length r = length p := proj1 HP.
Let Lrr : length rr = length Z.
Proof. unfold rr, Z. rewrite map_length, zp_length. exact HL. Qed.
Let Hts : ts <> 0.
Proof. unfold ts. apply Rmult_integral_contrapositive_currified; [lra|apply Rinv_neq_0_compat; auto]. Qed.
Let HC : conj_closed r p := residues_conj b a r p HP ND.
Lemma sampled_real n : Im (modes r p (INR n / fs)) = 0.
Proof using All. apply modes_real, HC. Qed.
Lemma ctot_T : ctot rr = RtoC (ts * T).
Proof using All.
  unfold rr. rewrite ctot_scal, <- (modes_0 p) by exact HL.
  assert (M : Im (modes r p 0) = 0) by (apply modes_real, HC).
  unfold T. unfold Re, Im in *. apply C_eq; cbn [cscal fst snd RtoC]; auto. rewrite M. ring.
Qed.
Lemma geo_sampled n : geo rr Z n = RtoC (ts * Re (modes r p (INR n / fs))).
Proof using All.
  unfold rr, Z. rewrite geo_modes by exact HL. replace (INR n * ts) with (INR n / fs) by (unfold ts; field; auto).
  assert (M := sampled_real n). unfold Re, Im in *. apply C_eq; cbn [cscal fst snd RtoC]; auto. rewrite M. ring.
Qed.
Lemma pc_Z_real i : snd (pc Z i) = 0.
Proof using All. apply cconj_real. rewrite <- pc_conj. apply pc_perm, Permutation_sym, (zp_conj_closed ts r p HL HC). Qed.
Lemma pfc_conv m : pfc rr Z m = RtoC (rsum (S m) (fun j => fst (pc Z j) * (ts * Re (modes r p (INR (m - j) / fs))))).
Proof using All.
  rewrite <- (cv_geo Z rr m Lrr). rewrite cv_real; [|apply pc_Z_real|intros j; rewrite geo_sampled; reflexivity].
  f_equal. apply rsum_ext. intros j _. rewrite geo_sampled. reflexivity.
Qed.
Lemma pfc_rr_real m : snd (pfc rr Z m) = 0.
Proof using All. rewrite pfc_conv. reflexivity. Qed.

Lemma impinvar_coef residue invres tol bz az : residue b a = (r, p, []) -> apart tol p ->
  (forall r p k, length r = length p -> invres_exact invres r p k) -> (1 <= length p)%nat ->
  impinvar residue invres b a fs tol = Ok (bz, az) ->
  alen az = S (length p) /\ (forall i, vpad az i = fst (pc Z i)) /\
  (signed_sum r <> 0 -> alen bz = length p /\
     forall i, (i < length p)%nat -> bz i = fst (pfc rr Z i) + ts * (signed_sum r - T) * fst (pc Z i)) /\
  (signed_sum r = 0 -> alen bz = (length p - 1)%nat /\
     forall i, (i < length p - 1)%nat -> bz i = fst (pfc rr Z (S i)) - ts * T * fst (pc Z (S i))).
Proof using All.
  intros HR HA Hinv H1. unfold impinvar. destruct (Req_EM_T fs 0); [contradiction|]. rewrite HR. fold ts.
  rewrite imp_loop_simple by auto. cbn [bind]. rewrite (k_signed ts r Hts 0), Rplus_0_l. fold Z.
  set (k := ts * signed_sum r).
  assert (Lzr : length (zr ts r p) = length Z) by (unfold zr, Z; rewrite map_length, combine_length, zp_length, HL; apply Nat.min_id).
  pose proof (Hinv (zr ts r p) Z k Lzr) as HI.
  unfold invres_exact in HI. destruct (invres (zr ts r p) Z k) as [bo ao]. destruct HI as [La [Ea [Lb Eb]]].
  assert (LZ : length Z = length p) by apply zp_length. rewrite LZ in La, Lb. intros E.
  assert (Ebz : bz = mkArr (alen bo - 1) (fun i => to_real (bo i))) by congruence.
  assert (Eaz : az = mkArr (alen ao) (fun i => to_real (ao i))) by congruence. clear E.
  assert (Ca : forall i, (i <= length p)%nat -> ao i = pc Z i).
  { apply coef_unique. intros z. rewrite <- (ceval_evd ao) by auto. rewrite Ea, <- evd_pc, LZ. reflexivity. }
  assert (Ezr : zr ts r p = map (fun rp => cmul (fst rp) (snd rp)) (combine rr Z)) by apply zr_alt.
  assert (SH : forall n, prev (pfc (zr ts r p) Z) n = csub (pfc rr Z n) (cmul (ctot rr) (pc Z n))).
  { intros n0. rewrite <- (pfc_shift Z rr n0 Lrr), <- Ezr. set (u := prev _ _). set (v := cmul _ _). cfield. }
  assert (Kz : k = 0 <-> signed_sum r = 0).
  { unfold k. split; intros K; [apply Rmult_integral in K; tauto|rewrite K; ring]. }
  split; [|split; [|split]].
  - rewrite Eaz. exact La.
  - intros i. rewrite Eaz. unfold vpad. cbn [alen aget]. rewrite La. destruct (Nat.ltb_spec i (S (length p))) as [Li|Li].
    + rewrite to_real_real; rewrite Ca by lia; auto. apply pc_Z_real.
    + rewrite pc_above by (rewrite LZ; lia). reflexivity.
  - intros Hs. destruct (Req_EM_T k 0) as [K|K]; [exfalso; apply Hs, Kz, K|].
    rewrite Ebz. cbn [alen aget]. rewrite Lb. split; [lia|]. intros i Hi.
    assert (Cb : forall i, (i <= length p)%nat -> bo i = cadd (cscal k (pc Z i)) (prev (pfc (zr ts r p) Z) i)).
    { apply coef_unique. intros z. rewrite <- (ceval_evd bo) by auto. rewrite Eb.
      transitivity (cadd (cscal k (evd (length p) (pc Z) z)) (evd (length p) (prev (pfc (zr ts r p) Z)) z)).
      - rewrite <- LZ at 1. rewrite evd_pc. f_equal.
        replace (length p) with (S (length Z - 1)) by lia. rewrite evd_prev, pfc_eval; auto; lia.
      - unfold evd. rewrite cscal_mul, <- csum_mul_l, <- csum_add. apply csum_ext. intros j _. cfield. }
    rewrite to_real_real; rewrite Cb, SH, ctot_T by lia; unfold cadd, csub, cscal, cmul, RtoC; cbn [fst snd]; rewrite pc_Z_real.
    + unfold k. ring.
    + rewrite pfc_rr_real. ring.
  - intros Hs. destruct (Req_EM_T k 0) as [K|K]; [|exfalso; apply K, Kz, Hs].
    rewrite Ebz. cbn [alen aget]. rewrite Lb. split; [reflexivity|]. intros i Hi.
    assert (Cb : forall i, (i <= length p - 1)%nat -> bo i = pfc (zr ts r p) Z i).
    { apply coef_unique. intros z. rewrite <- (ceval_evd bo) by lia. rewrite Eb, K, <- LZ, pfc_eval; auto; [cfield|lia]. }
    assert (S1 := SH (S i)). cbn [prev] in S1.
    rewrite to_real_real; rewrite Cb, S1, ctot_T by lia; unfold csub, cmul, RtoC; cbn [fst snd]; rewrite pc_Z_real.
    + ring.
    + rewrite pfc_rr_real. ring.
Qed.
End Coef.

Lemma rsum_last n f : rsum (S n) f = rsum n f + f n.
Proof. reflexivity. Qed.
Lemma sum_neq_poles (r p : list C) : length r = length p -> signed_sum r <> 0 -> (1 <= length p)%nat.
Proof. intros HL H. destruct r; [exfalso; apply H; reflexivity|]. rewrite <- HL. cbn. lia. Qed.

(** Every filter with distinct poles whose residues satisfy sum |r| sign(Re r) <> 0: the impulse response of the returned filter is the
    sampled one plus (sum |r| sign(Re r) - h(0)) times the response e of the filter (az without its last coefficient, az). *)
Theorem C97_simple_poles_partial : forall residue invres b a fs tol r p bz az,
  residue b a = (r, p, []) -> partial_fractions b a r p -> NoDup p ->
  (forall r p k, length r = length p -> invres_exact invres r p k) ->
  fs <> 0 -> apart tol p -> signed_sum r <> 0 ->
  impinvar residue invres b a fs tol = Ok (bz, az) ->
  (forall n, Im (modes r p (INR n / fs)) = 0) /\
  exists e, e 0%nat = 1 /\ impulse_resp (mkArr (alen az - 1) az) az e /\
    impulse_resp bz az (fun n => 1 / fs * (Re (modes r p (INR n / fs)) + (signed_sum r - Re (modes r p 0)) * e n)).
Proof.
  intros residue invres b a fs tol r p bz az HR HP ND Hinv Hfs HA Hs E.
  assert (H1 := sum_neq_poles r p (proj1 HP) Hs).
  split; [apply (sampled_real b a fs r p HP ND Hfs)|].
  destruct (impinvar_coef b a fs r p HP ND Hfs residue invres tol bz az HR HA Hinv H1 E) as (La & Ca & Cb & _).
  destruct (Cb Hs) as [Lb Vb]. set (ts := 1 / fs) in *. set (Z := zp ts p) in *. set (rr := map (cscal ts) r) in *.
  assert (A0 : vpad az 0 = 1) by (rewrite Ca, pc_0; reflexivity).
  set (az' := mkArr (alen az - 1) az).
  set (e := fun n => hist az' az (S n) n).
  assert (He : impulse_resp az' az e) by (apply impulse_resp_exists; lra).
  assert (V' : forall i, vpad az' i = if (i <? length p)%nat then vpad az i else 0).
  { intros i. unfold vpad, az'. cbn [alen aget]. rewrite La. replace (S (length p) - 1)%nat with (length p) by lia.
    destruct (Nat.ltb_spec i (length p)); auto. destruct (Nat.ltb_spec i (S (length p))); [reflexivity|lia]. }
  exists e. split; [|split; [exact He|]].
  - assert (K := He 0%nat). rewrite filter_sum_vpad, V' in K. destruct (Nat.ltb_spec 0 (length p)); [|lia].
    clearbody e. cbn [rsum] in K. rewrite Nat.sub_diag, A0 in K. lra.
  - intros m. rewrite (filter_sum_vpad az (fun n => ts * (Re (modes r p (INR n / fs)) + (signed_sum r - Re (modes r p 0)) * e n))).
    assert (Km := He m). rewrite (filter_sum_vpad az e), V' in Km.
    assert (Kp := pfc_conv b a fs r p HP ND Hfs m). fold ts Z rr in Kp. apply (f_equal fst) in Kp. cbn [fst RtoC] in Kp.
    transitivity (fst (pfc rr Z m) + ts * (signed_sum r - Re (modes r p 0)) * rsum (S m) (fun j => vpad az j * e (m - j)%nat)).
    { rewrite Kp, <- rsum_scal, <- rsum_plus. apply rsum_ext. intros j _. rewrite Ca. ring. }
    rewrite Km. unfold vpad at 2. rewrite Lb. destruct (Nat.ltb_spec m (length p)) as [Lm|Lm].
    + rewrite Vb by auto. rewrite Ca. reflexivity.
    + rewrite pfc_above by (unfold Z; rewrite zp_length; lia). cbn. ring.
Qed.
(** Hence such a filter is impulse invariant if and only if sum |r| sign(Re r) = h(0). *)
Theorem C97_iff_partial : forall residue invres b a fs tol r p bz az,
  residue b a = (r, p, []) -> partial_fractions b a r p -> NoDup p ->
  (forall r p k, length r = length p -> invres_exact invres r p k) ->
  fs <> 0 -> apart tol p -> signed_sum r <> 0 ->
  impinvar residue invres b a fs tol = Ok (bz, az) ->
  (impulse_resp bz az (fun n => 1 / fs * Re (modes r p (INR n / fs))) <-> signed_sum r = Re (modes r p 0)).
Proof.
  intros residue invres b a fs tol r p bz az HR HP ND Hinv Hfs HA Hs E.
  assert (H1 := sum_neq_poles r p (proj1 HP) Hs).
  destruct (C97_simple_poles_partial residue invres b a fs tol r p bz az HR HP ND Hinv Hfs HA Hs E) as (_ & e & E0 & _ & He).
  destruct (impinvar_coef b a fs r p HP ND Hfs residue invres tol bz az HR HA Hinv H1 E) as (_ & Ca & _).
  assert (A0 : vpad az 0 = 1) by (rewrite Ca, pc_0; reflexivity).
  assert (Hf' : / fs <> 0) by (now apply Rinv_neq_0_compat).
  split; intros H.
  - assert (U := impulse_resp_unique bz az _ _ ltac:(lra) H He 0%nat). cbn beta in U. rewrite E0 in U.
    assert (Q : 1 / fs * (signed_sum r - Re (modes r p 0)) = 0) by lra.
    apply Rmult_integral in Q. destruct Q as [Q|Q]; [|lra]. exfalso. unfold Rdiv in Q. rewrite Rmult_1_l in Q. contradiction.
  - intros m. rewrite <- He. apply rsum_ext. intros j _. destruct (j <=? m)%nat; auto. rewrite H. ring.
Qed.
(** If both sums vanish (every response that starts at 0 with real residues), the response is the sampled one advanced by one sample. *)
Theorem C97_advance_partial : forall residue invres b a fs tol r p bz az,
  residue b a = (r, p, []) -> partial_fractions b a r p -> NoDup p ->
  (forall r p k, length r = length p -> invres_exact invres r p k) ->
  fs <> 0 -> apart tol p -> signed_sum r = 0 -> modes r p 0 = C0 -> (1 <= length p)%nat ->
  impinvar residue invres b a fs tol = Ok (bz, az) ->
  impulse_resp bz az (fun n => 1 / fs * Re (modes r p (INR (S n) / fs))).
Proof.
  intros residue invres b a fs tol r p bz az HR HP ND Hinv Hfs HA Hs H0 H1 E.
  destruct (impinvar_coef b a fs r p HP ND Hfs residue invres tol bz az HR HA Hinv H1 E) as (La & Ca & _ & Cb).
  destruct (Cb Hs) as [Lb Vb]. set (ts := 1 / fs) in *. set (Z := zp ts p) in *. set (rr := map (cscal ts) r) in *.
  assert (T0 : Re (modes r p 0) = 0) by (rewrite H0; reflexivity).
  intros m. rewrite (filter_sum_vpad az (fun n => ts * Re (modes r p (INR (S n) / fs)))).
  assert (Kp := pfc_conv b a fs r p HP ND Hfs (S m)). fold ts Z rr in Kp. apply (f_equal fst) in Kp. cbn [fst RtoC] in Kp.
  rewrite rsum_last in Kp. rewrite Nat.sub_diag in Kp. change (INR 0) with 0 in Kp.
  replace (0 / fs) with 0 in Kp by (field; auto). rewrite T0, !Rmult_0_r, Rplus_0_r in Kp.
  transitivity (fst (pfc rr Z (S m))).
  { rewrite Kp. apply rsum_ext. intros j Hj. rewrite Ca. replace (S m - j)%nat with (S (m - j)) by lia. reflexivity. }
  unfold vpad. rewrite Lb. destruct (Nat.ltb_spec m (length p - 1)) as [Lm|Lm].
  - rewrite Vb by auto. rewrite T0. ring.
  - rewrite pfc_above by (unfold Z; rewrite zp_length; lia). reflexivity.
Qed.

Lemma run_ref (r p : list C) (b a : vec) fs tol : fs <> 0 -> length r = length p -> apart tol p ->
  exists bz az, impinvar (fun _ _ => (r, p, [])) ref_invres b a fs tol = Ok (bz, az).
Proof.
  intros Hfs HL HA. unfold impinvar. destruct (Req_EM_T fs 0); [contradiction|]. rewrite imp_loop_simple by auto.
  cbn [bind]. destruct (ref_invres _ _ _) as [bo ao]. eexists. eexists. reflexivity.
Qed.
(** (s+2)/(s^2+2s+2): sum |r| sign(Re r) = sqrt 2 although h(0) = 1; 1/((s+1)(s+2)): both 0. *)
Example C97_simple_ex : partial_fractions (of_list [1; 2]) (of_list [1; 2; 2]) cplx_r cplx_p /\ NoDup cplx_p /\ apart (1 / 10000) cplx_p /\
  signed_sum cplx_r = sqrt 2 /\ Re (modes cplx_r cplx_p 0) = 1 /\
  exists bz az, impinvar (fun _ _ => (cplx_r, cplx_p, [])) ref_invres (of_list [1; 2]) (of_list [1; 2; 2]) 1 (1 / 10000) = Ok (bz, az).
Proof.
  assert (HA : apart (1 / 10000) cplx_p).
  { cbn. split; auto.
    assert (E : cnorm2 (csub (-1, 1) (-1, -1)) = 4) by (unfold cnorm2, csub; cbn; ring).
    unfold cabs. rewrite E. replace 4 with (2 * 2) by ring. rewrite sqrt_square by lra. lra. }
  split; [|split; [|split; [exact HA|split; [|split]]]].
  - split; [reflexivity|]. exists 1. split; [lra|]. split.
    + intros s. unfold ceval, lin_prod, csum, real_poly, of_list. cbn. destruct s. cfield.
    + intros s. unfold ceval, csum, real_poly, of_list, lin_prod. cbn. destruct s. cfield; field.
  - constructor; [|constructor; [intros []|constructor]]. intros [E|[]]. apply (f_equal snd) in E. cbn in E. lra.
  - unfold cplx_r. cbn [signed_sum]. unfold Re, cabs, cnorm2. cbn [fst snd].
    destruct (Rlt_dec 0 (1 / 2)); [|lra].
    replace (1 / 2 * (1 / 2) + -1 / 2 * (-1 / 2)) with (1 / 2) by field. replace (1 / 2 * (1 / 2) + 1 / 2 * (1 / 2)) with (1 / 2) by field.
    replace (1 / 2) with (2 / (2 * 2)) by field. rewrite sqrt_div_alt, sqrt_square by lra. field.
  - rewrite modes_0 by reflexivity. unfold ctot, cplx_r, Re. cbn. field.
  - apply run_ref; auto; lra.
Qed.
Example C97_advance_ex : partial_fractions (of_list [1]) (of_list [1; 3; 2]) zero_r real_p /\ NoDup real_p /\ apart (1 / 10000) real_p /\
  signed_sum zero_r = 0 /\ modes zero_r real_p 0 = C0 /\
  exists bz az, impinvar (fun _ _ => (zero_r, real_p, [])) ref_invres (of_list [1]) (of_list [1; 3; 2]) 1 (1 / 10000) = Ok (bz, az).
Proof.
  assert (HA : apart (1 / 10000) real_p).
  { cbn. split; auto. replace (csub (RtoC (-1)) (RtoC (-2))) with (RtoC 1) by cfield. rewrite cabs_real, Rabs_R1. lra. }
  split; [|split; [|split; [exact HA|split; [|split]]]].
  - split; [reflexivity|]. exists 1. split; [lra|]. split.
    + intros s. unfold ceval, lin_prod, csum, real_poly, of_list. cbn. destruct s. cfield.
    + intros s. unfold ceval, csum, real_poly, of_list, lin_prod. cbn. destruct s. cfield.
  - constructor; [|constructor; [intros []|constructor]]. intros [E|[]]. apply (f_equal fst) in E. cbn in E. lra.
  - unfold zero_r. cbn [signed_sum]. change C1 with (RtoC 1). rewrite !cabs_real. unfold Re. cbn [RtoC fst].
    destruct (Rlt_dec 0 1); [|lra]. destruct (Rlt_dec 0 (-1)); [lra|]. destruct (Rlt_dec (-1) 0); [|lra].
    rewrite Rabs_R1, Rabs_left by lra. ring.
  - rewrite modes_0 by reflexivity. unfold ctot, zero_r. cbn. cfield.
  - apply run_ref; auto; lra.
Qed.
Print Assumptions C97_simple_poles_partial.
Print Assumptions C97_iff_partial.
Print Assumptions C97_advance_partial.
