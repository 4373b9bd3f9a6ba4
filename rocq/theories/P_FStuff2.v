(** Lemmas on smoothing, unwrapping and impulse invariance. *)
From Coq Require Import Reals List Arith ZArith Lia Lra Psatz Permutation Bool.
From Verif Require Import Base Sums Cplx S_Poly S_MC M_DFT M_FilterStuff P_Poly P_Deriv P_AmpPhase P_FStuff.
Import ListNotations.
Open Scope R_scope.

(** ** Savitzky-Golay *)
Lemma sg_conv m h y : alen m = (2 * h + 1)%nat -> (h + 1 <= alen y)%nat ->
  alen (conv1_valid (reversed_arr m) (sg_pad h y)) = alen y /\
  forall i, (i < alen y)%nat ->
    conv1_valid (reversed_arr m) (sg_pad h y) i = rsum (2 * h + 1) (fun j => m j * sg_pad h y (i + j)%nat).
Proof.
  intros Hm Hy. unfold conv1_valid.
  assert (Lp : alen (sg_pad h y) = (h + alen y + h)%nat).
  { unfold sg_pad. cbn [alen]. rewrite Nat.min_l by lia. reflexivity. }
  rewrite Lp. cbn [reversed_arr alen]. rewrite Hm.
  destruct (Nat.leb_spec (h + alen y + h) (2 * h + 1)).
  - assert (h = 0%nat) by lia. assert (Hy1 : alen y = 1%nat) by lia. subst h.
    split.
    + unfold conv1_core. cbn [alen reversed_arr]. rewrite Lp, Hm. lia.
    + intros i Hi. assert (i = 0)%nat by lia. subst i.
      unfold conv1_core. cbn [alen aget reversed_arr]. rewrite Lp, Hy1, Hm. cbn. ring.
  - split.
    + unfold conv1_core. cbn [alen reversed_arr]. rewrite Lp, Hm. lia.
    + intros i Hi. unfold conv1_core. cbn [alen aget reversed_arr]. rewrite Hm.
      rewrite rsum_rev. apply rsum_ext. intros j Hj.
      replace (2 * h + 1 - 1 - (2 * h + 1 - 1 - j))%nat with j by lia.
      f_equal. f_equal. lia.
Qed.
Lemma sg_pad_mid h y i : (h + 1 <= alen y)%nat -> (i < alen y)%nat -> sg_pad h y (h + i)%nat = y i.
Proof.
  intros Hy Hi. unfold sg_pad. cbn [aget]. rewrite Nat.min_l by lia.
  rewrite (proj2 (Nat.ltb_ge (h + i) h)) by lia. rewrite (proj2 (Nat.ltb_lt _ _)) by lia.
  f_equal. lia.
Qed.

Lemma sg_inv pinv y w o d delta ys : savitzky_golay pinv y w o d delta = Ok ys ->
  exists h, Z.abs_nat w = (2 * h + 1)%nat /\ (Z.abs_nat o + 2 <= 2 * h + 1)%nat /\
    (d <= Z.abs_nat o)%nat /\ (1 <= alen y)%nat /\
    ys = conv1_valid (reversed_arr (sg_weights pinv h (Z.abs_nat o) d delta)) (sg_pad h y).
Proof.
  unfold savitzky_golay.
  destruct (Nat.eqb_spec (Z.abs_nat w mod 2) 1) as [E|]; [|discriminate]. cbn [negb orb].
  destruct (Nat.ltb_spec (Z.abs_nat w) 1); [discriminate|].
  destruct (Nat.ltb_spec (Z.abs_nat w) (Z.abs_nat o + 2)); [discriminate|].
  destruct (Nat.ltb_spec (Z.abs_nat o) d); [discriminate|].
  destruct (Nat.eqb_spec (alen y) 0); [discriminate|].
  intros K. exists ((Z.abs_nat w - 1) / 2)%nat.
  assert (Z.abs_nat w = 2 * ((Z.abs_nat w - 1) / 2) + 1)%nat.
  { pose proof (Nat.div_mod (Z.abs_nat w) 2 ltac:(lia)) as D. rewrite E in D.
    assert (Q : (Z.abs_nat w - 1 = (Z.abs_nat w / 2) * 2)%nat) by lia.
    rewrite Q, Nat.div_mul by lia. lia. }
  split; [assumption|]. split; [lia|]. split; [lia|]. split; [lia|]. congruence.
Qed.

(** polynomials *)
Lemma peval_sum c t : peval c t = rsum (length c) (fun e => nth e c 0 * t ^ e).
Proof.
  induction c as [|x c IH]; [reflexivity|].
  cbn [length]. rewrite rsum_S_l. cbn [peval nth pow]. rewrite IH, <- rsum_scal.
  rewrite Rmult_1_r. f_equal. apply rsum_ext. intros i _. ring.
Qed.
Lemma pderiv_aux_nth c : forall k e, nth e (pderiv_aux k c) 0 = INR (k + e) * nth e c 0.
Proof.
  induction c as [|x c IH]; intros k e; cbn.
  - destruct e; ring.
  - destruct e as [|e]; [rewrite Nat.add_0_r; reflexivity|]. rewrite IH.
    replace (S k + e)%nat with (k + S e)%nat by lia. reflexivity.
Qed.
Lemma pderiv_nth c e : nth e (pderiv c) 0 = INR (S e) * nth (S e) c 0.
Proof.
  unfold pderiv. rewrite pderiv_aux_nth. destruct c; cbn [tl nth]; [destruct e; ring|]. reflexivity.
Qed.
Lemma peval_0 c : peval c 0 = nth 0 c 0.
Proof. destruct c; cbn; ring. Qed.
Lemma iter_pderiv_nth d : forall c e, nth e (Nat.iter d pderiv c) 0 * INR (fact e) = INR (fact (e + d)) * nth (e + d) c 0.
Proof.
  induction d as [|d IH]; intros c e; cbn [Nat.iter nat_rect].
  - rewrite Nat.add_0_r. ring.
  - change (nat_rect (fun _ => list R) c (fun _ => pderiv) d) with (Nat.iter d pderiv c).
    rewrite pderiv_nth. pose proof (IH c (S e)) as K.
    replace (S e + d)%nat with (e + S d)%nat in K by lia. rewrite <- K.
    rewrite fact_simpl, mult_INR. ring.
Qed.
Lemma pderiv_true c : forall x, derivable_pt_lim (peval c) x (peval (pderiv c) x).
Proof.
  intros x. rewrite (peval_sum (pderiv c)).
  apply (dl_ext (fun t => rsum (length c) (fun e => nth e c 0 * t ^ e))); [intros; symmetry; apply peval_sum|].
  eapply dl_eq.
  - apply (dl_rsum _ (fun e t => nth e c 0 * t ^ e) (fun e => nth e c 0 * (INR e * x ^ pred e))).
    intros e _. eapply dl_eq; [dl|]. cbv beta. ring.
  - destruct c as [|a c]; [reflexivity|].
    assert (L : length (pderiv (a :: c)) = length c).
    { unfold pderiv. cbn [tl]. generalize 1%nat. induction c; intros k; cbn; auto. }
    rewrite L. cbn [length]. rewrite rsum_S_l. change (INR 0) with 0.
    rewrite Rmult_0_l, Rmult_0_r, Rplus_0_l. apply rsum_ext. intros e _.
    rewrite pderiv_nth. cbn [pred]. ring.
Qed.

(** ** unwrap *)
Lemma mod2pi_spec x : 0 <= mod2pi x < 2 * PI /\ exists z, mod2pi x = x + 2 * PI * IZR z.
Proof.
  pose proof PI_RGT_0 as HP. unfold mod2pi. split.
  - destruct (base_Int_part (x / (2 * PI))) as [H1 H2].
    set (q := IZR (Int_part (x / (2 * PI)))) in *.
    assert (E : x = 2 * PI * (x / (2 * PI))) by (field; lra).
    split.
    + rewrite E at 1. nra.
    + rewrite E at 1. nra.
  - exists (- Int_part (x / (2 * PI)))%Z. rewrite opp_IZR. ring.
Qed.
Lemma ph_correct_spec d : (exists z, ph_correct d = 2 * PI * IZR z) /\ - PI <= d + ph_correct d <= PI.
Proof.
  pose proof PI_RGT_0 as HP. unfold ph_correct.
  destruct (mod2pi_spec (d + PI)) as [B [z E]].
  destruct (rltb (Rabs d) PI) eqn:L.
  - apply rltb_true in L. split; [exists 0%Z; ring|]. apply Rabs_def2 in L. lra.
  - destruct (Req_EM_T (mod2pi (d + PI) - PI) (- PI)) as [Q|Q].
    + destruct (Rlt_dec 0 d).
      * split; [|lra]. exists (z + 1)%Z. rewrite plus_IZR. lra.
      * split; [|lra]. exists z. lra.
    + split; [|lra]. exists z. lra.
Qed.
Lemma unwrap_mod p n : exists z, unwrap p n = p n + 2 * PI * IZR z.
Proof.
  unfold unwrap. cbn [aget].
  assert (K : exists z, rsum n (fun i => ph_correct (p (S i) - p i)) = 2 * PI * IZR z).
  { induction n as [|n [z IH]]; [exists 0%Z; cbn; ring|]. cbn [rsum].
    destruct (ph_correct_spec (p (S n) - p n)) as [[z' E] _]. exists (z + z')%Z. rewrite IH, E, plus_IZR. ring. }
  destruct K as [z ->]. exists z. reflexivity.
Qed.
Lemma unwrap_jump p n : Rabs (unwrap p (S n) - unwrap p n) <= PI.
Proof.
  unfold unwrap. cbn [aget rsum].
  destruct (ph_correct_spec (p (S n) - p n)) as [_ B]. apply Rabs_le. lra.
Qed.
Lemma cis_2pi t z : cis (t + 2 * PI * IZR z) = cis t.
Proof.
  assert (N : forall n t, cis (t + 2 * PI * INR n) = cis t).
  { intros n u. unfold cis. f_equal.
    - transitivity (cos (u + 2 * INR n * PI)); [f_equal; ring|apply cos_period].
    - transitivity (sin (u + 2 * INR n * PI)); [f_equal; ring|apply sin_period]. }
  destruct (Z_le_gt_dec 0 z) as [L|L].
  - rewrite <- (Z2Nat.id z) by auto. rewrite <- INR_IZR_INZ. apply N.
  - rewrite <- (N (Z.to_nat (- z)) (t + 2 * PI * IZR z)). f_equal.
    rewrite INR_IZR_INZ, Z2Nat.id by lia. rewrite opp_IZR. ring.
Qed.
Lemma cis_inj_mod s t : cis s = cis t -> exists z, s = t + 2 * PI * IZR z.
Proof.
  intros E.
  assert (Z : sin (s - t) = 0 /\ cos (s - t) = 1).
  { apply (f_equal (fun c => cmul c (cconj (cis t)))) in E. rewrite <- !cis_neg, <- !cis_add in E.
    replace (t + - t) with 0 in E by ring. rewrite cis_0 in E. unfold cis, C1 in E.
    change (s - t) with (s + - t). split; congruence. }
  destruct Z as [Zs Zc]. apply sin_eq_0_0 in Zs. destruct Zs as [k Hk].
  pose proof PI_RGT_0.
  destruct (Z.Even_or_Odd k) as [[j ->]|[j ->]].
  - exists j. rewrite mult_IZR in Hk. lra.
  - exfalso. rewrite plus_IZR, mult_IZR in Hk.
    assert (C : cis (s - t) = cis PI).
    { rewrite Hk. rewrite <- (cis_2pi PI j). f_equal. ring. }
    unfold cis in C. assert (cos (s - t) = cos PI) by congruence. rewrite cos_PI in H0. lra.
Qed.

(** ** impinvar *)
Lemma rsign_abs x : Rabs x * rsign x = x.
Proof.
  unfold rsign. destruct (Rlt_dec 0 x); [rewrite Rabs_right; lra|].
  destruct (Rlt_dec x 0); [rewrite Rabs_left; lra|].
  replace x with 0 by lra. rewrite Rabs_R0. ring.
Qed.
Lemma to_real_real z : snd z = 0 -> to_real z = fst z.
Proof.
  intros H. unfold to_real, Re. destruct z as [x y]. cbn in *. subst y.
  change (x, 0) with (RtoC x). rewrite cabs_real. apply rsign_abs.
Qed.

Lemma apart_same tol p ps : apart tol (p :: ps) -> same_pole tol p ps = 0%nat /\ apart tol ps.
Proof.
  destruct ps as [|q ps]; cbn; auto. intros [H K]. split; auto.
  destruct (rltb (cabs (csub p q)) tol) eqn:E; auto. apply rltb_true in E. lra.
Qed.

Definition zp (ts : R) (p : list C) : list C := map (fun s => cexp (cscal ts s)) p.
Definition zr (ts : R) (r p : list C) : list C :=
  map (fun rp => cmul (cscal ts (fst rp)) (cexp (cscal ts (snd rp)))) (combine r p).

Lemma imp_loop_simple cx tol ts : forall p r k f, apart tol p -> length r = length p -> (length p <= f)%nat ->
  imp_loop f cx tol ts r p k =
  Ok (zr ts r p, zp ts p, fold_left (fun k r => k + to_real (cscal ts r)) r k).
Proof.
  induction p as [|p0 p IH]; intros r k f HA HL HF.
  - destruct r; [|discriminate]. destruct f; reflexivity.
  - destruct r as [|r0 r]; [discriminate|]. destruct f as [|f]; [cbn in HF; lia|].
    destruct (apart_same _ _ _ HA) as [S0 HA']. cbn [imp_loop]. rewrite S0.
    cbn [firstn z_res bind skipn]. rewrite (IH r _ f) by (cbn in HL, HF; auto; lia).
    reflexivity.
Qed.
Lemma not_apart_same tol p ps : ~ apart tol (p :: ps) ->
  (exists m, same_pole tol p ps = S m) \/ (same_pole tol p ps = 0%nat /\ ~ apart tol ps).
Proof.
  destruct ps as [|q ps]; [intros H; exfalso; apply H; exact I|]. intros H. cbn [same_pole].
  destruct (rltb (cabs (csub p q)) tol) eqn:E; [left; eauto|right]. split; [reflexivity|].
  intros A. apply H. split; [|exact A]. unfold rltb in E. destruct (Rlt_dec (cabs (csub p q)) tol); [discriminate|lra].
Qed.
Lemma imp_loop_repeated cx tol ts : forall p r k f, ~ apart tol p -> length r = length p -> (length p <= f)%nat ->
  imp_loop f cx tol ts r p k = Err (if cx then TypeError else ValueError).
Proof.
  induction p as [|p0 p IH]; intros r k f HA HL HF.
  - exfalso. apply HA. exact I.
  - destruct r as [|r0 r]; [discriminate|]. destruct f as [|f]; [cbn in HF; lia|]. cbn [imp_loop].
    destruct (not_apart_same _ _ _ HA) as [[m E]|[E HA']]; rewrite E.
    + cbn [firstn]. destruct r as [|r1 r]; [destruct p; [discriminate E|discriminate HL]|]. reflexivity.
    + cbn [firstn z_res bind skipn]. rewrite (IH r _ f) by (cbn in HL, HF; auto; lia). reflexivity.
Qed.

(** coefficients of the partial fraction numerator *)
Fixpoint pfc (r p : list C) : nat -> C :=
  match r, p with
  | r0 :: rs, p0 :: ps => fun n => cadd (cmul r0 (pc ps n)) (poly_step (pfc rs ps) p0 n)
  | _, _ => fun _ => C0
  end.
Lemma pfc_above : forall p r n, (length p <= n)%nat -> pfc r p n = C0.
Proof.
  induction p as [|p0 p IH]; intros [|r0 r] n Hn; auto. cbn [length] in Hn. cbn [pfc].
  rewrite pc_above by lia. destruct n as [|n]; [lia|]. cbn [poly_step]. rewrite !IH by lia. cfield.
Qed.
Lemma poly_step_prev q v n : poly_step q v n = csub (q n) (cmul v (prev q n)).
Proof. destruct n; cbn; cfield. Qed.
Lemma prev_add f g n : prev (fun n => cadd (f n) (g n)) n = cadd (prev f n) (prev g n).
Proof. destruct n; cbn; cfield. Qed.
Lemma prev_mul c f n : prev (fun n => cmul c (f n)) n = cmul c (prev f n).
Proof. destruct n; cbn; cfield. Qed.
Lemma prev_ext f g n : (forall n, f n = g n) -> prev f n = prev g n.
Proof. intros H. destruct n; cbn; auto. Qed.
Lemma prev_step q v n : prev (poly_step q v) n = poly_step (prev q) v n.
Proof. destruct n as [|[|n]]; cbn; cfield. Qed.

Lemma cv_prev p y n : cv p (prev y) n = prev (cv p y) n.
Proof.
  destruct n as [|n]; [unfold cv, csum; cbn; cfield|].
  cbn [prev]. unfold cv. rewrite csum_S. rewrite Nat.sub_diag. cbn [prev]. rewrite cmul_0_r, cadd_0_r.
  apply csum_ext. intros j Hj. replace (S n - j)%nat with (S (n - j)) by lia. reflexivity.
Qed.
Lemma cv_lin p c y y' n : cv p (fun n => cadd (cmul c (y n)) (y' n)) n = cadd (cmul c (cv p y n)) (cv p y' n).
Proof.
  unfold cv. rewrite <- csum_mul_l, <- csum_add. apply csum_ext. intros j _. cfield.
Qed.
Lemma cv_ext_r p y y' n : (forall j, (j <= n)%nat -> y j = y' j) -> cv p y n = cv p y' n.
Proof. intros H. apply csum_ext. intros j _. rewrite H; auto. lia. Qed.
(** a geometric sequence is cancelled by its factor *)
Lemma cv_geom q p n : cv (poly_step q p) (cpow p) n = q n.
Proof.
  rewrite cv_step, <- cv_prev.
  transitivity (cv q (fun n => cadd (cmul (copp p) (prev (cpow p) n)) (cpow p n)) n).
  { rewrite cv_lin. cfield. }
  rewrite (cv_ext_r q _ poly_one).
  - unfold cv. rewrite csum_S.
    rewrite csum_zero.
    + rewrite Nat.sub_diag. cbn. cfield.
    + intros j Hj. destruct (n - j)%nat eqn:E; [lia|]. cbn. apply cmul_0_r.
  - intros j _. destruct j; cbn; cfield.
Qed.

Fixpoint geo (r p : list C) (n : nat) : C :=
  match r, p with
  | r0 :: rs, p0 :: ps => cadd (cmul r0 (cpow p0 n)) (geo rs ps n)
  | _, _ => C0
  end.
Lemma cv_geo : forall p r n, length r = length p -> cv (pc p) (geo r p) n = pfc r p n.
Proof.
  induction p as [|p0 p IH]; intros [|r0 r] n HL; try discriminate.
  - cbn [geo pfc]. apply csum_zero. intros; apply cmul_0_r.
  - rewrite (cv_ext _ (poly_step (pc p) p0)) by (intros; apply pc_cons).
    cbn [geo pfc]. rewrite cv_lin, cv_geom. f_equal.
    rewrite cv_step, poly_step_prev, IH by (cbn in HL; lia). f_equal. f_equal.
    apply prev_ext. intros; apply IH. cbn in HL; lia.
Qed.

(** k + sum r p/(z-p) = sum r z/(z-p) with k = sum r *)
Definition ctot (l : list C) : C := fold_right cadd C0 l.
Lemma pfc_shift : forall p r n, length r = length p ->
  cadd (cmul (ctot r) (pc p n)) (prev (pfc (map (fun rp => cmul (fst rp) (snd rp)) (combine r p)) p) n)
  = pfc r p n.
Proof.
  induction p as [|p0 p IH]; intros [|r0 r] n HL; try discriminate.
  - cbn [ctot fold_right pfc combine map]. destruct n; cbn [prev]; rewrite cmul_0_l; cfield.
  - cbn [ctot fold_right combine map fst snd pfc]. fold (ctot r).
    rewrite pc_cons, prev_add, prev_mul, prev_step.
    assert (E : forall m, poly_step (fun m => cadd (cmul (ctot r) (pc p m))
        (prev (pfc (map (fun rp => cmul (fst rp) (snd rp)) (combine r p)) p) m)) p0 m = poly_step (pfc r p) p0 m).
    { intros m. apply poly_step_ext. intros j. apply IH. cbn in HL; lia. }
    rewrite <- E. rewrite !poly_step_prev. cbn [prev]. rewrite prev_add, prev_mul.
    set (Q := prev (pfc _ p)). cfield.
Qed.
Lemma pfc_eval : forall p r z, length r = length p -> (1 <= length p)%nat ->
  evd (length p - 1) (pfc r p) z = pf_num r p z.
Proof.
  induction p as [|p0 p IH]; intros [|r0 r] z HL HP; try discriminate; try (cbn in HP; lia).
  cbn [length pf_num pfc]. replace (S (length p) - 1)%nat with (length p) by lia.
  transitivity (cadd (cmul r0 (evd (length p) (pc p) z)) (evd (length p) (poly_step (pfc r p) p0) z)).
  { unfold evd. rewrite <- csum_mul_l, <- csum_add. apply csum_ext. intros i _. cfield. }
  rewrite evd_pc. f_equal.
  destruct p as [|p1 p].
  - destruct r; [|discriminate]. unfold evd, csum. cbn. cfield.
  - destruct r as [|r1 r]; [discriminate|].
    cbn [length]. rewrite evd_step by (apply pfc_above; cbn; lia).
    pose proof (IH (r1 :: r) z ltac:(cbn in HL |- *; lia) ltac:(cbn; lia)) as K.
    cbn [length] in K. replace (S (length p) - 1)%nat with (length p) in K by lia. rewrite K. apply cmul_comm.
Qed.
Lemma evd_prev m q z : evd (S m) (prev q) z = evd m q z.
Proof.
  induction m as [|m IH].
  - unfold evd, csum. cbn. cfield.
  - rewrite evd_S, IH, evd_S. reflexivity.
Qed.
Lemma coef_unique m p q : (forall z, evd m p z = evd m q z) -> forall i, (i <= m)%nat -> p i = q i.
Proof.
  intros H i Hi. apply csub_eq_0. apply (evd_zero m (fun i => csub (p i) (q i))); auto.
  intros z. rewrite evd_sub, H. apply csub_diag.
Qed.
Lemma ceval_evd p m z : alen p = S m -> ceval p z = evd m p z.
Proof.
  intros H. unfold ceval, evd. rewrite H. apply csum_ext. intros i _.
  replace (S m - 1 - i)%nat with (m - i)%nat by lia. reflexivity.
Qed.

Lemma ctot_perm l l' : Permutation l l' -> ctot l = ctot l'.
Proof.
  induction 1; cbn; auto.
  - unfold ctot in *. cbn. congruence.
  - unfold ctot. cbn. cfield.
  - congruence.
Qed.
Lemma ctot_conj l : cconj (ctot l) = ctot (map cconj l).
Proof.
  induction l as [|a l IH]; cbn; [apply cconj_0|]. unfold ctot in *. rewrite cconj_add, IH. reflexivity.
Qed.
Lemma cpow_conj z n : cpow (cconj z) n = cconj (cpow z n).
Proof. induction n as [|n IH]; cbn; [rewrite cconj_1; auto|]. rewrite IH, cconj_mul. reflexivity. Qed.
Lemma cexp_conj z : cexp (cconj z) = cconj (cexp z).
Proof. unfold cexp, cconj, Re, Im. cbn [fst snd]. rewrite cis_neg. cfield. Qed.
Lemma cexp_pow z n : cpow (cexp z) n = cexp (cscal (INR n) z).
Proof.
  induction n as [|n IH].
  - cbn [cpow]. change (INR 0) with 0. unfold cexp, cscal, Re, Im. cbn [fst snd]. rewrite !Rmult_0_l, exp_0, cis_0. cfield.
  - cbn [cpow]. rewrite IH, S_INR. unfold cexp, cscal, Re, Im. cbn [fst snd].
    rewrite !Rmult_plus_distr_r, !Rmult_1_l, exp_plus, cis_add. cfield.
Qed.
Lemma geo_modes ts : forall p r n, length r = length p ->
  geo (map (cscal ts) r) (zp ts p) n = cscal ts (modes r p (INR n * ts)).
Proof.
  induction p as [|p0 p IH]; intros [|r0 r] n HL; try discriminate.
  - cbn. cfield.
  - unfold zp in *. cbn [map geo modes]. rewrite IH by (cbn in HL; lia). rewrite cexp_pow.
    unfold cexp, Re, Im. replace (INR n * ts * fst p0) with (fst (cscal (INR n) (cscal ts p0))) by (cbn; ring).
    replace (INR n * ts * snd p0) with (snd (cscal (INR n) (cscal ts p0))) by (cbn; ring).
    set (e := exp _). set (c := cis _). cfield.
Qed.
Lemma modes_ctot : forall p r t,
  modes r p t = ctot (map (fun rp => cmul (fst rp) (cexp (cscal t (snd rp)))) (combine r p)).
Proof.
  induction p as [|p0 p IH]; intros [|r0 r] t; auto.
  cbn. unfold ctot in *. rewrite IH. reflexivity.
Qed.
Lemma modes_real r p t : conj_closed r p -> snd (modes r p t) = 0.
Proof.
  intros H. apply cconj_real. rewrite modes_ctot, ctot_conj, map_map.
  rewrite (map_ext _ (fun rp => (fun rp => cmul (fst rp) (cexp (cscal t (snd rp)))) (cconj (fst rp), cconj (snd rp)))).
  - rewrite <- (map_map (fun rp => (cconj (fst rp), cconj (snd rp)))
      (fun rp => cmul (fst rp) (cexp (cscal t (snd rp))))).
    apply ctot_perm, Permutation_map, Permutation_sym. exact H.
  - intros rp. cbn [fst snd]. rewrite cconj_mul, <- cexp_conj. f_equal. f_equal. cfield.
Qed.
Lemma zp_conj_closed ts r p : length r = length p -> conj_closed r p -> Permutation (zp ts p) (map cconj (zp ts p)).
Proof.
  intros HL H.
  assert (E : map snd (combine r p) = p).
  { clear H. revert r HL. induction p as [|p0 p IH]; intros [|r0 r] HL; try discriminate; auto.
    cbn. rewrite IH; auto. }
  assert (P : Permutation p (map cconj p)).
  { rewrite <- E at 1. eapply perm_trans; [apply Permutation_map; exact H|].
    rewrite map_map. cbn [snd]. rewrite <- E at 2. rewrite map_map. apply Permutation_refl. }
  unfold zp. rewrite map_map. eapply perm_trans; [apply Permutation_map; exact P|].
  rewrite map_map. rewrite (map_ext _ (fun s => cconj (cexp (cscal ts s)))); auto.
  intros s. rewrite <- cexp_conj. f_equal. cfield.
Qed.
Lemma zr_alt ts : forall p r, zr ts r p =
  map (fun rp => cmul (fst rp) (snd rp)) (combine (map (cscal ts) r) (zp ts p)).
Proof.
  induction p as [|p0 p IH]; intros [|r0 r]; auto. unfold zr, zp in *. cbn. rewrite IH. reflexivity.
Qed.
Lemma k_total ts r : (forall x, In x r -> snd x = 0) ->
  forall k, RtoC (fold_left (fun k r => k + to_real (cscal ts r)) r k) = cadd (RtoC k) (ctot (map (cscal ts) r)).
Proof.
  induction r as [|r0 r IH]; intros H k.
  - cbn. cfield.
  - cbn [fold_left map]. rewrite IH by (intros; apply H; right; auto).
    assert (Z : snd r0 = 0) by (apply H; left; auto).
    rewrite to_real_real by (cbn; rewrite Z; ring).
    unfold ctot. cbn [fold_right]. set (q := fold_right cadd C0 (map (cscal ts) r)).
    apply C_eq; unfold cadd, RtoC, cscal; cbn [fst snd]; rewrite ?Z; ring.
Qed.
Lemma zp_length ts p : length (zp ts p) = length p.
Proof. apply map_length. Qed.

Lemma cv_real p y n : (forall j, snd (p j) = 0) -> (forall j, snd (y j) = 0) ->
  cv p y n = RtoC (rsum (S n) (fun j => fst (p j) * fst (y (n - j)%nat))).
Proof.
  intros Hp Hy. unfold cv. apply C_eq; unfold csum; cbn [fst snd RtoC].
  - apply rsum_ext. intros j _. unfold cmul. cbn [fst]. rewrite Hp, Hy. ring.
  - apply rsum_zero. intros j _. unfold cmul. cbn [snd]. rewrite Hp, Hy. ring.
Qed.

Lemma impinvar_ok (residue : vec -> vec -> list C * list C * list C) invres b a fs tol (r p : list C) bz az :
  residue b a = (r, p, []) -> length r = length p -> apart tol p -> fs <> 0 ->
  (forall x : C, In x r -> snd x = 0) -> ctot r <> C0 -> conj_closed r p ->
  (forall r p k, length r = length p -> invres_exact invres r p k) ->
  impinvar residue invres b a fs tol = Ok (bz, az) ->
  (forall n, snd (modes r p (INR n / fs)) = 0) /\
  impulse_resp bz az (fun n => 1 / fs * fst (modes r p (INR n / fs))).
Proof.
  intros HR HL HA Hfs Hreal Htot Hcc Hinv. unfold impinvar.
  destruct (Req_EM_T fs 0); [contradiction|]. rewrite HR. cbn [fst snd].
  set (ts := 1 / fs).
  assert (Hts : ts <> 0) by (unfold ts; apply Rmult_integral_contrapositive_currified; [lra|apply Rinv_neq_0_compat; auto]).
  rewrite imp_loop_simple by auto. cbn [bind].
  set (k := fold_left (fun k r => k + to_real (cscal ts r)) r 0).
  assert (Ek : RtoC k = ctot (map (cscal ts) r)).
  { unfold k. rewrite k_total by auto. cfield. }
  assert (Et : ctot (map (cscal ts) r) = cscal ts (ctot r)).
  { clear. induction r as [|r0 r IH]; unfold ctot in *; cbn; [cfield|]. rewrite IH. cfield. }
  assert (Hk : k <> 0).
  { intros Z. apply Htot. rewrite Z, Et in Ek.
    apply C_eq; [apply (f_equal fst) in Ek|apply (f_equal snd) in Ek]; cbn in Ek |- *;
      symmetry in Ek; apply Rmult_integral in Ek; tauto. }
  assert (HP : (1 <= length p)%nat).
  { destruct r as [|r0 r0s]; [exfalso; apply Htot; reflexivity|]. rewrite <- HL. cbn. lia. }
  assert (Lzr : length (zr ts r p) = length (zp ts p)).
  { unfold zr. rewrite map_length, combine_length. rewrite zp_length, HL. apply Nat.min_id. }
  pose proof (Hinv (zr ts r p) (zp ts p) k Lzr) as HI.
  unfold invres_exact in HI. destruct (invres (zr ts r p) (zp ts p) k) as [bo ao].
  destruct HI as [La [Ea [Lb Eb]]]. destruct (Req_EM_T k 0); [contradiction|].
  rewrite zp_length in La, Lb. intros E.
  assert (Ebz : bz = mkArr (alen bo - 1) (fun i => to_real (bo i))) by congruence.
  assert (Eaz : az = mkArr (alen ao) (fun i => to_real (ao i))) by congruence.
  clear E. rewrite Lb in Ebz. rewrite La in Eaz.
  assert (Hm : forall n, snd (modes r p (INR n / fs)) = 0) by (intros; apply modes_real; auto).
  split; [exact Hm|].
  set (H := geo (map (cscal ts) r) (zp ts p)).
  assert (HH : forall n, H n = RtoC (1 / fs * fst (modes r p (INR n / fs)))).
  { intros m. unfold H. rewrite geo_modes by auto. replace (INR m * ts) with (INR m / fs) by (unfold ts; field; auto).
    apply C_eq; cbn [cscal fst snd RtoC]; auto. rewrite Hm. ring. }
  (* denominator *)
  assert (Ca : forall i, (i <= length p)%nat -> ao i = pc (zp ts p) i).
  { apply coef_unique. intros z. rewrite <- (ceval_evd ao) by auto. rewrite Ea.
    rewrite <- evd_pc, zp_length. reflexivity. }
  assert (Ra : forall i, snd (pc (zp ts p) i) = 0).
  { intros i. apply cconj_real. rewrite <- pc_conj. apply pc_perm, Permutation_sym, (zp_conj_closed ts r p); auto. }
  (* numerator *)
  set (rr := map (cscal ts) r).
  assert (Lrr : length rr = length (zp ts p)) by (unfold rr; rewrite map_length, zp_length; auto).
  assert (Cb : forall i, (i <= length p)%nat -> bo i = pfc rr (zp ts p) i).
  { apply coef_unique. intros z. rewrite <- (ceval_evd bo) by auto. rewrite Eb, zr_alt. fold rr.
    set (rz := map (fun rp => cmul (fst rp) (snd rp)) (combine rr (zp ts p))).
    assert (Lrz : length rz = length (zp ts p)).
    { unfold rz. rewrite map_length, combine_length, Lrr. lia. }
    transitivity (evd (length p) (fun i => cadd (cmul (ctot rr) (pc (zp ts p) i)) (prev (pfc rz (zp ts p)) i)) z).
    - transitivity (cadd (cmul (ctot rr) (evd (length p) (pc (zp ts p)) z)) (evd (length p) (prev (pfc rz (zp ts p))) z)).
      + rewrite <- (zp_length ts p) at 1. rewrite evd_pc. fold rr in Ek. rewrite <- Ek, <- cscal_mul. f_equal.
        replace (length p) with (S (length (zp ts p) - 1)) by (rewrite zp_length; lia).
        rewrite evd_prev, pfc_eval; auto. rewrite zp_length; auto.
      + unfold evd. rewrite <- csum_mul_l, <- csum_add. apply csum_ext. intros i _. cfield.
    - apply evd_ext. intros i _. unfold rz. apply pfc_shift; auto. }
  (* recursion *)
  intros m. rewrite (filter_sum_vpad az (fun n => 1 / fs * fst (modes r p (INR n / fs)))).
  assert (Ecv : RtoC (rsum (S m) (fun j => vpad az j * (1 / fs * fst (modes r p (INR (m - j) / fs)))))
     = pfc rr (zp ts p) m).
  { rewrite <- cv_geo by auto. fold rr in H. fold H.
    rewrite cv_real; [|auto|intros; rewrite HH; auto].
    f_equal. apply rsum_ext. intros j _. f_equal; [|rewrite HH; reflexivity].
    unfold vpad. rewrite Eaz. cbn [alen aget].
    destruct (Nat.ltb_spec j (S (length p))) as [Lj|Lj].
    - rewrite to_real_real; rewrite Ca by lia; auto.
    - rewrite pc_above by (rewrite zp_length; lia). reflexivity. }
  unfold vpad at 2. rewrite Ebz. cbn [alen aget].
  destruct (Nat.ltb_spec m (S (length p) - 1)) as [Lm|Lm].
  - rewrite to_real_real; rewrite Cb, <- Ecv by lia; reflexivity.
  - rewrite (pfc_above (zp ts p)) in Ecv by (rewrite zp_length; lia).
    apply (f_equal fst) in Ecv. exact Ecv.
Qed.

Lemma causal_ok bz az b' a' h : vpad az 0 <> 0 -> make_causal bz az = Ok (b', a') -> impulse_resp bz az h ->
  a' = az /\ impulse_resp b' az (fun n => match n with O => 0 | S _ => h n end).
Proof.
  intros H0. unfold make_causal.
  destruct (Nat.eqb_spec (alen bz) 0); [discriminate|].
  destruct (Nat.eqb_spec (alen az) 0); [discriminate|]. cbn [orb]. intros E HI.
  assert (E1 : b' = mkArr (Nat.max (alen bz) (alen az)) (fun i => vpad bz i - bz 0%nat / az 0%nat * vpad az i)) by congruence.
  split; [congruence|].
  assert (A0 : vpad az 0 = az 0%nat) by (unfold vpad; rewrite (proj2 (Nat.ltb_lt _ _)) by lia; auto).
  assert (B0 : vpad bz 0 = bz 0%nat) by (unfold vpad; rewrite (proj2 (Nat.ltb_lt _ _)) by lia; auto).
  assert (Hh : h 0%nat = bz 0%nat / az 0%nat).
  { pose proof (HI 0%nat) as K. rewrite filter_sum_vpad in K. cbn in K. rewrite A0, B0 in K.
    apply Rmult_eq_reg_l with (az 0%nat); [|rewrite <- A0; auto]. rewrite A0 in H0. field_simplify; auto; lra. }
  intros m. rewrite (filter_sum_vpad az (fun n => match n with O => 0 | S _ => h n end)).
  pose proof (HI m) as K. rewrite filter_sum_vpad in K.
  assert (Vb : vpad b' m = vpad bz m - bz 0%nat / az 0%nat * vpad az m).
  { rewrite E1. unfold vpad at 1. cbn [alen aget].
    destruct (Nat.ltb_spec m (Nat.max (alen bz) (alen az))); auto.
    unfold vpad. rewrite !(proj2 (Nat.ltb_ge _ _)) by lia. ring. }
  rewrite Vb, <- K, <- Hh. cbn [rsum]. rewrite Nat.sub_diag.
  rewrite (rsum_ext m (fun j => vpad az j * match (m - j)%nat with O => 0 | S _ => h (m - j)%nat end)
     (fun j => vpad az j * h (m - j)%nat)).
  - ring.
  - intros j Hj. destruct (m - j)%nat eqn:Q; [lia|]. reflexivity.
Qed.
