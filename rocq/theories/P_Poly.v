(** Lemmas on polynomials given by roots. *)
From Coq Require Import Reals List Arith Lia Lra Permutation Bool.
From Verif Require Import Base Sums Cplx S_Poly M_FilterStuff.
Import ListNotations.
Open Scope R_scope.

Lemma csub_0_r a : csub a C0 = a. Proof. cfield. Qed.
Lemma csub_diag a : csub a a = C0. Proof. cfield. Qed.
Lemma csub_eq_0 a b : csub a b = C0 -> a = b.
Proof. intros H. apply C_eq; [apply (f_equal fst) in H|apply (f_equal snd) in H]; cbn in H; lra. Qed.
Lemma cscal_mul r a : cscal r a = cmul (RtoC r) a. Proof. cfield. Qed.
Lemma C_dec (a b : C) : {a = b} + {a <> b}.
Proof.
  destruct (Req_EM_T (fst a) (fst b)); [|right; congruence].
  destruct (Req_EM_T (snd a) (snd b)); [left; apply C_eq; auto|right; congruence].
Qed.

Lemma rltb_true x y : rltb x y = true <-> x < y.
Proof. unfold rltb. destruct (Rlt_dec x y); split; auto; discriminate || contradiction. Qed.
Lemma rltb_false x y : rltb x y = false <-> y <= x.
Proof. unfold rltb. destruct (Rlt_dec x y); split; auto; intros; try discriminate; lra. Qed.

(** np_poly on coefficient functions *)
Definition pc (l : list C) : nat -> C := fold_left poly_step l poly_one.

Lemma poly_step_ext a b v : (forall n, a n = b n) -> forall n, poly_step a v n = poly_step b v n.
Proof. intros H [|n]; cbn; rewrite ?H; auto. Qed.
Lemma fold_step_ext l : forall a b, (forall n, a n = b n) ->
  forall n, fold_left poly_step l a n = fold_left poly_step l b n.
Proof.
  induction l as [|v l IH]; intros a b H n; cbn; auto.
  apply IH. apply poly_step_ext, H.
Qed.
Lemma poly_step_comm a u v n : poly_step (poly_step a u) v n = poly_step (poly_step a v) u n.
Proof. destruct n as [|[|n]]; cbn; cfield. Qed.
Lemma fold_step_cons l : forall a v n,
  fold_left poly_step l (poly_step a v) n = poly_step (fold_left poly_step l a) v n.
Proof.
  induction l as [|u l IH]; intros a v n; cbn; auto.
  rewrite <- IH. apply fold_step_ext. intros m. apply poly_step_comm.
Qed.
Lemma pc_cons v l n : pc (v :: l) n = poly_step (pc l) v n.
Proof. unfold pc. cbn. apply fold_step_cons. Qed.
Lemma pc_perm l l' : Permutation l l' -> forall n, pc l n = pc l' n.
Proof.
  induction 1; intros n; auto.
  - rewrite !pc_cons. apply poly_step_ext; auto.
  - rewrite !pc_cons.
    transitivity (poly_step (poly_step (pc l) x) y n).
    { apply poly_step_ext. intros m. apply pc_cons. }
    rewrite poly_step_comm. apply poly_step_ext. intros m. symmetry. apply pc_cons.
  - congruence.
Qed.
Lemma pc_above l : forall n, (length l < n)%nat -> pc l n = C0.
Proof.
  induction l as [|v l IH]; intros n Hn; cbn in Hn.
  - destruct n; [lia|reflexivity].
  - rewrite pc_cons. destruct n as [|n]; [lia|]. cbn. rewrite !IH by lia. cfield.
Qed.
Lemma pc_0 l : pc l 0%nat = C1.
Proof. induction l as [|v l IH]; [reflexivity|]. rewrite pc_cons. exact IH. Qed.

Lemma poly_step_inj a b v : (forall n, poly_step a v n = poly_step b v n) -> forall n, a n = b n.
Proof.
  intros H. induction n as [|n IH]; [exact (H 0%nat)|].
  pose proof (H (S n)) as E. cbn in E. rewrite IH in E.
  apply C_eq; [apply (f_equal fst) in E|apply (f_equal snd) in E]; cbn in E; lra.
Qed.

(** evaluation, degree m: sum_{i<=m} p_i z^(m-i) *)
Definition evd (m : nat) (p : nat -> C) (z : C) : C := csum (S m) (fun i => cmul (p i) (cpow z (m - i))).
Lemma evd_S m p z : evd (S m) p z = cadd (cmul z (evd m p z)) (p (S m)).
Proof.
  unfold evd. rewrite csum_S. f_equal.
  - rewrite <- csum_mul_l. apply csum_ext. intros i Hi.
    replace (S m - i)%nat with (S (m - i)) by lia. cbn [cpow]. cfield.
  - rewrite Nat.sub_diag. cbn [cpow]. apply cmul_1_r.
Qed.
Lemma evd_step m p v z : p (S m) = C0 ->
  evd (S m) (poly_step p v) z = cmul (evd m p z) (csub z v).
Proof.
  intros Hp.
  assert (K : forall k, evd (S k) (poly_step p v) z = cadd (cmul (evd k p z) (csub z v)) (p (S k))).
  { induction k as [|k IH].
    - rewrite evd_S. unfold evd, csum. cbn. cfield.
    - rewrite evd_S, IH, (evd_S k). cbn [poly_step]. cfield. }
  rewrite K, Hp. apply cadd_0_r.
Qed.
Lemma evd_pc l z : evd (length l) (pc l) z = lin_prod l z.
Proof.
  induction l as [|v l IH].
  - unfold evd, lin_prod, csum. cbn. cfield.
  - cbn [length]. transitivity (evd (S (length l)) (poly_step (pc l) v) z).
    { unfold evd. apply csum_ext. intros i _. rewrite pc_cons. reflexivity. }
    rewrite evd_step by (apply pc_above; lia). rewrite IH. unfold lin_prod. cbn. apply cmul_comm.
Qed.
Lemma ceval_poly l z : ceval (np_poly l) z = lin_prod l z.
Proof.
  rewrite <- evd_pc. unfold ceval, evd. cbn [np_poly alen aget].
  apply csum_ext. intros i Hi. replace (S (length l) - 1 - i)%nat with (length l - i)%nat by lia. reflexivity.
Qed.
Lemma lin_prod_zero l z : lin_prod l z = C0 <-> In z l.
Proof.
  induction l as [|v l IH]; unfold lin_prod in *; cbn.
  - split; [intros H; apply (f_equal fst) in H; cbn in H; lra|contradiction].
  - split.
    + intros H. apply cmul_eq_0 in H. destruct H as [H|H]; [left; symmetry; apply csub_eq_0; auto|right; tauto].
    + intros [->|H]; [rewrite csub_diag, cmul_0_l; auto|]. rewrite (proj2 IH H). apply cmul_0_r.
Qed.
Lemma exact_roots_root a v z : exact_roots a v -> (ceval (real_poly a) z = C0 <-> In z v).
Proof.
  intros [lead [Hl E]]. rewrite E, cscal_mul, <- lin_prod_zero. split.
  - intros H. apply cmul_eq_0 in H. destruct H as [H|H]; auto.
    apply (f_equal fst) in H. cbn in H. contradiction.
  - intros ->. apply cmul_0_r.
Qed.

(** Coefficients from values *)
Lemma real_poly_zero m : forall (c : nat -> R),
  (forall x, 0 < x -> rsum (S m) (fun i => c i * x ^ i) = 0) -> forall i, (i <= m)%nat -> c i = 0.
Proof.
  induction m as [|m IH]; intros c H i Hi.
  - assert (i = 0)%nat by lia. subst. pose proof (H 1 ltac:(lra)). cbn in H0. lra.
  - assert (S0 : forall x, rsum (S (S m)) (fun i => c i * x ^ i)
             = c 0%nat + x * rsum (S m) (fun i => c (S i) * x ^ i)).
    { intros x. rewrite rsum_S_l. cbn [pow]. rewrite Rmult_1_r. f_equal.
      rewrite <- rsum_scal. apply rsum_ext. intros j _. ring. }
    assert (Z : c 0%nat = 0).
    { destruct (Req_EM_T (c 0%nat) 0) as [|N]; auto. exfalso.
      set (M := rsum (S m) (fun i => Rabs (c (S i)))).
      assert (HM : 0 <= M) by (apply rsum_nonneg; intros; apply Rabs_pos).
      assert (HN : 0 < Rabs (c 0%nat)) by (apply Rabs_pos_lt; auto).
      set (x := Rmin 1 (Rabs (c 0%nat) / (M + 1) / 2)).
      assert (Hq : 0 < Rabs (c 0%nat) / (M + 1) / 2).
      { apply Rmult_lt_0_compat; [apply Rdiv_lt_0_compat; lra|lra]. }
      assert (Hx : 0 < x) by (unfold x; apply Rmin_glb_lt; lra).
      assert (Hx1 : x <= 1) by apply Rmin_l.
      assert (Hx2 : x <= Rabs (c 0%nat) / (M + 1) / 2) by apply Rmin_r.
      pose proof (H x Hx) as E. rewrite S0 in E.
      assert (B : Rabs (rsum (S m) (fun i => c (S i) * x ^ i)) <= M).
      { eapply Rle_trans; [apply rsum_Rabs|]. apply rsum_le. intros j _.
        rewrite Rabs_mult. rewrite (Rabs_right (x ^ j)) by (apply Rle_ge, pow_le; lra).
        assert (x ^ j <= 1) by (rewrite <- (pow1 j); apply pow_incr; lra).
        pose proof (Rabs_pos (c (S j))). nra. }
      set (s := rsum (S m) (fun i => c (S i) * x ^ i)) in *.
      assert (A : Rabs (c 0%nat) = x * Rabs s).
      { replace (c 0%nat) with (- (x * s)) by lra. rewrite Rabs_Ropp, Rabs_mult, (Rabs_right x); lra. }
      assert (x * Rabs s <= Rabs (c 0%nat) / (M + 1) / 2 * M).
      { pose proof (Rabs_pos s). apply Rmult_le_compat; lra. }
      assert (Rabs (c 0%nat) / (M + 1) / 2 * M < Rabs (c 0%nat)).
      { apply Rmult_lt_reg_r with (2 * (M + 1)); [lra|].
        replace (Rabs (c 0%nat) / (M + 1) / 2 * M * (2 * (M + 1))) with (Rabs (c 0%nat) * M) by (field; lra).
        nra. }
      lra. }
    destruct i as [|i]; auto.
    apply (IH (fun i => c (S i))); [|lia]. intros x Hx.
    pose proof (H x Hx) as E. rewrite S0, Z in E.
    apply Rmult_eq_reg_l with x; lra.
Qed.
Lemma cpow_real x n : cpow (RtoC x) n = RtoC (x ^ n).
Proof. induction n as [|n IH]; [reflexivity|]. cbn [cpow pow]. rewrite IH. cfield. Qed.
Lemma rsum_flip m (f : nat -> R) : rsum (S m) f = rsum (S m) (fun i => f (m - i)%nat).
Proof. rewrite (rsum_rev (S m) f). apply rsum_ext. intros i Hi. f_equal. lia. Qed.

Lemma evd_zero m p : (forall z, evd m p z = C0) -> forall i, (i <= m)%nat -> p i = C0.
Proof.
  intros H i Hi.
  assert (A : forall x, evd m p (RtoC x) =
     (rsum (S m) (fun i => fst (p (m - i)%nat) * x ^ i), rsum (S m) (fun i => snd (p (m - i)%nat) * x ^ i))).
  { intros x. unfold evd. apply C_eq; unfold csum; cbn [fst snd].
    - rewrite (rsum_flip m). apply rsum_ext. intros j Hj. rewrite cpow_real. cbn.
      replace (m - (m - j))%nat with j by lia. ring.
    - rewrite (rsum_flip m). apply rsum_ext. intros j Hj. rewrite cpow_real. cbn.
      replace (m - (m - j))%nat with j by lia. ring. }
  replace i with (m - (m - i))%nat by lia.
  apply C_eq.
  - apply (real_poly_zero m (fun j => fst (p (m - j)%nat))); [|lia].
    intros x _. pose proof (H (RtoC x)) as E. rewrite A in E. apply (f_equal fst) in E. exact E.
  - apply (real_poly_zero m (fun j => snd (p (m - j)%nat))); [|lia].
    intros x _. pose proof (H (RtoC x)) as E. rewrite A in E. apply (f_equal snd) in E. exact E.
Qed.
Lemma evd_sub m p q z : evd m (fun i => csub (p i) (q i)) z = csub (evd m p z) (evd m q z).
Proof.
  induction m as [|m IH].
  - unfold evd, csum; cbn; cfield.
  - rewrite !evd_S, IH. cfield.
Qed.
Lemma evd_ext m p q z : (forall i, (i <= m)%nat -> p i = q i) -> evd m p z = evd m q z.
Proof. intros H. apply csum_ext. intros i Hi. rewrite H; auto. lia. Qed.
(** polynomials of degrees at most m and l <= m with equal values *)
Lemma evd_shift k : forall m p z, (forall i, (i < k)%nat -> p i = C0) ->
  evd (k + m) p z = evd m (fun i => p (k + i)%nat) z.
Proof.
  intros m p z H. induction m as [|m IH].
  - rewrite Nat.add_0_r. destruct k as [|k]; [reflexivity|].
    rewrite evd_S.
    assert (E : evd k p z = C0) by (apply csum_zero; intros i Hi; rewrite H by lia; apply cmul_0_l).
    rewrite E. unfold evd, csum. cbn. rewrite Nat.add_0_r. cfield.
  - replace (k + S m)%nat with (S (k + m)) by lia. rewrite evd_S, IH, evd_S.
    replace (S (k + m)) with (k + S m)%nat by lia. reflexivity.
Qed.
Lemma evd_cscal m r p z : evd m (fun i => cscal r (p i)) z = cscal r (evd m p z).
Proof.
  induction m as [|m IH].
  - unfold evd, csum; cbn; cfield.
  - rewrite !evd_S, IH. cfield.
Qed.

(** The coefficients of a polynomial with exact roots: leading zeros, then
    lead times the coefficients of the product. *)
Lemma exact_roots_coef a v : exact_roots a v ->
  exists lead k, lead <> 0 /\ (k + S (length v) = alen a)%nat /\
    (forall i, (i < k)%nat -> a i = 0) /\
    (forall i, RtoC (vpad a (k + i)) = cscal lead (pc v i)).
Proof.
  intros [lead [Hl E]]. exists lead.
  assert (Ha : (1 <= alen a)%nat).
  { destruct (alen a) eqn:N; [|lia]. exfalso.
    (* an empty polynomial is zero everywhere *)
    assert (Z : forall z, lin_prod v z = C0).
    { intros z. pose proof (E z) as K. unfold ceval, real_poly in K. cbn [alen] in K. rewrite N in K.
      change (C0 = cscal lead (lin_prod v z)) in K. symmetry in K. rewrite cscal_mul in K.
      apply cmul_eq_0 in K. destruct K as [K|K]; auto. apply (f_equal fst) in K. cbn in K. contradiction. }
    assert (Q : pc v 0%nat = C0).
    { apply (evd_zero (length v)); [|lia]. intros z. rewrite evd_pc. auto. }
    rewrite pc_0 in Q. apply (f_equal fst) in Q. cbn in Q. lra. }
  set (p := fun i => RtoC (vpad a i)).
  assert (Ep : forall z, evd (alen a - 1) p z = cscal lead (lin_prod v z)).
  { intros z. rewrite <- E. unfold evd, ceval, real_poly. cbn [alen aget].
    replace (S (alen a - 1)) with (alen a) by lia. apply csum_ext. intros i Hi.
    unfold p, vpad. rewrite (proj2 (Nat.ltb_lt _ _)) by auto. reflexivity. }
  destruct (Nat.le_gt_cases (length v) (alen a - 1)) as [L|L].
  - exists (alen a - 1 - length v)%nat. set (k := (alen a - 1 - length v)%nat).
    set (q := fun i => if (i <? k)%nat then C0 else cscal lead (pc v (i - k))).
    assert (D : forall z, evd (alen a - 1) (fun i => csub (p i) (q i)) z = C0).
    { intros z. rewrite evd_sub, Ep. replace (alen a - 1)%nat with (k + length v)%nat by (unfold k; lia).
      rewrite (evd_shift k); [|intros i Hi; unfold q; rewrite (proj2 (Nat.ltb_lt _ _)) by auto; reflexivity].
      rewrite (evd_ext _ _ (fun i => cscal lead (pc v i)));
        [|intros i _; unfold q; rewrite (proj2 (Nat.ltb_ge _ _)) by lia; f_equal; f_equal; lia].
      rewrite evd_cscal, evd_pc. apply csub_diag. }
    assert (Q : forall i, (i <= alen a - 1)%nat -> p i = q i).
    { intros i Hi. apply csub_eq_0. apply (evd_zero (alen a - 1) (fun i => csub (p i) (q i)) D i Hi). }
    repeat split.
    + exact Hl.
    + unfold k; lia.
    + intros i Hi. pose proof (Q i ltac:(unfold k in Hi; lia)) as K. unfold p, q, vpad in K.
      rewrite (proj2 (Nat.ltb_lt i (alen a))) in K by (unfold k in Hi; lia).
      rewrite (proj2 (Nat.ltb_lt i k)) in K by auto. apply (f_equal fst) in K. exact K.
    + intros i. destruct (Nat.le_gt_cases i (length v)) as [Hi|Hi].
      * pose proof (Q (k + i)%nat ltac:(unfold k; lia)) as K. unfold p, q in K.
        rewrite (proj2 (Nat.ltb_ge (k + i) k)) in K by lia. rewrite K. f_equal. f_equal. lia.
      * rewrite pc_above by auto. unfold vpad.
        rewrite (proj2 (Nat.ltb_ge (k + i) (alen a))) by (unfold k; lia). cfield.
  - (* more roots than the degree: impossible *)
    exfalso.
    set (k := (length v - (alen a - 1))%nat).
    set (p' := fun i => if (i <? k)%nat then C0 else p (i - k)%nat).
    assert (D : forall z, evd (length v) (fun i => csub (cscal lead (pc v i)) (p' i)) z = C0).
    { intros z. rewrite evd_sub, evd_cscal, evd_pc.
      replace (length v) with (k + (alen a - 1))%nat by (unfold k; lia).
      rewrite (evd_shift k _ p'); [|intros i Hi; unfold p'; rewrite (proj2 (Nat.ltb_lt _ _)) by auto; reflexivity].
      rewrite (evd_ext _ _ p); [|intros i _; unfold p'; rewrite (proj2 (Nat.ltb_ge _ _)) by lia; f_equal; lia].
      rewrite Ep. apply csub_diag. }
    pose proof (evd_zero _ _ D 0%nat ltac:(lia)) as K. cbn beta in K. apply csub_eq_0 in K.
    rewrite pc_0 in K. unfold p' in K. rewrite (proj2 (Nat.ltb_lt 0 k)) in K by (unfold k; lia).
    apply (f_equal fst) in K. cbn in K. lra.
Qed.

(** Conjugation *)
Lemma pc_conj l : forall n, pc (map cconj l) n = cconj (pc l n).
Proof.
  induction l as [|v l IH]; intros n; cbn [map].
  - destruct n; cbn; [rewrite cconj_1|rewrite cconj_0]; reflexivity.
  - rewrite !pc_cons. destruct n as [|n]; cbn; rewrite !IH; auto.
    rewrite cconj_sub, cconj_mul. reflexivity.
Qed.
Lemma pc_eq_perm l : forall l', length l = length l' -> (forall n, pc l n = pc l' n) -> Permutation l l'.
Proof.
  induction l as [|v l IH]; intros l' Hl H.
  - destruct l'; [auto|discriminate].
  - assert (I : In v l').
    { apply lin_prod_zero. rewrite <- evd_pc, <- Hl.
      transitivity (evd (length (v :: l)) (pc (v :: l)) v); [apply evd_ext; intros; symmetry; apply H|].
      rewrite evd_pc. apply lin_prod_zero. left; auto. }
    apply in_split in I. destruct I as [l1 [l2 ->]].
    apply perm_trans with (v :: l1 ++ l2); [|apply Permutation_middle].
    apply perm_skip. apply IH.
    { rewrite app_length in Hl |- *. cbn in Hl. lia. }
    apply (poly_step_inj _ _ v). intros n. rewrite <- !pc_cons, H.
    apply pc_perm. symmetry. apply Permutation_middle.
Qed.

(** The roots of a real polynomial are closed under conjugation. *)
Lemma real_roots_conj a v : exact_roots a v -> Permutation v (map cconj v).
Proof.
  intros H. apply pc_eq_perm; [rewrite map_length; auto|].
  intros n. rewrite pc_conj.
  destruct (exact_roots_coef a v H) as [lead [k [Hl [_ [_ E]]]]].
  pose proof (E n) as K. symmetry. apply cconj_real.
  apply (f_equal snd) in K. cbn in K. nra.
Qed.

Lemma map_root_conj u : map_root (cconj u) = cconj (map_root u).
Proof.
  unfold map_root. rewrite cabs_conj. destruct (rltb 1 (cabs u)); auto.
  rewrite cconj_inv. reflexivity.
Qed.
Lemma map_root_mirrored u : mirrored u (map_root u).
Proof.
  unfold mirrored, map_root. destruct (rltb 1 (cabs u)) eqn:E.
  - right. apply rltb_true in E. split; auto. apply cmul_inv_l.
    intros Z. apply (f_equal cnorm2) in Z. rewrite cnorm2_conj in Z.
    replace (cnorm2 C0) with 0 in Z by (unfold cnorm2, C0; cbn; ring).
    apply cabs_gt_1 in E. lra.
  - left. apply rltb_false in E. auto.
Qed.
Lemma mirrored_inside u u' : mirrored u u' -> cabs u' <= 1.
Proof.
  intros [[H ->]|[H E]]; auto.
  apply (f_equal cabs) in E. rewrite cabs_mul, cabs_conj in E.
  replace (cabs C1) with 1 in E by (unfold cabs, cnorm2, C1; cbn; rewrite <- sqrt_1 at 1; f_equal; ring).
  pose proof (cabs_nonneg u'). nra.
Qed.
Lemma mapped_real a v : exact_roots a v -> forall n, snd (pc (map map_root v) n) = 0.
Proof.
  intros H n. apply cconj_real. rewrite <- pc_conj.
  rewrite map_map. rewrite (map_ext _ (fun u => map_root (cconj u))) by (intros; symmetry; apply map_root_conj).
  rewrite <- (map_map cconj map_root). apply pc_perm. apply Permutation_sym, Permutation_map.
  apply (real_roots_conj a), H.
Qed.

(** |z - u| on the unit circle under the mirror image *)
Lemma mirrored_factor u u' z : mirrored u u' -> cabs z = 1 ->
  cabs (csub z u) = Rmax 1 (cabs u) * cabs (csub z u').
Proof.
  intros H Hz. destruct H as [[H ->]|[H E]].
  - rewrite Rmax_left by auto. ring.
  - rewrite Rmax_right by lra.
    assert (Nz : cnorm2 z = 1) by (rewrite <- cabs_sq, Hz; ring).
    rewrite <- (cabs_conj u). rewrite <- cabs_mul. unfold cabs. f_equal.
    assert (A : cmul (cconj u) (csub z u') = csub (cmul (cconj u) z) C1).
    { rewrite cmul_sub_l, (cmul_comm (cconj u) u'), E. reflexivity. }
    rewrite A. unfold cnorm2 in *. destruct u as [u1 u2], z as [z1 z2]. cbn in *. nra.
Qed.
