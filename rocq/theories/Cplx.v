(** Complex numbers as pairs of reals. *)
From Coq Require Import Reals List Arith Lra Lia.
From Verif Require Import Base Sums.
Import ListNotations.
Open Scope R_scope.

Definition C := (R * R)%type.
Definition Re (z : C) : R := fst z.
Definition Im (z : C) : R := snd z.
Definition RtoC (x : R) : C := (x, 0).
Definition C0 : C := (0, 0).
Definition C1 : C := (1, 0).
Definition Ci : C := (0, 1).
Definition cadd (a b : C) : C := (fst a + fst b, snd a + snd b).
Definition copp (a : C) : C := (- fst a, - snd a).
Definition csub (a b : C) : C := (fst a - fst b, snd a - snd b).
Definition cmul (a b : C) : C := (fst a * fst b - snd a * snd b, fst a * snd b + snd a * fst b).
Definition cconj (a : C) : C := (fst a, - snd a).
Definition cnorm2 (a : C) : R := fst a * fst a + snd a * snd a.
Definition cabs (a : C) : R := sqrt (cnorm2 a).
Definition cinv (a : C) : C := (fst a / cnorm2 a, - snd a / cnorm2 a).
Definition cdiv (a b : C) : C := cmul a (cinv b).
Definition cscal (r : R) (a : C) : C := (r * fst a, r * snd a).
(** exp(i t) *)
Definition cis (t : R) : C := (cos t, sin t).

Lemma C_eq (a b : C) : fst a = fst b -> snd a = snd b -> a = b.
Proof. destruct a, b; cbn; congruence. Qed.
Ltac cfield := apply C_eq; unfold cadd, copp, csub, cmul, cconj, cscal, RtoC, C0, C1, Ci; cbn [fst snd]; try ring.

Lemma cadd_comm a b : cadd a b = cadd b a. Proof. cfield. Qed.
Lemma cadd_assoc a b c : cadd a (cadd b c) = cadd (cadd a b) c. Proof. cfield. Qed.
Lemma cadd_0_l a : cadd C0 a = a. Proof. cfield. Qed.
Lemma cadd_0_r a : cadd a C0 = a. Proof. cfield. Qed.
Lemma cmul_comm a b : cmul a b = cmul b a. Proof. cfield. Qed.
Lemma cmul_assoc a b c : cmul a (cmul b c) = cmul (cmul a b) c. Proof. cfield. Qed.
Lemma cmul_1_l a : cmul C1 a = a. Proof. cfield. Qed.
Lemma cmul_1_r a : cmul a C1 = a. Proof. cfield. Qed.
Lemma cmul_0_l a : cmul C0 a = C0. Proof. cfield. Qed.
Lemma cmul_0_r a : cmul a C0 = C0. Proof. cfield. Qed.
Lemma cmul_add_l a b c : cmul a (cadd b c) = cadd (cmul a b) (cmul a c). Proof. cfield. Qed.
Lemma cmul_add_r a b c : cmul (cadd a b) c = cadd (cmul a c) (cmul b c). Proof. cfield. Qed.
Lemma cmul_sub_l a b c : cmul a (csub b c) = csub (cmul a b) (cmul a c). Proof. cfield. Qed.
Lemma cconj_mul a b : cconj (cmul a b) = cmul (cconj a) (cconj b). Proof. cfield. Qed.
Lemma cconj_add a b : cconj (cadd a b) = cadd (cconj a) (cconj b). Proof. cfield. Qed.
Lemma cconj_sub a b : cconj (csub a b) = csub (cconj a) (cconj b). Proof. cfield. Qed.
Lemma cconj_invol a : cconj (cconj a) = a. Proof. cfield. Qed.
Lemma cconj_0 : cconj C0 = C0. Proof. cfield. Qed.
Lemma cconj_1 : cconj C1 = C1. Proof. cfield. Qed.
Lemma cconj_real a : cconj a = a <-> snd a = 0.
Proof.
  split; intros H.
  - assert (E : snd (cconj a) = snd a) by (rewrite H; auto). cbn in E. lra.
  - apply C_eq; cbn; lra.
Qed.

Lemma cnorm2_nonneg a : 0 <= cnorm2 a.
Proof. unfold cnorm2. nra. Qed.
Lemma cnorm2_mul a b : cnorm2 (cmul a b) = cnorm2 a * cnorm2 b.
Proof. unfold cnorm2, cmul; cbn [fst snd]. ring. Qed.
Lemma cnorm2_conj a : cnorm2 (cconj a) = cnorm2 a.
Proof. unfold cnorm2, cconj; cbn [fst snd]. ring. Qed.
Lemma cnorm2_zero a : cnorm2 a = 0 <-> a = C0.
Proof.
  split; intros H.
  - destruct a as [x y]. unfold cnorm2 in H; cbn in H.
    apply C_eq; cbn; nra.
  - subst. unfold cnorm2, C0; cbn. ring.
Qed.
Lemma cnorm2_pos a : a <> C0 -> 0 < cnorm2 a.
Proof.
  intros H. destruct (Rtotal_order 0 (cnorm2 a)) as [L|[E|L]]; auto.
  - exfalso. apply H, cnorm2_zero. auto.
  - pose proof (cnorm2_nonneg a). lra.
Qed.
Lemma cmul_inv_r a : a <> C0 -> cmul a (cinv a) = C1.
Proof.
  intros H. apply cnorm2_pos in H. unfold cinv. apply C_eq; unfold cmul, C1; cbn [fst snd].
  - unfold cnorm2 in *. field. lra.
  - unfold cnorm2 in *. field. lra.
Qed.
Lemma cmul_inv_l a : a <> C0 -> cmul (cinv a) a = C1.
Proof. rewrite cmul_comm. apply cmul_inv_r. Qed.
Lemma cmul_eq_0 a b : cmul a b = C0 -> a = C0 \/ b = C0.
Proof.
  intros H. assert (E : cnorm2 a * cnorm2 b = 0) by (rewrite <- cnorm2_mul, H; apply cnorm2_zero; auto).
  apply Rmult_integral in E. destruct E as [E|E]; [left|right]; apply cnorm2_zero; auto.
Qed.
Lemma cmul_neq_0 a b : a <> C0 -> b <> C0 -> cmul a b <> C0.
Proof. intros Ha Hb H. apply cmul_eq_0 in H. tauto. Qed.
Lemma cinv_neq_0 a : a <> C0 -> cinv a <> C0.
Proof.
  intros H E. pose proof (cmul_inv_r a H) as K. rewrite E, cmul_0_r in K.
  apply (f_equal fst) in K. cbn in K. lra.
Qed.
Lemma cmul_reg_l a b c : a <> C0 -> cmul a b = cmul a c -> b = c.
Proof.
  intros H E. apply (f_equal (cmul (cinv a))) in E.
  rewrite !cmul_assoc, cmul_inv_l, !cmul_1_l in E by auto. auto.
Qed.
Lemma cdiv_mul a b : b <> C0 -> cmul (cdiv a b) b = a.
Proof. intros H. unfold cdiv. rewrite <- cmul_assoc, cmul_inv_l, cmul_1_r; auto. Qed.
Lemma cdiv_unique a b q : b <> C0 -> cmul q b = a -> q = cdiv a b.
Proof. intros H E. unfold cdiv. rewrite <- E, <- cmul_assoc, cmul_inv_r, cmul_1_r; auto. Qed.
Lemma cconj_inv a : cconj (cinv a) = cinv (cconj a).
Proof.
  unfold cinv. rewrite cnorm2_conj. apply C_eq; unfold cconj; cbn [fst snd]; [reflexivity|].
  unfold Rdiv. ring.
Qed.
Lemma cnorm2_inv a : a <> C0 -> cnorm2 (cinv a) = / cnorm2 a.
Proof.
  intros H. pose proof (cnorm2_pos a H). apply Rmult_eq_reg_l with (cnorm2 a); [|lra].
  rewrite <- cnorm2_mul, cmul_inv_r by auto. rewrite Rinv_r by lra. unfold cnorm2, C1; cbn. ring.
Qed.
Lemma cabs_nonneg a : 0 <= cabs a. Proof. apply sqrt_pos. Qed.
Lemma cabs_sq a : cabs a * cabs a = cnorm2 a.
Proof. apply sqrt_sqrt, cnorm2_nonneg. Qed.
Lemma cabs_gt_1 a : 1 < cabs a <-> 1 < cnorm2 a.
Proof. pose proof (cabs_nonneg a). rewrite <- cabs_sq. split; intros; nra. Qed.
Lemma cabs_le_1 a : cabs a <= 1 <-> cnorm2 a <= 1.
Proof. pose proof (cabs_nonneg a). rewrite <- cabs_sq. split; intros; nra. Qed.
Lemma cabs_conj a : cabs (cconj a) = cabs a.
Proof. unfold cabs. rewrite cnorm2_conj. reflexivity. Qed.
Lemma cabs_mul a b : cabs (cmul a b) = cabs a * cabs b.
Proof. unfold cabs. rewrite cnorm2_mul, sqrt_mult; auto using cnorm2_nonneg. Qed.
Lemma cabs_inv a : a <> C0 -> cabs (cinv a) = / cabs a.
Proof. intros H. unfold cabs. rewrite cnorm2_inv by auto. apply sqrt_inv. Qed.

Lemma cis_add s t : cis (s + t) = cmul (cis s) (cis t).
Proof. unfold cis. rewrite cos_plus, sin_plus. apply C_eq; cbn [fst snd cmul]; ring. Qed.
Lemma cis_0 : cis 0 = C1.
Proof. unfold cis, C1. rewrite cos_0, sin_0. reflexivity. Qed.
Lemma cis_neg t : cis (- t) = cconj (cis t).
Proof. unfold cis, cconj. rewrite cos_neg, sin_neg. reflexivity. Qed.
Lemma cis_norm t : cnorm2 (cis t) = 1.
Proof. unfold cnorm2, cis; cbn. pose proof (sin2_cos2 t). unfold Rsqr in *. lra. Qed.
Lemma cis_neq_0 t : cis t <> C0.
Proof. intros H. apply cnorm2_zero in H. rewrite cis_norm in H. lra. Qed.

(** Sums *)
Definition csum (n : nat) (f : nat -> C) : C := (rsum n (fun i => fst (f i)), rsum n (fun i => snd (f i))).
Lemma csum_S n f : csum (S n) f = cadd (csum n f) (f n).
Proof. reflexivity. Qed.
Lemma csum_ext n f g : (forall i, (i < n)%nat -> f i = g i) -> csum n f = csum n g.
Proof. intros H. apply C_eq; cbn; apply rsum_ext; intros i Hi; rewrite H; auto. Qed.
Lemma csum_mul_l n a f : csum n (fun i => cmul a (f i)) = cmul a (csum n f).
Proof.
  induction n as [|n IH]; [cfield; cbn; ring|]. rewrite !csum_S, IH, cmul_add_l. reflexivity.
Qed.
Lemma csum_mul_r n a f : csum n (fun i => cmul (f i) a) = cmul (csum n f) a.
Proof.
  induction n as [|n IH]; [cfield; cbn; ring|]. rewrite !csum_S, IH, cmul_add_r. reflexivity.
Qed.
Lemma csum_add n f g : csum n (fun i => cadd (f i) (g i)) = cadd (csum n f) (csum n g).
Proof. apply C_eq; cbn; apply rsum_plus. Qed.
Lemma csum_conj n f : csum n (fun i => cconj (f i)) = cconj (csum n f).
Proof. apply C_eq; cbn; auto. apply rsum_opp. Qed.
Lemma csum_zero n f : (forall i, (i < n)%nat -> f i = C0) -> csum n f = C0.
Proof. intros H. apply C_eq; cbn; apply rsum_zero; intros i Hi; rewrite H; auto. Qed.

(** Polynomials: coefficients of the highest power first (numpy). *)
Definition horner (z : C) (p : list C) : C := fold_left (fun acc c => cadd (cmul acc z) c) p C0.
Fixpoint cprod (l : list C) : C := match l with [] => C1 | a :: r => cmul a (cprod r) end.
