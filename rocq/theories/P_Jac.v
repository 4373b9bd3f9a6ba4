(** Lemmas about Jacobians, sandwich products and line-wise maps. *)
From Coq Require Import Reals List Arith Lia Lra Psatz Bool.
From Verif Require Import Base Sums Stats StatsFacts S_Jac.
Open Scope R_scope.

Lemma is_jac_unique n m G s J K : is_jac n m G s J -> is_jac n m G s K ->
  forall i j, (i < n)%nat -> (j < m)%nat -> J i j = K i j.
Proof. intros HJ HK i j Hi Hj. eapply uniqueness_limite; [apply HJ | apply HK]; auto. Qed.

Lemma sandwich_ext n m J J' U U' K K' :
  (forall i a, (i < n)%nat -> (a < m)%nat -> J i a = J' i a) ->
  (forall a b, (a < m)%nat -> (b < m)%nat -> U a b = U' a b) ->
  (forall i a, (i < n)%nat -> (a < m)%nat -> K i a = K' i a) ->
  forall i j, (i < n)%nat -> (j < n)%nat -> sandwich m J U K i j = sandwich m J' U' K' i j.
Proof.
  intros H1 H2 H3 i j Hi Hj. unfold sandwich. apply rsum_ext; intros a Ha.
  apply rsum_ext; intros b Hb. now rewrite H1, H2, H3.
Qed.

Lemma sandwich_symm m J U i j : symm m U -> sandwich m J U J i j = sandwich m J U J j i.
Proof.
  intros H. unfold sandwich. rewrite rsum_swap. apply rsum_ext; intros b Hb.
  apply rsum_ext; intros a Ha. rewrite (H a b) by auto. ring.
Qed.

Lemma quad_sandwich n m J U v :
  quad n (sandwich m J U J) v = quad m U (fun a => rsum n (fun i => v i * J i a)).
Proof.
  unfold quad, sandwich.
  rewrite (rsum_ext n _ (fun i => rsum n (fun j => rsum m (fun a => rsum m (fun b =>
     (v i * J i a) * U a b * (v j * J j b)))))).
  2:{ intros i _. apply rsum_ext; intros j _. rewrite <- rsum_scal, <- rsum_scal_r.
      apply rsum_ext; intros a _. rewrite <- rsum_scal, <- rsum_scal_r.
      apply rsum_ext; intros b _. ring. }
  rewrite (rsum_ext n _ (fun i => rsum m (fun a => rsum n (fun j => rsum m (fun b =>
     (v i * J i a) * U a b * (v j * J j b)))))) by (intros; apply rsum_swap).
  rewrite rsum_swap. apply rsum_ext; intros a _.
  rewrite (rsum_ext n _ (fun i => rsum m (fun b => rsum n (fun j =>
     (v i * J i a) * U a b * (v j * J j b))))) by (intros; apply rsum_swap).
  rewrite rsum_swap. apply rsum_ext; intros b _.
  rewrite <- rsum_scal_r, rsum_mult.
  apply rsum_ext; intros i _. apply rsum_ext; intros j _. ring.
Qed.

Lemma psd_sandwich n m J U : psd m U -> psd n (sandwich m J U J).
Proof.
  intros [Hs Hq]. split.
  - intros i j _ _. now apply sandwich_symm.
  - intros v. rewrite quad_sandwich. apply Hq.
Qed.

Lemma psd_plus n U V : psd n U -> psd n V -> psd n (fun i j => U i j + V i j).
Proof.
  intros [H1 H2] [H3 H4]. split.
  - intros i j Hi Hj. now rewrite H1, H3.
  - intros v. unfold quad. specialize (H2 v); specialize (H4 v). unfold quad in *.
    rewrite (rsum_ext n _ (fun i => rsum n (fun j => v i * U i j * v j) + rsum n (fun j => v i * V i j * v j))).
    + rewrite rsum_plus. lra.
    + intros i _. rewrite <- rsum_plus. apply rsum_ext; intros; ring.
Qed.

(** Composition: K (J U J^T) K^T = (K J) U (K J)^T. *)
Lemma sandwich_compose n m J U K i j :
  sandwich n K (sandwich m J U J) K i j
  = sandwich m (fun p a => rsum n (fun k => K p k * J k a)) U
               (fun p a => rsum n (fun k => K p k * J k a)) i j.
Proof.
  unfold sandwich.
  transitivity (rsum n (fun k => rsum n (fun l => rsum m (fun a => rsum m (fun b =>
     (K i k * J k a) * U a b * (K j l * J l b)))))).
  { apply rsum_ext; intros k _. apply rsum_ext; intros l _.
    rewrite <- rsum_scal, <- rsum_scal_r. apply rsum_ext; intros a _.
    rewrite <- rsum_scal, <- rsum_scal_r. apply rsum_ext; intros b _. ring. }
  rewrite (rsum_ext n _ (fun k => rsum m (fun a => rsum n (fun l => rsum m (fun b =>
     (K i k * J k a) * U a b * (K j l * J l b)))))) by (intros; apply rsum_swap).
  rewrite rsum_swap. apply rsum_ext; intros a _.
  rewrite (rsum_ext n _ (fun k => rsum m (fun b => rsum n (fun l =>
     (K i k * J k a) * U a b * (K j l * J l b))))) by (intros; apply rsum_swap).
  rewrite rsum_swap. apply rsum_ext; intros b _.
  rewrite <- rsum_scal_r, rsum_mult. apply rsum_ext; intros k _. apply rsum_ext; intros l _. ring.
Qed.

(** ** Line-wise maps: outputs i and h+i depend on inputs i and h+i only *)
Definition base (h i : nat) : nat := if (i <? h)%nat then i else (i - h)%nat.
Definition Kl (h : nat) (al be : nat -> R) (i j : nat) : R :=
  if (j =? base h i)%nat then al i else if (j =? h + base h i)%nat then be i else 0.

Lemma base_lt h i : (i < 2 * h)%nat -> (base h i < h)%nat.
Proof. unfold base. destruct (Nat.ltb_spec i h); lia. Qed.
Lemma base_lo h i : (i < h)%nat -> base h i = i.
Proof. intros. unfold base. apply Nat.ltb_lt in H. now rewrite H. Qed.
Lemma base_hi h i : base h (h + i) = i.
Proof. unfold base. destruct (Nat.ltb_spec (h + i) h); lia. Qed.

Lemma rsum_two n p q f : (p < n)%nat -> (q < n)%nat -> p <> q ->
  (forall i, (i < n)%nat -> i <> p -> i <> q -> f i = 0) -> rsum n f = f p + f q.
Proof.
  intros Hp Hq Hpq H.
  rewrite (rsum_ext n f (fun i => (if (i =? p)%nat then f i else 0) + (if (i =? q)%nat then f i else 0))).
  - rewrite rsum_plus, !rsum_delta by assumption. reflexivity.
  - intros i Hi. destruct (Nat.eqb_spec i p), (Nat.eqb_spec i q); subst; try lra; try lia.
    rewrite (H i) by assumption. lra.
Qed.

Lemma Kl_row h al be i f : (i < 2 * h)%nat ->
  rsum (2 * h) (fun a => Kl h al be i a * f a) = al i * f (base h i) + be i * f (h + base h i)%nat.
Proof.
  intros Hi. pose proof (base_lt h i Hi).
  rewrite (rsum_two _ (base h i) (h + base h i)) by
   (try lia; intros k _ H1 H2; unfold Kl; apply Nat.eqb_neq in H1, H2; rewrite H1, H2; ring).
  unfold Kl. rewrite Nat.eqb_refl.
  replace (h + base h i =? base h i)%nat with false by (symmetry; apply Nat.eqb_neq; lia).
  now rewrite Nat.eqb_refl.
Qed.

Lemma sandwich_Kl h al be al' be' U i j : (i < 2 * h)%nat -> (j < 2 * h)%nat ->
  sandwich (2 * h) (Kl h al be) U (Kl h al' be') i j =
    al i * U (base h i) (base h j) * al' j
  + al i * U (base h i) (h + base h j)%nat * be' j
  + be i * U (h + base h i)%nat (base h j) * al' j
  + be i * U (h + base h i)%nat (h + base h j)%nat * be' j.
Proof.
  intros Hi Hj. unfold sandwich.
  rewrite (rsum_ext _ _ (fun a => Kl h al be i a *
     (al' j * U a (base h j) + be' j * U a (h + base h j)%nat))).
  2:{ intros a _. rewrite <- (Kl_row h al' be' j (U a)) by assumption. rewrite <- rsum_scal.
      apply rsum_ext; intros; ring. }
  rewrite Kl_row by assumption. ring.
Qed.

Lemma linewise_jac h (g : nat -> R -> R -> R) s al be :
  (forall i, (i < 2 * h)%nat ->
     derivable_pt_lim (fun t => g i t (s (h + base h i)%nat)) (s (base h i)) (al i) /\
     derivable_pt_lim (fun t => g i (s (base h i)) t) (s (h + base h i)%nat) (be i)) ->
  is_jac (2 * h) (2 * h) (fun s i => g i (s (base h i)) (s (h + base h i)%nat)) s (Kl h al be).
Proof.
  intros H i j Hi Hj. destruct (H i Hi) as [H1 H2]. unfold Kl.
  pose proof (base_lt h i Hi) as Hb.
  destruct (Nat.eqb_spec j (base h i)) as [->|Hn].
  - eapply derivable_pt_lim_ext; [|exact H1]. intros t. simpl. unfold upd.
    rewrite Nat.eqb_refl.
    replace (h + base h i =? base h i)%nat with false by (symmetry; apply Nat.eqb_neq; lia).
    reflexivity.
  - destruct (Nat.eqb_spec j (h + base h i)) as [->|Hm].
    + eapply derivable_pt_lim_ext; [|exact H2]. intros t. simpl. unfold upd.
      rewrite Nat.eqb_refl.
      replace (base h i =? h + base h i)%nat with false by (symmetry; apply Nat.eqb_neq; lia).
      reflexivity.
    + eapply derivable_pt_lim_ext; [|apply (derivable_pt_lim_const (g i (s (base h i)) (s (h + base h i)%nat)))].
      intros t. simpl. unfold upd, fct_cte.
      replace (base h i =? j)%nat with false by (symmetry; apply Nat.eqb_neq; lia).
      replace (h + base h i =? j)%nat with false by (symmetry; apply Nat.eqb_neq; lia).
      reflexivity.
Qed.
