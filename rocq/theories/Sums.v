(** Lemmas about finite sums [rsum]. *)
From Coq Require Import Reals List Arith ZArith Bool Lia Lra.
From Verif Require Import Base.
Open Scope R_scope.

Lemma rsum_ext n f g : (forall i, (i < n)%nat -> f i = g i) -> rsum n f = rsum n g.
Proof.
  induction n as [|n IH]; intros H; simpl; [reflexivity|].
  rewrite IH by (intros; apply H; lia). rewrite H by lia. reflexivity.
Qed.

Lemma rsum_zero n f : (forall i, (i < n)%nat -> f i = 0) -> rsum n f = 0.
Proof.
  intros H. rewrite (rsum_ext n f (fun _ => 0)) by exact H.
  clear H. induction n; simpl; lra.
Qed.

Lemma rsum_plus n f g : rsum n (fun i => f i + g i) = rsum n f + rsum n g.
Proof. induction n; simpl; lra. Qed.

Lemma rsum_minus n f g : rsum n (fun i => f i - g i) = rsum n f - rsum n g.
Proof. induction n; simpl; lra. Qed.

Lemma rsum_scal n c f : rsum n (fun i => c * f i) = c * rsum n f.
Proof. induction n; simpl; lra. Qed.

Lemma rsum_scal_r n c f : rsum n (fun i => f i * c) = rsum n f * c.
Proof. induction n; simpl; lra. Qed.

Lemma rsum_opp n f : rsum n (fun i => - f i) = - rsum n f.
Proof. induction n; simpl; lra. Qed.

Lemma rsum_const n c : rsum n (fun _ => c) = INR n * c.
Proof.
  induction n; [simpl; lra|]. rewrite S_INR. simpl rsum. rewrite IHn. lra.
Qed.

Lemma rsum_S_l n f : rsum (S n) f = f O + rsum n (fun i => f (S i)).
Proof. induction n; simpl in *; lra. Qed.

Lemma rsum_app n m f : rsum (n + m) f = rsum n f + rsum m (fun i => f (n + i)%nat).
Proof.
  induction m as [|m IH]; simpl.
  - rewrite Nat.add_0_r. lra.
  - rewrite Nat.add_succ_r. simpl. rewrite IH. lra.
Qed.

Lemma rsum_split n m f : (m <= n)%nat ->
  rsum n f = rsum m f + rsum (n - m) (fun i => f (m + i)%nat).
Proof. intros H. rewrite <- rsum_app. f_equal. lia. Qed.

Lemma rsum_rev n f : rsum n f = rsum n (fun i => f (n - 1 - i)%nat).
Proof.
  induction n as [|n IH]; [reflexivity|].
  rewrite (rsum_S_l n (fun i => f (S n - 1 - i)%nat)).
  replace (S n - 1 - 0)%nat with n by lia.
  change (rsum (S n) f) with (rsum n f + f n). rewrite IH.
  rewrite (rsum_ext n (fun i => f (S n - 1 - S i)%nat) (fun i => f (n - 1 - i)%nat));
    [lra | intros i Hi; f_equal; lia].
Qed.

Lemma rsum_swap n m f :
  rsum n (fun i => rsum m (fun j => f i j)) = rsum m (fun j => rsum n (fun i => f i j)).
Proof.
  induction n as [|n IH]; simpl.
  - symmetry. apply rsum_zero. reflexivity.
  - rewrite IH. rewrite <- rsum_plus. reflexivity.
Qed.

Lemma rsum_mult n m f g :
  rsum n f * rsum m g = rsum n (fun i => rsum m (fun j => f i * g j)).
Proof.
  rewrite <- rsum_scal_r. apply rsum_ext. intros. symmetry. apply rsum_scal.
Qed.

Lemma rsum_single n k f : (k < n)%nat ->
  (forall i, (i < n)%nat -> i <> k -> f i = 0) -> rsum n f = f k.
Proof.
  intros Hk H. induction n as [|n IH]; [lia|]. simpl.
  destruct (Nat.eq_dec k n) as [->|Hne].
  - rewrite rsum_zero; [lra|]. intros i Hi. apply H; lia.
  - rewrite IH by (try lia; intros; apply H; lia). rewrite (H n) by lia. lra.
Qed.

Lemma rsum_delta n k f : (k < n)%nat ->
  rsum n (fun i => if (i =? k)%nat then f i else 0) = f k.
Proof.
  intros Hk. rewrite (rsum_single n k); auto.
  - rewrite Nat.eqb_refl. reflexivity.
  - intros i _ Hi. apply Nat.eqb_neq in Hi. rewrite Hi. reflexivity.
Qed.

Lemma rsum_nonneg n f : (forall i, (i < n)%nat -> 0 <= f i) -> 0 <= rsum n f.
Proof.
  induction n as [|n IH]; intros H; simpl; [lra|].
  assert (0 <= rsum n f) by (apply IH; intros; apply H; lia).
  assert (0 <= f n) by (apply H; lia). lra.
Qed.

Lemma rsum_le n f g : (forall i, (i < n)%nat -> f i <= g i) -> rsum n f <= rsum n g.
Proof.
  induction n as [|n IH]; intros H; simpl; [lra|].
  assert (rsum n f <= rsum n g) by (apply IH; intros; apply H; lia).
  assert (f n <= g n) by (apply H; lia). lra.
Qed.

Lemma rsum_pos n f k : (k < n)%nat -> 0 < f k ->
  (forall i, (i < n)%nat -> 0 <= f i) -> 0 < rsum n f.
Proof.
  intros Hk Hp H. induction n as [|n IH]; [lia|]. simpl.
  destruct (Nat.eq_dec k n) as [->|Hne].
  - assert (0 <= rsum n f) by (apply rsum_nonneg; intros; apply H; lia). lra.
  - assert (0 < rsum n f) by (apply IH; try lia; intros; apply H; lia).
    assert (0 <= f n) by (apply H; lia). lra.
Qed.

(** A non-negative sum that vanishes has only vanishing terms. *)
Lemma rsum_nonneg_zero n f : (forall i, (i < n)%nat -> 0 <= f i) -> rsum n f = 0 ->
  forall i, (i < n)%nat -> f i = 0.
Proof.
  intros H Hz i Hi.
  destruct (Req_dec (f i) 0) as [|Hne]; [assumption|].
  assert (0 < f i) by (specialize (H i Hi); lra).
  pose proof (rsum_pos n f i Hi H0 H). lra.
Qed.

Lemma rsum_swap_dep n f :
  rsum n (fun i => rsum i (fun j => f i j)) =
  rsum n (fun j => rsum (n - 1 - j) (fun k => f (j + 1 + k)%nat j)).
Proof.
  induction n as [|n IH]; [reflexivity|]. simpl. rewrite IH.
  replace (n - 0 - n)%nat with 0%nat by lia. simpl rsum at 4.
  rewrite Rplus_0_r. rewrite <- rsum_plus. apply rsum_ext. intros j Hj.
  replace (n - 0 - j)%nat with (S (n - 1 - j)) by lia. simpl.
  replace (j + 1 + (n - 1 - j))%nat with n by lia. reflexivity.
Qed.

Lemma rsum_Rabs n f : Rabs (rsum n f) <= rsum n (fun i => Rabs (f i)).
Proof.
  induction n; simpl; [rewrite Rabs_R0; lra|].
  eapply Rle_trans; [apply Rabs_triang|]. lra.
Qed.

(** Sum over a product range flattened row by row. *)
Lemma rsum_flat n m f :
  rsum (n * m) (fun k => f (k / m)%nat (k mod m)%nat) =
  rsum n (fun i => rsum m (fun j => f i j)).
Proof.
  induction n as [|n IH]; [reflexivity|].
  replace (S n * m)%nat with (n * m + m)%nat by lia.
  rewrite rsum_app, IH. simpl. f_equal.
  apply rsum_ext. intros j Hj.
  assert (m <> 0)%nat by lia.
  rewrite Nat.div_add_l by assumption. rewrite (Nat.div_small j) by assumption.
  rewrite Nat.add_0_r. rewrite Nat.add_comm, Nat.mod_add by assumption.
  rewrite Nat.mod_small by assumption. reflexivity.
Qed.
