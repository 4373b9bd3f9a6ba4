(** Lemmas for T_Interp.v. *)
From Coq Require Import Reals List Arith ZArith Bool Lra Lia Permutation Sorted.
From Verif Require Import Base Sums Stats StatsFacts M_Interp S_Interp.
Import ListNotations.
Open Scope R_scope.

Lemma rltb_true a b : rltb a b = true <-> a < b.
Proof. unfold rltb. destruct (Rlt_dec a b); split; auto; discriminate. Qed.
Lemma rltb_false a b : rltb a b = false <-> b <= a.
Proof. unfold rltb. destruct (Rlt_dec a b); split; auto; try discriminate; lra. Qed.
Lemma rleb_true a b : rleb a b = true <-> a <= b.
Proof. unfold rleb. destruct (Rle_dec a b); split; auto; discriminate. Qed.
Lemma rleb_false a b : rleb a b = false <-> b < a.
Proof. unfold rleb. destruct (Rle_dec a b); split; auto; try discriminate; lra. Qed.

(** Counting a predicate that is true on an initial segment only. *)
Lemma count_mono p : forall n,
  (forall i j, (i < j)%nat -> (j < n)%nat -> p j = true -> p i = true) ->
  (count n p <= n)%nat /\
  (forall i, (i < count n p)%nat -> p i = true) /\
  (forall i, (count n p <= i)%nat -> (i < n)%nat -> p i = false).
Proof.
  induction n as [|n IH]; intros H; cbn [count].
  - repeat split; intros; lia.
  - destruct IH as (A & B & C). { intros i j Hij Hj. apply H; lia. }
    destruct (p n) eqn:E.
    + assert (count n p = n).
      { destruct (Nat.eq_dec (count n p) n); auto. exfalso.
        assert (F : p (count n p) = false) by (apply C; lia).
        rewrite (H (count n p) n) in F; auto; lia || discriminate. }
      rewrite H0. repeat split; try lia.
      * intros i Hi. destruct (Nat.eq_dec i n); [subst; auto|apply B; lia].
    + rewrite Nat.add_0_r. repeat split; try lia; auto.
      intros i Hi Hi'. destruct (Nat.eq_dec i n); [subst; auto|apply C; lia].
Qed.

Lemma increasing_inj n t i j : increasing n t -> (i < n)%nat -> (j < n)%nat -> t i = t j -> i = j.
Proof.
  intros H Hi Hj E. destruct (lt_eq_lt_dec i j) as [[L|L]|L]; auto.
  - specialize (H i j L Hj). lra.
  - specialize (H j i L Hi). lra.
Qed.
Lemma increasing_le n t i j : increasing n t -> (i <= j)%nat -> (j < n)%nat -> t i <= t j.
Proof.
  intros H Hi Hj. destruct (Nat.eq_dec i j); [subst; lra|]. apply Rlt_le, H; lia.
Qed.
Lemma increasing_lt_inv n t i j : increasing n t -> (i < n)%nat -> (j < n)%nat -> t i < t j -> (i < j)%nat.
Proof.
  intros H Hi Hj E. destruct (le_lt_dec j i) as [L|L]; auto.
  pose proof (increasing_le n t j i H L Hi). lra.
Qed.

Lemma search_left_spec (t : vec) v : increasing (alen t) t ->
  (search_left t v <= alen t)%nat /\
  (forall i, (i < search_left t v)%nat -> t i < v) /\
  (forall i, (search_left t v <= i)%nat -> (i < alen t)%nat -> v <= t i).
Proof.
  intros H. unfold search_left.
  destruct (count_mono (fun i => rltb (t i) v) (alen t)) as (A & B & C).
  - intros i j Hij Hj E. apply rltb_true in E. apply rltb_true. specialize (H i j Hij Hj). lra.
  - repeat split; auto.
    + intros i Hi. apply rltb_true, B, Hi.
    + intros i Hi Hi'. apply rltb_false, C; auto.
Qed.
Lemma search_right_spec (t : vec) v : increasing (alen t) t ->
  (search_right t v <= alen t)%nat /\
  (forall i, (i < search_right t v)%nat -> t i <= v) /\
  (forall i, (search_right t v <= i)%nat -> (i < alen t)%nat -> v < t i).
Proof.
  intros H. unfold search_right.
  destruct (count_mono (fun i => rleb (t i) v) (alen t)) as (A & B & C).
  - intros i j Hij Hj E. apply rleb_true in E. apply rleb_true. specialize (H i j Hij Hj). lra.
  - repeat split; auto.
    + intros i Hi. apply rleb_true, B, Hi.
    + intros i Hi Hi'. apply rleb_false, C; auto.
Qed.

(** Minimum and maximum of an increasing axis. *)
Lemma fold_min_inc t : forall m, increasing (S m) t -> fold_min m t = t 0%nat.
Proof.
  induction m as [|m IH]; intros H; cbn [fold_min]; auto.
  rewrite IH by (intros i j Hij Hj; apply H; lia).
  apply Rmin_left, Rlt_le, H; lia.
Qed.
Lemma fold_max_inc t : forall m, increasing (S m) t -> fold_max m t = t m.
Proof.
  induction m as [|m IH]; intros H; cbn [fold_max]; auto.
  rewrite IH by (intros i j Hij Hj; apply H; lia).
  apply Rmax_right, Rlt_le, H; lia.
Qed.
Lemma np_min_inc (t : vec) : (1 <= alen t)%nat -> increasing (alen t) t -> np_min t = t 0%nat.
Proof.
  intros Hn H. apply fold_min_inc. replace (S (alen t - 1)) with (alen t) by lia. auto.
Qed.
Lemma np_max_inc (t : vec) : (1 <= alen t)%nat -> increasing (alen t) t ->
  np_max t = t (alen t - 1)%nat.
Proof.
  intros Hn H. apply fold_max_inc. replace (S (alen t - 1)) with (alen t) by lia. auto.
Qed.

(** The segment chosen by the code. *)
Definition hi_of (t : vec) (v : R) : nat := clip (search_left t v) 1 (alen t - 1).
Lemma hi_of_segment (t : vec) v : (2 <= alen t)%nat -> increasing (alen t) t ->
  t 0%nat <= v <= t (alen t - 1)%nat ->
  (1 <= hi_of t v)%nat /\ in_segment (alen t) t (hi_of t v - 1) v.
Proof.
  intros Hn H Hv. destruct (search_left_spec t v H) as (A & B & C).
  unfold hi_of, clip, in_segment.
  set (m := search_left t v) in *.
  destruct (Nat.eq_dec m 0) as [E|E].
  - rewrite E in *. rewrite (Nat.max_r 0 1), Nat.min_l by lia.
    split; [lia|]. split; [lia|]. cbn [Nat.sub]. split; [lra|]. apply C; lia.
  - rewrite Nat.max_l by lia.
    assert (m <= alen t - 1)%nat.
    { destruct (le_lt_dec m (alen t - 1)); auto. exfalso.
      assert (t (alen t - 1)%nat < v) by (apply B; lia). lra. }
    rewrite Nat.min_l by lia. replace (S (m - 1)) with m by lia.
    split; [lia|]. split; [lia|]. split.
    + apply Rlt_le, B. lia.
    + apply C; lia.
Qed.

(** Two segments containing the same point. *)
Lemma segment_unique n t i j v : increasing n t -> in_segment n t i v -> in_segment n t j v ->
  i = j \/ (j = S i /\ v = t (S i)) \/ (i = S j /\ v = t (S j)).
Proof.
  intros H [Hi Hv] [Hj Hw]. destruct (lt_eq_lt_dec i j) as [[L|L]|L]; auto.
  - right; left. assert (t (S i) <= t j) by (apply increasing_le with n; auto; lia).
    assert (v = t (S i)) by lra. assert (t (S i) = t j) by lra.
    split; auto. symmetry. apply (increasing_inj n t); auto; lia.
  - right; right. assert (t (S j) <= t i) by (apply increasing_le with n; auto; lia).
    assert (v = t (S j)) by lra. assert (t (S j) = t i) by lra.
    split; auto. symmetry. apply (increasing_inj n t); auto; lia.
Qed.
Lemma seg_pos n t i v : increasing n t -> in_segment n t i v -> 0 < t (S i) - t i.
Proof. intros H [Hi _]. specialize (H i (S i)). assert (t i < t (S i)) by (apply H; lia). lra. Qed.

Lemma chord_unique n t y i j v : increasing n t -> in_segment n t i v -> in_segment n t j v ->
  chord t y i v = chord t y j v.
Proof.
  intros H Hi Hj. pose proof (seg_pos _ _ _ _ H Hi). pose proof (seg_pos _ _ _ _ H Hj).
  destruct (segment_unique n t i j v H Hi Hj) as [E|[[E F]|[E F]]]; subst; auto;
    unfold chord; field; lra.
Qed.

Lemma np_interp_chord (t y : vec) v i : (2 <= alen t)%nat -> increasing (alen t) t ->
  in_segment (alen t) t i v -> np_interp t y v = chord t y i v.
Proof.
  intros Hn H Hs. pose proof (seg_pos _ _ _ _ H Hs) as Hp. destruct Hs as [Hi Hv].
  assert (H0 : t 0%nat <= t i) by (apply increasing_le with (alen t); auto; lia).
  assert (H1 : t (S i) <= t (alen t - 1)%nat) by (apply increasing_le with (alen t); auto; lia).
  unfold np_interp.
  replace (rltb v (t 0%nat)) with false by (symmetry; apply rltb_false; lra).
  replace (rltb (t (alen t - 1)%nat) v) with false by (symmetry; apply rltb_false; lra).
  destruct (search_right_spec t v H) as (A & B & C). cbv zeta.
  set (m := search_right t v) in *.
  assert (M1 : (i < m)%nat).
  { destruct (le_lt_dec m i); auto. assert (v < t i) by (apply C; lia). lra. }
  destruct (Rle_lt_dec (t (S i)) v) as [L|L].
  - assert (E : v = t (S i)) by lra.
    assert (m = S (S i)).
    { assert (S i < m)%nat.
      { destruct (le_lt_dec m (S i)); auto. assert (v < t (S i)) by (apply C; lia). lra. }
      destruct (le_lt_dec m (S (S i))); [lia|].
      assert (t (S (S i)) <= v) by (apply B; lia).
      assert (t (S i) < t (S (S i))) by (apply H; lia). lra. }
    replace (m - 1)%nat with (S i) by lia.
    assert (K : chord t y i v = y (S i)) by (unfold chord; rewrite E; field; lra).
    rewrite K. destruct (S i =? alen t - 1)%nat; auto.
    destruct (Req_EM_T (t (S i)) v); [auto|lra].
  - assert (m = S i).
    { destruct (le_lt_dec m (S i)); [lia|]. assert (t (S i) <= v) by (apply B; lia). lra. }
    replace (m - 1)%nat with i by lia.
    destruct (Nat.eqb_spec i (alen t - 1)); [lia|].
    destruct (Req_EM_T (t i) v) as [E|E].
    + unfold chord. rewrite <- E. field. lra.
    + unfold chord. field. lra.
Qed.

(** Look-up kinds. *)
Lemma clip_range x lo hi : (lo <= hi)%nat -> (lo <= clip x lo hi <= hi)%nat.
Proof. unfold clip. lia. Qed.
Lemma node_index_lt k t v : (1 <= alen t)%nat -> (node_index k t v < alen t)%nat.
Proof. destruct k; unfold node_index, clip; lia. Qed.

Lemma previous_spec (t : vec) v : (1 <= alen t)%nat -> increasing (alen t) t -> t 0%nat <= v ->
  t (node_index KPrevious t v) <= v /\
  forall j, (j < alen t)%nat -> t j <= v -> t j <= t (node_index KPrevious t v).
Proof.
  intros Hn H Hv. destruct (search_right_spec t v H) as (A & B & C).
  unfold node_index, clip. set (m := search_right t v) in *.
  assert (1 <= m)%nat.
  { destruct (Nat.eq_dec m 0); [|lia]. assert (v < t 0%nat) by (apply C; lia). lra. }
  rewrite Nat.max_l, Nat.min_l, Nat.add_0_r by lia. split.
  - apply B. lia.
  - intros j Hj Hjv. apply increasing_le with (alen t); auto; try lia.
    destruct (le_lt_dec m j); [|lia]. assert (v < t j) by (apply C; lia). lra.
Qed.
Lemma next_spec (t : vec) v : (1 <= alen t)%nat -> increasing (alen t) t ->
  v <= t (alen t - 1)%nat ->
  v <= t (node_index KNext t v) /\
  forall j, (j < alen t)%nat -> v <= t j -> t (node_index KNext t v) <= t j.
Proof.
  intros Hn H Hv. destruct (search_left_spec t v H) as (A & B & C).
  unfold node_index, clip. set (m := search_left t v) in *.
  assert (m <= alen t - 1)%nat.
  { destruct (le_lt_dec m (alen t - 1)); auto.
    assert (t (alen t - 1)%nat < v) by (apply B; lia). lra. }
  rewrite Nat.max_l, Nat.min_l by lia. replace (m + 1 - 1)%nat with m by lia. split.
  - apply C; lia.
  - intros j Hj Hjv. apply increasing_le with (alen t); auto; try lia.
    destruct (le_lt_dec m j); [lia|]. assert (t j < v) by (apply B; lia). lra.
Qed.
Lemma nearest_spec (t : vec) v j : (1 <= alen t)%nat -> increasing (alen t) t ->
  (j < alen t)%nat -> Rabs (t (node_index KNearest t v) - v) <= Rabs (t j - v).
Proof.
  intros Hn H Hj. unfold node_index.
  set (bds := mkArr (alen t - 1) (fun i => t (S i) / 2 + t i / 2)).
  assert (Hb : increasing (alen bds) bds).
  { intros a b Hab Hbn. cbn [alen aget bds] in *.
    assert (t a < t b) by (apply H; lia). assert (t (S a) < t (S b)) by (apply H; lia). lra. }
  destruct (search_left_spec bds v Hb) as (A & B & C). cbn [alen bds] in A.
  set (m := search_left bds v) in *. unfold clip.
  rewrite Nat.max_l, Nat.min_l by lia.
  destruct (lt_eq_lt_dec j m) as [[L|L]|L].
  - (* j < m: v beyond the midpoint of m-1 and m *)
    assert (K : bds (m - 1)%nat < v) by (apply B; lia). cbn [aget bds] in K.
    replace (S (m - 1)) with m in K by lia.
    assert (t j <= t (m - 1)%nat) by (apply increasing_le with (alen t); auto; lia).
    assert (t (m - 1)%nat < t m) by (apply H; lia).
    unfold Rabs. destruct (Rcase_abs _), (Rcase_abs _); lra.
  - subst j. lra.
  - assert (K : v <= bds m) by (apply C; cbn [alen bds]; lia). cbn [aget bds] in K.
    assert (t (S m) <= t j) by (apply increasing_le with (alen t); auto; lia).
    assert (t m < t (S m)) by (apply H; lia).
    unfold Rabs. destruct (Rcase_abs _), (Rcase_abs _); lra.
Qed.
