(** Lemmas about the Monte Carlo model. *)
From Coq Require Import Reals List Arith ZArith Bool Lra Lia Permutation.
From Verif Require Import Base Sums M_Filter M_Interp M_MC S_MC P_Interp.
Import ListNotations.
Open Scope R_scope.

(** ** Sums over lists *)
Lemma tot_lsum l : lsum l = tot l.
Proof. reflexivity. Qed.
Lemma tot_app a b : tot (a ++ b) = tot a + tot b.
Proof. induction a as [|x a IH]; cbn; [lra|rewrite IH; lra]. Qed.
Lemma tot_perm a b : Permutation a b -> tot a = tot b.
Proof. induction 1; cbn; lra. Qed.
Lemma tot_ext {A} (f g : A -> R) l : (forall a, In a l -> f a = g a) -> tot (map f l) = tot (map g l).
Proof. induction l as [|x l IH]; cbn; auto. intros H. rewrite H, IH; auto. Qed.
Lemma tot_lin {A} (f g : A -> R) p q l :
  tot (map (fun a => p * f a + q * g a) l) = p * tot (map f l) + q * tot (map g l).
Proof. induction l as [|x l IH]; cbn; [lra|rewrite IH; lra]. Qed.
Lemma tot_const {A} c (l : list A) : tot (map (fun _ => c) l) = INR (length l) * c.
Proof.
  induction l as [|x l IH]; [cbn; lra|].
  change (length (x :: l)) with (S (length l)). rewrite S_INR. cbn [map tot]. rewrite IH. lra.
Qed.

Lemma avg_perm {A} (f : A -> R) a b : Permutation a b -> avg f a = avg f b.
Proof.
  intros H. unfold avg. rewrite (Permutation_length H).
  rewrite (tot_perm (map f a) (map f b)); auto. now apply Permutation_map.
Qed.
Lemma scatter_perm {A} (f g : A -> R) a b : Permutation a b -> scatter f g a = scatter f g b.
Proof.
  intros H. unfold scatter. rewrite (avg_perm f a b H), (avg_perm g a b H).
  apply tot_perm, Permutation_map, H.
Qed.

Lemma tot_shift {A} (f g : A -> R) c d l :
  tot (map (fun a => (f a - c) * (g a - d)) l)
  = tot (map (fun a => f a * g a) l) - c * tot (map g l) - d * tot (map f l) + INR (length l) * (c * d).
Proof.
  induction l as [|x l IH]; [cbn; lra|].
  change (length (x :: l)) with (S (length l)). rewrite S_INR. cbn [map tot]. rewrite IH. lra.
Qed.
Lemma avg_tot {A} (f : A -> R) l : l <> [] -> tot (map f l) = INR (length l) * avg f l.
Proof.
  intros H. unfold avg. field. apply not_0_INR. destruct l; [congruence|discriminate].
Qed.
(** Scatter around an arbitrary point. *)
Lemma scatter_about {A} (f g : A -> R) c d l : l <> [] ->
  tot (map (fun a => (f a - c) * (g a - d)) l)
  = scatter f g l + INR (length l) * ((avg f l - c) * (avg g l - d)).
Proof.
  intros H. unfold scatter. rewrite !tot_shift, !(avg_tot _ l H). ring.
Qed.

(** ** Update formulae *)
Lemma avg_update {A} (f : A -> R) l Y : l <> [] ->
  avg f (l ++ Y) = avg f l + tot (map (fun r => f r - avg f l) Y) / INR (length l + length Y).
Proof.
  intros H. unfold avg at 1. rewrite map_app, tot_app, app_length, (avg_tot f l H).
  assert (E : tot (map (fun r => f r - avg f l) Y) = tot (map f Y) - INR (length Y) * avg f l).
  { rewrite <- (tot_const (avg f l) Y).
    rewrite (tot_ext (fun r => f r - avg f l) (fun r => 1 * f r + (-1) * avg f l)) by (intros; ring).
    rewrite (tot_lin f (fun _ => avg f l)). ring. }
  rewrite E. rewrite !plus_INR. field.
  assert (0 < INR (length l)) by (apply lt_0_INR; destruct l; [congruence|cbn; lia]).
  pose proof (pos_INR (length Y)). lra.
Qed.
Lemma scatter_update {A} (f g : A -> R) l Y : l <> [] ->
  scatter f g (l ++ Y) =
  scatter f g l + INR (length l) * ((avg f (l ++ Y) - avg f l) * (avg g (l ++ Y) - avg g l))
  + tot (map (fun r => (f r - avg f (l ++ Y)) * (g r - avg g (l ++ Y))) Y).
Proof.
  intros H. unfold scatter at 1. rewrite map_app, tot_app.
  rewrite (scatter_about f g _ _ l H). ring.
Qed.

(** ** The difference equation of lfilter *)
Lemma lf_state_iir b a zi x n : forall i,
  lf_state b a zi x n i =
  rsum n (fun j => vpad b (i + n - j)%nat / vpad a 0 * x j
                   - vpad a (i + n - j)%nat / vpad a 0 * lf_out b a (lf_state b a zi x j) (x j))
  + zi (i + n)%nat.
Proof.
  induction n as [|n IH]; intros i.
  - cbn. rewrite Nat.add_0_r. ring.
  - cbn [lf_state]. unfold lf_next at 1. rewrite IH. cbn [rsum].
    replace (i + S n - n)%nat with (S i) by lia.
    replace (S i + n)%nat with (i + S n)%nat by lia. ring.
Qed.

Lemma lfilter0_eq b a x n : (n < alen x)%nat ->
  lfilter0 b a x n =
  rsum n (fun j => vpad b (n - j)%nat / vpad a 0 * x j - vpad a (n - j)%nat / vpad a 0 * lfilter0 b a x j)
  + vpad b 0 / vpad a 0 * x n.
Proof.
  intros Hn. unfold lfilter0 at 1, lfilter. cbn [aget]. unfold lf_out at 1. rewrite lf_state_iir.
  f_equal. unfold vpad at 7. cbn [alen]. cbn [Nat.ltb Nat.leb]. rewrite Rplus_0_r. reflexivity.
Qed.

Lemma rsum_past (v : vec) (f : nat -> R) n : 
  rsum (alen v) (fun j => if (j <=? n)%nat then v j * f (n - j)%nat else 0)
  = rsum n (fun j => vpad v (n - j)%nat * f j) + vpad v 0 * f n.
Proof.
  transitivity (rsum (S n) (fun j => vpad v j * f (n - j)%nat)).
  - destruct (le_lt_dec (alen v) (S n)) as [H|H].
    + replace (S n) with (alen v + (S n - alen v))%nat by lia. rewrite rsum_app.
      rewrite (rsum_zero (S n - alen v)).
      * rewrite Rplus_0_r. apply rsum_ext. intros j Hj. unfold vpad.
        destruct (Nat.ltb_spec j (alen v)); [|lia]. destruct (Nat.leb_spec j n); auto; lia.
      * intros j Hj. unfold vpad. destruct (Nat.ltb_spec (alen v + j) (alen v)); [lia|ring].
    + replace (alen v) with (S n + (alen v - S n))%nat at 1 by lia. rewrite rsum_app.
      rewrite (rsum_zero (alen v - S n)).
      * rewrite Rplus_0_r. apply rsum_ext. intros j Hj. unfold vpad.
        destruct (Nat.ltb_spec j (alen v)); [|lia]. destruct (Nat.leb_spec j n); auto; lia.
      * intros j Hj. destruct (Nat.leb_spec (S n + j) n); [lia|auto].
  - rewrite rsum_S_l. rewrite Nat.sub_0_r. rewrite Rplus_comm. f_equal.
    rewrite (rsum_rev n). apply rsum_ext. intros j Hj.
    replace (S (n - 1 - j)) with (n - j)%nat by lia. f_equal. f_equal. lia.
Qed.

Lemma lfilter0_response b a x : vpad a 0 <> 0 -> filter_response b a x (lfilter0 b a x).
Proof.
  intros Ha. split; [reflexivity|]. intros n Hn.
  rewrite !rsum_past. rewrite (lfilter0_eq b a x n Hn).
  rewrite Rmult_plus_distr_l, <- rsum_scal, <- Rplus_assoc, <- rsum_plus.
  f_equal.
  - apply rsum_ext. intros j Hj. field. auto.
  - field. auto.
Qed.

(** The difference equation determines the response. *)
Lemma response_unique b a x y y' : (1 <= alen a)%nat -> a 0%nat <> 0 ->
  filter_response b a x y -> filter_response b a x y' ->
  forall n, (n < alen x)%nat -> y n = y' n.
Proof.
  intros Hl Ha [_ H] [_ H'] n. induction n as [n IH] using lt_wf_ind. intros Hn.
  assert (E : rsum (alen a) (fun j => if (j <=? n)%nat then a j * y (n - j)%nat else 0)
     = rsum (alen a) (fun j => if (j <=? n)%nat then a j * y' (n - j)%nat else 0)).
  { rewrite H, H'; auto. }
  destruct (alen a) as [|m]; [lia|]. rewrite !rsum_S_l in E. change (0 <=? n)%nat with true in E. cbv iota in E.
  rewrite !Nat.sub_0_r in E.
  rewrite (rsum_ext m (fun j => if (S j <=? n)%nat then a (S j) * y (n - S j)%nat else 0)
            (fun j => if (S j <=? n)%nat then a (S j) * y' (n - S j)%nat else 0)) in E.
  - apply Rmult_eq_reg_l with (a 0%nat); auto. lra.
  - intros j Hj. destruct (Nat.leb_spec (S j) n); auto. rewrite IH; auto; lia.
Qed.

(** ** Minimum and maximum *)
Lemma fold_min_le l : forall a, fold_left Rmin l a <= a /\ forall v, In v l -> fold_left Rmin l a <= v.
Proof.
  induction l as [|x l IH]; intros a; cbn; [split; [lra|tauto]|].
  destruct (IH (Rmin a x)) as [H1 H2]. pose proof (Rmin_l a x). pose proof (Rmin_r a x).
  split; [lra|]. intros v [->|Hv]; [lra|auto].
Qed.
Lemma fold_max_ge l : forall a, a <= fold_left Rmax l a /\ forall v, In v l -> v <= fold_left Rmax l a.
Proof.
  induction l as [|x l IH]; intros a; cbn; [split; [lra|tauto]|].
  destruct (IH (Rmax a x)) as [H1 H2]. pose proof (Rmax_l a x). pose proof (Rmax_r a x).
  split; [lra|]. intros v [->|Hv]; [lra|auto].
Qed.
Lemma fold_min_in l : forall a, fold_left Rmin l a = a \/ In (fold_left Rmin l a) l.
Proof.
  induction l as [|x l IH]; intros a; cbn; auto.
  destruct (IH (Rmin a x)) as [->|H]; auto. unfold Rmin. destruct (Rle_dec a x); auto.
Qed.
Lemma fold_max_in l : forall a, fold_left Rmax l a = a \/ In (fold_left Rmax l a) l.
Proof.
  induction l as [|x l IH]; intros a; cbn; auto.
  destruct (IH (Rmax a x)) as [->|H]; auto. unfold Rmax. destruct (Rle_dec a x); auto.
Qed.

(** ** Histogram *)
Lemma cnt_how_many p l : cnt p l = how_many p l.
Proof. unfold cnt. induction l as [|x l IH]; cbn; auto. destruct (p x); cbn; auto. Qed.
Lemma how_many_app {A} (p : A -> bool) a b : how_many p (a ++ b) = (how_many p a + how_many p b)%nat.
Proof. induction a; cbn; auto. rewrite IHa. lia. Qed.
Lemma how_many_perm {A} (p : A -> bool) a b : Permutation a b -> how_many p a = how_many p b.
Proof. induction 1; cbn; lia. Qed.
Lemma how_many_map {A B} (f : A -> B) (p : B -> bool) l : how_many p (map f l) = how_many (fun a => p (f a)) l.
Proof. induction l; cbn; auto. Qed.
Lemma how_many_ext {A} (p q : A -> bool) l : (forall a, In a l -> p a = q a) -> how_many p l = how_many q l.
Proof. induction l as [|x l IH]; cbn; auto. intros H. rewrite (H x), IH; auto. Qed.
Lemma how_many_le {A} (p : A -> bool) l : (how_many p l <= length l)%nat.
Proof. induction l; cbn; auto. destruct (p a); lia. Qed.

Definition in_binb (e : nat -> R) (n i : nat) (v : R) : bool :=
  rleb (e i) v && (rltb v (e (S i)) || ((S i =? n)%nat && if Req_EM_T v (e n) then true else false)).
Lemma in_binb_spec e n i v : in_binb e n i v = true <-> in_bin e n i v.
Proof.
  unfold in_binb, in_bin. rewrite andb_true_iff, orb_true_iff, andb_true_iff, rleb_true, rltb_true, Nat.eqb_eq.
  destruct (Req_EM_T v (e n)); intuition congruence.
Qed.

Lemma histogram_spec col e n i : (i < n)%nat -> e i <= e (S i) ->
  histogram col e n i = how_many (in_binb e n i) col.
Proof.
  intros Hi He. unfold histogram. destruct (Nat.eqb_spec i n); [lia|].
  destruct (Nat.eqb_spec (S i) n) as [<-|Hn].
  - rewrite !cnt_how_many. induction col as [|x l IH]; [reflexivity|].
    cbn [how_many]. rewrite <- IH.
    assert (how_many (fun v => rltb v (e i)) l <= how_many (fun v => rleb v (e (S i))) l)%nat.
    { clear IH. induction l as [|y l IHl]; cbn; auto.
      destruct (rltb y (e i)) eqn:E1, (rleb y (e (S i))) eqn:E2; try lia.
      apply rltb_true in E1. apply rleb_false in E2. lra. }
    unfold in_binb. rewrite Nat.eqb_refl. cbn [andb].
    destruct (rleb x (e (S i))) eqn:E1, (rltb x (e i)) eqn:E2, (rleb (e i) x) eqn:E3, (rltb x (e (S i))) eqn:E4,
      (Req_EM_T x (e (S i))); cbn [andb orb]; try lia; exfalso;
    repeat match goal with
    | H : rleb _ _ = true |- _ => apply rleb_true in H | H : rleb _ _ = false |- _ => apply rleb_false in H
    | H : rltb _ _ = true |- _ => apply rltb_true in H | H : rltb _ _ = false |- _ => apply rltb_false in H end; lra.
  - rewrite !cnt_how_many. induction col as [|x l IH]; [reflexivity|].
    cbn [how_many]. rewrite <- IH.
    assert (how_many (fun v => rltb v (e i)) l <= how_many (fun v => rltb v (e (S i))) l)%nat.
    { clear IH. induction l as [|y l IHl]; cbn; auto.
      destruct (rltb y (e i)) eqn:E1, (rltb y (e (S i))) eqn:E2; try lia.
      apply rltb_true in E1. apply rltb_false in E2. lra. }
    unfold in_binb. destruct (Nat.eqb_spec (S i) n); [lia|]. cbn [andb].
    destruct (rltb x (e (S i))) eqn:E1, (rltb x (e i)) eqn:E2, (rleb (e i) x) eqn:E3;
      cbn [andb orb]; try lia; exfalso;
    repeat match goal with
    | H : rleb _ _ = true |- _ => apply rleb_true in H | H : rleb _ _ = false |- _ => apply rleb_false in H
    | H : rltb _ _ = true |- _ => apply rltb_true in H | H : rltb _ _ = false |- _ => apply rltb_false in H end; lra.
Qed.
