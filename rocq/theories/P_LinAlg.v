(** Least squares and linear systems: existence, uniqueness, reference solvers. *)
From Coq Require Import Reals List Arith Lra Lia.
From Verif Require Import Base Sums S_Fit.
Import ListNotations.
Open Scope R_scope.

Lemma mv_sub A c d i : mv A (fun j => c j - d j) i = mv A c i - mv A d i.
Proof. unfold mv. rewrite <- rsum_minus. apply rsum_ext; intros; ring. Qed.
Lemma mv_add A c d i : mv A (fun j => c j + d j) i = mv A c i + mv A d i.
Proof. unfold mv. rewrite <- rsum_plus. apply rsum_ext; intros; ring. Qed.
Lemma mv_scal A t c i : mv A (fun j => t * c j) i = t * mv A c i.
Proof. unfold mv. rewrite <- rsum_scal. apply rsum_ext; intros; ring. Qed.
Lemma mv_ext A c d i : (forall j, (j < mcols A)%nat -> c j = d j) -> mv A c i = mv A d i.
Proof. intros H. apply rsum_ext. intros j Hj. rewrite H by auto. auto. Qed.

(** Transposition: (A c) . z = c . (A^T z) *)
Lemma mv_adj A c z m : rsum m (fun i => mv A c i * z i) =
  rsum (mcols A) (fun j => c j * rsum m (fun i => A i j * z i)).
Proof.
  unfold mv.
  rewrite (rsum_ext m _ (fun i => rsum (mcols A) (fun j => A i j * c j * z i))) by (intros; rewrite rsum_scal_r; auto).
  rewrite rsum_swap. apply rsum_ext. intros j Hj. rewrite <- rsum_scal. apply rsum_ext; intros; ring.
Qed.

(** Normal equations *)
Definition normal_eq (A : mat) (y c : nat -> R) : Prop :=
  forall j, (j < mcols A)%nat -> rsum (mrows A) (fun i => A i j * (mv A c i - y i)) = 0.

Lemma normal_expand A y c c' : normal_eq A y c ->
  sqdist (mrows A) (mv A c') y = sqdist (mrows A) (mv A c) y + sqdist (mrows A) (mv A c') (mv A c).
Proof.
  intros N. unfold sqdist.
  assert (E : rsum (mrows A) (fun i => mv A (fun j => c' j - c j) i * (mv A c i - y i)) = 0).
  { rewrite mv_adj. apply rsum_zero. intros j Hj. rewrite N by auto. ring. }
  rewrite <- rsum_plus.
  assert (K : rsum (mrows A) (fun i => (mv A c' i - y i) ^ 2)
     = rsum (mrows A) (fun i => (mv A c i - y i) ^ 2 + (mv A c' i - mv A c i) ^ 2)
       + 2 * rsum (mrows A) (fun i => mv A (fun j => c' j - c j) i * (mv A c i - y i))).
  { rewrite <- rsum_scal, <- rsum_plus. apply rsum_ext. intros i Hi. rewrite mv_sub. ring. }
  rewrite K, E. ring.
Qed.
Lemma sqdist_nonneg m x y : 0 <= sqdist m x y.
Proof. apply rsum_nonneg. intros. apply pow2_ge_0. Qed.
Lemma sqdist_zero m x y : sqdist m x y = 0 -> forall i, (i < m)%nat -> x i = y i.
Proof.
  intros H i Hi.
  assert (K : (x i - y i) ^ 2 = 0).
  { apply (rsum_nonneg_zero m (fun i => (x i - y i) ^ 2)); auto. intros; apply pow2_ge_0. }
  nra.
Qed.
Lemma sqdist_refl m x y : (forall i, (i < m)%nat -> x i = y i) -> sqdist m x y = 0.
Proof. intros H. apply rsum_zero. intros i Hi. rewrite H by auto. ring. Qed.

Lemma normal_least A (y c : vec) : alen c = mcols A -> normal_eq A y c -> least_squares A y c.
Proof.
  intros L N. split; auto. intros c'. rewrite (normal_expand A y c c' N).
  pose proof (sqdist_nonneg (mrows A) (mv A c') (mv A c)). lra.
Qed.

(** ** Existence: Gram-Schmidt, column by column *)
Fixpoint gs (m n : nat) (X : nat -> nat -> R) (y : nat -> R) : nat -> R :=
  match n with
  | O => fun _ => 0
  | S k =>
      let cy := gs m k X y in
      let p := gs m k X (fun i => X i k) in
      let r i := X i k - rsum k (fun j => X i j * p j) in
      let rr := rsum m (fun i => r i * r i) in
      if Req_EM_T rr 0 then fun j => if (j <? k)%nat then cy j else 0
      else let t := rsum m (fun i => r i * y i) / rr in
           fun j => if (j <? k)%nat then cy j - t * p j else t
  end.

Lemma gs_normal m n : forall X y j, (j < n)%nat ->
  rsum m (fun i => X i j * (rsum n (fun l => X i l * gs m n X y l) - y i)) = 0.
Proof.
  induction n as [|k IH]; intros X y j Hj; [lia|].
  set (cy := gs m k X y). set (p := gs m k X (fun i => X i k)).
  set (r := fun i => X i k - rsum k (fun j => X i j * p j)).
  set (rr := rsum m (fun i => r i * r i)).
  assert (Hr : forall j, (j < k)%nat -> rsum m (fun i => X i j * r i) = 0).
  { intros l Hl. pose proof (IH X (fun i => X i k) l Hl) as K. fold p in K.
    rewrite (rsum_ext m _ (fun i => - (X i l * (rsum k (fun l0 => X i l0 * p l0) - X i k))))
      by (intros; unfold r; ring).
    rewrite rsum_opp, K. ring. }
  assert (Hy : forall j, (j < k)%nat -> rsum m (fun i => X i j * (rsum k (fun l => X i l * cy l) - y i)) = 0)
    by (intros l Hl; apply IH; auto).
  assert (Hrk : rsum m (fun i => X i k * r i) = rr).
  { unfold rr.
    assert (Z : rsum m (fun i => rsum k (fun j => X i j * p j) * r i) = 0).
    { rewrite (rsum_ext m _ (fun i => rsum k (fun j => X i j * p j * r i))) by (intros; rewrite rsum_scal_r; auto).
      rewrite rsum_swap. apply rsum_zero. intros l Hl.
      rewrite (rsum_ext m _ (fun i => p l * (X i l * r i))) by (intros; ring).
      rewrite rsum_scal, Hr by auto. ring. }
    rewrite (rsum_ext m (fun i => r i * r i) (fun i => X i k * r i - rsum k (fun j => X i j * p j) * r i))
      by (intros; unfold r at 1; ring).
    rewrite rsum_minus, Z. ring. }
  assert (G : gs m (S k) X y = if Req_EM_T rr 0 then fun j => if (j <? k)%nat then cy j else 0
     else fun j => if (j <? k)%nat then cy j - rsum m (fun i => r i * y i) / rr * p j
                   else rsum m (fun i => r i * y i) / rr) by reflexivity.
  rewrite G. clear G.
  destruct (Req_EM_T rr 0) as [Z|Z].
  - assert (R0 : forall i, (i < m)%nat -> r i = 0).
    { intros i Hi. assert (r i * r i = 0).
      { apply (rsum_nonneg_zero m (fun i => r i * r i)); auto. intros; nra. } nra. }
    assert (E : forall i, rsum (S k) (fun l => X i l * (if (l <? k)%nat then cy l else 0))
       = rsum k (fun l => X i l * cy l)).
    { intros i. cbn [rsum]. rewrite Nat.ltb_irrefl.
      rewrite (rsum_ext k _ (fun l => X i l * cy l)); [ring|].
      intros l Hl. assert (Q : (l <? k)%nat = true) by (apply Nat.ltb_lt; auto). rewrite Q. auto. }
    rewrite (rsum_ext m _ (fun i => X i j * (rsum k (fun l => X i l * cy l) - y i))) by (intros; rewrite E; auto).
    destruct (Nat.eq_dec j k) as [->|Nj]; [|apply Hy; lia].
    rewrite (rsum_ext m _ (fun i => rsum k (fun l => p l * (X i l * (rsum k (fun l => X i l * cy l) - y i))))).
    + rewrite rsum_swap. apply rsum_zero. intros l Hl. rewrite rsum_scal, Hy by auto. ring.
    + intros i Hi. specialize (R0 i Hi). unfold r in R0.
      replace (X i k) with (rsum k (fun j => X i j * p j)) at 1 by lra.
      rewrite <- rsum_scal_r. apply rsum_ext; intros; ring.
  - set (t := rsum m (fun i => r i * y i) / rr).
    assert (E : forall i, rsum (S k) (fun l => X i l * (if (l <? k)%nat then cy l - t * p l else t))
       = rsum k (fun l => X i l * cy l) + t * r i).
    { intros i. cbn [rsum]. rewrite Nat.ltb_irrefl.
      rewrite (rsum_ext k _ (fun l => X i l * cy l - t * (X i l * p l))).
      - rewrite rsum_minus, rsum_scal. unfold r. ring.
      - intros l Hl. assert (Q : (l <? k)%nat = true) by (apply Nat.ltb_lt; auto). rewrite Q. ring. }
    rewrite (rsum_ext m _ (fun i => X i j * (rsum k (fun l => X i l * cy l) - y i) + t * (X i j * r i)))
      by (intros; rewrite E; ring).
    rewrite rsum_plus, rsum_scal.
    destruct (Nat.eq_dec j k) as [->|Nj].
    + rewrite Hrk.
      assert (Q : rsum m (fun i => X i k * (rsum k (fun l => X i l * cy l) - y i)) = - rsum m (fun i => r i * y i)).
      { rewrite (rsum_ext m _ (fun i => rsum k (fun l => p l * (X i l * (rsum k (fun l => X i l * cy l) - y i)))
            + (rsum k (fun l => cy l * (X i l * r i)) - r i * y i))).
        - rewrite rsum_plus, rsum_minus.
          rewrite (rsum_swap m k (fun i l => p l * (X i l * (rsum k (fun l => X i l * cy l) - y i)))).
          rewrite (rsum_swap m k (fun i l => cy l * (X i l * r i))).
          rewrite (rsum_zero k (fun l => rsum m (fun i => p l * _))) by (intros l Hl; rewrite rsum_scal, Hy by auto; ring).
          rewrite (rsum_zero k (fun l => rsum m (fun i => cy l * _))) by (intros l Hl; rewrite rsum_scal, Hr by auto; ring).
          ring.
        - intros i Hi.
          assert (A1 : rsum k (fun l => p l * (X i l * (rsum k (fun l0 => X i l0 * cy l0) - y i)))
             = rsum k (fun j => X i j * p j) * (rsum k (fun l0 => X i l0 * cy l0) - y i))
            by (rewrite <- rsum_scal_r; apply rsum_ext; intros; ring).
          assert (A2 : rsum k (fun l => cy l * (X i l * r i)) = rsum k (fun l => X i l * cy l) * r i)
            by (rewrite <- rsum_scal_r; apply rsum_ext; intros; ring).
          rewrite A1, A2. unfold r. ring. }
      rewrite Q. unfold t. field. auto.
    + rewrite Hy, Hr by lia. ring.
Qed.

(** A least squares solver and a solver of linear systems. *)
Definition lstsq_ref (A : mat) (y : vec) : vec :=
  mkArr (mcols A) (gs (mrows A) (mcols A) A y).
Lemma lstsq_ref_normal A (y : vec) : normal_eq A y (lstsq_ref A y).
Proof. intros j Hj. unfold mv, lstsq_ref. cbn [aget]. apply gs_normal. auto. Qed.
Lemma lstsq_ref_exact : exact_lstsq lstsq_ref.
Proof. intros A y E. apply normal_least; auto. apply lstsq_ref_normal. Qed.

(** Every minimiser solves the normal equations. *)
Lemma least_normal A (y c : vec) : least_squares A y c -> normal_eq A y c.
Proof.
  intros [L H] j Hj.
  set (c0 := lstsq_ref A y).
  pose proof (lstsq_ref_normal A y) as N. fold c0 in N.
  pose proof (normal_expand A y c0 c N) as E. specialize (H c0).
  pose proof (sqdist_nonneg (mrows A) (mv A c) (mv A c0)) as P.
  assert (Z : sqdist (mrows A) (mv A c) (mv A c0) = 0) by lra.
  pose proof (sqdist_zero _ _ _ Z) as Q.
  rewrite (rsum_ext (mrows A) _ (fun i => A i j * (mv A c0 i - y i))); [apply N; auto|].
  intros i Hi. rewrite Q by auto. auto.
Qed.

(** A consistent system is solved exactly. *)
Lemma least_consistent A (y c : vec) (h : nat -> R) : least_squares A y c ->
  (forall i, (i < mrows A)%nat -> mv A h i = y i) ->
  forall i, (i < mrows A)%nat -> mv A c i = y i.
Proof.
  intros [L H] E. specialize (H h). rewrite (sqdist_refl _ _ _ E) in H.
  pose proof (sqdist_nonneg (mrows A) (mv A c) y).
  intros i Hi. apply (sqdist_zero (mrows A)); auto. lra.
Qed.
Lemma least_unique A (y c : vec) (h : nat -> R) : least_squares A y c -> indep_cols A ->
  (forall i, (i < mrows A)%nat -> mv A h i = y i) ->
  forall j, (j < mcols A)%nat -> c j = h j.
Proof.
  intros H I E j Hj.
  pose proof (least_consistent A y c h H E) as K.
  assert (c j - h j = 0); [|lra].
  apply (I (fun j => c j - h j)); auto. intros i Hi. rewrite mv_sub, K, E by auto. ring.
Qed.

(** More unknowns than equations: a non-trivial solution. *)
Lemma kernel m : forall n (X : nat -> nat -> R), (m < n)%nat ->
  exists c : nat -> R, (forall i, (i < m)%nat -> rsum n (fun j => X i j * c j) = 0) /\
    exists j, (j < n)%nat /\ c j <> 0.
Proof.
  induction m as [|m IH]; intros n X Hn.
  - exists (fun _ => 1). split; [intros; lia|]. exists 0%nat. split; [lia|lra].
  - (* is row m zero on the n columns? *)
    assert (D : (exists j, (j < n)%nat /\ X m j <> 0) \/ (forall j, (j < n)%nat -> X m j = 0)).
    { clear. induction n as [|n [[j [Hj E]]|A]].
      - right. intros; lia.
      - left. exists j. split; [lia|auto].
      - destruct (Req_EM_T (X m n) 0) as [Z|Z].
        + right. intros j Hj. destruct (Nat.eq_dec j n) as [->|]; auto. apply A. lia.
        + left. exists n. split; [lia|auto]. }
    destruct D as [[q [Hq Eq]]|Z].
    + (* eliminate the unknown q *)
      destruct n as [|n]; [lia|].
      set (sk := fun j => if (j <? q)%nat then j else S j).
      set (Y := fun i j => X i (sk j) - X i q / X m q * X m (sk j)).
      destruct (IH n Y ltac:(lia)) as [c [Hc [j0 [Hj0 Ej0]]]].
      set (s := rsum n (fun j => X m (sk j) * c j)).
      set (d := fun j => if (j =? q)%nat then - s / X m q else if (j <? q)%nat then c j else c (j - 1)%nat).
      assert (Sum : forall (F : nat -> R) , rsum (S n) (fun j => F j * d j)
         = F q * (- s / X m q) + rsum n (fun j => F (sk j) * c j)).
      { intros F. clear - Hq.
        replace (S n) with (q + S (n - q))%nat by lia. rewrite rsum_app, rsum_S_l.
        replace (rsum n (fun j => F (sk j) * c j)) with (rsum (q + (n - q)) (fun j => F (sk j) * c j)) by (f_equal; lia).
        rewrite rsum_app. rewrite Nat.add_0_r.
        assert (E1 : d q = - s / X m q) by (unfold d; rewrite Nat.eqb_refl; auto). rewrite E1.
        rewrite (rsum_ext q (fun i => F i * d i) (fun j => F (sk j) * c j)).
        - rewrite (rsum_ext (n - q) (fun i => F (q + S i)%nat * d (q + S i)%nat) (fun i => F (sk (q + i)%nat) * c (q + i)%nat)); [ring|].
          intros i Hi. unfold d, sk.
          assert (A : (q + S i =? q)%nat = false) by (apply Nat.eqb_neq; lia).
          assert (B : (q + S i <? q)%nat = false) by (apply Nat.ltb_ge; lia).
          assert (C : (q + i <? q)%nat = false) by (apply Nat.ltb_ge; lia).
          rewrite A, B, C. replace (q + S i - 1)%nat with (q + i)%nat by lia.
          replace (q + S i)%nat with (S (q + i)) by lia. auto.
        - intros i Hi. unfold d, sk.
          assert (A : (i =? q)%nat = false) by (apply Nat.eqb_neq; lia).
          assert (B : (i <? q)%nat = true) by (apply Nat.ltb_lt; lia).
          rewrite A, B. auto. }
      exists d. split.
      * intros i Hi. rewrite Sum.
        destruct (Nat.eq_dec i m) as [->|Ni].
        -- fold s. field. auto.
        -- specialize (Hc i ltac:(lia)). unfold Y in Hc.
           rewrite (rsum_ext n _ (fun j => X i (sk j) * c j - X i q / X m q * (X m (sk j) * c j))) in Hc by (intros; ring).
           rewrite rsum_minus, rsum_scal in Hc. fold s in Hc.
           replace (X i q * (- s / X m q)) with (- (X i q / X m q * s)) by (field; auto). lra.
      * exists (sk j0). unfold sk, d. destruct (j0 <? q)%nat eqn:B.
        -- apply Nat.ltb_lt in B. split; [lia|].
           assert (A : (j0 =? q)%nat = false) by (apply Nat.eqb_neq; lia). rewrite A.
           apply Nat.ltb_lt in B. rewrite B. auto.
        -- apply Nat.ltb_ge in B. split; [lia|].
           assert (A : (S j0 =? q)%nat = false) by (apply Nat.eqb_neq; lia).
           assert (B' : (S j0 <? q)%nat = false) by (apply Nat.ltb_ge; lia).
           rewrite A, B'. replace (S j0 - 1)%nat with j0 by lia. auto.
    + destruct (IH n X ltac:(lia)) as [c [Hc K]]. exists c. split; auto.
      intros i Hi. destruct (Nat.eq_dec i m) as [->|]; [|apply Hc; lia].
      apply rsum_zero. intros j Hj. rewrite Z by auto. ring.
Qed.

Lemma regular_solvable A (y : nat -> R) : regular A ->
  exists x : nat -> R, forall i, (i < mrows A)%nat -> mv A x i = y i.
Proof.
  intros [Sq I]. set (n := mcols A).
  destruct (kernel n (S n) (fun i j => if (j <? n)%nat then A i j else y i) ltac:(lia)) as [c [Hc [j [Hj Ej]]]].
  assert (E : forall i, (i < n)%nat -> mv A c i + y i * c n = 0).
  { intros i Hi. specialize (Hc i Hi). cbn [rsum] in Hc. rewrite Nat.ltb_irrefl in Hc.
    rewrite <- Hc. f_equal. unfold mv. fold n. apply rsum_ext. intros l Hl.
    assert (Q : (l <? n)%nat = true) by (apply Nat.ltb_lt; auto). rewrite Q. auto. }
  assert (Cn : c n <> 0).
  { intros Z. assert (j = n \/ (j < n)%nat) as [->|Hj'] by lia; [contradiction|].
    apply Ej. apply (I c); auto. intros i Hi. rewrite Sq in Hi. specialize (E i Hi). rewrite Z in E. lra. }
  exists (fun j => - / c n * c j). intros i Hi. rewrite mv_scal. rewrite Sq in Hi. specialize (E i Hi).
  replace (mv A c i) with (- (y i * c n)) by lra. field. auto.
Qed.

Definition solve_ref (A : mat) (y : vec) : res vec := Ok (lstsq_ref A y).
Lemma solve_ref_exact : exact_solve solve_ref.
Proof.
  intros A y Rg E. exists (lstsq_ref A y). split; [reflexivity|]. split; [reflexivity|].
  destruct (regular_solvable A y Rg) as [x Hx].
  rewrite <- E. apply (least_consistent A y _ x); auto. apply lstsq_ref_exact; auto.
Qed.
Definition inv_ref (A : mat) : res mat :=
  Ok (mkMat (mcols A) (mrows A) (fun k j => lstsq_ref A (mkArr (mrows A) (fun i => kron i j)) k)).
Lemma inv_ref_exact : exact_inv inv_ref.
Proof.
  intros A Rg. eexists. split; [reflexivity|]. split; [reflexivity|]. split; [reflexivity|].
  intros i j Hi Hj. cbn [mget].
  destruct (solve_ref_exact A (mkArr (mrows A) (fun i => kron i j)) Rg eq_refl) as [x [Ex [_ Hx]]].
  unfold solve_ref in Ex. injection Ex as Ex. subst x. specialize (Hx i Hi). unfold mv in Hx. rewrite Hx. reflexivity.
Qed.
