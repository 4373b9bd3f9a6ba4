(** Linear interpolation: straight lines, monotone data, bounds of value and uncertainty (C149). *)
From Coq Require Import Reals List Arith ZArith Bool Lra Lia Psatz.
From Verif Require Import Base Sums Stats StatsFacts M_Interp S_Interp P_Interp P_Interp2 T_Interp.
Import ListNotations.
Open Scope R_scope.

Lemma segment_exists n t v : (2 <= n)%nat -> t 0%nat <= v <= t (n - 1)%nat -> exists i, in_segment n t i v.
Proof.
  intros Hn [H0 H1].
  assert (K : forall m, (S m < n)%nat -> v <= t (S m) -> exists i, in_segment n t i v).
  { induction m as [|m IH]; intros Hm Hv.
    - exists 0%nat. split; [exact Hm|lra].
    - destruct (Rle_dec v (t (S m))) as [L|L]; [apply IH; [lia|exact L]|].
      exists (S m). split; [exact Hm|lra]. }
  apply (K (n - 2)%nat); [lia|]. replace (S (n - 2))%nat with (n - 1)%nat by lia. exact H1.
Qed.
Definition inside (n : nat) (t : nat -> R) (v : R) : Prop := t 0%nat <= v <= t (n - 1)%nat.

Lemma half_square m : (m / sqrt 2) ^ 2 = m ^ 2 / 2.
Proof.
  assert (Q : sqrt 2 <> 0) by (apply Rgt_not_eq, sqrt_lt_R0; lra).
  rewrite <- (sqrt_sqrt 2) at 2 by lra. field. exact Q.
Qed.

(** ** C149 *)
Theorem C149_straight_line : forall t_new t y uy be fv fu rC o n k a b,
  alen t = n -> (2 <= n)%nat -> increasing n t ->
  interp1d_unc t_new t y uy KLinear be fv fu true rC = Ok o ->
  (k < alen t_new)%nat -> inside n t (t_new k) ->
  (forall i, (i < n)%nat -> y i = a + b * t i) -> io_y o k = Some (a + b * t_new k).
Proof.
  intros t_new t y uy be fv fu rC o n k a b Hn Hn2 Hinc H Hk Hin Hl.
  destruct (segment_exists n t (t_new k) Hn2 Hin) as [i Hs].
  destruct (C40_linear_law _ _ _ _ _ _ _ _ _ _ k i Hn Hn2 Hinc H Hk Hs) as (_ & _ & _ & Y & _).
  rewrite Y. f_equal. unfold chord. destruct Hs as [Hi _]. rewrite !Hl by lia.
  assert (t i < t (S i)) by (apply Hinc; lia). field. lra.
Qed.
Theorem C149_between_neighbours : forall t_new t y uy be fv fu rC o n k i,
  alen t = n -> (2 <= n)%nat -> increasing n t ->
  interp1d_unc t_new t y uy KLinear be fv fu true rC = Ok o ->
  (k < alen t_new)%nat -> in_segment n t i (t_new k) -> 0 <= uy i -> 0 <= uy (S i) ->
  exists v u, io_y o k = Some v /\ io_u o k = Some u /\
    Rmin (y i) (y (S i)) <= v <= Rmax (y i) (y (S i)) /\
    Rmin (uy i) (uy (S i)) / sqrt 2 <= u <= Rmax (uy i) (uy (S i)).
Proof.
  intros t_new t y uy be fv fu rC o n k i Hn Hn2 Hinc H Hk Hs H0 H1.
  destruct (C40_linear_law _ _ _ _ _ _ _ _ _ _ k i Hn Hn2 Hinc H Hk Hs) as (_ & _ & _ & Y & _).
  destruct (C42_linear_bounds _ _ _ _ _ _ _ _ _ _ k i Hn Hn2 Hinc H Hk Hs H0 H1) as (u & Eu & Hu).
  exists (chord t y i (t_new k)), u. split; [exact Y|]. split; [exact Eu|].
  assert (Eu' : u = sqrt (seg_var t uy i (t_new k))).
  { subst n. destruct (interp_inv _ _ _ _ _ _ _ _ _ _ H) as (_ & Hlu & Hn1 & _ & _ & yn & _ & [[_ L]|[K _]]); [|congruence].
    destruct (linear_unc_inv _ _ _ _ _ _ _ Hn1 Hinc L) as (_ & _ & _ & D & _).
    rewrite D, (lin_u_inside t uy _ _ _ i) in Eu by auto. congruence. }
  destruct Hs as [Hi Hv]. assert (Hp : t i < t (S i)) by (apply Hinc; lia).
  set (b := (t_new k - t i) / (t (S i) - t i)).
  assert (Hb : 0 <= b <= 1).
  { unfold b. split; [apply Rmult_le_pos; [lra|apply Rlt_le, Rinv_0_lt_compat; lra]|].
    apply Rmult_le_reg_r with (t (S i) - t i); [lra|]. unfold Rdiv. rewrite Rmult_assoc, Rinv_l; lra. }
  split.
  - unfold chord. fold b. pose proof (Rmin_l (y i) (y (S i))). pose proof (Rmin_r (y i) (y (S i))).
    pose proof (Rmax_l (y i) (y (S i))). pose proof (Rmax_r (y i) (y (S i))).
    replace (y i + (y (S i) - y i) * b) with ((1 - b) * y i + b * y (S i)) by ring. split; nra.
  - split; [|apply Hu]. set (m := Rmin (uy i) (uy (S i))).
    assert (M0 : m <= uy i) by apply Rmin_l. assert (M1 : m <= uy (S i)) by apply Rmin_r.
    assert (Mp : 0 <= m) by (apply Rmin_glb; assumption).
    assert (Q : 0 < sqrt 2) by (apply sqrt_lt_R0; lra). assert (Q2 : sqrt 2 * sqrt 2 = 2) by (apply sqrt_sqrt; lra).
    assert (Mq : 0 <= m / sqrt 2) by (apply Rmult_le_pos; [exact Mp|apply Rlt_le, Rinv_0_lt_compat, Q]).
    rewrite Eu', <- (sqrt_pow2 (m / sqrt 2)) by exact Mq. apply sqrt_le_1_alt.
    replace ((m / sqrt 2) ^ 2) with (m ^ 2 / 2) by (symmetry; apply half_square).
    unfold seg_var. fold b. replace ((t (S i) - t_new k) / (t (S i) - t i)) with (1 - b) by (unfold b; field; lra).
    assert (S0 : m ^ 2 <= uy i ^ 2) by (apply pow_incr; lra).
    assert (S1 : m ^ 2 <= uy (S i) ^ 2) by (apply pow_incr; lra).
    assert ((1 - b) ^ 2 * m ^ 2 <= (1 - b) ^ 2 * uy i ^ 2) by (apply Rmult_le_compat_l; auto; apply pow2_ge_0).
    assert (b ^ 2 * m ^ 2 <= b ^ 2 * uy (S i) ^ 2) by (apply Rmult_le_compat_l; auto; apply pow2_ge_0).
    assert (0 <= m ^ 2) by apply pow2_ge_0. assert (0 <= (2 * b - 1) ^ 2) by apply pow2_ge_0. nra.
Qed.
(** Equal uncertainties u: u / sqrt 2 in the middle between two nodes. *)
Theorem C149_middle : forall t_new t y uy be fv fu rC o n k i u,
  alen t = n -> (2 <= n)%nat -> increasing n t ->
  interp1d_unc t_new t y uy KLinear be fv fu true rC = Ok o ->
  (k < alen t_new)%nat -> (S i < n)%nat -> t_new k = (t i + t (S i)) / 2 -> 0 <= u -> uy i = u -> uy (S i) = u ->
  io_y o k = Some ((y i + y (S i)) / 2) /\ io_u o k = Some (u / sqrt 2).
Proof.
  intros t_new t y uy be fv fu rC o n k i u Hn Hn2 Hinc H Hk Hi Ht Hu U0 U1.
  assert (Hp : t i < t (S i)) by (apply Hinc; lia).
  assert (Hs : in_segment n t i (t_new k)) by (split; [exact Hi|lra]).
  destruct (C40_linear_law _ _ _ _ _ _ _ _ _ _ k i Hn Hn2 Hinc H Hk Hs) as (_ & _ & _ & Y & _).
  split.
  - rewrite Y. f_equal. unfold chord. rewrite Ht. field. lra.
  - subst n. destruct (interp_inv _ _ _ _ _ _ _ _ _ _ H) as (_ & Hlu & Hn1 & _ & _ & yn & _ & [[_ L]|[K _]]); [|congruence].
    destruct (linear_unc_inv _ _ _ _ _ _ _ Hn1 Hinc L) as (_ & _ & _ & D & _).
    rewrite D, (lin_u_inside t uy _ _ _ i) by auto. f_equal.
    assert (Q : 0 < sqrt 2) by (apply sqrt_lt_R0; lra). assert (Q2 : sqrt 2 * sqrt 2 = 2) by (apply sqrt_sqrt; lra).
    assert (Mq : 0 <= u / sqrt 2) by (apply Rmult_le_pos; [exact Hu|apply Rlt_le, Rinv_0_lt_compat, Q]).
    rewrite <- (sqrt_pow2 (u / sqrt 2)) by exact Mq. f_equal.
    replace ((u / sqrt 2) ^ 2) with (u ^ 2 / 2) by (symmetry; apply half_square).
    unfold seg_var. rewrite Ht, U0, U1. field. lra.
Qed.
(** Monotone data give monotone interpolated values. *)
Theorem C149_monotone : forall t_new t y uy be fv fu rC o n k k',
  alen t = n -> (2 <= n)%nat -> increasing n t ->
  interp1d_unc t_new t y uy KLinear be fv fu true rC = Ok o ->
  (k < alen t_new)%nat -> (k' < alen t_new)%nat -> inside n t (t_new k) -> inside n t (t_new k') ->
  (forall i j, (i <= j)%nat -> (j < n)%nat -> y i <= y j) -> t_new k <= t_new k' ->
  exists v v', io_y o k = Some v /\ io_y o k' = Some v' /\ v <= v'.
Proof.
  intros t_new t y uy be fv fu rC o n k k' Hn Hn2 Hinc H Hk Hk' Hin Hin' Hm Hle.
  destruct (segment_exists n t (t_new k) Hn2 Hin) as [i Hs].
  destruct (segment_exists n t (t_new k') Hn2 Hin') as [j Hs'].
  destruct (C40_linear_law _ _ _ _ _ _ _ _ _ _ k i Hn Hn2 Hinc H Hk Hs) as (_ & _ & _ & Y & _).
  destruct (C40_linear_law _ _ _ _ _ _ _ _ _ _ k' j Hn Hn2 Hinc H Hk' Hs') as (_ & _ & _ & Y' & _).
  exists (chord t y i (t_new k)), (chord t y j (t_new k')). split; [exact Y|]. split; [exact Y'|].
  set (v := t_new k) in *. set (v' := t_new k') in *.
  destruct Hs as [Hi Hv], Hs' as [Hj Hv'].
  assert (Pi : t i < t (S i)) by (apply Hinc; lia). assert (Pj : t j < t (S j)) by (apply Hinc; lia).
  assert (Yi : y i <= y (S i)) by (apply Hm; lia). assert (Yj : y j <= y (S j)) by (apply Hm; lia).
  assert (U : forall p w, t p < t (S p) -> y p <= y (S p) -> t p <= w <= t (S p) -> y p <= chord t y p w <= y (S p)).
  { intros p w Hp Hy Hw. unfold chord. set (b := (w - t p) / (t (S p) - t p)).
    assert (Hb : 0 <= b <= 1).
    { unfold b. split; [apply Rmult_le_pos; [lra|apply Rlt_le, Rinv_0_lt_compat; lra]|].
      apply Rmult_le_reg_r with (t (S p) - t p); [lra|]. unfold Rdiv. rewrite Rmult_assoc, Rinv_l; lra. }
    nra. }
  destruct (Nat.lt_trichotomy i j) as [L|[->|L]].
  - apply Rle_trans with (y (S i)); [apply U; assumption|]. apply Rle_trans with (y j); [apply Hm; lia|]. apply U; assumption.
  - unfold chord. apply Rplus_le_compat_l, Rmult_le_compat_l; [lra|]. apply Rmult_le_compat_r; [|lra].
    apply Rlt_le, Rinv_0_lt_compat. lra.
  - assert (T : t (S j) <= t i) by (apply increasing_le with n; auto; lia).
    assert (Ev : v = t i) by lra. assert (Ev' : v' = t (S j)) by lra. rewrite Ev, Ev'.
    assert (E : i = S j).
    { destruct (Nat.eq_dec i (S j)) as [|Hne]; [assumption|]. assert (t (S j) < t i) by (apply Hinc; lia). lra. }
    subst i. unfold chord. replace ((t (S j) - t (S j)) / _) with 0 by (field; lra).
    replace ((t (S j) - t j) / (t (S j) - t j)) with 1 by (field; lra). lra.
Qed.
Example C149_example : exists o,
  interp1d_unc (of_list [1/2; 2]) (of_list [0; 1; 3]) (of_list [1; 3; 7]) (of_list [1; 1; 2]) KLinear (Some true) (FFloat None) (FFloat None) true false = Ok o /\
  io_y o 0%nat = Some 2 /\ io_u o 0%nat = Some (1 / sqrt 2) /\ io_y o 1%nat = Some 5.
Proof.
  assert (Hinc : increasing 3 (of_list [0; 1; 3])).
  { intros [|[|[|i]]] [|[|[|j]]] H H'; cbn; try lra; lia. }
  destruct (C40_linear_returns (of_list [1/2; 2]) (of_list [0; 1; 3]) (of_list [1; 3; 7]) (of_list [1; 1; 2]) (Some true) (FFloat None) (FFloat None) 3)
    as [o E]; try reflexivity; try lia; try exact Hinc; try discriminate.
  - intros [|[|k]] Hk; cbn in Hk |- *; try lra; lia.
  - exists o. split; [exact E|].
    assert (L : forall i, (i < 3)%nat -> of_list [1; 3; 7] i = 1 + 2 * of_list [0; 1; 3] i).
    { intros [|[|[|i]]] Hi; cbn; try lra; lia. }
    split; [|split].
    + rewrite (C149_straight_line _ _ _ _ _ _ _ _ o 3 0 1 2 (eq_refl : alen (of_list [0; 1; 3]) = 3%nat) ltac:(lia) Hinc E ltac:(cbn; lia)).
      * cbn. f_equal; lra.
      * split; cbn; lra.
      * exact L.
    + destruct (C149_middle _ _ _ _ _ _ _ _ o 3 0 0 1 (eq_refl : alen (of_list [0; 1; 3]) = 3%nat) ltac:(lia) Hinc E ltac:(cbn; lia) ltac:(lia)) as [_ ->]; auto; cbn; lra.
    + rewrite (C149_straight_line _ _ _ _ _ _ _ _ o 3 1 1 2 (eq_refl : alen (of_list [0; 1; 3]) = 3%nat) ltac:(lia) Hinc E ltac:(cbn; lia)).
      * cbn. f_equal; lra.
      * split; cbn; lra.
      * exact L.
Qed.
Print Assumptions C149_straight_line.
Print Assumptions C149_between_neighbours.
Print Assumptions C149_middle.
Print Assumptions C149_monotone.
