(** Linear interpolation of interpolated values (C159).  Model: M_Interp.v.  Vocabulary: S_Interp.v. *)
From Coq Require Import Reals List Arith ZArith Bool Lra Lia Psatz.
From Verif Require Import Base Sums Stats StatsFacts M_Interp S_Interp P_Interp P_Interp2 T_Interp T_Lines.
Import ListNotations.
Open Scope R_scope.

Lemma linear_u t_new t y uy be fv fu rC o n k i :
  alen t = n -> (2 <= n)%nat -> increasing n t ->
  interp1d_unc t_new t y uy KLinear be fv fu true rC = Ok o ->
  (k < alen t_new)%nat -> in_segment n t i (t_new k) -> io_u o k = Some (sqrt (seg_var t uy i (t_new k))).
Proof.
  intros Hn Hn2 Hinc H Hk Hs. subst n.
  destruct (interp_inv _ _ _ _ _ _ _ _ _ _ H) as (_ & Hlu & Hn1 & _ & _ & yn & _ & [[_ L]|[K _]]); [|congruence].
  destruct (linear_unc_inv _ _ _ _ _ _ _ Hn1 Hinc L) as (_ & _ & _ & D & _).
  rewrite D by auto. apply lin_u_inside; auto.
Qed.

(** Data (t, y, uy) are interpolated on a grid g and the result (y1, u1) at t_new.  Where the grid has all nodes of the neighbourhood (the segment of g lies
    in one segment of t) the value is that of the direct interpolation and the uncertainty is never larger; it is too small between the grid
    points, since the common origin of neighbouring grid values is not known in the second step.
    (Full claim: value and uncertainty of the direct interpolation.) *)
Theorem C159_twice_partial : forall t_new g t y uy y1 u1 be fv fu rC be1 fv1 fu1 rC1 be2 fv2 fu2 rC2 o o1 o2 n m k i j,
  alen t = n -> (2 <= n)%nat -> increasing n t -> alen g = m -> (2 <= m)%nat -> increasing m g ->
  interp1d_unc g t y uy KLinear be1 fv1 fu1 true rC1 = Ok o1 ->
  alen y1 = m -> alen u1 = m ->
  (forall p, (p < m)%nat -> io_y o1 p = Some (y1 p) /\ io_u o1 p = Some (u1 p)) ->
  interp1d_unc t_new g y1 u1 KLinear be2 fv2 fu2 true rC2 = Ok o2 ->
  interp1d_unc t_new t y uy KLinear be fv fu true rC = Ok o ->
  (k < alen t_new)%nat -> in_segment m g j (t_new k) -> in_segment n t i (g j) -> in_segment n t i (g (S j)) ->
  io_y o2 k = io_y o k /\
  (exists u u2, io_u o k = Some u /\ io_u o2 k = Some u2 /\ 0 <= u2 <= u /\
    let a := (g j - t i) / (t (S i) - t i) in
    let b := (g (S j) - t i) / (t (S i) - t i) in
    let l := (t_new k - g j) / (g (S j) - g j) in
    u ^ 2 = u2 ^ 2 + 2 * l * (1 - l) * ((1 - a) * (1 - b) * uy i ^ 2 + a * b * uy (S i) ^ 2)) /\
  (t_new k = g j \/ t_new k = g (S j) -> io_u o2 k = io_u o k).
Proof.
  intros t_new g t y uy y1 u1 be fv fu rC be1 fv1 fu1 rC1 be2 fv2 fu2 rC2 o o1 o2 n m k i j
    Hn Hn2 Hit Hm Hm2 Hig E1 Ly1 Lu1 H1 E2 E Hk Sg Sa Sb.
  destruct Sg as [Hj Hv].
  assert (Pg : g j < g (S j)) by (apply Hig; lia).
  assert (Hi : (S i < n)%nat) by apply Sa. assert (Pt : t i < t (S i)) by (apply Hit; lia).
  assert (St : in_segment n t i (t_new k)) by (destruct Sa, Sb; split; [exact Hi|lra]).
  destruct (C40_linear_law _ _ _ _ _ _ _ _ _ _ k i Hn Hn2 Hit E Hk St) as (_ & _ & _ & Y & _).
  destruct (C40_linear_law _ _ _ _ _ _ _ _ _ _ k j Hm Hm2 Hig E2 Hk (conj Hj Hv)) as (_ & _ & _ & Y2 & _).
  destruct (C40_linear_law _ _ _ _ _ _ _ _ _ _ j i Hn Hn2 Hit E1 ltac:(lia) Sa) as (_ & _ & _ & Ya & _).
  destruct (C40_linear_law _ _ _ _ _ _ _ _ _ _ (S j) i Hn Hn2 Hit E1 ltac:(lia) Sb) as (_ & _ & _ & Yb & _).
  pose proof (linear_u _ _ _ _ _ _ _ _ _ _ k i Hn Hn2 Hit E Hk St) as U.
  pose proof (linear_u _ _ _ _ _ _ _ _ _ _ k j Hm Hm2 Hig E2 Hk (conj Hj Hv)) as U2.
  pose proof (linear_u _ _ _ _ _ _ _ _ _ _ j i Hn Hn2 Hit E1 ltac:(lia) Sa) as Ua.
  pose proof (linear_u _ _ _ _ _ _ _ _ _ _ (S j) i Hn Hn2 Hit E1 ltac:(lia) Sb) as Ub.
  destruct (H1 j ltac:(lia)) as [Ja Ka]. destruct (H1 (S j) ltac:(lia)) as [Jb Kb].
  assert (y1a : y1 j = chord t y i (g j)) by congruence. assert (y1b : y1 (S j) = chord t y i (g (S j))) by congruence.
  assert (u1a : u1 j ^ 2 = seg_var t uy i (g j)).
  { replace (u1 j) with (sqrt (seg_var t uy i (g j))) by congruence. rewrite <- Rsqr_pow2. apply Rsqr_sqrt, seg_var_nonneg. }
  assert (u1b : u1 (S j) ^ 2 = seg_var t uy i (g (S j))).
  { replace (u1 (S j)) with (sqrt (seg_var t uy i (g (S j)))) by congruence. rewrite <- Rsqr_pow2. apply Rsqr_sqrt, seg_var_nonneg. }
  set (v := t_new k) in *.
  set (a := (g j - t i) / (t (S i) - t i)). set (b := (g (S j) - t i) / (t (S i) - t i)). set (l := (v - g j) / (g (S j) - g j)).
  assert (V : seg_var t uy i v = seg_var g u1 j v + 2 * l * (1 - l) * ((1 - a) * (1 - b) * uy i ^ 2 + a * b * uy (S i) ^ 2)).
  { unfold seg_var at 2. rewrite u1a, u1b. unfold seg_var, a, b, l. field. split; lra. }
  assert (Frac : forall p q r, q < r -> q <= p <= r -> 0 <= (p - q) / (r - q) <= 1).
  { intros p q r Hqr Hp. split; [apply Rmult_le_pos; [lra|apply Rlt_le, Rinv_0_lt_compat; lra]|].
    apply Rmult_le_reg_r with (r - q); [lra|]. unfold Rdiv. rewrite Rmult_assoc, Rinv_l; lra. }
  assert (Ha : 0 <= a <= 1) by (apply Frac; [exact Pt|apply Sa]).
  assert (Hb : 0 <= b <= 1) by (apply Frac; [exact Pt|apply Sb]).
  assert (Hl : 0 <= l <= 1) by (apply Frac; [exact Pg|exact Hv]).
  split; [|split].
  - rewrite Y, Y2. f_equal. unfold chord at 1. rewrite y1a, y1b. unfold chord. field. split; lra.
  - exists (sqrt (seg_var t uy i v)), (sqrt (seg_var g u1 j v)). split; [exact U|]. split; [exact U2|].
    assert (Q : 0 <= 2 * l * (1 - l) * ((1 - a) * (1 - b) * uy i ^ 2 + a * b * uy (S i) ^ 2)).
    { apply Rmult_le_pos; [apply Rmult_le_pos; lra|]. apply Rplus_le_le_0_compat; (apply Rmult_le_pos; [apply Rmult_le_pos; lra|apply pow2_ge_0]). }
    split; [split; [apply sqrt_pos|apply sqrt_le_1_alt; lra]|]. cbv zeta. rewrite !pow2_sqrt by apply seg_var_nonneg. exact V.
  - intros Hg. rewrite U, U2. f_equal. f_equal. rewrite V.
    assert (L : l * (1 - l) = 0).
    { destruct Hg as [Eg|Eg]; unfold l; rewrite Eg; field; lra. }
    replace (2 * l * (1 - l)) with (2 * (l * (1 - l))) by ring. rewrite L. ring.
Qed.

Definition two_nodes : vec := of_list [0; 1].
Definition three_nodes : vec := of_list [0; 1/2; 1].
Definition quarter : vec := of_list [1/4].
Lemma two_inc : increasing 2 two_nodes.
Proof. intros i j H1 H2. assert (i = 0%nat) by lia. assert (j = 1%nat) by lia. subst. cbn. lra. Qed.
Lemma three_inc : increasing 3 three_nodes.
Proof. intros i j H1 H2. destruct i as [|[|i]], j as [|[|[|j]]]; try lia; cbn; lra. Qed.
(** Two nodes with uncertainty 1: at 1/4 the variance is 10/16, after a first interpolation at 0, 1/2, 1 it is 6/16. *)
Theorem C159_twice_refuted : exists t_new g t y uy y1 u1 o o1 o2 u u2,
  interp1d_unc g t y uy KLinear None (FFloat None) (FFloat None) true false = Ok o1 /\
  alen y1 = alen g /\ alen u1 = alen g /\
  (forall p, (p < alen g)%nat -> io_y o1 p = Some (y1 p) /\ io_u o1 p = Some (u1 p)) /\
  interp1d_unc t_new g y1 u1 KLinear None (FFloat None) (FFloat None) true false = Ok o2 /\
  interp1d_unc t_new t y uy KLinear None (FFloat None) (FFloat None) true false = Ok o /\
  io_u o 0%nat = Some u /\ io_u o2 0%nat = Some u2 /\ u ^ 2 = 10 / 16 /\ u2 ^ 2 = 6 / 16.
Proof.
  set (uy := of_list [1; 1]).
  destruct (C40_linear_returns three_nodes two_nodes uy uy None (FFloat None) (FFloat None) 2) as [o1 E1]; auto; try lia; try discriminate; try apply two_inc.
  { intros k Hk. cbn [three_nodes of_list alen Datatypes.length] in Hk. destruct k as [|[|[|k]]]; [| | |lia]; cbn; lra. }
  set (y1 := of_list [1; 1; 1]). set (u1 := of_list [1; sqrt (1/2); 1]).
  destruct (C40_linear_returns quarter three_nodes y1 u1 None (FFloat None) (FFloat None) 3) as [o2 E2]; auto; try lia; try discriminate; try apply three_inc.
  { intros k Hk. cbn in Hk. assert (k = 0)%nat by lia. subst. cbn. lra. }
  destruct (C40_linear_returns quarter two_nodes uy uy None (FFloat None) (FFloat None) 2) as [o E]; auto; try lia; try discriminate; try apply two_inc.
  { intros k Hk. cbn in Hk. assert (k = 0)%nat by lia. subst. cbn. lra. }
  assert (S1 : forall p, (p < 3)%nat -> in_segment 2 two_nodes 0 (three_nodes p)).
  { intros p Hp. split; [lia|]. destruct p as [|[|[|p]]]; [| | |lia]; cbn; lra. }
  assert (Hy1 : forall p, (p < 3)%nat -> io_y o1 p = Some (y1 p) /\ io_u o1 p = Some (u1 p)).
  { intros p Hp. destruct (C40_linear_law three_nodes two_nodes _ _ _ _ _ _ _ 2 p 0 eq_refl (le_n 2) two_inc E1 Hp (S1 p Hp)) as (_ & _ & _ & Y & _).
    rewrite Y, (linear_u three_nodes two_nodes _ _ _ _ _ _ _ 2 p 0 eq_refl (le_n 2) two_inc E1 Hp (S1 p Hp)).
    split; f_equal; destruct p as [|[|[|p]]]; try lia.
    - unfold chord, y1, uy. cbn. lra.
    - unfold chord, y1, uy. cbn. lra.
    - unfold chord, y1, uy. cbn. lra.
    - transitivity (sqrt 1); [f_equal; unfold seg_var, uy; cbn; field|apply sqrt_1].
    - unfold u1. cbn [of_list aget nth]. f_equal. unfold seg_var, uy. cbn. field.
    - transitivity (sqrt 1); [f_equal; unfold seg_var, uy; cbn; field|apply sqrt_1]. }
  destruct (C159_twice_partial quarter three_nodes two_nodes uy uy y1 u1 None (FFloat None) (FFloat None) false None (FFloat None) (FFloat None) false None (FFloat None) (FFloat None) false
     o o1 o2 2 3 0 0 0) as (_ & (u & u2 & A & B & _ & C) & _); auto; try lia; try apply two_inc; try apply three_inc.
  - split; [lia|]. cbn. lra.
  - pose proof (linear_u quarter two_nodes _ _ _ _ _ _ _ 2 0 0 eq_refl (le_n 2) two_inc E ltac:(cbn; lia) ltac:(split; [lia|cbn; lra])) as U.
    assert (Eu : u ^ 2 = 10 / 16).
    { replace u with (sqrt (seg_var two_nodes uy 0 (quarter 0%nat))) by congruence. rewrite <- Rsqr_pow2, Rsqr_sqrt by apply seg_var_nonneg.
      unfold seg_var, uy. cbn. field. }
    exists quarter, three_nodes, two_nodes, uy, uy, y1, u1, o, o1, o2, u, u2.
    split; [exact E1|]. split; [reflexivity|]. split; [reflexivity|]. split; [exact Hy1|]. split; [exact E2|]. split; [exact E|].
    split; [exact A|]. split; [exact B|]. split; [exact Eu|]. rewrite Eu in C. unfold uy in C. cbn in C. lra.
Qed.
Example C159_example : in_segment 3 three_nodes 0 (quarter 0%nat) /\ in_segment 2 two_nodes 0 (three_nodes 0%nat) /\ in_segment 2 two_nodes 0 (three_nodes 1%nat).
Proof. repeat split; try lia; cbn; lra. Qed.
Print Assumptions C159_twice_partial.
Print Assumptions C159_twice_refuted.
