(** Interpolating sums of signals (C176).  Model: M_Interp.v.  Vocabulary: S_Interp.v. *)
From Coq Require Import Reals List Arith ZArith Bool Lra Lia Psatz.
From Verif Require Import Base Sums Stats StatsFacts M_Interp S_Interp P_Interp P_Interp2 T_Interp T_Lines T_Twice.
Import ListNotations.
Open Scope R_scope.

(** The entry is the number v. *)
Definition gives (a : arr (option R)) (k : nat) (v : R) : Prop := a k = Some v.

(** ** C176: the same time axis carries two independent signals and their combination
    a y1 + b y2.  Interpolated, the values combine in the same way and the uncertainties by
    the sum of squares. *)
Theorem C176_linear : forall t_new t y1 u1 y2 u2 y u a b be1 fv1 fu1 rC1 be2 fv2 fu2 rC2 be fv fu rC o1 o2 o n k,
  alen t = n -> (2 <= n)%nat -> increasing n t ->
  interp1d_unc t_new t y1 u1 KLinear be1 fv1 fu1 true rC1 = Ok o1 ->
  interp1d_unc t_new t y2 u2 KLinear be2 fv2 fu2 true rC2 = Ok o2 ->
  interp1d_unc t_new t y u KLinear be fv fu true rC = Ok o ->
  (forall i, (i < n)%nat -> y i = a * y1 i + b * y2 i) ->
  (forall i, (i < n)%nat -> u i ^ 2 = a ^ 2 * u1 i ^ 2 + b ^ 2 * u2 i ^ 2) ->
  (k < alen t_new)%nat -> t 0%nat <= t_new k <= t (n - 1)%nat ->
  exists v1 v2 w1 w2 w, gives (io_y o1) k v1 /\ gives (io_y o2) k v2 /\ gives (io_y o) k (a * v1 + b * v2) /\
    gives (io_u o1) k w1 /\ gives (io_u o2) k w2 /\ gives (io_u o) k w /\
    0 <= w /\ w ^ 2 = a ^ 2 * w1 ^ 2 + b ^ 2 * w2 ^ 2.
Proof.
  intros t_new t y1 u1 y2 u2 y u a b be1 fv1 fu1 rC1 be2 fv2 fu2 rC2 be fv fu rC o1 o2 o n k L Hn I E1 E2 E Hy Hu Hk Hin.
  destruct (segment_exists n t (t_new k) Hn Hin) as [i Si].
  destruct (C40_linear_law _ _ _ _ _ _ _ _ _ _ k i L Hn I E1 Hk Si) as (_ & _ & _ & Y1 & _).
  destruct (C40_linear_law _ _ _ _ _ _ _ _ _ _ k i L Hn I E2 Hk Si) as (_ & _ & _ & Y2 & _).
  destruct (C40_linear_law _ _ _ _ _ _ _ _ _ _ k i L Hn I E Hk Si) as (_ & _ & _ & Y & _).
  pose proof (linear_u _ _ _ _ _ _ _ _ _ _ k i L Hn I E1 Hk Si) as W1.
  pose proof (linear_u _ _ _ _ _ _ _ _ _ _ k i L Hn I E2 Hk Si) as W2.
  pose proof (linear_u _ _ _ _ _ _ _ _ _ _ k i L Hn I E Hk Si) as W.
  unfold gives. do 5 eexists. split; [exact Y1|]. split; [exact Y2|]. split.
  { rewrite Y. f_equal. unfold chord. destruct Si as [Si _]. rewrite !Hy by lia. ring. }
  split; [exact W1|]. split; [exact W2|]. split; [exact W|]. split; [apply sqrt_pos|].
  rewrite <- !Rsqr_pow2, !Rsqr_sqrt by apply seg_var_nonneg.
  destruct Si as [Si _]. unfold seg_var. rewrite !Rsqr_pow2, !Hu by lia. ring.
Qed.

Theorem C176_lookup : forall t_new t y1 u1 y2 u2 y u a b kd be1 fv1 fu1 rC1 be2 fv2 fu2 rC2 be fv fu rC o1 o2 o n k,
  kd = KPrevious \/ kd = KNext \/ kd = KNearest ->
  alen t = n -> increasing n t ->
  interp1d_unc t_new t y1 u1 kd be1 fv1 fu1 true rC1 = Ok o1 ->
  interp1d_unc t_new t y2 u2 kd be2 fv2 fu2 true rC2 = Ok o2 ->
  interp1d_unc t_new t y u kd be fv fu true rC = Ok o ->
  (forall i, (i < n)%nat -> y i = a * y1 i + b * y2 i) ->
  (forall i, (i < n)%nat -> u i ^ 2 = a ^ 2 * u1 i ^ 2 + b ^ 2 * u2 i ^ 2) ->
  (k < alen t_new)%nat -> t 0%nat <= t_new k <= t (n - 1)%nat ->
  exists v1 v2 w1 w2 w, gives (io_y o1) k v1 /\ gives (io_y o2) k v2 /\ gives (io_y o) k (a * v1 + b * v2) /\
    gives (io_u o1) k w1 /\ gives (io_u o2) k w2 /\ gives (io_u o) k w /\
    w ^ 2 = a ^ 2 * w1 ^ 2 + b ^ 2 * w2 ^ 2.
Proof.
  intros t_new t y1 u1 y2 u2 y u a b kd be1 fv1 fu1 rC1 be2 fv2 fu2 rC2 be fv fu rC o1 o2 o n k Hkd L I E1 E2 E Hy Hu Hk Hin.
  subst n.
  assert (N : (1 <= alen t)%nat) by (destruct (interp_inv _ _ _ _ _ _ _ _ _ _ E) as (_ & _ & N & _); exact N).
  assert (K : forall y u be fv fu rC o, interp1d_unc t_new t y u kd be fv fu true rC = Ok o ->
    io_y o k = Some (y (node_index kd t (t_new k))) /\ io_u o k = Some (u (node_index kd t (t_new k)))).
  { clear - Hkd Hk Hin. intros y u be fv fu rC o H.
    destruct (interp_inv _ _ _ _ _ _ _ _ _ _ H)
      as (_ & _ & Hn1 & _ & _ & yn & Ey & [[K _]|[_ [_ [un [Eu Eo]]]]]);
      [destruct Hkd as [?|[?|?]]; congruence|].
    destruct (scipy_inv _ _ _ _ _ _ _ Ey) as (_ & _ & _ & _ & _ & _ & F).
    destruct (scipy_inv _ _ _ _ _ _ _ Eu) as (_ & _ & _ & _ & _ & _ & G).
    destruct (inside_flags t _ Hin) as [P Q].
    rewrite Eo. cbn [io_y io_u]. rewrite F, G. unfold scipy_val. rewrite P, Q.
    destruct Hkd as [-> | [-> | ->]]; auto. }
  assert (J : (node_index kd t (t_new k) < alen t)%nat) by (apply node_index_lt; auto).
  destruct (K _ _ _ _ _ _ _ E1) as [A1 B1]. destruct (K _ _ _ _ _ _ _ E2) as [A2 B2]. destruct (K _ _ _ _ _ _ _ E) as [A B].
  unfold gives. do 5 eexists. split; [exact A1|]. split; [exact A2|]. split; [rewrite A; f_equal; now apply Hy|].
  split; [exact B1|]. split; [exact B2|]. split; [exact B|]. now apply Hu.
Qed.

(** With extrapolation (bounds_error=False, both fill values "extrapolate") the same holds at
    every point. *)
Theorem C176_extrapolated : forall t_new t y1 u1 y2 u2 y u a b kd n,
  kd <> KOther -> alen t = n -> (1 <= n)%nat -> (kd = KLinear -> (2 <= n)%nat) -> increasing n t ->
  alen y1 = n -> alen u1 = n -> alen y2 = n -> alen u2 = n -> alen y = n -> alen u = n ->
  (forall i, (i < n)%nat -> y i = a * y1 i + b * y2 i) ->
  (forall i, (i < n)%nat -> u i ^ 2 = a ^ 2 * u1 i ^ 2 + b ^ 2 * u2 i ^ 2) ->
  exists o1 o2 o, interp1d_unc t_new t y1 u1 kd (Some false) FExtrapolate FExtrapolate true false = Ok o1 /\
    interp1d_unc t_new t y2 u2 kd (Some false) FExtrapolate FExtrapolate true false = Ok o2 /\
    interp1d_unc t_new t y u kd (Some false) FExtrapolate FExtrapolate true false = Ok o /\
    forall k, (k < alen t_new)%nat ->
    exists v1 v2 w1 w2 w, gives (io_y o1) k v1 /\ gives (io_y o2) k v2 /\ gives (io_y o) k (a * v1 + b * v2) /\
      gives (io_u o1) k w1 /\ gives (io_u o2) k w2 /\ gives (io_u o) k w /\
      w ^ 2 = a ^ 2 * w1 ^ 2 + b ^ 2 * w2 ^ 2.
Proof.
  intros t_new t y1 u1 y2 u2 y u a b kd n Hkd L N1 N2 I Ly1 Lu1 Ly2 Lu2 Ly Lu Hy Hu.
  destruct (C43_fill_values t_new t y1 u1 kd FExtrapolate FExtrapolate n) as [o1 [E1 [_ [_ F1]]]]; simpl; auto.
  destruct (C43_fill_values t_new t y2 u2 kd FExtrapolate FExtrapolate n) as [o2 [E2 [_ [_ F2]]]]; simpl; auto.
  destruct (C43_fill_values t_new t y u kd FExtrapolate FExtrapolate n) as [o [E [_ [_ F]]]]; simpl; auto.
  exists o1, o2, o. repeat (split; [assumption|]). intros k Hk.
  destruct (F1 k Hk) as [A1 B1]. destruct (F2 k Hk) as [A2 B2]. destruct (F k Hk) as [A B].
  destruct (Rlt_dec (t_new k) (t 0%nat)) as [Lt|Ge].
  { destruct (A1 Lt) as [P1 Q1]. destruct (A2 Lt) as [P2 Q2]. destruct (A Lt) as [P Q]. unfold gives. do 5 eexists.
    split; [exact P1|]. split; [exact P2|]. split; [rewrite P; cbn [fill_left]; f_equal; apply Hy; lia|].
    split; [exact Q1|]. split; [exact Q2|]. split; [exact Q|]. apply Hu. lia. }
  destruct (Rlt_dec (t (n - 1)%nat) (t_new k)) as [Gt|Le].
  { destruct (B1 Gt) as [P1 Q1]. destruct (B2 Gt) as [P2 Q2]. destruct (B Gt) as [P Q]. unfold gives. do 5 eexists.
    split; [exact P1|]. split; [exact P2|]. split; [rewrite P; cbn [fill_right]; f_equal; apply Hy; lia|].
    split; [exact Q1|]. split; [exact Q2|]. split; [exact Q|]. apply Hu. lia. }
  assert (Hin : t 0%nat <= t_new k <= t (n - 1)%nat) by lra.
  assert (D : (kd = KPrevious \/ kd = KNext \/ kd = KNearest) \/ kd = KLinear) by (destruct kd; auto; congruence).
  destruct D as [D | ->].
  { exact (C176_lookup t_new t y1 u1 y2 u2 y u a b kd (Some false) FExtrapolate FExtrapolate false
     (Some false) FExtrapolate FExtrapolate false (Some false) FExtrapolate FExtrapolate false o1 o2 o n k
     D L I E1 E2 E Hy Hu Hk Hin). }
  destruct (C176_linear t_new t y1 u1 y2 u2 y u a b (Some false) FExtrapolate FExtrapolate false
     (Some false) FExtrapolate FExtrapolate false (Some false) FExtrapolate FExtrapolate false o1 o2 o n k
     L (N2 eq_refl) I E1 E2 E Hy Hu Hk Hin)
    as [v1 [v2 [w1 [w2 [w [G1 [G2 [G3 [G4 [G5 [G6 [_ G7]]]]]]]]]]]].
  exists v1, v2, w1, w2, w. auto 10.
Qed.

Example C176_example : exists o1 o2 o,
  interp1d_unc (of_list [1/2; 5]) (of_list [0; 1; 3]) (of_list [0; 2; 6]) (of_list [3; 3; 3]) KLinear (Some false) FExtrapolate FExtrapolate true false = Ok o1 /\
  interp1d_unc (of_list [1/2; 5]) (of_list [0; 1; 3]) (of_list [1; 1; 1]) (of_list [4; 4; 4]) KLinear (Some false) FExtrapolate FExtrapolate true false = Ok o2 /\
  interp1d_unc (of_list [1/2; 5]) (of_list [0; 1; 3]) (of_list [1; 3; 7]) (of_list [5; 5; 5]) KLinear (Some false) FExtrapolate FExtrapolate true false = Ok o /\
  exists v1 v2 w1 w2 w, gives (io_y o1) 0 v1 /\ gives (io_y o2) 0 v2 /\ gives (io_y o) 0 (1 * v1 + 1 * v2) /\
      gives (io_u o1) 0 w1 /\ gives (io_u o2) 0 w2 /\ gives (io_u o) 0 w /\ w ^ 2 = 1 ^ 2 * w1 ^ 2 + 1 ^ 2 * w2 ^ 2.
Proof.
  destruct (C176_extrapolated (of_list [1/2; 5]) (of_list [0; 1; 3]) (of_list [0; 2; 6]) (of_list [3; 3; 3])
    (of_list [1; 1; 1]) (of_list [4; 4; 4]) (of_list [1; 3; 7]) (of_list [5; 5; 5]) 1 1 KLinear 3) as [o1 [o2 [o [E1 [E2 [E H]]]]]]; auto using inc013; try discriminate.
  - intros [|[|[|i]]] Hi; try lia; cbn; lra.
  - intros [|[|[|i]]] Hi; try lia; cbn; lra.
  - exists o1, o2, o. repeat (split; [assumption|]). apply H. cbn. lia.
Qed.
Example C176_lookup_example : exists o1 o2 o,
  interp1d_unc (of_list [1/2; 5]) (of_list [0; 1; 3]) (of_list [0; 2; 6]) (of_list [3; 3; 3]) KNext (Some false) FExtrapolate FExtrapolate true false = Ok o1 /\
  interp1d_unc (of_list [1/2; 5]) (of_list [0; 1; 3]) (of_list [1; 1; 1]) (of_list [4; 4; 4]) KNext (Some false) FExtrapolate FExtrapolate true false = Ok o2 /\
  interp1d_unc (of_list [1/2; 5]) (of_list [0; 1; 3]) (of_list [1; 3; 7]) (of_list [5; 5; 5]) KNext (Some false) FExtrapolate FExtrapolate true false = Ok o /\
  exists v1 v2, gives (io_y o1) 1 v1 /\ gives (io_y o2) 1 v2 /\ gives (io_y o) 1 (1 * v1 + 1 * v2).
Proof.
  destruct (C176_extrapolated (of_list [1/2; 5]) (of_list [0; 1; 3]) (of_list [0; 2; 6]) (of_list [3; 3; 3])
    (of_list [1; 1; 1]) (of_list [4; 4; 4]) (of_list [1; 3; 7]) (of_list [5; 5; 5]) 1 1 KNext 3) as [o1 [o2 [o [E1 [E2 [E H]]]]]]; auto using inc013; try discriminate.
  - intros [|[|[|i]]] Hi; try lia; cbn; lra.
  - intros [|[|[|i]]] Hi; try lia; cbn; lra.
  - exists o1, o2, o. repeat (split; [assumption|]). destruct (H 1%nat) as [v1 [v2 [_ [_ [_ [G1 [G2 [G3 _]]]]]]]]; [cbn; lia|].
    exists v1, v2. auto.
Qed.
Print Assumptions C176_linear.
Print Assumptions C176_lookup.
Print Assumptions C176_extrapolated.
