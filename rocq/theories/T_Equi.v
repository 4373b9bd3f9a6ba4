(** make_equidistant on other time axes and finer grids (C181); points are interpolated
    independently of each other (C182).  Model: M_Interp.v. *)
From Coq Require Import Reals List Arith ZArith Bool Lra Lia FunctionalExtensionality.
From Verif Require Import Base Sums Stats StatsFacts M_Interp S_Interp S_Order P_Interp P_Interp2 T_Interp T_Interp2.
Import ListNotations.
Open Scope R_scope.

(** ** C182 *)
Lemma existsb_point (f : nat -> bool) M k : (k < M)%nat -> f k = true -> existsb f (seq 0 M) = true.
Proof. intros Hk H. apply existsb_exists. exists k. split; [apply in_seq; lia|exact H]. Qed.

Lemma scipy_point t y kd be f tn tn' k k' yn yn' : (k < alen tn)%nat -> (k' < alen tn')%nat -> tn k = tn' k' ->
  scipy_interp1d t y kd be f tn = Ok yn -> scipy_interp1d t y kd be f tn' = Ok yn' -> yn k = yn' k'.
Proof.
  intros Hk Hk' E H H'. unfold scipy_interp1d in H, H'.
  destruct (negb _); [discriminate|].
  destruct kd; try discriminate;
    (destruct (match f with FExtrapolate => _ | _ => Ok false end) as [x|]; [cbn [bind] in H, H'|discriminate];
     destruct (alen t =? 0)%nat; [discriminate|]; destruct x; [discriminate|];
     destruct (_ && _) in H; [discriminate|]; destruct (_ && _) in H'; [discriminate|];
     injection H as <-; injection H' as <-; cbn [aget]; rewrite E; reflexivity).
Qed.

Lemma linear_point t uy yn yn' f rC tn tn' k k' o o' : (k < alen tn)%nat -> (k' < alen tn')%nat -> tn k = tn' k' ->
  linear_unc tn t uy yn f rC = Ok o -> linear_unc tn' t uy yn' f rC = Ok o' ->
  io_u o k = io_u o' k' /\ io_y o = yn /\ io_y o' = yn' /\
  match io_C o, io_C o' with Some C, Some C' => forall j, C k j = C' k' j | None, None => True | _, _ => False end.
Proof.
  intros Hk Hk' E H H'. unfold linear_unc in H, H'.
  destruct (if existsb _ (seq 0 (alen tn)) then _ else _) as [fu|] eqn:F; [|discriminate].
  destruct (if existsb _ (seq 0 (alen tn')) then _ else _) as [fu'|] eqn:F'; [|discriminate].
  cbn [bind] in H, H'. injection H as <-. injection H' as <-. cbn [io_u io_y io_C aget].
  split; [|split; [reflexivity|split; [reflexivity|]]].
  - destruct (rltb (tn k) (np_min t) || rltb (np_max t) (tn k)) eqn:O.
    + pose proof O as O'. rewrite E in O'. rewrite O'.
      rewrite (existsb_point _ (alen tn) k Hk O) in F. rewrite (existsb_point _ (alen tn') k' Hk' O') in F'.
      destruct f as [v|z|b a|]; try discriminate; injection F as <-; injection F' as <-; [reflexivity|now rewrite E].
    + pose proof O as O'. rewrite E in O'. rewrite O'. destruct rC; cbn [aget mget]; rewrite ?O, ?O', ?E; reflexivity.
  - destruct rC; [|exact I]. intros j. cbn [mget]. rewrite E. reflexivity.
Qed.

(** The result at one point does not depend on the other points of the call. *)
Theorem C182_pointwise : forall t_new t_new' t y uy kd be fv fu sorted rC o o' k k',
  interp1d_unc t_new t y uy kd be fv fu sorted rC = Ok o -> interp1d_unc t_new' t y uy kd be fv fu sorted rC = Ok o' ->
  (k < alen t_new)%nat -> (k' < alen t_new')%nat -> t_new k = t_new' k' ->
  io_y o k = io_y o' k' /\ io_u o k = io_u o' k' /\
  match io_C o, io_C o' with Some C, Some C' => forall j, C k j = C' k' j | None, None => True | _, _ => False end.
Proof.
  intros tn tn' t y uy kd be fv fu sorted rC o o' k k' H H' Hk Hk' E. unfold interp1d_unc in H, H'.
  destruct (if sorted then _ else _) as [[[t0 y0] u0]|]; [|discriminate]. cbn [bind] in H, H'.
  destruct (negb _); [discriminate|].
  destruct (match be with Some true => _ | _ => _ end) as [[gv gu]|]; [|discriminate]. cbn [bind] in H, H'.
  destruct (scipy_interp1d t0 y0 kd be gv tn) as [yn|] eqn:Y; [|discriminate].
  destruct (scipy_interp1d t0 y0 kd be gv tn') as [yn'|] eqn:Y'; [|discriminate]. cbn [bind] in H, H'.
  pose proof (scipy_point _ _ _ _ _ _ _ _ _ _ _ Hk Hk' E Y Y') as EY.
  destruct kd; try discriminate.
  1-3: destruct rC; [discriminate|];
    (destruct (scipy_interp1d t0 u0 _ be gu tn) as [un|] eqn:U; [|discriminate]);
    (destruct (scipy_interp1d t0 u0 _ be gu tn') as [un'|] eqn:U'; [|discriminate]); cbn [bind] in H, H';
    injection H as <-; injection H' as <-; cbn [io_y io_u io_C]; split; [exact EY|]; split; [|exact I];
    exact (scipy_point _ _ _ _ _ _ _ _ _ _ _ Hk Hk' E U U').
  destruct (linear_point _ _ _ _ _ _ _ _ _ _ _ _ Hk Hk' E H H') as (A & B & C & D). rewrite B, C. auto.
Qed.

Lemma existsb_fewer (f f' : nat -> bool) M M' : (forall k', (k' < M')%nat -> exists k, (k < M)%nat /\ f k = f' k') ->
  existsb f' (seq 0 M') = true -> existsb f (seq 0 M) = true.
Proof.
  intros H E. apply existsb_exists in E. destruct E as [k' [I T]]. apply in_seq in I. destruct (H k') as [k [Hk E]]; [lia|].
  apply (existsb_point f M k Hk). congruence.
Qed.
Lemma scipy_fewer t y kd be f tn tn' yn : (forall k', (k' < alen tn')%nat -> exists k, (k < alen tn)%nat /\ tn k = tn' k') ->
  scipy_interp1d t y kd be f tn = Ok yn -> exists yn', scipy_interp1d t y kd be f tn' = Ok yn'.
Proof.
  intros P H. unfold scipy_interp1d in *. destruct (negb _); [discriminate|].
  assert (W : existsb (fun i => rltb (tn' i) (t 0%nat) || rltb (t (alen t - 1)%nat) (tn' i)) (seq 0 (alen tn')) = true ->
     existsb (fun i => rltb (tn i) (t 0%nat) || rltb (t (alen t - 1)%nat) (tn i)) (seq 0 (alen tn)) = true).
  { apply existsb_fewer. intros k' Hk'. destruct (P k' Hk') as [k [Hk E]]. exists k. split; [exact Hk|]. now rewrite E. }
  destruct kd; try discriminate;
    (destruct (match f with FExtrapolate => _ | _ => Ok false end) as [x|]; [cbn [bind] in *|discriminate];
     destruct (alen t =? 0)%nat; [discriminate|]; destruct x; [discriminate|]; cbv zeta in *;
     destruct (match be with Some b => b | None => true end); cbn [andb] in *; [|eauto];
     destruct (existsb _ (seq 0 (alen tn))); [discriminate|];
     destruct (existsb _ (seq 0 (alen tn'))); [specialize (W eq_refl); discriminate|eauto]).
Qed.
(** A call that succeeds also succeeds for some of its points. *)
Theorem C182_fewer_points : forall t_new t_new' t y uy kd be fv fu sorted rC o,
  interp1d_unc t_new t y uy kd be fv fu sorted rC = Ok o ->
  (forall k', (k' < alen t_new')%nat -> exists k, (k < alen t_new)%nat /\ t_new k = t_new' k') ->
  exists o', interp1d_unc t_new' t y uy kd be fv fu sorted rC = Ok o'.
Proof.
  intros tn tn' t y uy kd be fv fu sorted rC o H P. unfold interp1d_unc in *.
  destruct (if sorted then _ else _) as [[[t0 y0] u0]|]; [|discriminate]. cbn [bind] in *.
  destruct (negb _); [discriminate|].
  destruct (match be with Some true => _ | _ => _ end) as [[gv gu]|]; [|discriminate]. cbn [bind] in *.
  destruct (scipy_interp1d t0 y0 kd be gv tn) as [yn|] eqn:Y; [|discriminate].
  destruct (scipy_fewer _ _ _ _ _ _ tn' _ P Y) as [yn' Y']. rewrite Y'. cbn [bind] in *.
  destruct kd; try discriminate.
  1-3: destruct rC; [discriminate|];
    (destruct (scipy_interp1d t0 u0 _ be gu tn) as [un|] eqn:U; [|discriminate]);
    destruct (scipy_fewer _ _ _ _ _ _ tn' _ P U) as [un' U']; rewrite U'; cbn [bind]; eauto.
  unfold linear_unc in *. cbv zeta in *.
  destruct (if existsb _ (seq 0 (alen tn)) then _ else _) as [g|] eqn:F; [|discriminate].
  assert (W : existsb (fun k => rltb (tn' k) (np_min t0) || rltb (np_max t0) (tn' k)) (seq 0 (alen tn')) = true ->
     existsb (fun k => rltb (tn k) (np_min t0) || rltb (np_max t0) (tn k)) (seq 0 (alen tn)) = true).
  { apply existsb_fewer. intros k' Hk'. destruct (P k' Hk') as [k [Hk E]]. exists k. split; [exact Hk|]. now rewrite E. }
  destruct (existsb _ (seq 0 (alen tn'))); [|cbn [bind]; eauto].
  rewrite (W eq_refl) in F. destruct gu; try discriminate; cbn [bind]; eauto.
Qed.

(** ** C181 *)
Lemma increasing_affine a s (t : vec) n : 0 < a -> increasing n t -> increasing n (affine a s t).
Proof. intros Ha H i j Hij Hj. cbn [aget affine]. specialize (H i j Hij Hj). nra. Qed.
Lemma arange_affine a s x0 x1 dt : 0 < a -> dt <> 0 -> arange (a * x0 + s) (a * x1 + s) (a * dt) = affine a s (arange x0 x1 dt).
Proof.
  intros Ha Hd. unfold arange, affine. cbn [alen aget].
  replace ((a * x1 + s - (a * x0 + s)) / (a * dt)) with ((x1 - x0) / dt) by (field; split; [exact Hd|lra]).
  f_equal. apply functional_extensionality. intros i. ring.
Qed.
(** Another unit and another origin of the time, another unit and offset of the values. *)
Theorem C181_units : forall a s c d t y uy dt kd n,
  0 < a -> 0 < c -> alen t = n -> (2 <= n)%nat -> increasing n t -> 0 < dt ->
  make_equidistant (affine a s t) (affine c d y) (affine c 0 uy) (a * dt) kd =
  match make_equidistant t y uy dt kd with
  | Ok o => Ok (in_units a s c d o)
  | Err e => Err e
  end.
Proof.
  intros a s c d t y uy dt kd n Ha Hc Hn H2 Hinc Hdt. subst n.
  pose proof (increasing_affine a s t (alen t) Ha Hinc) as Hinc'.
  unfold make_equidistant. change (alen (affine a s t)) with (alen t).
  destruct (Nat.eqb_spec (alen t) 0); [lia|].
  destruct (Req_EM_T dt 0); [lra|]. destruct (Req_EM_T (a * dt) 0) as [Z|_]; [exfalso; apply Rmult_integral in Z; lra|].
  rewrite (np_max_inc t), (np_min_inc t) by (assumption || lia).
  rewrite (np_max_inc (affine a s t)), (np_min_inc (affine a s t)) by (assumption || (cbn [affine alen]; lia)).
  change (affine a s t 0%nat) with (a * t 0%nat + s).
  change (affine a s t (alen (affine a s t) - 1)%nat) with (a * t (alen t - 1)%nat + s).
  rewrite arange_affine by (assumption || lra). set (grid := arange (t 0%nat) (t (alen t - 1)%nat) dt).
  unfold make_equidistant_on. change (alen (affine a s grid)) with (alen grid).
  destruct (Nat.eqb_spec (alen grid) 0) as [G0|G0]; [reflexivity|].
  rewrite (np_max_inc t) by (assumption || lia).
  rewrite (np_max_inc (affine a s t)) by (assumption || (cbn [affine alen]; lia)).
  change (affine a s t (alen (affine a s t) - 1)%nat) with (a * t (alen t - 1)%nat + s).
  change (affine a s grid (alen grid - 1)%nat) with (a * grid (alen grid - 1)%nat + s). rewrite rltb_aff by assumption.
  assert (B : rltb (t (alen t - 1)%nat) (grid (alen grid - 1)%nat) = false).
  { apply rltb_false. unfold grid in *. cbn [alen aget arange] in *.
    assert (HT : t 0%nat < t (alen t - 1)%nat) by (apply Hinc; lia).
    set (q := (t (alen t - 1)%nat - t 0%nat) / dt) in *.
    assert (Hqd : q * dt = t (alen t - 1)%nat - t 0%nat) by (unfold q; field; lra).
    assert (IZR (ceilz q) - 1 < q) by (unfold ceilz; rewrite opp_IZR; destruct (base_Int_part (- q)); lra).
    rewrite minus_INR, INR_IZR_INZ, Z2Nat.id by lia. cbn [INR]. nra. }
  rewrite B. exact (C132_units a s c d grid t y uy kd None (FFloat None) (FFloat None) false (alen t) Ha Hc eq_refl Hinc ltac:(intros; assumption) I I).
Qed.
(** A finer grid contains the coarse one, with the same values and uncertainties. *)
Theorem C181_refined : forall t y uy dt kd n q, alen t = n -> (2 <= n)%nat -> increasing n t -> alen y = n -> alen uy = n ->
  kd <> KOther -> 0 < dt -> (1 <= q)%nat ->
  exists o o', make_equidistant t y uy dt kd = Ok o /\ make_equidistant t y uy (dt / INR q) kd = Ok o' /\
    ((alen (io_t o) - 1) * q < alen (io_t o') <= alen (io_t o) * q)%nat /\
    forall k, (k < alen (io_t o))%nat ->
      io_t o' (k * q)%nat = io_t o k /\ io_y o' (k * q)%nat = io_y o k /\ io_u o' (k * q)%nat = io_u o k.
Proof.
  intros t y uy dt kd n q Hn H2 Hinc Hy Hu Hkd Hdt Hq.
  assert (Q : 1 <= INR q) by (change 1 with (INR 1); apply le_INR; lia).
  assert (Hdq : 0 < dt / INR q) by (apply Rdiv_lt_0_compat; lra).
  destruct (C47_equidistant t y uy dt kd n Hn H2 Hinc Hy Hu Hkd Hdt) as (o & E & L1 & T1 & B1 & M1 & I1).
  destruct (C47_equidistant t y uy (dt / INR q) kd n Hn H2 Hinc Hy Hu Hkd Hdq) as (o' & E' & L1' & T1' & B1' & M1' & I1').
  exists o, o'. split; [exact E|]. split; [exact E'|].
  assert (C : ((alen (io_t o) - 1) * q < alen (io_t o'))%nat).
  { destruct (Nat.lt_ge_cases ((alen (io_t o) - 1) * q) (alen (io_t o'))) as [|G]; [assumption|exfalso].
    specialize (B1 (alen (io_t o) - 1)%nat ltac:(lia)). rewrite T1 in B1 by lia. rewrite T1' in M1' by lia.
    apply le_INR in G. rewrite mult_INR in G. rewrite minus_INR in M1' by lia. cbn [INR] in M1'.
    assert (INR (alen (io_t o')) * (dt / INR q) <= INR (alen (io_t o) - 1) * dt).
    { replace (INR (alen (io_t o) - 1) * dt) with (INR (alen (io_t o) - 1) * INR q * (dt / INR q)) by (field; lra).
      apply Rmult_le_compat_r; lra. }
    lra. }
  split.
  { split; [exact C|]. destruct (Nat.le_gt_cases (alen (io_t o')) (alen (io_t o) * q)) as [|G]; [assumption|exfalso].
    specialize (B1' (alen (io_t o) * q)%nat G). rewrite T1' in B1' by assumption. rewrite T1 in M1 by lia.
    rewrite mult_INR in B1'. rewrite minus_INR in M1 by lia. cbn [INR] in M1.
    replace (INR (alen (io_t o)) * INR q * (dt / INR q)) with (INR (alen (io_t o)) * dt) in B1' by (field; lra). lra. }
  intros k Hk.
  assert (Hk' : (k * q < alen (io_t o'))%nat) by nia.
  assert (TE : io_t o k = io_t o' (k * q)%nat).
  { rewrite T1, T1' by assumption. rewrite mult_INR. field. lra. }
  split; [symmetry; exact TE|].
  destruct (C182_pointwise _ _ _ _ _ _ _ _ _ _ _ _ _ k (k * q)%nat I1 I1' Hk Hk' TE) as (A & B & _). auto.
Qed.

(** Concrete cases. *)
Lemma inc_0_1_3 : increasing 3 (of_list [0; 1; 3]).
Proof. intros i j Hij Hj. destruct j as [|[|[|j]]]; try lia; destruct i as [|[|i]]; try lia; cbn; lra. Qed.
Example C182_pointwise_example : exists o o',
  interp1d_unc (of_list [5; 1/2]) (of_list [0; 1; 3]) (of_list [0; 2; 6]) (of_list [1; 1; 2]) KLinear (Some false) FExtrapolate FExtrapolate true true = Ok o /\
  interp1d_unc (of_list [1/2]) (of_list [0; 1; 3]) (of_list [0; 2; 6]) (of_list [1; 1; 2]) KLinear (Some false) FExtrapolate FExtrapolate true true = Ok o' /\
  io_y o 1%nat = io_y o' 0%nat /\ io_u o 1%nat = io_u o' 0%nat.
Proof.
  assert (S : exists o, interp1d_unc (of_list [5; 1/2]) (of_list [0; 1; 3]) (of_list [0; 2; 6]) (of_list [1; 1; 2]) KLinear (Some false) FExtrapolate FExtrapolate true true = Ok o).
  { unfold interp1d_unc, linear_unc, scipy_interp1d. cbn -[rltb np_min np_max np_interp clip search_left].
    match goal with |- context [if ?b then Ok _ else Ok _] => destruct b end; cbn [bind]; eauto. }
  destruct S as [o E].
  destruct (C182_fewer_points _ (of_list [1/2]) (of_list [0; 1; 3]) (of_list [0; 2; 6]) (of_list [1; 1; 2]) KLinear (Some false) FExtrapolate FExtrapolate true true o E) as [o' E'].
  { intros k' Hk'. cbn in Hk'. exists 1%nat. replace k' with 0%nat by lia. split; [cbn; lia|reflexivity]. }
  exists o, o'. split; [exact E|]. split; [exact E'|].
  destruct (C182_pointwise _ _ _ _ _ _ _ _ _ _ _ _ _ 1%nat 0%nat E E') as (A & B & _); [cbn; lia|cbn; lia|reflexivity|]. auto.
Qed.
Example C181_units_example : exists o,
  make_equidistant (of_list [0; 1; 3]) (of_list [0; 2; 6]) (of_list [1; 1; 2]) 1 KLinear = Ok o /\
  make_equidistant (affine 1000 5 (of_list [0; 1; 3])) (affine 2 1 (of_list [0; 2; 6])) (affine 2 0 (of_list [1; 1; 2])) (1000 * 1) KLinear
  = Ok (in_units 1000 5 2 1 o).
Proof.
  destruct (C47_equidistant (of_list [0; 1; 3]) (of_list [0; 2; 6]) (of_list [1; 1; 2]) 1 KLinear 3) as (o & E & _);
    auto using inc_0_1_3; try discriminate; try lra.
  exists o. split; [exact E|]. rewrite (C181_units 1000 5 2 1 (of_list [0; 1; 3]) (of_list [0; 2; 6]) (of_list [1; 1; 2]) 1 KLinear 3); auto using inc_0_1_3; try lra.
  now rewrite E.
Qed.
Example C181_refined_example : exists o o',
  make_equidistant (of_list [0; 1; 3]) (of_list [0; 2; 6]) (of_list [1; 1; 2]) 1 KNearest = Ok o /\
  make_equidistant (of_list [0; 1; 3]) (of_list [0; 2; 6]) (of_list [1; 1; 2]) (1 / INR 2) KNearest = Ok o' /\
  forall k, (k < alen (io_t o))%nat -> io_t o' (k * 2)%nat = io_t o k /\ io_y o' (k * 2)%nat = io_y o k /\ io_u o' (k * 2)%nat = io_u o k.
Proof.
  destruct (C181_refined (of_list [0; 1; 3]) (of_list [0; 2; 6]) (of_list [1; 1; 2]) 1 KNearest 3 2) as (o & o' & E & E' & _ & H);
    auto using inc_0_1_3; try discriminate; try lra.
  exists o, o'. auto.
Qed.
Print Assumptions C181_units.
Print Assumptions C181_refined.
Print Assumptions C182_pointwise.
Print Assumptions C182_fewer_points.
