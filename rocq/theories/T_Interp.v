(** Theorems about uncertainty/interpolate.py (C40-C47, C90, C91). *)
From Coq Require Import Reals List Arith ZArith Bool Lra Lia Permutation Sorted.
From Verif Require Import Base Sums Stats StatsFacts M_Interp S_Interp P_Interp P_Interp2.
Import ListNotations.
Open Scope R_scope.

Ltac flags := repeat match goal with
  | H : is_below _ _ = false |- _ => apply rltb_false in H
  | H : is_above _ _ = false |- _ => apply rltb_false in H
  | H : is_below _ _ = true |- _ => apply rltb_true in H
  | H : is_above _ _ = true |- _ => apply rltb_true in H end.

Lemma segment_range n t i v : increasing n t -> in_segment n t i v ->
  t 0%nat <= v <= t (n - 1)%nat.
Proof.
  intros H [Hi Hv].
  assert (t 0%nat <= t i) by (apply increasing_le with n; auto; lia).
  assert (t (S i) <= t (n - 1)%nat) by (apply increasing_le with n; auto; lia). lra.
Qed.

(** ** C40 *)
Theorem C40_linear_law : forall t_new t y uy be fv fu rC o n k i,
  alen t = n -> (2 <= n)%nat -> increasing n t ->
  interp1d_unc t_new t y uy KLinear be fv fu true rC = Ok o ->
  (k < alen t_new)%nat -> in_segment n t i (t_new k) ->
  io_t o = t_new /\ alen (io_y o) = alen t_new /\ alen (io_u o) = alen t_new /\
  io_y o k = Some (chord t y i (t_new k)) /\
  exists u, io_u o k = Some u /\ 0 <= u /\
    forall d : dist (nat -> R), is_prob d -> has_cov n d (uncorrelated uy) ->
      Cov d (fun s => chord t s i (t_new k)) (fun s => chord t s i (t_new k)) = u ^ 2.
Proof.
  intros t_new t y uy be fv fu rC o n k i Hn Hn2 Hinc H Hk Hs. subst n.
  destruct (interp_inv _ _ _ _ _ _ _ _ _ _ H) as (Hy & Hu & Hn1 & _ & _ & yn & Ey & [[_ L]|[K _]]);
    [|congruence].
  destruct (linear_unc_inv _ _ _ _ _ _ _ Hn1 Hinc L) as (A & B & C & D & _).
  destruct (scipy_inv _ _ _ _ _ _ _ Ey) as (_ & _ & _ & _ & E & _ & F).
  rewrite B. split; [auto|split; [auto|split; [auto|split]]].
  - rewrite F. unfold scipy_val.
    destruct (inside_flags t (t_new k) (segment_range _ _ _ _ Hinc Hs)) as [P Q].
    rewrite P, Q. f_equal. apply np_interp_chord; auto.
  - exists (sqrt (seg_var t uy i (t_new k))). split; [|split].
    + rewrite D by auto. apply lin_u_inside; auto.
    + apply sqrt_pos.
    + intros d Hd Hc. rewrite (chord_cov (alen t) d t uy); auto.
      rewrite pow2_sqrt; auto. apply seg_var_nonneg.
Qed.

(** Points inside the range are always accepted. *)
Theorem C40_linear_returns : forall t_new t y uy be fv fu n,
  alen t = n -> (1 <= n)%nat -> increasing n t -> alen y = n -> alen uy = n ->
  (be = Some true -> fv <> FExtrapolate) ->
  (forall k, (k < alen t_new)%nat -> t 0%nat <= t_new k <= t (n - 1)%nat) ->
  exists o, interp1d_unc t_new t y uy KLinear be fv fu true false = Ok o.
Proof.
  intros t_new t y uy be fv fu n Hn H1 Hinc Hy Hu Hf Hin.
  unfold interp1d_unc. cbn [bind]. rewrite Hy, Hu, Nat.eqb_refl. cbn [negb].
  match goal with |- exists o, bind ?m _ = _ => assert (E : m = Ok (resolved be fv y, resolved be fu uy)) end.
  { destruct be as [[|]|]; [reflexivity| |];
      (destruct fv; cbn [bind]; rewrite ?first_last_ok by lia; cbn [bind];
       destruct fu; cbn [bind]; rewrite ?first_last_ok by lia; cbn [bind]; rewrite ?Hy, ?Hu;
       unfold resolved; rewrite ?Hy, ?Hu; reflexivity). }
  rewrite E. cbn [bind].
  rewrite scipy_ok.
  - cbn [bind]. apply linear_unc_ok. right. intros k Hk.
    rewrite np_min_inc, np_max_inc by (rewrite ?Hn; auto). specialize (Hin k Hk).
    rewrite Hn. split; apply rltb_false; lra.
  - congruence.
  - lia.
  - discriminate.
  - destruct be as [[|]|]; cbn [resolved]; auto; destruct fv; discriminate.
  - intros _ k Hk. apply inside_flags. rewrite Hn. auto.
Qed.

Example C40_case : exists o,
  interp1d_unc (of_list [1; 1/2; 3]) (of_list [0; 1; 3]) (of_list [0; 2; 6]) (of_list [1; 1; 2])
    KLinear None (FFloat None) (FFloat None) true false = Ok o /\
  io_y o 1%nat = Some 1 /\ io_u o 1%nat = Some (sqrt (1 / 2)).
Proof.
  assert (Hinc : increasing 3 (of_list [0; 1; 3])).
  { intros [|[|[|i]]] [|[|[|j]]] ? ?; try lia; cbn; lra. }
  destruct (C40_linear_returns (of_list [1; 1/2; 3]) (of_list [0; 1; 3]) (of_list [0; 2; 6])
    (of_list [1; 1; 2]) None (FFloat None) (FFloat None) 3) as [o E]; auto; try discriminate.
  { intros [|[|[|k]]] Hk; cbn in *; try lia; lra. }
  exists o. split; auto.
  assert (Hs : in_segment 3 (of_list [0; 1; 3]) 0 (of_list [1; 1/2; 3] 1%nat)) by (split; [lia|cbn; lra]).
  destruct (interp_inv _ _ _ _ _ _ _ _ _ _ E) as (_ & _ & Hn1 & _ & _ & yn & Ey & [[_ L]|[K _]]); [|congruence].
  destruct (linear_unc_inv _ _ _ _ _ _ _ Hn1 Hinc L) as (_ & _ & _ & D & _).
  destruct (C40_linear_law _ _ _ _ _ _ _ _ _ 3 1 0 (eq_refl : alen (of_list [0; 1; 3]) = 3%nat) ltac:(lia) Hinc E ltac:(cbn; lia) Hs)
    as (_ & _ & _ & Y & _).
  split.
  - rewrite Y. f_equal. unfold chord. cbn. field.
  - rewrite (D 1%nat) by (cbn; lia). rewrite (lin_u_inside _ _ _ _ _ 0); auto.
    f_equal. f_equal. unfold seg_var. cbn. field. cbn; lia.
Qed.

(** ** C41 *)
Lemma at_most_two_above n (t : vec) v : is_above t v = true -> is_below t v || is_above t v = true ->
  (1 <= n)%nat -> increasing (alen t) t -> (1 <= alen t)%nat ->
  forall j, (j < n)%nat -> lin_row t n v j = if (j =? n - 1)%nat then 1 else 0.
Proof.
  intros Ha Ho Hn Hinc Ht j Hj. unfold lin_row. cbv zeta. rewrite Ho, Ha.
  assert (B : is_below t v = false).
  { apply rltb_false. flags. pose proof (increasing_le _ t 0 (alen t - 1) Hinc). 
    assert (t 0%nat <= t (alen t - 1)%nat) by (apply H; lia). lra. }
  rewrite B. destruct (j =? n - 1)%nat; auto. destruct (j =? 0)%nat; auto.
Qed.

(** With returnC=True: C has one row per query point and one column per node; rows are
    non-negative, sum to one and have at most two non-zero, adjacent entries; the
    uncertainties are the ones of C y for uncorrelated y; so is the value, outside the
    range if fill_value="extrapolate"; values and uncertainties are the same as without. *)
Theorem C41_sensitivities : forall t_new t y uy be fv fu o n,
  alen t = n -> (2 <= n)%nat -> increasing n t ->
  interp1d_unc t_new t y uy KLinear be fv fu true true = Ok o ->
  exists C, io_C o = Some C /\ mrows C = alen t_new /\ mcols C = n /\
  forall k, (k < alen t_new)%nat ->
    (forall j, (j < n)%nat -> 0 <= C k j) /\
    rsum n (fun j => C k j) = 1 /\
    (exists i, forall j, (j < n)%nat -> C k j <> 0 -> j = i \/ j = S i) /\
    (exists u, io_u o k = Some u /\ u ^ 2 = rsum n (fun j => C k j ^ 2 * uy j ^ 2)) /\
    (t 0%nat <= t_new k <= t (n - 1)%nat \/ fv = FExtrapolate ->
       io_y o k = Some (rsum n (fun j => C k j * y j))).
Proof.
  intros t_new t y uy be fv fu o n Hn Hn2 Hinc H. subst n.
  destruct (interp_inv _ _ _ _ _ _ _ _ _ _ H) as (Hy & Hu & Hn1 & _ & HC & yn & Ey & [[_ L]|[K _]]);
    [|congruence].
  destruct (linear_unc_inv _ _ _ _ _ _ _ Hn1 Hinc L) as (A & B & C0 & D & C & EC & R1 & R2 & RC).
  destruct (scipy_inv _ _ _ _ _ _ _ Ey) as (_ & _ & _ & _ & E & Hout & F).
  exists C. rewrite EC. split; [auto|split; [auto|split; [congruence|]]].
  intros k Hk. rewrite Hu in *.
  assert (HR : forall j, C k j = lin_row t (alen t) (t_new k) j) by (intros; apply RC).
  destruct (is_below t (t_new k) || is_above t (t_new k)) eqn:Eo.
  - (* outside: bounds_error=False and fill_unc="extrapolate" *)
    assert (Hbe : be = Some false).
    { destruct be as [[|]|]; auto; exfalso; destruct (Hout ltac:(discriminate) k Hk) as [P Q];
        rewrite P, Q in Eo; discriminate. }
    assert (Hfu : fu = FExtrapolate) by auto. subst be fu.
    assert (Hend : exists e, (e < alen t)%nat /\ (forall j, (j < alen t)%nat -> C k j = if (j =? e)%nat then 1 else 0)
                  /\ io_u o k = Some (uy e) /\ (fv = FExtrapolate -> io_y o k = Some (y e))).
    { destruct (is_above t (t_new k)) eqn:Ea.
      - exists (alen t - 1)%nat. split; [lia|]. split.
        + intros j Hj. rewrite HR. apply at_most_two_above; auto. now rewrite Ea, orb_true_r.
        + split.
          * rewrite D by auto. unfold lin_u. cbv zeta. rewrite Ea, Eo. cbn [fill_at resolved].
            rewrite Ea, Hu. reflexivity.
          * intros ->. rewrite B, F. unfold scipy_val. rewrite Ea. cbn. rewrite Hy. reflexivity.
      - assert (Eb : is_below t (t_new k) = true) by (rewrite orb_false_r in Eo; auto).
        exists 0%nat. split; [lia|]. split.
        + intros j Hj. rewrite HR. unfold lin_row. cbv zeta. rewrite Ea, Eb. cbn [orb].
          destruct (Nat.eqb_spec j (alen t - 1)), (Nat.eqb_spec j 0); try lia; auto.
        + split.
          * rewrite D by auto. unfold lin_u. cbv zeta. rewrite Ea, Eb. cbn [orb fill_at resolved].
            rewrite Ea. reflexivity.
          * intros ->. rewrite B, F. unfold scipy_val. rewrite Ea, Eb. reflexivity. }
    destruct Hend as (e & He & Hrow & Hue & Hye).
    assert (Hsum : forall g, rsum (alen t) (fun j => C k j * g j) = g e).
    { intros g. rewrite (rsum_ext (alen t) _ (fun j => if (j =? e)%nat then g j else 0)).
      - apply rsum_delta; auto.
      - intros j Hj. rewrite Hrow by auto. destruct (j =? e)%nat; ring. }
    split; [|split; [|split; [|split]]].
    + intros j Hj. rewrite Hrow by auto. destruct (j =? e)%nat; lra.
    + rewrite <- (Hsum (fun _ => 1)). apply rsum_ext; intros; ring.
    + exists e. intros j Hj Hne. rewrite Hrow in Hne by auto.
      destruct (Nat.eqb_spec j e); auto. lra.
    + exists (uy e). split; auto. rewrite <- (Hsum (fun j => uy j ^ 2)). apply rsum_ext; intros j Hj.
      rewrite Hrow by auto. destruct (j =? e)%nat; ring.
    + intros [Hin|Hf].
      * destruct (inside_flags t (t_new k) Hin) as [P Q]. rewrite P, Q in Eo. discriminate.
      * rewrite Hsum. auto.
  - (* inside *)
    apply orb_false_iff in Eo. destruct Eo as [Eb Ea].
    assert (Hin : t 0%nat <= t_new k <= t (alen t - 1)%nat).
    { apply rltb_false in Eb. apply rltb_false in Ea. lra. }
    destruct (hi_lo t (t_new k) Hn2 Hinc Hin) as [i [Ei Hs]].
    pose proof (seg_pos _ _ _ _ Hinc Hs) as Hp. assert (Hs' := Hs). destruct Hs' as [Hi Hv].
    assert (Hrow : forall j, C k j = if (j =? S i)%nat then (t_new k - t i) / (t (S i) - t i)
              else if (j =? i)%nat then (t_new k - t (S i)) / (t i - t (S i)) else 0).
    { intros j. rewrite HR. apply lin_row_inside; auto. }
    assert (Ri : C k i = (t (S i) - t_new k) / (t (S i) - t i)).
    { rewrite Hrow. destruct (Nat.eqb_spec i (S i)); [lia|]. rewrite Nat.eqb_refl. field. lra. }
    assert (RS : C k (S i) = (t_new k - t i) / (t (S i) - t i)).
    { rewrite Hrow, Nat.eqb_refl. reflexivity. }
    assert (R0 : forall j, j <> i -> j <> S i -> C k j = 0).
    { intros j H1 H2. rewrite Hrow. destruct (Nat.eqb_spec j (S i)); [lia|].
      destruct (Nat.eqb_spec j i); [lia|]. reflexivity. }
    assert (Hsum : forall g, rsum (alen t) (fun j => C k j * g j) = C k i * g i + C k (S i) * g (S i)).
    { intros g. rewrite (rsum_two (alen t) i); auto. intros j _ H1 H2. rewrite R0 by auto. ring. }
    split; [|split; [|split; [|split]]].
    + intros j Hj. destruct (Nat.eq_dec j i) as [->|N1]; [|destruct (Nat.eq_dec j (S i)) as [->|N2]].
      * rewrite Ri. apply Rmult_le_pos; [lra|]. apply Rlt_le, Rinv_0_lt_compat. lra.
      * rewrite RS. apply Rmult_le_pos; [lra|]. apply Rlt_le, Rinv_0_lt_compat. lra.
      * rewrite R0 by auto. lra.
    + rewrite (rsum_ext _ _ (fun j => C k j * 1)) by (intros; ring).
      rewrite (Hsum (fun _ => 1)), Ri, RS. field. lra.
    + exists i. intros j Hj Hne. destruct (Nat.eq_dec j i); auto.
      destruct (Nat.eq_dec j (S i)); auto. exfalso. apply Hne, R0; auto.
    + exists (sqrt (seg_var t uy i (t_new k))). split.
      * rewrite D by auto. apply lin_u_inside; auto.
      * rewrite pow2_sqrt by apply seg_var_nonneg.
        rewrite (rsum_two (alen t) i); auto.
        -- rewrite Ri, RS. unfold seg_var. reflexivity.
        -- intros j _ H1 H2. rewrite R0 by auto. ring.
    + intros _. rewrite B, F. unfold scipy_val. rewrite Ea, Eb. f_equal.
      rewrite (np_interp_chord t y (t_new k) i) by auto.
      rewrite Hsum, Ri, RS. unfold chord. field. lra.
Qed.

(** The call without returnC gives the same values and uncertainties. *)
Theorem C41_same_with_and_without : forall t_new t y uy be fv fu o n,
  alen t = n -> (2 <= n)%nat -> increasing n t ->
  interp1d_unc t_new t y uy KLinear be fv fu true true = Ok o ->
  exists o', interp1d_unc t_new t y uy KLinear be fv fu true false = Ok o' /\
    io_t o' = io_t o /\ io_y o' = io_y o /\ alen (io_u o') = alen (io_u o) /\
    forall k, (k < alen t_new)%nat -> io_u o' k = io_u o k.
Proof.
  intros t_new t y uy be fv fu o n Hn Hn2 Hinc H. subst n.
  destruct (interp_inv _ _ _ _ _ _ _ _ _ _ H) as (Hy & Hu & Hn1 & _ & HC & yn & Ey & [[_ L]|[K _]]);
    [|congruence].
  destruct (linear_unc_inv _ _ _ _ _ _ _ Hn1 Hinc L) as (A & B & C0 & D & _).
  assert (X : exists o', linear_unc t_new t uy yn (resolved be fu uy) false = Ok o').
  { unfold linear_unc in L |- *.
    match type of L with bind ?m _ = _ => destruct m as [g|]; [|discriminate] end.
    eexists; reflexivity. }
  destruct X as [o' L'].
  destruct (linear_unc_inv _ _ _ _ _ _ _ Hn1 Hinc L') as (A' & B' & C0' & D' & _).
  exists o'. split.
  - unfold interp1d_unc in H |- *. cbn [bind] in H |- *. rewrite Hy, Hu in *.
    rewrite Nat.eqb_refl in H |- *. cbn [negb] in H |- *.
    match goal with |- bind ?m _ = _ => assert (E : m = Ok (resolved be fv y, resolved be fu uy)) end.
    { destruct be as [[|]|]; [reflexivity| |];
        (destruct fv; cbn [bind]; rewrite ?first_last_ok by lia; cbn [bind];
         destruct fu; cbn [bind]; rewrite ?first_last_ok by lia; cbn [bind]; reflexivity). }
    rewrite E. cbn [bind]. rewrite Ey. cbn [bind]. exact L'.
  - split; [congruence|split; [congruence|split; [congruence|]]].
    intros k Hk. rewrite D, D' by auto.
    unfold lin_u. cbv zeta.
    destruct (is_below t (t_new k) || is_above t (t_new k)) eqn:Eo; auto.
    apply orb_false_iff in Eo. destruct Eo as [Eb Ea].
    assert (Hin : t 0%nat <= t_new k <= t (alen t - 1)%nat).
    { apply rltb_false in Eb. apply rltb_false in Ea. lra. }
    destruct (hi_lo t (t_new k) Hn2 Hinc Hin) as [i [Ei Hs]].
    pose proof (lin_u_inside t uy (FFloat None) true (t_new k) i Hu Hn2 Hinc Hs) as U1.
    pose proof (lin_u_inside t uy (FFloat None) false (t_new k) i Hu Hn2 Hinc Hs) as U2.
    unfold lin_u in U1, U2. cbv zeta in U1, U2. rewrite Ea, Eb in U1, U2. cbn [orb] in U1, U2.
    congruence.
Qed.

Example C41_case : exists o,
  interp1d_unc (of_list [1/2; 5]) (of_list [0; 1; 3]) (of_list [0; 2; 6]) (of_list [1; 1; 2])
    KLinear (Some false) FExtrapolate FExtrapolate true true = Ok o /\
  io_y o 1%nat = Some 6 /\ io_u o 1%nat = Some 2.
Proof.
  assert (Hinc : increasing 3 (of_list [0; 1; 3])).
  { intros [|[|[|i]]] [|[|[|j]]] ? ?; try lia; cbn; lra. }
  set (tn := of_list [1/2; 5]). set (t := of_list [0; 1; 3]). set (y := of_list [0; 2; 6]).
  set (u := of_list [1; 1; 2]).
  assert (Sc : scipy_interp1d t y KLinear (Some false) (FPair (Some 0) (Some 6)) tn
          = Ok (mkArr 2 (fun i => scipy_val t y KLinear (FPair (Some 0) (Some 6)) (tn i)))).
  { apply scipy_ok; auto; try discriminate; first [cbn; lia | intros F; congruence]. }
  destruct (linear_unc_ok tn t u (mkArr 2 (fun i => scipy_val t y KLinear (FPair (Some 0) (Some 6)) (tn i)))
             (FPair (Some 1) (Some 2)) true) as [o Eo]; [left; exact I|].
  exists o. split.
  - unfold interp1d_unc. cbn [bind]. change (alen y =? alen u)%nat with true. cbn [negb].
    change (first_last y) with (Ok (Some 0, Some 6)).
    change (first_last u) with (Ok (Some 1, Some 2)). cbn [bind].
    rewrite Sc. cbn [bind]. exact Eo.
  - destruct (linear_unc_inv tn t u _ _ _ _ ltac:(cbn; lia) Hinc Eo) as (_ & B & _ & D & _).
    assert (Ea : is_above t (tn 1%nat) = true) by (apply rltb_true; cbn; lra).
    split.
    + rewrite B. cbn [aget]. unfold scipy_val. rewrite Ea. reflexivity.
    + rewrite D by (cbn; lia). unfold lin_u. cbv zeta. rewrite Ea, orb_true_r. cbn [fill_at].
      rewrite Ea. reflexivity.
Qed.

(** ** C42 *)
Theorem C42_linear_at_node : forall t_new t y uy be fv fu rC o n k i,
  alen t = n -> (2 <= n)%nat -> increasing n t ->
  interp1d_unc t_new t y uy KLinear be fv fu true rC = Ok o ->
  (k < alen t_new)%nat -> (i < n)%nat -> t_new k = t i -> 0 <= uy i ->
  io_y o k = Some (y i) /\ io_u o k = Some (uy i).
Proof.
  intros t_new t y uy be fv fu rC o n k i Hn Hn2 Hinc H Hk Hi Ht Hu0. subst n.
  destruct (interp_inv _ _ _ _ _ _ _ _ _ _ H) as (Hy & Hu & Hn1 & _ & _ & yn & Ey & [[_ L]|[K _]]);
    [|congruence].
  destruct (linear_unc_inv _ _ _ _ _ _ _ Hn1 Hinc L) as (A & B & C & D & _).
  destruct (le_lt_dec (alen t) (S i)) as [Hl|Hl].
  - (* last node *)
    destruct i as [|i]; [lia|].
    assert (Hs : in_segment (alen t) t i (t_new k)).
    { split; [lia|]. rewrite Ht. assert (t i < t (S i)) by (apply Hinc; lia). lra. }
    pose proof (seg_pos _ _ _ _ Hinc Hs).
    destruct (C40_linear_law _ _ _ _ _ _ _ _ _ _ k i eq_refl Hn2 Hinc H Hk Hs) as (_ & _ & _ & Y & _).
    split.
    + rewrite Y. f_equal. unfold chord. rewrite Ht. field. lra.
    + rewrite D, (lin_u_inside t uy _ _ _ i) by auto. f_equal.
      rewrite <- (sqrt_pow2 (uy (S i))) by auto. f_equal. unfold seg_var. rewrite Ht. field. lra.
  - assert (Hs : in_segment (alen t) t i (t_new k)).
    { split; [lia|]. rewrite Ht. assert (t i < t (S i)) by (apply Hinc; lia). lra. }
    pose proof (seg_pos _ _ _ _ Hinc Hs).
    destruct (C40_linear_law _ _ _ _ _ _ _ _ _ _ k i eq_refl Hn2 Hinc H Hk Hs) as (_ & _ & _ & Y & _).
    split.
    + rewrite Y. f_equal. unfold chord. rewrite Ht. field. lra.
    + rewrite D, (lin_u_inside t uy _ _ _ i) by auto. f_equal.
      rewrite <- (sqrt_pow2 (uy i)) by auto. f_equal. unfold seg_var. rewrite Ht. field. lra.
Qed.

Theorem C42_linear_bounds : forall t_new t y uy be fv fu rC o n k i,
  alen t = n -> (2 <= n)%nat -> increasing n t ->
  interp1d_unc t_new t y uy KLinear be fv fu true rC = Ok o ->
  (k < alen t_new)%nat -> in_segment n t i (t_new k) -> 0 <= uy i -> 0 <= uy (S i) ->
  exists u, io_u o k = Some u /\ 0 <= u <= Rmax (uy i) (uy (S i)).
Proof.
  intros t_new t y uy be fv fu rC o n k i Hn Hn2 Hinc H Hk Hs H0 H1. subst n.
  destruct (interp_inv _ _ _ _ _ _ _ _ _ _ H) as (Hy & Hu & Hn1 & _ & _ & yn & Ey & [[_ L]|[K _]]);
    [|congruence].
  destruct (linear_unc_inv _ _ _ _ _ _ _ Hn1 Hinc L) as (A & B & C & D & _).
  exists (sqrt (seg_var t uy i (t_new k))). split; [rewrite D by auto; apply lin_u_inside; auto|].
  split; [apply sqrt_pos|].
  pose proof (seg_pos _ _ _ _ Hinc Hs) as Hp. destruct Hs as [Hi Hv].
  set (m := Rmax (uy i) (uy (S i))).
  assert (M0 : uy i <= m) by apply Rmax_l. assert (M1 : uy (S i) <= m) by apply Rmax_r.
  rewrite <- (sqrt_pow2 m) by lra. apply sqrt_le_1_alt. unfold seg_var.
  set (a := (t (S i) - t_new k) / (t (S i) - t i)). set (b := (t_new k - t i) / (t (S i) - t i)).
  assert (Ha : 0 <= a) by (apply Rmult_le_pos; [lra|apply Rlt_le, Rinv_0_lt_compat; lra]).
  assert (Hb : 0 <= b) by (apply Rmult_le_pos; [lra|apply Rlt_le, Rinv_0_lt_compat; lra]).
  assert (Hab : a + b = 1) by (unfold a, b; field; lra).
  assert (S0 : uy i ^ 2 <= m ^ 2) by (apply pow_incr; lra).
  assert (S1 : uy (S i) ^ 2 <= m ^ 2) by (apply pow_incr; lra).
  assert (a ^ 2 * uy i ^ 2 <= a ^ 2 * m ^ 2) by (apply Rmult_le_compat_l; auto; apply pow2_ge_0).
  assert (b ^ 2 * uy (S i) ^ 2 <= b ^ 2 * m ^ 2) by (apply Rmult_le_compat_l; auto; apply pow2_ge_0).
  assert (a ^ 2 + b ^ 2 <= 1) by nra.
  assert (0 <= m ^ 2) by apply pow2_ge_0. nra.
Qed.

(** The look-up kinds take value and uncertainty from one node: the last one not after,
    the first one not before, the (a) closest one. *)
Definition right_node (k : kind) (n : nat) (t : nat -> R) (i : nat) (v : R) : Prop :=
  match k with
  | KPrevious => t i <= v /\ forall j, (j < n)%nat -> t j <= v -> t j <= t i
  | KNext => v <= t i /\ forall j, (j < n)%nat -> v <= t j -> t i <= t j
  | KNearest => forall j, (j < n)%nat -> Rabs (t i - v) <= Rabs (t j - v)
  | _ => False
  end.
Theorem C42_lookup_kinds : forall t_new t y uy kd be fv fu rC o n k,
  kd = KPrevious \/ kd = KNext \/ kd = KNearest ->
  alen t = n -> increasing n t ->
  interp1d_unc t_new t y uy kd be fv fu true rC = Ok o ->
  (k < alen t_new)%nat -> t 0%nat <= t_new k <= t (n - 1)%nat ->
  exists i, (i < n)%nat /\ right_node kd n t i (t_new k) /\
    io_y o k = Some (y i) /\ io_u o k = Some (uy i).
Proof.
  intros t_new t y uy kd be fv fu rC o n k Hkd Hn Hinc H Hk Hin. subst n.
  destruct (interp_inv _ _ _ _ _ _ _ _ _ _ H)
    as (Hy & Hu & Hn1 & _ & _ & yn & Ey & [[K _]|[_ [_ [un [Eu Eo]]]]]);
    [destruct Hkd as [?|[?|?]]; congruence|].
  destruct (scipy_inv _ _ _ _ _ _ _ Ey) as (_ & _ & _ & _ & _ & _ & F).
  destruct (scipy_inv _ _ _ _ _ _ _ Eu) as (_ & _ & _ & _ & _ & _ & G).
  exists (node_index kd t (t_new k)). split; [apply node_index_lt; auto|].
  destruct (inside_flags t _ Hin) as [P Q].
  rewrite Eo. cbn [io_y io_u]. rewrite F, G. unfold scipy_val. rewrite P, Q.
  split; [|destruct Hkd as [-> | [-> | ->]]; auto].
  destruct Hkd as [-> | [-> | ->]]; cbn [right_node].
  - apply previous_spec; auto; lra.
  - apply next_spec; auto; lra.
  - intros j Hj. apply nearest_spec; auto.
Qed.

Lemma inc013 : increasing 3 (of_list [0; 1; 3]).
Proof. intros [|[|[|i]]] [|[|[|j]]] ? ?; try lia; cbn; lra. Qed.
Example C42_case : exists o,
  interp1d_unc (of_list [5/2]) (of_list [0; 1; 3]) (of_list [0; 2; 6]) (of_list [1; 1; 2])
    KNearest None (FFloat None) (FFloat None) true false = Ok o /\
  exists i, (i < 3)%nat /\ right_node KNearest 3 (of_list [0; 1; 3]) i (5/2) /\
    io_y o 0%nat = Some (of_list [0; 2; 6] i) /\ io_u o 0%nat = Some (of_list [1; 1; 2] i).
Proof.
  set (t := of_list [0; 1; 3]).
  assert (S1 : forall y, alen y = 3%nat -> scipy_interp1d t y KNearest None (FFloat None) (of_list [5/2])
     = Ok (mkArr 1 (fun i => scipy_val t y KNearest (FFloat None) (of_list [5/2] i)))).
  { intros y Hy. apply scipy_ok; auto; try discriminate; [cbn; lia|].
    intros _ k Hk; destruct k as [|k]; [|cbn in Hk; lia]. apply inside_flags. cbn. lra. }
  assert (E : interp1d_unc (of_list [5/2]) t (of_list [0; 2; 6]) (of_list [1; 1; 2])
    KNearest None (FFloat None) (FFloat None) true false =
    Ok (mkInterp (of_list [5/2]) (mkArr 1 (fun i => scipy_val t (of_list [0; 2; 6]) KNearest (FFloat None) (of_list [5/2] i)))
      (mkArr 1 (fun i => scipy_val t (of_list [1; 1; 2]) KNearest (FFloat None) (of_list [5/2] i))) None)).
  { unfold interp1d_unc. cbn [bind alen of_list length Nat.eqb negb].
    rewrite S1 by reflexivity. cbn [bind]. rewrite S1 by reflexivity. reflexivity. }
  eexists. split; [exact E|].
  apply (C42_lookup_kinds _ _ _ _ _ _ _ _ _ _ 3 0 (or_intror (or_intror eq_refl)) (eq_refl : alen (of_list [0; 1; 3]) = 3%nat) inc013 E);
    cbn; [lia|lra].
Qed.

(** ** C43 *)
Theorem C43_out_of_range_rejected : forall t_new t y uy kd be fv fu rC n k,
  alen t = n -> (1 <= n)%nat -> alen y = n -> alen uy = n -> kd <> KOther ->
  be <> Some false -> (k < alen t_new)%nat ->
  t_new k < t 0%nat \/ t (n - 1)%nat < t_new k ->
  interp1d_unc t_new t y uy kd be fv fu true rC = Err ValueError.
Proof.
  intros t_new t y uy kd be fv fu rC n k Hn H1 Hy Hu Hkd Hbe Hk Hout.
  unfold interp1d_unc. cbn [bind]. rewrite Hy, Hu, Nat.eqb_refl. cbn [negb].
  match goal with |- bind ?m _ = _ => assert (E : m = Ok (resolved be fv y, resolved be fu uy)) end.
  { destruct be as [[|]|]; [reflexivity|congruence|].
    destruct fv; cbn [bind]; rewrite ?first_last_ok by lia; cbn [bind];
       destruct fu; cbn [bind]; rewrite ?first_last_ok by lia; cbn [bind]; reflexivity. }
  rewrite E. cbn [bind].
  rewrite (scipy_out_of_range t y kd be (resolved be fv y) t_new k); auto; try congruence; try lia.
  - destruct be as [[|]|]; auto; try congruence. destruct fv; discriminate.
  - unfold is_below, is_above. rewrite Hn.
    destruct Hout as [O|O]; apply rltb_true in O; rewrite O; auto. apply orb_true_r.
Qed.

(** Fill values: what the caller asked for on either side. *)
Definition fill_left (f : fill) (v : nat -> R) : option R :=
  match f with FFloat x => x | FInt z => Some (IZR z) | FPair b _ => b | FExtrapolate => Some (v 0%nat) end.
Definition fill_right (n : nat) (f : fill) (v : nat -> R) : option R :=
  match f with
  | FFloat x => x | FInt z => Some (IZR z) | FPair _ a => a | FExtrapolate => Some (v (n - 1)%nat)
  end.
Definition no_int (f : fill) : Prop := match f with FInt _ => False | _ => True end.

(** Any other kind of interpolation is not supported. *)
Theorem C43_other_kinds : forall t_new t y uy be fv fu rC n,
  alen t = n -> (1 <= n)%nat -> alen y = n -> alen uy = n ->
  interp1d_unc t_new t y uy KOther be fv fu true rC = Err NotImplementedError.
Proof.
  intros t_new t y uy be fv fu rC n Hn H1 Hy Hu. unfold interp1d_unc. cbn [bind].
  rewrite Hy, Hu, Nat.eqb_refl. cbn [negb].
  assert (E : forall v f, alen v = n -> scipy_interp1d t v KOther be f t_new = Err NotImplementedError).
  { intros v f Hv. unfold scipy_interp1d. rewrite Hv, Hn, Nat.eqb_refl. reflexivity. }
  destruct be as [[|]|]; cbn [bind].
  - rewrite E by exact Hy. reflexivity.
  - destruct fv, fu; rewrite ?first_last_ok by lia; destruct rC; cbn [bind];
      rewrite ?first_last_ok by lia; cbn [bind]; rewrite ?E by exact Hy; reflexivity.
  - destruct fv, fu; rewrite ?first_last_ok by lia; destruct rC; cbn [bind];
      rewrite ?first_last_ok by lia; cbn [bind]; rewrite ?E by exact Hy; reflexivity.
Qed.
Example C43_other_example :
  interp1d_unc (of_list [1]) (of_list [0; 2]) (of_list [3; 4]) (of_list [1; 1]) KOther None (FFloat None) (FFloat None) true false
    = Err NotImplementedError.
Proof. apply C43_other_kinds with (n := 2%nat); cbn; auto. Qed.
(** bounds_error=False: the call returns, and points on either side get the fill values
    (an int for fill_unc: see C90; n >= 2 for the linear kind: see C91). *)
Theorem C43_fill_values : forall t_new t y uy kd fv fu n,
  alen t = n -> (1 <= n)%nat -> increasing n t -> alen y = n -> alen uy = n -> kd <> KOther ->
  (kd = KLinear -> no_int fu) ->
  exists o, interp1d_unc t_new t y uy kd (Some false) fv fu true false = Ok o /\
    alen (io_y o) = alen t_new /\ alen (io_u o) = alen t_new /\
    forall k, (k < alen t_new)%nat ->
      (t_new k < t 0%nat -> io_y o k = fill_left fv y /\ io_u o k = fill_left fu uy) /\
      (t (n - 1)%nat < t_new k -> io_y o k = fill_right n fv y /\ io_u o k = fill_right n fu uy).
Proof.
  intros t_new t y uy kd fv fu n Hn H1 Hinc Hy Hu Hkd Hint. subst n.
  assert (Hends : forall v, t (alen t - 1)%nat < v -> ~ v < t 0%nat).
  { intros v A B. assert (t 0%nat <= t (alen t - 1)%nat) by (apply increasing_le with (alen t); auto; lia). lra. }
  assert (Hfl : forall f v, alen v = alen t -> forall x, x < t 0%nat ->
            is_below t x = true /\ is_above t x = false /\ fill_below (resolved (Some false) f v) = fill_left f v).
  { intros f v Hv x Hx. split; [apply rltb_true; auto|]. split.
    - apply rltb_false. destruct (Rle_lt_dec x (t (alen t - 1)%nat)); auto. exfalso. eapply Hends; eauto.
    - destruct f; reflexivity. }
  assert (Hfr : forall f v, alen v = alen t -> forall x, t (alen t - 1)%nat < x ->
            is_above t x = true /\ fill_above (resolved (Some false) f v) = fill_right (alen t) f v).
  { intros f v Hv x Hx. split; [apply rltb_true; auto|]. destruct f; cbn; rewrite ?Hv; reflexivity. }
  assert (Sc : forall v f, alen v = alen t -> scipy_interp1d t v kd (Some false) (resolved (Some false) f v) t_new
      = Ok (mkArr (alen t_new) (fun i => scipy_val t v kd (resolved (Some false) f v) (t_new i)))).
  { intros v f Hv. apply scipy_ok; auto.
    - destruct f; discriminate.
    - intros C; congruence. }
  assert (E : forall g, interp1d_unc t_new t y uy kd (Some false) fv fu true false = g ->
     match kd with
     | KLinear => linear_unc t_new t uy (mkArr (alen t_new) (fun i => scipy_val t y kd (resolved (Some false) fv y) (t_new i)))
                    (resolved (Some false) fu uy) false
     | KOther => Err NotImplementedError
     | _ => do u_new <- scipy_interp1d t uy kd (Some false) (resolved (Some false) fu uy) t_new ;;
          Ok (mkInterp t_new (mkArr (alen t_new) (fun i => scipy_val t y kd (resolved (Some false) fv y) (t_new i))) u_new None)
     end = g).
  { intros g <-. unfold interp1d_unc. cbn [bind]. rewrite Hy, Hu, Nat.eqb_refl. cbn [negb].
    match goal with |- _ = bind ?m _ => assert (X : m = Ok (resolved (Some false) fv y, resolved (Some false) fu uy)) end.
    { destruct fv; cbn [bind]; rewrite ?first_last_ok by lia; cbn [bind];
       destruct fu; cbn [bind]; rewrite ?first_last_ok by lia; cbn [bind]; reflexivity. }
    rewrite X. cbn [bind]. rewrite (Sc y fv Hy). cbn [bind]. destruct kd; reflexivity. }
  specialize (E _ eq_refl). rewrite <- E. clear E.
  assert (Hy_ : forall k, (t_new k < t 0%nat -> scipy_val t y kd (resolved (Some false) fv y) (t_new k) = fill_left fv y)
          /\ (t (alen t - 1)%nat < t_new k -> scipy_val t y kd (resolved (Some false) fv y) (t_new k) = fill_right (alen t) fv y)).
  { intros k. unfold scipy_val. split; intros Hx.
    - destruct (Hfl fv y Hy _ Hx) as (A & B & C). rewrite A, B, C. auto.
    - destruct (Hfr fv y Hy _ Hx) as (A & B). rewrite A, B. auto. }
  destruct (match kd with KLinear => true | _ => false end) eqn:Ek.
  - assert (kd = KLinear) by (destruct kd; congruence). subst kd.
    destruct (linear_unc_ok t_new t uy (mkArr (alen t_new) (fun i => scipy_val t y KLinear (resolved (Some false) fv y) (t_new i)))
                (resolved (Some false) fu uy) false) as [o Eo].
    { left. specialize (Hint eq_refl). destruct fu; cbn; auto. }
    exists o. split; [exact Eo|].
    destruct (linear_unc_inv _ _ _ _ _ _ _ H1 Hinc Eo) as (A & B & C & D & _).
    rewrite B. cbn [alen aget]. split; [auto|split; [auto|]]. intros k Hk.
    rewrite D by auto. destruct (Hy_ k) as [Y1 Y2].
    unfold lin_u. cbv zeta. specialize (Hint eq_refl). split; intros Hx.
    + split; [auto|]. destruct (Hfl fu uy Hu _ Hx) as (P & Q & _). rewrite P, Q. cbn [orb].
      destruct fu; cbn [fill_at resolved fill_left] in *; try rewrite Q; auto; contradiction.
    + split; [auto|]. destruct (Hfr fu uy Hu _ Hx) as (P & _). rewrite P, orb_true_r.
      destruct fu; cbn [fill_at resolved fill_right] in *; try rewrite P; rewrite ?Hu; auto; contradiction.
  - assert (EE : exists o, o = mkInterp t_new (mkArr (alen t_new) (fun i => scipy_val t y kd (resolved (Some false) fv y) (t_new i)))
       (mkArr (alen t_new) (fun i => scipy_val t uy kd (resolved (Some false) fu uy) (t_new i))) None) by (eexists; reflexivity).
    destruct EE as [o Eo]. exists o. split.
    + rewrite (Sc uy fu Hu), Eo. destruct kd; try discriminate; try congruence; reflexivity.
    + rewrite Eo. cbn [io_y io_u alen aget]. split; [auto|split; [auto|]]. intros k Hk.
      destruct (Hy_ k) as [Y1 Y2]. split; intros Hx; (split; [auto|]); unfold scipy_val.
      * destruct (Hfl fu uy Hu _ Hx) as (A & B & C). rewrite A, B, C. auto.
      * destruct (Hfr fu uy Hu _ Hx) as (A & B). rewrite A, B. auto.
Qed.

(** Points inside the range get the same result whatever other points and fill values there
    are. *)
Theorem C43_inside_unaffected : forall t_new t_new' t y uy kd be be' fv fu fv' fu' rC rC' o o' n k k',
  alen t = n -> (1 <= n)%nat -> (kd = KLinear -> (2 <= n)%nat) -> increasing n t ->
  interp1d_unc t_new t y uy kd be fv fu true rC = Ok o ->
  interp1d_unc t_new' t y uy kd be' fv' fu' true rC' = Ok o' ->
  (k < alen t_new)%nat -> (k' < alen t_new')%nat -> t_new k = t_new' k' ->
  t 0%nat <= t_new k <= t (n - 1)%nat ->
  io_y o k = io_y o' k' /\ io_u o k = io_u o' k'.
Proof.
  intros t_new t_new' t y uy kd be be' fv fu fv' fu' rC rC' o o' n k k' Hn H1 H2 Hinc E E' Hk Hk' Et Hin.
  subst n.
  destruct (interp_inv _ _ _ _ _ _ _ _ _ _ E)
    as (Hy & Hu & Hn1 & Kd & _ & yn & Ey & R1).
  destruct (interp_inv _ _ _ _ _ _ _ _ _ _ E')
    as (_ & _ & _ & _ & _ & yn' & Ey' & R2).
  destruct (scipy_inv _ _ _ _ _ _ _ Ey) as (_ & _ & _ & _ & _ & _ & F).
  destruct (scipy_inv _ _ _ _ _ _ _ Ey') as (_ & _ & _ & _ & _ & _ & F').
  destruct (inside_flags t _ Hin) as [P Q].
  assert (Y : yn k = yn' k').
  { rewrite F, F', <- Et. unfold scipy_val. rewrite P, Q. reflexivity. }
  destruct R1 as [[K1 L1]|[K1 [_ [un [Eu Eo]]]]]; destruct R2 as [[K2 L2]|[K2 [_ [un' [Eu' Eo']]]]];
    try congruence.
  - destruct (linear_unc_inv _ _ _ _ _ _ _ Hn1 Hinc L1) as (_ & B & _ & D & _).
    destruct (linear_unc_inv _ _ _ _ _ _ _ Hn1 Hinc L2) as (_ & B' & _ & D' & _).
    rewrite B, B'. split; auto. rewrite D, D' by auto. rewrite <- Et.
    destruct (hi_lo t (t_new k) (H2 K1) Hinc Hin) as [i [_ Hs]].
    rewrite !(lin_u_inside t uy _ _ _ i); auto.
  - destruct (scipy_inv _ _ _ _ _ _ _ Eu) as (_ & _ & _ & _ & _ & _ & G).
    destruct (scipy_inv _ _ _ _ _ _ _ Eu') as (_ & _ & _ & _ & _ & _ & G').
    rewrite Eo, Eo'. cbn [io_y io_u]. split; auto.
    rewrite G, G', <- Et. unfold scipy_val. rewrite P, Q. reflexivity.
Qed.

Example C43_case :
  interp1d_unc (of_list [5]) (of_list [0; 1; 3]) (of_list [0; 2; 6]) (of_list [1; 1; 2])
    KLinear None (FFloat None) (FFloat None) true false = Err ValueError.
Proof.
  apply (C43_out_of_range_rejected _ _ _ _ _ _ _ _ _ 3 0); try reflexivity; try discriminate; try (cbn; lia).
  right. cbn. lra.
Qed.
Example C43_case_fill : exists o,
  interp1d_unc (of_list [5; -1]) (of_list [0; 1; 3]) (of_list [0; 2; 6]) (of_list [1; 1; 2])
    KLinear (Some false) (FPair (Some 7) (Some 8)) FExtrapolate true false = Ok o /\
  io_y o 0%nat = Some 8 /\ io_u o 0%nat = Some 2 /\ io_y o 1%nat = Some 7 /\ io_u o 1%nat = Some 1.
Proof.
  destruct (C43_fill_values (of_list [5; -1]) (of_list [0; 1; 3]) (of_list [0; 2; 6]) (of_list [1; 1; 2])
              KLinear (FPair (Some 7) (Some 8)) FExtrapolate 3) as (o & E & _ & _ & H);
    auto using inc013; try discriminate; try (cbn; lia); try (cbn; auto).
  exists o. split; auto.
  destruct (H 0%nat ltac:(cbn; lia)) as [_ H0]. destruct (H 1%nat ltac:(cbn; lia)) as [H1 _].
  destruct H0 as [A B]; [cbn; lra|]. destruct H1 as [C D]; [cbn; lra|].
  rewrite A, B, C, D. repeat split.
Qed.

(** ** C44 *)
(** fill_value="extrapolate", fill_unc="extrapolate" with the default bounds_error=None
    raises ValueError for an out-of-range point. *)
Theorem C44_extrapolate_alone_refuted : exists t_new t y uy n,
  alen t = n /\ (2 <= n)%nat /\ increasing n t /\ alen y = n /\ alen uy = n /\
  interp1d_unc t_new t y uy KLinear None FExtrapolate FExtrapolate true false = Err ValueError.
Proof.
  exists (of_list [5]), (of_list [0; 1; 3]), (of_list [0; 2; 6]), (of_list [1; 1; 2]), 3%nat.
  split; [reflexivity|split; [lia|split; [exact inc013|split; [reflexivity|split; [reflexivity|]]]]].
  apply (C43_out_of_range_rejected _ _ _ _ _ _ _ _ _ 3 0); try reflexivity; try discriminate; try (cbn; lia).
  right. cbn. lra.
Qed.
(** It does with bounds_error=False in addition: constant continuation.  Missing: the
    documented default. *)
Theorem C44_extrapolate_with_bounds_error_partial : forall t_new t y uy kd n k,
  alen t = n -> (1 <= n)%nat -> increasing n t -> alen y = n -> alen uy = n -> kd <> KOther ->
  (k < alen t_new)%nat ->
  exists o, interp1d_unc t_new t y uy kd (Some false) FExtrapolate FExtrapolate true false = Ok o /\
    (t_new k < t 0%nat -> io_y o k = Some (y 0%nat) /\ io_u o k = Some (uy 0%nat)) /\
    (t (n - 1)%nat < t_new k -> io_y o k = Some (y (n - 1)%nat) /\ io_u o k = Some (uy (n - 1)%nat)).
Proof.
  intros t_new t y uy kd n k Hn H1 Hinc Hy Hu Hkd Hk.
  destruct (C43_fill_values t_new t y uy kd FExtrapolate FExtrapolate n) as (o & E & _ & _ & H); auto.
  { intros _. exact I. }
  exists o. split; auto.
Qed.

(** ** C45 *)
Theorem C45_order_irrelevant : forall lt ly lu lt' ly' lu' t_new kd be fv fu rC,
  length ly = length lt -> length lu = length lt -> NoDup lt ->
  length ly' = length lt' -> length lu' = length lt' ->
  Permutation (rows3 lt ly lu) (rows3 lt' ly' lu') ->
  interp1d_unc t_new (of_list lt) (of_list ly) (of_list lu) kd be fv fu false rC
  = interp1d_unc t_new (of_list lt') (of_list ly') (of_list lu') kd be fv fu false rC.
Proof.
  intros lt ly lu lt' ly' lu' t_new kd be fv fu rC Hy Hu Hnd Hy' Hu' Hp.
  apply unsorted_equal; auto.
  destruct (rows3_fst lt ly lu Hy Hu) as [A _]. destruct (rows3_fst lt' ly' lu' Hy' Hu') as [B _].
  rewrite <- B. apply (Permutation_NoDup (l := map fst (rows3 lt ly lu))).
  - apply Permutation_map, Hp.
  - rewrite A. auto.
Qed.
Theorem C45_equals_sorted : forall lt ly lu lt' ly' lu' t_new kd be fv fu rC,
  length ly = length lt -> length lu = length lt ->
  length ly' = length lt' -> length lu' = length lt' ->
  Permutation (rows3 lt ly lu) (rows3 lt' ly' lu') -> StronglySorted Rlt lt' ->
  interp1d_unc t_new (of_list lt) (of_list ly) (of_list lu) kd be fv fu false rC
  = interp1d_unc t_new (of_list lt') (of_list ly') (of_list lu') kd be fv fu true rC.
Proof.
  intros lt ly lu lt' ly' lu' t_new kd be fv fu rC Hy Hu Hy' Hu' Hp Hs.
  rewrite <- (sorted_is_identity lt' ly' lu') by auto.
  assert (Hnd : NoDup lt').
  { clear - Hs. induction Hs as [|a l Hl IH Ha]; constructor; auto.
    intros Hin. rewrite Forall_forall in Ha. specialize (Ha a Hin). lra. }
  symmetry. apply C45_order_irrelevant; auto. symmetry. auto.
Qed.
Example C45_case : forall t_new kd be fv fu rC,
  interp1d_unc t_new (of_list [3; 0; 1]) (of_list [6; 0; 2]) (of_list [2; 1; 1]) kd be fv fu false rC
  = interp1d_unc t_new (of_list [0; 1; 3]) (of_list [0; 2; 6]) (of_list [1; 1; 2]) kd be fv fu true rC.
Proof.
  intros. apply C45_equals_sorted; auto.
  - cbn. apply (Permutation_trans (perm_swap _ _ _)). apply perm_skip, perm_swap.
  - repeat constructor; lra.
Qed.

(** ** C46 *)
(** A superfluous uncertainty is silently dropped when assume_sorted=False. *)
Theorem C46_length_checked_refuted : exists t_new t y uy o,
  alen y <> alen uy /\
  interp1d_unc t_new t y uy KLinear None (FFloat None) (FFloat None) false false = Ok o.
Proof.
  set (t := of_list [0; 1]). set (y := of_list [0; 2]).
  assert (Ea : argsort t = [0; 1]%nat).
  { unfold argsort, t. cbn. destruct (Rle_dec 0 1); [reflexivity|lra]. }
  assert (Hinc : increasing 2 t).
  { intros [|[|i]] [|[|j]] ? ?; try lia; cbn; lra. }
  destruct (C40_linear_returns (of_list [0]) t y (of_list [5; 6]) None (FFloat None) (FFloat None) 2)
    as [o E]; auto; try discriminate.
  { intros [|k] Hk; cbn in *; [lra|lia]. }
  exists (of_list [0]), t, y, (of_list [5; 6; 7]), o. split; [discriminate|].
  rewrite <- E. unfold interp1d_unc at 1. rewrite Ea. reflexivity.
Qed.
(** The check works for sorted data, and a missing uncertainty is an error anyway.
    Missing: superfluous entries of uy with assume_sorted=False. *)
Theorem C46_length_checked_partial :
  (forall t_new t y uy kd be fv fu rC, alen y <> alen uy ->
     interp1d_unc t_new t y uy kd be fv fu true rC = Err ValueError) /\
  (forall t_new t y uy kd be fv fu rC o, (alen uy < alen t \/ alen y < alen t)%nat ->
     interp1d_unc t_new t y uy kd be fv fu false rC <> Ok o).
Proof.
  split.
  - intros. unfold interp1d_unc. cbn [bind]. apply Nat.eqb_neq in H. rewrite H. reflexivity.
  - intros t_new t y uy kd be fv fu rC o H.
    assert (K : forall v : vec, (alen v < alen t)%nat -> np_take v (argsort t) = Err IndexError).
    { intros v Hv. unfold np_take. replace (forallb _ _) with false; auto. symmetry.
      apply not_true_is_false. intros F. rewrite forallb_forall in F.
      assert (In (alen v) (argsort t)).
      { apply (Permutation_in _ (Permutation_sym (isort_perm t (seq 0 (alen t))))). apply in_seq. lia. }
      specialize (F _ H0). apply Nat.ltb_lt in F. lia. }
    unfold interp1d_unc. destruct (np_take t (argsort t)); cbn [bind]; [|discriminate].
    destruct H as [H|H].
    + destruct (np_take y (argsort t)); cbn [bind]; [|discriminate]. rewrite (K uy H). discriminate.
    + rewrite (K y H). discriminate.
Qed.

(** ** C47 *)
Lemma keep_le_all x m i : (i < alen (keep_le x m))%nat ->
  keep_le x m i <= m /\ exists j, (j < alen x)%nat /\ keep_le x m i = x j.
Proof.
  intros Hi. unfold keep_le in *. cbn [alen of_list aget] in *.
  set (l := filter _ _) in *. pose proof (nth_In l 0 Hi) as Hin. unfold l in Hin at 2.
  apply filter_In in Hin. destruct Hin as [Hin Hle]. apply rleb_true in Hle. split; auto.
  apply in_map_iff in Hin. destruct Hin as [j [E Hj]]. exists j. apply in_seq in Hj. split; [lia|auto].
Qed.

(** Whatever grid np.arange produces (starting not before the data, not decreasing), the
    call returns and uses only grid points inside the data range. *)
Theorem C47_never_leaves_range : forall grid t y uy kd n,
  alen t = n -> (1 <= n)%nat -> increasing n t -> alen y = n -> alen uy = n -> kd <> KOther ->
  (1 <= alen grid)%nat ->
  (forall k, (k < alen grid)%nat -> t 0%nat <= grid k) ->
  (forall k, (S k < alen grid)%nat -> grid k <= grid (S k)) ->
  exists o, make_equidistant_on grid t y uy kd = Ok o /\
    (forall k, (k < alen (io_t o))%nat -> t 0%nat <= io_t o k <= t (n - 1)%nat) /\
    (forall k, (k < alen (io_t o))%nat -> exists j, (j < alen grid)%nat /\ io_t o k = grid j) /\
    ((forall k, (k < alen grid)%nat -> grid k <= t (n - 1)%nat) -> io_t o = grid).
Proof.
  intros grid t y uy kd n Hn H1 Hinc Hy Hu Hkd Hg Hlow Hmono.
  unfold make_equidistant_on. destruct (Nat.eqb_spec (alen grid) 0); [lia|].
  rewrite np_max_inc by (rewrite ?Hn; auto). rewrite Hn.
  set (tn := if rltb _ _ then _ else _).
  assert (Hle : forall a b, (a <= b)%nat -> (b < alen grid)%nat -> grid a <= grid b).
  { intros a b Hab. induction Hab as [|b Hab IH]; intros Hb; [lra|].
    apply Rle_trans with (grid b); [apply IH; lia|apply Hmono; lia]. }
  assert (Hin : forall k, (k < alen tn)%nat ->
    (t 0%nat <= tn k <= t (n - 1)%nat) /\ exists j, (j < alen grid)%nat /\ tn k = grid j).
  { unfold tn. destruct (rltb _ _) eqn:E; intros k Hk.
    - destruct (keep_le_all _ _ _ Hk) as [A [j [Hj B]]].
      split; [|exists j; auto]. rewrite B in *. split; auto.
    - apply rltb_false in E. split; [|exists k; auto]. split; auto.
      apply Rle_trans with (grid (alen grid - 1)%nat); auto. apply Hle; lia. }
  assert (Hret : exists o, interp1d_unc tn t y uy kd None (FFloat None) (FFloat None) true false = Ok o /\ io_t o = tn).
  { destruct (match kd with KLinear => true | _ => false end) eqn:Ek.
    - assert (kd = KLinear) by (destruct kd; congruence). subst kd.
      destruct (C40_linear_returns tn t y uy None (FFloat None) (FFloat None) n) as [o E]; auto; try discriminate.
      { intros k Hk. apply Hin; auto. }
      exists o. split; auto. subst n.
      destruct (interp_inv _ _ _ _ _ _ _ _ _ _ E) as (_ & _ & Hn1 & _ & _ & yn & Ey & [[_ L]|[K _]]); [|congruence].
      destruct (linear_unc_inv _ _ _ _ _ _ _ Hn1 Hinc L) as (A & _). auto.
    - unfold interp1d_unc. cbn [bind]. rewrite Hy, Hu, Nat.eqb_refl. cbn [negb].
      assert (Sc : forall v, alen v = n -> exists r, scipy_interp1d t v kd None (FFloat None) tn = Ok r).
      { intros v Hv. eexists. apply scipy_ok; auto; try congruence; try lia.
        intros _ i Hi. apply inside_flags. rewrite Hn. apply Hin; auto. }
      destruct (Sc y Hy) as [r ->]. destruct (Sc uy Hu) as [r' E']. cbn [bind].
      destruct kd; try discriminate; try congruence; rewrite E'; cbn [bind];
        eexists; (split; [reflexivity|reflexivity]). }
  destruct Hret as [o [E Et]]. exists o. split; auto. rewrite Et.
  split; [intros k Hk; apply Hin; auto|]. split; [intros k Hk; apply Hin; auto|].
  intros Hall. unfold tn. destruct (rltb _ _) eqn:Er; auto.
  apply rltb_true in Er. specialize (Hall (alen grid - 1)%nat). assert (grid (alen grid - 1)%nat <= t (n - 1)%nat) by (apply Hall; lia). lra.
Qed.

(** In exact arithmetic: points t[0], t[0]+dt, ... up to the last one before the end. *)
Theorem C47_equidistant : forall t y uy dt kd n,
  alen t = n -> (2 <= n)%nat -> increasing n t -> alen y = n -> alen uy = n -> kd <> KOther ->
  0 < dt ->
  exists o, make_equidistant t y uy dt kd = Ok o /\
    (1 <= alen (io_t o))%nat /\
    (forall k, (k < alen (io_t o))%nat -> io_t o k = t 0%nat + INR k * dt) /\
    (forall k, (k < alen (io_t o))%nat -> io_t o k < t (n - 1)%nat) /\
    t (n - 1)%nat <= io_t o (alen (io_t o) - 1)%nat + dt /\
    interp1d_unc (io_t o) t y uy kd None (FFloat None) (FFloat None) true false = Ok o.
Proof.
  intros t y uy dt kd n Hn H2 Hinc Hy Hu Hkd Hdt.
  unfold make_equidistant. rewrite Hn. destruct (Nat.eqb_spec n 0); [lia|].
  destruct (Req_EM_T dt 0); [lra|].
  rewrite np_max_inc, np_min_inc by (rewrite ?Hn; auto; lia). rewrite Hn.
  set (T0 := t 0%nat). set (T1 := t (n - 1)%nat).
  assert (HT : T0 < T1) by (apply Hinc; lia).
  set (q := (T1 - T0) / dt).
  assert (Hq : 0 < q) by (apply Rdiv_lt_0_compat; lra).
  assert (Hqd : q * dt = T1 - T0) by (unfold q; field; lra).
  assert (Hc : IZR (ceilz q) - 1 < q <= IZR (ceilz q)).
  { unfold ceilz. rewrite opp_IZR. destruct (base_Int_part (- q)) as [A B]. lra. }
  assert (Hpos : (0 < ceilz q)%Z) by (apply lt_IZR; lra).
  set (grid := arange T0 T1 dt).
  assert (Hlen : INR (alen grid) = IZR (ceilz q)).
  { cbn [alen arange grid]. unfold grid; cbn [alen arange]. fold q. rewrite INR_IZR_INZ, Z2Nat.id by lia. reflexivity. }
  assert (Hlen1 : (1 <= alen grid)%nat).
  { unfold grid; cbn [alen arange]; fold q. lia. }
  assert (Hlt : forall k, (k < alen grid)%nat -> grid k < T1).
  { intros k Hk. cbn [aget arange grid]. unfold grid; cbn [aget arange].
    assert (INR k + 1 <= INR (alen grid)) by (rewrite <- S_INR; apply le_INR; lia).
    assert (INR k < q) by lra. nra. }
  destruct (C47_never_leaves_range grid t y uy kd n) as (o & E & _ & _ & G); auto; try lia.
  { intros k Hk. unfold grid; cbn [aget arange]. fold T0. pose proof (pos_INR k). nra. }
  { intros k Hk. unfold grid; cbn [aget arange]. rewrite S_INR. nra. }
  exists o. split; [exact E|].
  rewrite G by (intros k Hk; apply Rlt_le, Hlt; auto).
  split; [auto|split; [reflexivity|split; [auto|split]]].
  - unfold grid at 1; cbn [aget arange]. rewrite minus_INR by lia. cbn [INR]. rewrite Hlen. nra.
  - unfold make_equidistant_on in E. destruct (Nat.eqb_spec (alen grid) 0); [lia|].
    rewrite np_max_inc in E by (rewrite ?Hn; auto; lia). rewrite Hn in E. fold T1 in E.
    assert (Er : rltb T1 (grid (alen grid - 1)%nat) = false).
    { apply rltb_false. apply Rlt_le, Hlt. lia. }
    rewrite Er in E. exact E.
Qed.
(** A time axis without extent has no grid: IndexError. *)
Theorem C47_no_extent : forall t y uy dt kd, alen t = 1%nat -> 0 < dt ->
  make_equidistant t y uy dt kd = Err IndexError.
Proof.
  intros t y uy dt kd Hn Hdt. unfold make_equidistant. rewrite Hn. cbn [Nat.eqb].
  destruct (Req_EM_T dt 0); [lra|].
  assert (E : np_max t = np_min t) by (unfold np_max, np_min; rewrite Hn; reflexivity).
  rewrite E. unfold make_equidistant_on.
  replace (alen (arange (np_min t) (np_min t) dt) =? 0)%nat with true; auto.
  symmetry. apply Nat.eqb_eq. cbn [alen arange].
  replace ((np_min t - np_min t) / dt) with 0 by (field; lra).
  unfold ceilz. rewrite Ropp_0.
  assert (Int_part 0 = 0%Z).
  { destruct (base_Int_part 0) as [A B].
    assert (Int_part 0 <= 0)%Z by (apply le_IZR; lra).
    assert (-1 < Int_part 0)%Z by (apply lt_IZR; lra). lia. }
  rewrite H. reflexivity.
Qed.
Example C47_case : exists o,
  make_equidistant (of_list [0; 1; 3]) (of_list [0; 2; 6]) (of_list [1; 1; 2]) (1/2) KLinear = Ok o /\
  (1 <= alen (io_t o))%nat.
Proof.
  destruct (C47_equidistant (of_list [0; 1; 3]) (of_list [0; 2; 6]) (of_list [1; 1; 2]) (1/2) KLinear 3)
    as (o & E & L & _); auto using inc013; try discriminate; try lra; try lia.
  exists o; auto.
Qed.

(** ** C90 *)
(** fill_unc=0 (an int) with an out-of-range point: TypeError for the linear kind. *)
Theorem C90_int_fill_unc_refuted : exists t_new t y uy n,
  alen t = n /\ (2 <= n)%nat /\ increasing n t /\ alen y = n /\ alen uy = n /\
  interp1d_unc t_new t y uy KLinear (Some false) (FInt 0) (FInt 0) true false = Err TypeError.
Proof.
  exists (of_list [5]), (of_list [0; 1; 3]), (of_list [0; 2; 6]), (of_list [1; 1; 2]), 3%nat.
  split; [reflexivity|split; [lia|split; [exact inc013|split; [reflexivity|split; [reflexivity|]]]]].
  unfold interp1d_unc. cbn [bind alen of_list length Nat.eqb negb].
  rewrite scipy_ok; auto; try discriminate; try (cbn; lia); try (intros C; congruence).
  cbn [bind]. unfold linear_unc. cbv zeta. rewrite np_min_inc, np_max_inc by (auto using inc013; cbn; lia).
  replace (existsb _ _) with true; [reflexivity|]. symmetry. apply existsb_exists.
  exists 0%nat. split; [left; reflexivity|].
  change (alen (of_list [0%R; 1%R; 3%R]) - 1)%nat with 2%nat.
  replace (rltb (of_list [0; 1; 3] 2%nat) (of_list [5] 0%nat)) with true.
  - apply orb_true_r.
  - symmetry. apply rltb_true. cbn. lra.
Qed.
(** The look-up kinds take an int; fill_value may be an int for every kind.  Missing: int
    fill_unc for the linear kind. *)
Theorem C90_int_fill_partial : forall t_new t y uy kd z z' fu n,
  alen t = n -> (1 <= n)%nat -> increasing n t -> alen y = n -> alen uy = n -> kd <> KOther ->
  (kd <> KLinear -> fu = FInt z') -> (kd = KLinear -> fu = FFloat (Some (IZR z'))) ->
  exists o, interp1d_unc t_new t y uy kd (Some false) (FInt z) fu true false = Ok o /\
    forall k, (k < alen t_new)%nat -> t_new k < t 0%nat \/ t (n - 1)%nat < t_new k ->
      io_y o k = Some (IZR z) /\ io_u o k = Some (IZR z').
Proof.
  intros t_new t y uy kd z z' fu n Hn H1 Hinc Hy Hu Hkd F1 F2.
  destruct (C43_fill_values t_new t y uy kd (FInt z) fu n) as (o & E & _ & _ & H); auto.
  { intros K. rewrite F2 by auto. exact I. }
  exists o. split; auto. intros k Hk.
  assert (E1 : fill_left fu uy = Some (IZR z') /\ fill_right n fu uy = Some (IZR z')).
  { destruct kd; try (rewrite F1 by discriminate; split; reflexivity).
    - rewrite F2 by auto. split; reflexivity. }
  destruct E1 as [E1 E2]. destruct (H k Hk) as [A B].
  intros [O|O]; [destruct (A O) as [P Q]|destruct (B O) as [P Q]]; rewrite P, Q; auto.
Qed.

(** ** C91 *)
(** One data point, evaluated at this point: the value is there, the uncertainty is NaN. *)
Theorem C91_single_point_refuted : exists (t_new t y uy : vec) (o : interp_out),
  alen t = 1%nat /\ alen y = 1%nat /\ alen uy = 1%nat /\ t_new 0%nat = t 0%nat /\
  interp1d_unc t_new t y uy KLinear None (FFloat None) (FFloat None) true false = Ok o /\
  io_y o 0%nat = Some (y 0%nat) /\ io_u o 0%nat = None.
Proof.
  set (t := of_list [0]). set (y := of_list [4]). set (u := of_list [1]).
  assert (Hinc : increasing 1 t) by (intros i j Hi Hj; lia).
  destruct (C40_linear_returns t t y u None (FFloat None) (FFloat None) 1) as [o E]; auto; try discriminate.
  { intros [|k] Hk; cbn in *; [lra|lia]. }
  exists t, t, y, u, o. repeat (split; [reflexivity|]). split; [exact E|].
  destruct (interp_inv _ _ _ _ _ _ _ _ _ _ E) as (_ & _ & Hn1 & _ & _ & yn & Ey & [[_ L]|[K _]]); [|congruence].
  destruct (linear_unc_inv _ _ _ _ _ _ _ Hn1 Hinc L) as (_ & B & _ & D & _).
  destruct (scipy_inv _ _ _ _ _ _ _ Ey) as (_ & _ & _ & _ & _ & _ & F).
  assert (Hf : is_below t (t 0%nat) = false /\ is_above t (t 0%nat) = false) by (apply inside_flags; cbn; lra).
  destruct Hf as [P Q]. split.
  - rewrite B, F. unfold scipy_val. rewrite P, Q. f_equal. unfold np_interp.
    unfold is_below in P. unfold is_above in Q. rewrite P, Q. cbv zeta.
    replace (search_right t (t 0%nat) - 1 =? alen t - 1)%nat with true; [|symmetry; apply Nat.eqb_eq; unfold search_right; cbn; unfold rleb; destruct (Rle_dec 0 0); [reflexivity|lra]].
    unfold search_right; cbn; unfold rleb; destruct (Rle_dec 0 0); [reflexivity|lra].
  - rewrite D by (cbn; lia). unfold lin_u. cbv zeta. rewrite P, Q. cbn [orb].
    unfold hi_of, clip. cbn [alen t of_list length Nat.sub].
    rewrite Nat.min_0_r. cbn [Nat.eqb].
    destruct (Req_EM_T (t 0%nat) (t 0%nat)); [reflexivity|congruence].
Qed.
(** The look-up kinds return the point.  Missing: the linear kind. *)
Theorem C91_single_point_partial : forall t y uy kd,
  kd = KPrevious \/ kd = KNext \/ kd = KNearest ->
  alen t = 1%nat -> alen y = 1%nat -> alen uy = 1%nat ->
  exists o, interp1d_unc t t y uy kd None (FFloat None) (FFloat None) true false = Ok o /\
    io_y o 0%nat = Some (y 0%nat) /\ io_u o 0%nat = Some (uy 0%nat).
Proof.
  intros t y uy kd Hkd Ht Hy Hu.
  assert (Hinc : increasing 1 t) by (intros i j Hi Hj; lia).
  assert (Hall : exists o, interp1d_unc t t y uy kd None (FFloat None) (FFloat None) true false = Ok o).
  { unfold interp1d_unc. cbn [bind]. rewrite Hy, Hu, Nat.eqb_refl. cbn [negb].
    assert (Sc : forall v, alen v = 1%nat -> exists r, scipy_interp1d t v kd None (FFloat None) t = Ok r).
    { intros v Hv. eexists. apply scipy_ok; auto; try congruence; try lia.
      - destruct Hkd as [-> | [-> | ->]]; discriminate.
      - intros _ i Hi. rewrite Ht in Hi. assert (i = 0)%nat by lia. subst i.
        apply inside_flags. rewrite Ht. cbn [Nat.sub]. lra. }
    destruct (Sc y Hy) as [r ->]. destruct (Sc uy Hu) as [r' E']. cbn [bind].
    destruct Hkd as [-> | [-> | ->]]; rewrite E'; eexists; reflexivity. }
  destruct Hall as [o E]. exists o. split; auto.
  destruct (C42_lookup_kinds _ _ _ _ _ _ _ _ _ _ 1 0 Hkd Ht Hinc E) as (i & Hi & _ & A & B); try lia.
  { cbn [Nat.sub]. lra. }
  assert (i = 0)%nat by lia. subst i. auto.
Qed.

Print Assumptions C40_linear_law.
Print Assumptions C40_linear_returns.
Print Assumptions C41_sensitivities.
Print Assumptions C41_same_with_and_without.
Print Assumptions C42_linear_at_node.
Print Assumptions C42_linear_bounds.
Print Assumptions C42_lookup_kinds.
Print Assumptions C43_out_of_range_rejected.
Print Assumptions C43_fill_values.
Print Assumptions C43_other_kinds.
Print Assumptions C43_inside_unaffected.
Print Assumptions C44_extrapolate_alone_refuted.
Print Assumptions C44_extrapolate_with_bounds_error_partial.
Print Assumptions C45_order_irrelevant.
Print Assumptions C45_equals_sorted.
Print Assumptions C46_length_checked_refuted.
Print Assumptions C46_length_checked_partial.
Print Assumptions C47_never_leaves_range.
Print Assumptions C47_equidistant.
Print Assumptions C47_no_extent.
Print Assumptions C90_int_fill_unc_refuted.
Print Assumptions C90_int_fill_partial.
Print Assumptions C91_single_point_refuted.
Print Assumptions C91_single_point_partial.
