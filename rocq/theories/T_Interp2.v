(** Further theorems about uncertainty/interpolate.py: order and zero of the uncertainties
    (C130, C131) and change of units (C132). *)
From Coq Require Import Reals List Arith ZArith Bool Lra Lia FunctionalExtensionality.
From Verif Require Import Base Sums Stats StatsFacts M_Interp S_Interp S_Order P_Interp P_Interp2 T_Interp.
Import ListNotations.
Open Scope R_scope.

Lemma seg_var_mono t uy uy' i v : 0 <= uy i <= uy' i -> 0 <= uy (S i) <= uy' (S i) ->
  seg_var t uy i v <= seg_var t uy' i v.
Proof.
  intros A B. unfold seg_var. apply Rplus_le_compat; apply Rmult_le_compat_l; try apply pow2_ge_0;
    apply pow_incr; assumption.
Qed.

(** ** C130 *)
(** Larger uncertainties of the data give larger uncertainties of the interpolated values,
    which themselves are the same. *)
Theorem C130_interpolation : forall t_new t y (uy uy' : vec) kd be fv fu rC o o' n k,
  alen t = n -> (2 <= n)%nat -> increasing n t ->
  (forall j, (j < n)%nat -> 0 <= uy j <= uy' j) ->
  interp1d_unc t_new t y uy kd be fv fu true rC = Ok o ->
  interp1d_unc t_new t y uy' kd be fv fu true rC = Ok o' ->
  (k < alen t_new)%nat -> t 0%nat <= t_new k <= t (n - 1)%nat ->
  io_y o' k = io_y o k /\
  exists u u', io_u o k = Some u /\ io_u o' k = Some u' /\ 0 <= u <= u'.
Proof.
  intros t_new t y uy uy' kd be fv fu rC o o' n k Hn H2 Hinc Hu E E' Hk Hin. subst n.
  destruct (interp_inv _ _ _ _ _ _ _ _ _ _ E) as (Hy & Hl & Hn1 & Ko & _ & yn & Ey & D).
  destruct (interp_inv _ _ _ _ _ _ _ _ _ _ E') as (_ & Hl' & _ & _ & _ & yn' & Ey' & D').
  rewrite Ey in Ey'. injection Ey' as <-.
  destruct D as [[-> L]|[Kl [-> [un [Eu ->]]]]], D' as [[Kl' L']|[Kl' [_ [un' [Eu' ->]]]]]; try congruence.
  - destruct (linear_unc_inv _ _ _ _ _ _ _ Hn1 Hinc L) as (_ & -> & _ & D & _).
    destruct (linear_unc_inv _ _ _ _ _ _ _ Hn1 Hinc L') as (_ & -> & _ & D' & _).
    split; [reflexivity|]. destruct (hi_lo t (t_new k) H2 Hinc Hin) as (i & _ & Hs).
    exists (sqrt (seg_var t uy i (t_new k))), (sqrt (seg_var t uy' i (t_new k))).
    split; [rewrite D by auto; now apply lin_u_inside|]. split; [rewrite D' by auto; now apply lin_u_inside|].
    split; [apply sqrt_pos|]. apply sqrt_le_1_alt. destruct Hs as [Hi _]. apply seg_var_mono; apply Hu; lia.
  - split; [reflexivity|]. cbn [io_u].
    destruct (scipy_inv _ _ _ _ _ _ _ Eu) as (_ & _ & _ & _ & _ & _ & G).
    destruct (scipy_inv _ _ _ _ _ _ _ Eu') as (_ & _ & _ & _ & _ & _ & G').
    exists (uy (node_index kd t (t_new k))), (uy' (node_index kd t (t_new k))).
    rewrite G, G'. unfold scipy_val. destruct (inside_flags t _ Hin) as [P Q]. rewrite P, Q.
    split; [destruct kd; congruence|]. split; [destruct kd; congruence|]. apply Hu. now apply node_index_lt.
Qed.

(** ** C131 *)
(** Exactly known data give exactly known values inside the range. *)
Theorem C131_interpolation : forall t_new t y (uy : vec) kd be fv fu rC o n k,
  alen t = n -> (2 <= n)%nat -> increasing n t -> (forall j, (j < n)%nat -> uy j = 0) ->
  interp1d_unc t_new t y uy kd be fv fu true rC = Ok o ->
  (k < alen t_new)%nat -> t 0%nat <= t_new k <= t (n - 1)%nat ->
  io_u o k = Some 0.
Proof.
  intros t_new t y uy kd be fv fu rC o n k Hn H2 Hinc Hu E Hk Hin. subst n.
  destruct (interp_inv _ _ _ _ _ _ _ _ _ _ E) as (Hy & Hl & Hn1 & Ko & _ & yn & Ey & [[-> L]|[Kl [-> [un [Eu ->]]]]]).
  - destruct (linear_unc_inv _ _ _ _ _ _ _ Hn1 Hinc L) as (_ & _ & _ & D & _).
    destruct (hi_lo t (t_new k) H2 Hinc Hin) as (i & _ & Hs).
    rewrite D, (lin_u_inside t uy _ _ _ i) by auto. f_equal.
    destruct Hs as [Hi _]. unfold seg_var. rewrite !Hu by lia.
    match goal with |- sqrt ?x = _ => replace x with 0 by ring end. apply sqrt_0.
  - cbn [io_u]. destruct (scipy_inv _ _ _ _ _ _ _ Eu) as (_ & _ & _ & _ & _ & _ & G).
    rewrite G. unfold scipy_val. destruct (inside_flags t _ Hin) as [P Q]. rewrite P, Q.
    assert (Z : uy (node_index kd t (t_new k)) = 0) by (apply Hu; now apply node_index_lt).
    destruct kd; congruence.
Qed.

(** ** C132 *)
(** Time axis in other units (a > 0) and with another origin; values in other units with
    another zero; uncertainties in other units. *)
Definition affine (a s : R) (t : vec) : vec := mkArr (alen t) (fun i => a * t i + s).
Definition fill_units (c d : R) (f : fill) : fill :=
  match f with
  | FFloat v => FFloat (option_map (fun x => c * x + d) v)
  | FPair b a => FPair (option_map (fun x => c * x + d) b) (option_map (fun x => c * x + d) a)
  | FInt z => FInt z
  | FExtrapolate => FExtrapolate
  end.
Definition each (f : R -> R) (v : arr (option R)) : arr (option R) :=
  mkArr (alen v) (fun i => option_map f (v i)).
Definition in_units (a s c d : R) (o : interp_out) : interp_out :=
  mkInterp (affine a s (io_t o)) (each (fun x => c * x + d) (io_y o)) (each (fun x => c * x + 0) (io_u o)) (io_C o).

Lemma rltb_aff a s x y : 0 < a -> rltb (a * x + s) (a * y + s) = rltb x y.
Proof. intros Ha. unfold rltb. destruct (Rlt_dec x y), (Rlt_dec (a * x + s) (a * y + s)); auto; exfalso; nra. Qed.
Lemma rleb_aff a s x y : 0 < a -> rleb (a * x + s) (a * y + s) = rleb x y.
Proof. intros Ha. unfold rleb. destruct (Rle_dec x y), (Rle_dec (a * x + s) (a * y + s)); auto; exfalso; nra. Qed.
Lemma count_ext n p q : (forall i, (i < n)%nat -> p i = q i) -> count n p = count n q.
Proof. induction n; intros H; simpl; auto. rewrite IHn, H; auto. Qed.
Lemma search_left_aff a s t v : 0 < a -> search_left (affine a s t) (a * v + s) = search_left t v.
Proof. intros Ha. unfold search_left. cbn [affine alen]. apply count_ext. intros i _. now apply rltb_aff. Qed.
Lemma search_right_aff a s t v : 0 < a -> search_right (affine a s t) (a * v + s) = search_right t v.
Proof. intros Ha. unfold search_right. cbn [affine alen]. apply count_ext. intros i _. now apply rleb_aff. Qed.
Lemma node_index_aff k a s t v : 0 < a -> node_index k (affine a s t) (a * v + s) = node_index k t v.
Proof.
  intros Ha. unfold node_index. destruct k; rewrite ?search_left_aff, ?search_right_aff by exact Ha; try reflexivity;
    cbn [affine alen aget];
    (match goal with |- clip (search_left ?x _) _ _ = clip (search_left ?y _) _ _ =>
       replace x with (affine a s y) by (unfold affine; cbn [alen aget]; f_equal; apply functional_extensionality; intros i; field) end;
     now rewrite search_left_aff).
Qed.
Lemma search_right_pos (t : vec) v : (1 <= alen t)%nat -> t 0%nat <= v -> (1 <= search_right t v <= alen t)%nat.
Proof.
  intros Hn Hv. unfold search_right. generalize (alen t) Hn. intros n Hn'. 
  assert (A : forall m, (count m (fun i => rleb (t i) v) <= m)%nat).
  { induction m; simpl; auto. destruct (rleb (t m) v); lia. }
  split; [|apply A]. clear A Hn. induction n; [lia|]. simpl. destruct n.
  - simpl. replace (rleb (t 0%nat) v) with true by (symmetry; now apply rleb_true). lia.
  - specialize (IHn ltac:(lia)). lia.
Qed.
Lemma np_interp_aff a s c d t y v : 0 < a -> (1 <= alen t)%nat -> increasing (alen t) t ->
  np_interp (affine a s t) (affine c d y) (a * v + s) = c * np_interp t y v + d.
Proof.
  intros Ha Hn Hinc. unfold np_interp. rewrite search_right_aff by exact Ha. cbn [affine alen aget].
  rewrite !rltb_aff by exact Ha.
  destruct (rltb v (t 0%nat)) eqn:E1; [reflexivity|]. destruct (rltb (t (alen t - 1)%nat) v); [reflexivity|].
  apply rltb_false in E1. pose proof (search_right_pos t v Hn E1) as P. set (j := (search_right t v - 1)%nat) in *.
  destruct (Nat.eqb_spec j (alen t - 1)) as [E|E]; [reflexivity|].
  destruct (Req_EM_T (a * t j + s) (a * v + s)) as [Q|Q], (Req_EM_T (t j) v) as [Q'|Q']; try reflexivity.
  - exfalso. apply Q'. nra.
  - exfalso. apply Q. now rewrite Q'.
  - assert (t j < t (S j)) by (apply Hinc; lia). assert (0 < a * (t (S j) - t j)) by (apply Rmult_lt_0_compat; lra).
    field. split; lra.
Qed.
Lemma fold_min_aff a s t : 0 < a -> forall m, fold_min m (fun i => a * t i + s) = a * fold_min m t + s.
Proof.
  intros Ha. induction m; simpl; auto. rewrite IHm. unfold Rmin.
  destruct (Rle_dec (fold_min m t) (t (S m))), (Rle_dec (a * fold_min m t + s) (a * t (S m) + s)); auto; exfalso; nra.
Qed.
Lemma fold_max_aff a s t : 0 < a -> forall m, fold_max m (fun i => a * t i + s) = a * fold_max m t + s.
Proof.
  intros Ha. induction m; simpl; auto. rewrite IHm. unfold Rmax.
  destruct (Rle_dec (fold_max m t) (t (S m))), (Rle_dec (a * fold_max m t + s) (a * t (S m) + s)); auto; exfalso; nra.
Qed.
Lemma fill_above_units c d f : no_int f -> fill_above (fill_units c d f) = option_map (fun x => c * x + d) (fill_above f).
Proof. destruct f; simpl; intros H; try contradiction; reflexivity. Qed.
Lemma fill_below_units c d f : no_int f -> fill_below (fill_units c d f) = option_map (fun x => c * x + d) (fill_below f).
Proof. destruct f; simpl; intros H; try contradiction; reflexivity. Qed.

Lemma existsb_ext {A} (p q : A -> bool) l : (forall x, p x = q x) -> existsb p l = existsb q l.
Proof. intros H. induction l; simpl; auto. now rewrite H, IHl. Qed.

Lemma scipy_aff a s c d t y k be f t_new : 0 < a -> increasing (alen t) t -> no_int f ->
  scipy_interp1d (affine a s t) (affine c d y) k be (fill_units c d f) (affine a s t_new) =
  do r <- scipy_interp1d t y k be f t_new ;; Ok (each (fun x => c * x + d) r).
Proof.
  intros Ha Hinc Hf. unfold scipy_interp1d. cbn [affine alen aget].
  destruct (negb (alen y =? alen t)%nat); [reflexivity|].
  destruct (Nat.eqb_spec (alen t) 0) as [E|E].
  { destruct k, f, be as [[|]|]; reflexivity. }
  assert (X : (fun i : nat => (rltb (a * t_new i + s) (a * t 0%nat + s) || rltb (a * t (alen t - 1)%nat + s) (a * t_new i + s))%bool)
     = fun i => (rltb (t_new i) (t 0%nat) || rltb (t (alen t - 1)%nat) (t_new i))%bool).
  { apply functional_extensionality. intros i. now rewrite !rltb_aff. }
  rewrite X.
  destruct k; try reflexivity; destruct f; try contradiction; cbn [fill_units bind];
    try (destruct be as [[|]|]; reflexivity);
    (destruct (_ && _)%bool; [reflexivity|]; cbn [bind]; unfold each; cbn [alen aget]; do 2 f_equal;
     apply functional_extensionality; intros i; rewrite !rltb_aff by exact Ha;
     destruct (rltb _ _); [now destruct v || reflexivity|]; destruct (rltb _ _); [now destruct v || reflexivity|];
     cbn [option_map]; f_equal;
     first [exact (np_interp_aff a s c d t y (t_new i) Ha ltac:(lia) Hinc)
           |exact (f_equal (fun j => c * y j + d) (node_index_aff _ a s t (t_new i) Ha))]).
Qed.

Lemma clip_aff a s t v x y : 0 < a -> clip (search_left (affine a s t) (a * v + s)) x y = clip (search_left t v) x y.
Proof. intros Ha. now rewrite search_left_aff. Qed.
Lemma Req_aff a s x y : 0 < a ->
  (if Req_EM_T (a * x + s) (a * y + s) then true else false) = (if Req_EM_T x y then true else false).
Proof.
  intros Ha. destruct (Req_EM_T x y) as [E|E], (Req_EM_T (a * x + s) (a * y + s)) as [F|F]; auto.
  - exfalso. apply F. now rewrite E.
  - exfalso. apply E. nra.
Qed.

Definition any_outside (t t_new : vec) : bool :=
  existsb (fun k => is_below t (t_new k) || is_above t (t_new k)) (seq 0 (alen t_new)).
Lemma linear_unc_eq t_new t uy yn f rC : (1 <= alen t)%nat -> increasing (alen t) t ->
  linear_unc t_new t uy yn f rC =
  (do _ <- (if any_outside t t_new then match f with FInt _ => Err TypeError | FExtrapolate => Err ValueError | _ => Ok tt end
            else Ok tt) ;;
   Ok (mkInterp t_new yn
     (mkArr (alen t_new) (fun k => lin_u t uy (if any_outside t t_new then f else FFloat None) rC (t_new k)))
     (if rC then Some (mkMat (alen t_new) (alen uy) (fun k j => lin_row t (alen uy) (t_new k) j)) else None))).
Proof.
  intros Hn Hinc. unfold linear_unc. rewrite np_min_inc, np_max_inc by auto.
  change (existsb _ (seq 0 (alen t_new))) with (any_outside t t_new). cbv zeta.
  destruct (any_outside t t_new) eqn:E; [destruct f|]; cbn [bind]; try reflexivity; do 3 f_equal;
    apply functional_extensionality; intros k; unfold lin_u; cbn [mget fill_at];
    change (clip (search_left t (t_new k)) 1 (alen t - 1)) with (hi_of t (t_new k));
    change (rltb (t_new k) (t 0%nat)) with (is_below t (t_new k));
    change (rltb (t (alen t - 1)%nat) (t_new k)) with (is_above t (t_new k));
    (destruct (is_below t (t_new k) || is_above t (t_new k))%bool eqn:Eo; [reflexivity|]);
    destruct (Req_EM_T _ _); try reflexivity; destruct rC; try reflexivity;
    do 2 f_equal; apply rsum_ext; intros j Hj; f_equal; f_equal; unfold lin_row; rewrite Eo; reflexivity.
Qed.

Lemma below_aff a s t v : 0 < a -> is_below (affine a s t) (a * v + s) = is_below t v.
Proof. intros. now apply rltb_aff. Qed.
Lemma above_aff a s t v : 0 < a -> is_above (affine a s t) (a * v + s) = is_above t v.
Proof. intros. now apply (rltb_aff a s (t (alen t - 1)%nat)). Qed.
Lemma hi_aff a s t v : 0 < a -> hi_of (affine a s t) (a * v + s) = hi_of t v.
Proof. intros. unfold hi_of. now apply clip_aff. Qed.
Lemma hi_range (t : vec) v : (2 <= alen t)%nat -> (1 <= hi_of t v <= alen t - 1)%nat.
Proof. intros. unfold hi_of, clip. lia. Qed.
Lemma lin_row_aff a s t m v j : 0 < a -> (2 <= alen t)%nat -> increasing (alen t) t ->
  lin_row (affine a s t) m (a * v + s) j = lin_row t m v j.
Proof.
  intros Ha Hn Hinc. unfold lin_row. rewrite below_aff, above_aff, hi_aff by exact Ha. cbn [affine alen aget].
  destruct (is_below t v || is_above t v)%bool; [reflexivity|].
  pose proof (hi_range t v Hn) as R. set (hi := hi_of t v) in *.
  destruct (Nat.eqb_spec hi 0); [lia|].
  assert (D : t (hi - 1)%nat < t hi) by (apply Hinc; lia).
  assert (0 < a * (t hi - t (hi - 1)%nat)) by (apply Rmult_lt_0_compat; lra).
  destruct (j =? hi)%nat; [field; split; lra|]. destruct (j =? hi - 1)%nat; [field; split; lra|reflexivity].
Qed.
Lemma fill_at_aff a s c d f t v : 0 < a -> no_int f ->
  fill_at (fill_units c d f) (affine a s t) (a * v + s) = option_map (fun x => c * x + d) (fill_at f t v).
Proof.
  intros Ha Hf. destruct f; simpl in *; try contradiction; try reflexivity.
  rewrite above_aff by exact Ha. destruct (is_above t v); reflexivity.
Qed.
Lemma lin_u_aff a s c t uy f rC v : 0 < a -> 0 < c -> (2 <= alen t)%nat -> increasing (alen t) t -> no_int f ->
  lin_u (affine a s t) (affine c 0 uy) (fill_units c 0 f) rC (a * v + s) =
  option_map (fun x => c * x + 0) (lin_u t uy f rC v).
Proof.
  intros Ha Hc Hn Hinc Hf. unfold lin_u.
  rewrite below_aff, above_aff, hi_aff by exact Ha. rewrite fill_at_aff by assumption.
  destruct (is_below t v || is_above t v)%bool; [reflexivity|].
  cbn [affine alen]. change (mkArr (alen t) (fun i => a * t i + s)) with (affine a s t).
  pose proof (hi_range t v Hn) as R. set (hi := hi_of t v) in *.
  destruct (Nat.eqb_spec hi 0); [lia|]. cbn [affine aget].
  assert (D : t (hi - 1)%nat < t hi) by (apply Hinc; lia).
  assert (0 < a * (t hi - t (hi - 1)%nat)) by (apply Rmult_lt_0_compat; lra).
  destruct (Req_EM_T (t (hi - 1)%nat) (t hi)) as [F|F]; [lra|].
  destruct (Req_EM_T (a * t (hi - 1)%nat + s) (a * t hi + s)) as [F'|F']; [lra|].
  destruct rC; cbn [option_map]; f_equal; rewrite !Rplus_0_r.
  - rewrite (rsum_ext (alen uy) _ (fun j => c ^ 2 * (lin_row t (alen uy) v j ^ 2 * uy j ^ 2))).
    + rewrite rsum_scal, sqrt_mult_alt by apply pow2_ge_0. rewrite sqrt_pow2 by lra. reflexivity.
    + intros j Hj. change (mkArr (alen t) (fun i => a * t i + s)) with (affine a s t).
      rewrite lin_row_aff by assumption. ring.
  - match goal with |- sqrt ?x / _ = c * (sqrt ?y / _) => replace x with ((a * c) ^ 2 * y) by ring end.
    assert (0 < a * c) by (apply Rmult_lt_0_compat; lra).
    rewrite sqrt_mult_alt by apply pow2_ge_0. rewrite sqrt_pow2 by lra. field. split; lra.
Qed.
Lemma any_outside_aff a s t t_new : 0 < a -> any_outside (affine a s t) (affine a s t_new) = any_outside t t_new.
Proof.
  intros Ha. unfold any_outside. change (alen (affine a s t_new)) with (alen t_new).
  apply existsb_ext. intros k. change (affine a s t_new k) with (a * t_new k + s). now rewrite below_aff, above_aff.
Qed.
Lemma increasing_aff a s t : 0 < a -> increasing (alen t) t -> increasing (alen (affine a s t)) (affine a s t).
Proof. intros Ha H i j Hi Hj. cbn [affine aget alen] in *. specialize (H i j Hi Hj). nra. Qed.
Lemma linear_aff a s c d t_new t uy yn f rC : 0 < a -> 0 < c -> (2 <= alen t)%nat -> increasing (alen t) t -> no_int f ->
  linear_unc (affine a s t_new) (affine a s t) (affine c 0 uy) (each (fun x => c * x + d) yn) (fill_units c 0 f) rC =
  do o <- linear_unc t_new t uy yn f rC ;; Ok (in_units a s c d o).
Proof.
  intros Ha Hc Hn Hinc Hf.
  rewrite (linear_unc_eq t_new t) by (auto; lia).
  rewrite (linear_unc_eq (affine a s t_new) (affine a s t)) by (try apply increasing_aff; auto; simpl; lia).
  rewrite any_outside_aff by exact Ha.
  assert (X : forall g k, no_int g -> lin_u (affine a s t) (affine c 0 uy) (fill_units c 0 g) rC (affine a s t_new k) =
    option_map (fun x => c * x + 0) (lin_u t uy g rC (t_new k))).
  { intros g k Hg. now apply lin_u_aff. }
  assert (Y : (fun k j => lin_row (affine a s t) (alen uy) (affine a s t_new k) j) = fun k j => lin_row t (alen uy) (t_new k) j).
  { apply functional_extensionality. intros k. apply functional_extensionality. intros j. now apply lin_row_aff. }
  destruct (any_outside t t_new).
  - destruct f as [w|w|w1 w2|]; try contradiction; try reflexivity; cbn [fill_units bind]; unfold in_units, each; cbn [io_t io_y io_u io_C alen aget];
      cbn [affine alen] in *; rewrite Y; do 3 f_equal; apply functional_extensionality; intros k;
      first [exact (X (FFloat w) k I)|exact (X (FPair w1 w2) k I)].
  - cbn [bind]. unfold in_units, each. cbn [io_t io_y io_u io_C alen aget]. cbn [affine alen] in *. rewrite Y.
    do 3 f_equal. apply functional_extensionality. intros k. exact (X (FFloat None) k I).
Qed.

Lemma first_last_aff c d y : first_last (affine c d y) =
  do p <- first_last y ;; Ok (option_map (fun x => c * x + d) (fst p), option_map (fun x => c * x + d) (snd p)).
Proof. unfold first_last. cbn [affine alen]. destruct (alen y =? 0)%nat; reflexivity. Qed.

(** The whole function, every kind, every treatment of points outside, including the calls
    which fail. *)
Theorem C132_units : forall a s c d t_new t y uy kd be fv fu rC n,
  0 < a -> 0 < c -> alen t = n -> increasing n t -> (kd = KLinear -> (2 <= n)%nat) -> no_int fv -> no_int fu ->
  interp1d_unc (affine a s t_new) (affine a s t) (affine c d y) (affine c 0 uy) kd be
    (fill_units c d fv) (fill_units c 0 fu) true rC =
  match interp1d_unc t_new t y uy kd be fv fu true rC with
  | Ok o => Ok (in_units a s c d o)
  | Err e => Err e
  end.
Proof.
  intros a s c d t_new t y uy kd be fv fu rC n Ha Hc Hn Hinc H2 Iv Iu. subst n.
  unfold interp1d_unc. cbn [bind].
  change (alen (affine c d y)) with (alen y). change (alen (affine c 0 uy)) with (alen uy).
  destruct (negb (alen y =? alen uy)%nat); [reflexivity|].
  assert (K : forall gv gu, no_int gv -> no_int gu ->
    (do y_new <- scipy_interp1d (affine a s t) (affine c d y) kd be (fill_units c d gv) (affine a s t_new) ;;
     match kd with
     | KLinear => linear_unc (affine a s t_new) (affine a s t) (affine c 0 uy) y_new (fill_units c 0 gu) rC
     | KOther => Err NotImplementedError
     | _ => if rC then Err NotImplementedError
            else do u_new <- scipy_interp1d (affine a s t) (affine c 0 uy) kd be (fill_units c 0 gu) (affine a s t_new) ;;
                 Ok (mkInterp (affine a s t_new) y_new u_new None)
     end) =
    match (do y_new <- scipy_interp1d t y kd be gv t_new ;;
           match kd with
           | KLinear => linear_unc t_new t uy y_new gu rC
           | KOther => Err NotImplementedError
           | _ => if rC then Err NotImplementedError
                  else do u_new <- scipy_interp1d t uy kd be gu t_new ;; Ok (mkInterp t_new y_new u_new None)
           end) with Ok o => Ok (in_units a s c d o) | Err e => Err e end).
  { intros gv gu Hv Hu. rewrite !scipy_aff by assumption.
    destruct (scipy_interp1d t y kd be gv t_new) as [yn|e]; cbn [bind]; [|reflexivity].
    destruct kd; try reflexivity.
    1-3: destruct rC; [reflexivity|]; destruct (scipy_interp1d t uy _ be gu t_new); reflexivity.
    rewrite linear_aff by auto. destruct (linear_unc t_new t uy yn gu rC); reflexivity. }
  Ltac kk K t y t_new uy :=
    match goal with |- context [scipy_interp1d t y _ _ ?gv t_new] =>
    match goal with |- context [linear_unc t_new t uy _ ?gu _] => exact (K gv gu I I) end end.
  destruct be as [[|]|].
  - exact (K fv fu Iv Iu).
  - destruct fv; try contradiction; cbn [fill_units bind]; rewrite ?first_last_aff.
    1,2: destruct fu; try contradiction; cbn [fill_units bind]; rewrite ?first_last_aff.
    1,2,4,5: destruct rC; [reflexivity|]; cbn [bind]; kk K t y t_new uy.
    1,2: destruct (first_last uy) as [[p q]|]; cbn [bind fst snd]; [|reflexivity]; kk K t y t_new uy.
    destruct (first_last y) as [[p q]|]; cbn [bind fst snd]; [|reflexivity].
    destruct fu; try contradiction; cbn [fill_units bind]; rewrite ?first_last_aff.
    1,2: destruct rC; [reflexivity|]; cbn [bind]; kk K t y t_new uy.
    destruct (first_last uy) as [[p' q']|]; cbn [bind fst snd]; [|reflexivity]. kk K t y t_new uy.
  - destruct fv; try contradiction; cbn [fill_units bind]; rewrite ?first_last_aff.
    1,2: destruct fu; try contradiction; cbn [fill_units bind]; rewrite ?first_last_aff.
    1,2,4,5: kk K t y t_new uy.
    1,2: destruct (first_last uy) as [[p q]|]; cbn [bind fst snd]; [|reflexivity]; kk K t y t_new uy.
    destruct (first_last y) as [[p q]|]; cbn [bind fst snd]; [|reflexivity].
    destruct fu; try contradiction; cbn [fill_units bind]; rewrite ?first_last_aff.
    1,2: kk K t y t_new uy.
    destruct (first_last uy) as [[p' q']|]; cbn [bind fst snd]; [|reflexivity]. kk K t y t_new uy.
Qed.

(** Examples *)
Example C130_interpolation_example : exists o o' u u',
  interp1d_unc (of_list [2]) (of_list [0; 1; 3]) (of_list [0; 2; 6]) (of_list [1; 1; 2])
    KLinear None (FFloat None) (FFloat None) true false = Ok o /\
  interp1d_unc (of_list [2]) (of_list [0; 1; 3]) (of_list [0; 2; 6]) (of_list [1; 3; 2])
    KLinear None (FFloat None) (FFloat None) true false = Ok o' /\
  io_u o 0%nat = Some u /\ io_u o' 0%nat = Some u' /\ u <= u'.
Proof.
  assert (R : forall uy, alen uy = 3%nat -> exists o, interp1d_unc (of_list [2]) (of_list [0; 1; 3]) (of_list [0; 2; 6]) uy
    KLinear None (FFloat None) (FFloat None) true false = Ok o).
  { intros uy Hu. apply (C40_linear_returns _ _ _ _ _ _ _ 3); auto using inc013; try discriminate.
    intros [|k] Hk; [|simpl in Hk; lia]. cbn. lra. }
  destruct (R (of_list [1; 1; 2]) eq_refl) as [o E]. destruct (R (of_list [1; 3; 2]) eq_refl) as [o' E'].
  destruct (fun H => C130_interpolation (of_list [2]) (of_list [0; 1; 3]) (of_list [0; 2; 6]) (of_list [1; 1; 2])
    (of_list [1; 3; 2]) _ _ _ _ _ o o' 3 0%nat eq_refl ltac:(lia) inc013 H E E') as (_ & u & u' & A & B & C).
  { intros [|[|[|j]]] Hj; try lia; cbn; lra. }
  { simpl. lia. }
  { cbn. lra. }
  exists o, o', u, u'. tauto.
Qed.
Example C132_example : exists o,
  interp1d_unc (of_list [2]) (of_list [0; 1; 3]) (of_list [0; 2; 6]) (of_list [1; 1; 2])
    KNearest None (FFloat None) (FFloat None) true false = Ok o /\
  interp1d_unc (affine 60 5 (of_list [2])) (affine 60 5 (of_list [0; 1; 3])) (affine (9/5) 32 (of_list [0; 2; 6]))
    (affine (9/5) 0 (of_list [1; 1; 2])) KNearest None (FFloat None) (FFloat None) true false = Ok (in_units 60 5 (9/5) 32 o).
Proof.
  pose proof (C132_units 60 5 (9/5) 32 (of_list [2]) (of_list [0; 1; 3]) (of_list [0; 2; 6]) (of_list [1; 1; 2])
    KNearest None (FFloat None) (FFloat None) false 3 ltac:(lra) ltac:(lra) eq_refl inc013 ltac:(discriminate) I I) as H.
  cbn [fill_units option_map] in H.
  destruct (interp1d_unc (of_list [2]) (of_list [0; 1; 3]) (of_list [0; 2; 6]) (of_list [1; 1; 2])
    KNearest None (FFloat None) (FFloat None) true false) as [o|e] eqn:E; [exists o; auto|].
  exfalso. assert (S1 : forall y, alen y = 3%nat -> scipy_interp1d (of_list [0; 1; 3]) y KNearest None (FFloat None) (of_list [2])
     = Ok (mkArr 1 (fun i => scipy_val (of_list [0; 1; 3]) y KNearest (FFloat None) (of_list [2] i)))).
  { intros y Hy. apply scipy_ok; auto; try discriminate; [cbn; lia|].
    intros _ k Hk; destruct k as [|k]; [|cbn in Hk; lia]. apply inside_flags. cbn. lra. }
  unfold interp1d_unc in E. cbn [bind alen of_list length Nat.eqb negb] in E.
  rewrite S1 in E by reflexivity. cbn [bind] in E. rewrite S1 in E by reflexivity. discriminate.
Qed.
Example C131_interpolation_example : exists o,
  interp1d_unc (of_list [2]) (of_list [0; 1; 3]) (of_list [0; 2; 6]) (of_list [0; 0; 0])
    KLinear None (FFloat None) (FFloat None) true false = Ok o /\ io_u o 0%nat = Some 0.
Proof.
  destruct (C40_linear_returns (of_list [2]) (of_list [0; 1; 3]) (of_list [0; 2; 6]) (of_list [0; 0; 0]) None (FFloat None) (FFloat None) 3)
    as [o E]; auto using inc013; try discriminate.
  { intros [|k] Hk; [|simpl in Hk; lia]. cbn. lra. }
  exists o. split; [exact E|].
  refine (C131_interpolation (of_list [2]) (of_list [0; 1; 3]) (of_list [0; 2; 6]) (of_list [0; 0; 0])
    _ _ _ _ _ o 3 0%nat eq_refl ltac:(lia) inc013 _ E _ _).
  - intros [|[|[|j]]] Hj; try lia; reflexivity.
  - simpl. lia.
  - cbn. lra.
Qed.
Print Assumptions C130_interpolation.
Print Assumptions C131_interpolation.
Print Assumptions C132_units.
