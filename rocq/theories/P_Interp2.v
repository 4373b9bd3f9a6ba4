(** Structure of successful calls of interp1d_unc. *)
From Coq Require Import Reals List Arith ZArith Bool Lra Lia Permutation Sorted.
From Verif Require Import Base Sums Stats StatsFacts M_Interp S_Interp P_Interp.
Import ListNotations.
Open Scope R_scope.

Definition resolved (be : option bool) (f : fill) (v : vec) : fill :=
  match be, f with
  | Some true, _ => f
  | _, FExtrapolate => FPair (Some (v 0%nat)) (Some (v (alen v - 1)%nat))
  | _, _ => f
  end.

Definition is_below (t : vec) (v : R) : bool := rltb v (t 0%nat).
Definition is_above (t : vec) (v : R) : bool := rltb (t (alen t - 1)%nat) v.

Lemma inside_flags (t : vec) v : t 0%nat <= v <= t (alen t - 1)%nat ->
  is_below t v = false /\ is_above t v = false.
Proof. intros H. split; apply rltb_false; lra. Qed.

Lemma existsb_seq_false p M : existsb p (seq 0 M) = false <-> forall i, (i < M)%nat -> p i = false.
Proof.
  split.
  - intros H i Hi. destruct (p i) eqn:E; auto.
    assert (existsb p (seq 0 M) = true) by (apply existsb_exists; exists i; split; auto; apply in_seq; lia).
    congruence.
  - intros H. destruct (existsb p (seq 0 M)) eqn:E; auto.
    apply existsb_exists in E. destruct E as [x [Hx Hp]]. apply in_seq in Hx.
    rewrite H in Hp by lia. discriminate.
Qed.

Definition scipy_val (t y : vec) (k : kind) (f : fill) (v : R) : option R :=
  if is_above t v then fill_above f
  else if is_below t v then fill_below f
  else Some (match k with KLinear => np_interp t y v | _ => y (node_index k t v) end).

Lemma scipy_inv t y k be f t_new r : scipy_interp1d t y k be f t_new = Ok r ->
  alen y = alen t /\ (1 <= alen t)%nat /\ k <> KOther /\ f <> FExtrapolate /\
  alen r = alen t_new /\
  (be <> Some false -> forall i, (i < alen t_new)%nat ->
     is_below t (t_new i) = false /\ is_above t (t_new i) = false) /\
  (forall i, r i = scipy_val t y k f (t_new i)).
Proof.
  unfold scipy_interp1d. intros H.
  destruct (Nat.eqb_spec (alen y) (alen t)) as [Hl|Hl]; cbn [negb] in H; [|discriminate].
  assert (K : k <> KOther) by (intros ->; discriminate).
  assert (F : f <> FExtrapolate).
  { intros ->. destruct k; try discriminate;
      (destruct be as [[|]|]; cbn [bind] in H; try discriminate;
       destruct (alen t =? 0)%nat; discriminate). }
  assert (H' : (if (alen t =? 0)%nat then Err ValueError
      else if (match be with Some b => b | None => true end)
              && existsb (fun i => is_below t (t_new i) || is_above t (t_new i)) (seq 0 (alen t_new))
        then Err ValueError
        else Ok (mkArr (alen t_new) (fun i => scipy_val t y k f (t_new i)))) = Ok r).
  { rewrite <- H. destruct f; try congruence; destruct k; try congruence; reflexivity. }
  clear H. destruct (Nat.eqb_spec (alen t) 0) as [E|E]; [discriminate|].
  destruct (match be with Some b => b | None => true end) eqn:Eb; cbn [andb] in H'.
  - destruct (existsb _ _) eqn:Ex; [discriminate|]. injection H' as <-.
    split; [auto|split; [lia|split; [auto|split; [auto|split; [reflexivity|split]]]]].
    + intros _ i Hi. rewrite existsb_seq_false in Ex. specialize (Ex i Hi).
      apply orb_false_iff in Ex. auto.
    + reflexivity.
  - injection H' as <-.
    split; [auto|split; [lia|split; [auto|split; [auto|split; [reflexivity|split]]]]].
    + intros Hb. destruct be as [[|]|]; congruence.
    + reflexivity.
Qed.

Lemma scipy_ok t y k be f t_new :
  alen y = alen t -> (1 <= alen t)%nat -> k <> KOther -> f <> FExtrapolate ->
  (be <> Some false -> forall i, (i < alen t_new)%nat ->
     is_below t (t_new i) = false /\ is_above t (t_new i) = false) ->
  scipy_interp1d t y k be f t_new =
  Ok (mkArr (alen t_new) (fun i => scipy_val t y k f (t_new i))).
Proof.
  intros Hl Hn K F Hin. unfold scipy_interp1d. rewrite Hl, Nat.eqb_refl. cbn [negb].
  assert (E0 : (alen t =? 0)%nat = false) by (apply Nat.eqb_neq; lia).
  assert (G : (if (alen t =? 0)%nat then Err ValueError
      else if (match be with Some b => b | None => true end)
              && existsb (fun i => is_below t (t_new i) || is_above t (t_new i)) (seq 0 (alen t_new))
        then Err ValueError
        else Ok (mkArr (alen t_new) (fun i => scipy_val t y k f (t_new i))))
     = Ok (mkArr (alen t_new) (fun i => scipy_val t y k f (t_new i)))).
  { rewrite E0. destruct (match be with Some b => b | None => true end) eqn:Eb; cbn [andb]; auto.
    replace (existsb _ _) with false; auto. symmetry. apply existsb_seq_false.
    intros i Hi. destruct (Hin) with (i := i) as [A B]; auto.
    { intros ->. discriminate. } rewrite A, B. reflexivity. }
  rewrite <- G. destruct f; try congruence; destruct k; try congruence; reflexivity.
Qed.

Lemma scipy_out_of_range t y k be f t_new i :
  alen y = alen t -> (1 <= alen t)%nat -> k <> KOther -> be <> Some false ->
  (f = FExtrapolate -> be = Some true) ->
  (i < alen t_new)%nat -> is_below t (t_new i) || is_above t (t_new i) = true ->
  scipy_interp1d t y k be f t_new = Err ValueError.
Proof.
  intros Hl Hn K Hb Hf Hi Ho. unfold scipy_interp1d. rewrite Hl, Nat.eqb_refl. cbn [negb].
  assert (E0 : (alen t =? 0)%nat = false) by (apply Nat.eqb_neq; lia).
  assert (E1 : existsb (fun i => is_below t (t_new i) || is_above t (t_new i)) (seq 0 (alen t_new)) = true).
  { apply existsb_exists. exists i. split; auto. apply in_seq. lia. }
  unfold is_below, is_above in E1.
  destruct k; try congruence; destruct f; cbn [bind]; try (rewrite Hf by reflexivity; reflexivity);
    rewrite E0, E1; destruct be as [[|]|]; try congruence; reflexivity.
Qed.

Lemma first_last_ok v : (1 <= alen v)%nat ->
  first_last v = Ok (Some (v 0%nat), Some (v (alen v - 1)%nat)).
Proof. intros. unfold first_last. destruct (Nat.eqb_spec (alen v) 0); [lia|reflexivity]. Qed.

Lemma interp_inv t_new t y uy k be fv fu rC o :
  interp1d_unc t_new t y uy k be fv fu true rC = Ok o ->
  alen y = alen t /\ alen uy = alen t /\ (1 <= alen t)%nat /\ k <> KOther /\
  (rC = true -> be = Some false -> fu = FExtrapolate) /\
  (exists yn, scipy_interp1d t y k be (resolved be fv y) t_new = Ok yn /\
    ((k = KLinear /\ linear_unc t_new t uy yn (resolved be fu uy) rC = Ok o) \/
     (k <> KLinear /\ rC = false /\ exists un,
       scipy_interp1d t uy k be (resolved be fu uy) t_new = Ok un /\
       o = mkInterp t_new yn un None))).
Proof.
  unfold interp1d_unc. cbn [bind]. intros H.
  destruct (Nat.eqb_spec (alen y) (alen uy)) as [Hl|Hl]; cbn [negb] in H; [|discriminate].
  match type of H with bind ?m ?f = _ => destruct m as [[fv' fu']|] eqn:E; cbn [bind] in H; [|discriminate] end.
  assert (R_ : fv' = resolved be fv y /\ fu' = resolved be fu uy /\
               (rC = true -> be = Some false -> fu = FExtrapolate)).
  { destruct be as [[|]|].
    - injection E as <- <-. repeat split; auto. intros _ ?; discriminate.
    - destruct fv; cbn [bind] in E;
        [ | | |destruct (first_last y) as [[a b]|] eqn:Ey; cbn [bind] in E; [|discriminate];
               unfold first_last in Ey; destruct (alen y =? 0)%nat; [discriminate|]; injection Ey as <- <-];
        (destruct fu; cbn [bind] in E;
         [ destruct rC; try discriminate; injection E as <- <-; repeat split; auto; intros; discriminate
         | destruct rC; try discriminate; injection E as <- <-; repeat split; auto; intros; discriminate
         | destruct rC; try discriminate; injection E as <- <-; repeat split; auto; intros; discriminate
         | destruct (first_last uy) as [[a' b']|] eqn:Eu; cbn [bind] in E; [|discriminate];
           unfold first_last in Eu; destruct (alen uy =? 0)%nat; [discriminate|]; injection Eu as <- <-;
           injection E as <- <-; repeat split; auto ]).
    - destruct fv; cbn [bind] in E;
        [ | | |destruct (first_last y) as [[a b]|] eqn:Ey; cbn [bind] in E; [|discriminate];
               unfold first_last in Ey; destruct (alen y =? 0)%nat; [discriminate|]; injection Ey as <- <-];
        (destruct fu; cbn [bind] in E;
         [ injection E as <- <-; repeat split; auto; intros; discriminate
         | injection E as <- <-; repeat split; auto; intros; discriminate
         | injection E as <- <-; repeat split; auto; intros; discriminate
         | destruct (first_last uy) as [[a' b']|] eqn:Eu; cbn [bind] in E; [|discriminate];
           unfold first_last in Eu; destruct (alen uy =? 0)%nat; [discriminate|]; injection Eu as <- <-;
           injection E as <- <-; repeat split; auto ]). }
  destruct R_ as (-> & -> & HC).
  destruct (scipy_interp1d t y k be (resolved be fv y) t_new) as [yn|] eqn:Ey; cbn [bind] in H; [|discriminate].
  destruct (scipy_inv _ _ _ _ _ _ _ Ey) as (Hy & Hn & Hk & _).
  split; [auto|split; [congruence|split; [auto|split; [auto|split; [auto|]]]]].
  exists yn. split; auto.
  destruct k; try congruence.
  - right. destruct rC; [discriminate|].
    destruct (scipy_interp1d t uy _ be (resolved be fu uy) t_new) as [un|] eqn:Eu; cbn [bind] in H; [|discriminate].
    split; [discriminate|split; auto]. exists un. split; auto. congruence.
  - right. destruct rC; [discriminate|].
    destruct (scipy_interp1d t uy _ be (resolved be fu uy) t_new) as [un|] eqn:Eu; cbn [bind] in H; [|discriminate].
    split; [discriminate|split; auto]. exists un. split; auto. congruence.
  - right. destruct rC; [discriminate|].
    destruct (scipy_interp1d t uy _ be (resolved be fu uy) t_new) as [un|] eqn:Eu; cbn [bind] in H; [|discriminate].
    split; [discriminate|split; auto]. exists un. split; auto. congruence.
  - left. auto.
Qed.

(** Result of the linear kind at a point. *)
Definition lin_row (t : vec) (nu : nat) (v : R) (j : nat) : R :=
  let hi := hi_of t v in
  let lo := if (hi =? 0)%nat then (alen t - 1)%nat else (hi - 1)%nat in
  if is_below t v || is_above t v then
    (if (j =? nu - 1)%nat then (if is_above t v then 1 else 0)
     else if (j =? 0)%nat then (if is_below t v then 1 else 0) else 0)
  else if (j =? hi)%nat then (v - t lo) / (t hi - t lo)
  else if (j =? lo)%nat then (v - t hi) / (t lo - t hi) else 0.

Definition fill_at (f : fill) (t : vec) (v : R) : option R :=
  match f with
  | FFloat x => x
  | FPair b a => if is_above t v then a else b
  | _ => None
  end.

Definition lin_u (t uy : vec) (fu : fill) (rC : bool) (v : R) : option R :=
  let hi := hi_of t v in
  let lo := if (hi =? 0)%nat then (alen t - 1)%nat else (hi - 1)%nat in
  if is_below t v || is_above t v then fill_at fu t v
  else if Req_EM_T (t lo) (t hi) then None
  else if rC then Some (sqrt (rsum (alen uy) (fun j => lin_row t (alen uy) v j ^ 2 * uy j ^ 2)))
  else Some (sqrt ((v - t hi) ^ 2 * uy lo ^ 2 + (v - t lo) ^ 2 * uy hi ^ 2) / (t hi - t lo)).

Lemma linear_unc_inv t_new t uy yn fu rC o : (1 <= alen t)%nat -> increasing (alen t) t ->
  linear_unc t_new t uy yn fu rC = Ok o ->
  io_t o = t_new /\ io_y o = yn /\ alen (io_u o) = alen t_new /\
  (forall k, (k < alen t_new)%nat -> io_u o k = lin_u t uy fu rC (t_new k)) /\
  (if rC then exists C, io_C o = Some C /\ mrows C = alen t_new /\ mcols C = alen uy /\
                forall k j, C k j = lin_row t (alen uy) (t_new k) j
   else io_C o = None).
Proof.
  intros Hn Hinc. unfold linear_unc. rewrite np_min_inc, np_max_inc by auto.
  match goal with |- bind ?m ?f = _ -> _ => destruct m as [fu'|] eqn:E; cbn [bind]; [|discriminate] end.
  intros H. injection H as <-. cbn [io_t io_y io_u io_C alen aget].
  split; [auto|split; [auto|split; [auto|split]]].
  - intros k Hk. unfold lin_u. cbn [mget].
    change (clip (search_left t (t_new k)) 1 (alen t - 1)) with (hi_of t (t_new k)).
    change (rltb (t_new k) (t 0%nat)) with (is_below t (t_new k)).
    change (rltb (t (alen t - 1)%nat) (t_new k)) with (is_above t (t_new k)).
    destruct (is_below t (t_new k) || is_above t (t_new k)) eqn:Eo.
    + destruct (existsb _ _) eqn:Ex.
      * destruct fu; try discriminate; injection E as <-; reflexivity.
      * rewrite existsb_seq_false in Ex. specialize (Ex k Hk).
        unfold is_below, is_above in Eo. rewrite Eo in Ex. discriminate.
    + destruct (Req_EM_T _ _); [reflexivity|]. destruct rC; [|reflexivity].
      f_equal. f_equal. apply rsum_ext; intros j Hj. f_equal. f_equal.
      unfold lin_row. rewrite Eo. reflexivity.
  - destruct rC; auto. eexists. split; [reflexivity|]. split; [reflexivity|]. split; [reflexivity|].
    intros k j. cbn [mget]. reflexivity.
Qed.

Lemma linear_unc_ok t_new t uy yn fu rC :
  (match fu with FFloat _ | FPair _ _ => True | _ => False end) \/
  (forall k, (k < alen t_new)%nat -> rltb (t_new k) (np_min t) = false /\ rltb (np_max t) (t_new k) = false) ->
  exists o, linear_unc t_new t uy yn fu rC = Ok o.
Proof.
  intros H. unfold linear_unc.
  match goal with |- exists o, bind ?m ?f = _ => assert (K : exists g, m = Ok g) end.
  { destruct (existsb _ _) eqn:E; [|eexists; reflexivity].
    destruct H as [H|H].
    - destruct fu; try contradiction; eexists; reflexivity.
    - exfalso. apply existsb_exists in E. destruct E as [k [Hk Hx]]. apply in_seq in Hk.
      destruct (H k) as [A B]; [lia|]. rewrite A, B in Hx. discriminate. }
  destruct K as [g ->]. cbn [bind]. eexists; reflexivity.
Qed.

(** Inside: the two nodes used, and the law of propagation. *)
Lemma hi_lo (t : vec) v : (2 <= alen t)%nat -> increasing (alen t) t ->
  t 0%nat <= v <= t (alen t - 1)%nat ->
  exists i, hi_of t v = S i /\ in_segment (alen t) t i v.
Proof.
  intros Hn H Hv. destruct (hi_of_segment t v Hn H Hv) as [A B].
  exists (hi_of t v - 1)%nat. split; [lia|auto].
Qed.

Lemma lin_row_inside (t : vec) nu v i j : hi_of t v = S i -> in_segment (alen t) t i v ->
  t 0%nat <= v <= t (alen t - 1)%nat ->
  lin_row t nu v j = if (j =? S i)%nat then (v - t i) / (t (S i) - t i)
                     else if (j =? i)%nat then (v - t (S i)) / (t i - t (S i)) else 0.
Proof.
  intros E Hs Hv. unfold lin_row. rewrite E. cbn [Nat.eqb]. cbv zeta.
  destruct (inside_flags t v Hv) as [A B]. rewrite A, B. cbn [orb].
  replace (S i - 1)%nat with i by lia. reflexivity.
Qed.

Lemma rsum_two n i f : (S i < n)%nat -> (forall j, (j < n)%nat -> j <> i -> j <> S i -> f j = 0) ->
  rsum n f = f i + f (S i).
Proof.
  intros Hi H.
  rewrite (rsum_ext n f (fun j => (if (j =? i)%nat then f j else 0) + (if (j =? S i)%nat then f j else 0))).
  - rewrite rsum_plus, (rsum_delta n i f), (rsum_delta n (S i) f) by lia. reflexivity.
  - intros j Hj. destruct (Nat.eqb_spec j i), (Nat.eqb_spec j (S i)); try lia; try ring.
    rewrite H by auto. ring.
Qed.

Definition seg_var (t uy : nat -> R) (i : nat) (v : R) : R :=
  ((t (S i) - v) / (t (S i) - t i)) ^ 2 * uy i ^ 2
  + ((v - t i) / (t (S i) - t i)) ^ 2 * uy (S i) ^ 2.

Lemma seg_var_nonneg t uy i v : 0 <= seg_var t uy i v.
Proof.
  unfold seg_var.
  pose proof (pow2_ge_0 ((t (S i) - v) / (t (S i) - t i))). pose proof (pow2_ge_0 (uy i)).
  pose proof (pow2_ge_0 ((v - t i) / (t (S i) - t i))). pose proof (pow2_ge_0 (uy (S i))). nra.
Qed.

Lemma seg_var_unique n t uy i j v : increasing n t -> in_segment n t i v -> in_segment n t j v ->
  seg_var t uy i v = seg_var t uy j v.
Proof.
  intros H Hi Hj. pose proof (seg_pos _ _ _ _ H Hi). pose proof (seg_pos _ _ _ _ H Hj).
  destruct (segment_unique n t i j v H Hi Hj) as [E|[[E F]|[E F]]]; subst; auto;
    unfold seg_var; field; lra.
Qed.

Lemma lin_u_inside (t uy : vec) fu rC v i : alen uy = alen t -> (2 <= alen t)%nat ->
  increasing (alen t) t -> in_segment (alen t) t i v ->
  lin_u t uy fu rC v = Some (sqrt (seg_var t uy i v)).
Proof.
  intros Hu Hn H Hs.
  assert (Hv : t 0%nat <= v <= t (alen t - 1)%nat).
  { destruct Hs as [Hi Hv]. pose proof (increasing_le (alen t) t 0 i H).
    pose proof (increasing_le (alen t) t (S i) (alen t - 1) H).
    split; [apply Rle_trans with (t i)|apply Rle_trans with (t (S i))]; try apply H0; try apply H1; lia || lra. }
  destruct (hi_lo t v Hn H Hv) as [i0 [E Hs0]].
  rewrite (seg_var_unique _ _ uy _ _ _ H Hs Hs0). clear i Hs. rename i0 into i, Hs0 into Hs.
  pose proof (seg_pos _ _ _ _ H Hs) as Hp.
  unfold lin_u. rewrite E. cbn [Nat.eqb]. cbv zeta.
  destruct (inside_flags t v Hv) as [A B]. rewrite A, B. cbn [orb].
  replace (S i - 1)%nat with i by lia.
  destruct (Req_EM_T (t i) (t (S i))) as [F|F]; [lra|].
  destruct rC.
  - f_equal. f_equal. rewrite Hu.
    rewrite (rsum_two (alen t) i).
    + rewrite !(lin_row_inside t _ v i) by auto.
      rewrite Nat.eqb_refl. destruct (Nat.eqb_spec i (S i)); [lia|]. rewrite Nat.eqb_refl.
      unfold seg_var. field. lra.
    + destruct Hs; auto.
    + intros j Hj H1 H2. rewrite (lin_row_inside t _ v i) by auto.
      destruct (Nat.eqb_spec j (S i)); [lia|]. destruct (Nat.eqb_spec j i); [lia|]. ring.
  - f_equal. set (d := t (S i) - t i) in *.
    rewrite <- (sqrt_pow2 d) at 1 by lra.
    rewrite <- sqrt_div.
    + f_equal. unfold seg_var. fold d. field. lra.
    + pose proof (pow2_ge_0 (v - t (S i))). pose proof (pow2_ge_0 (uy i)).
      pose proof (pow2_ge_0 (v - t i)). pose proof (pow2_ge_0 (uy (S i))). nra.
    + apply pow_lt. lra.
Qed.

(** Variance of the interpolant for uncorrelated values. *)
Lemma chord_cov n (d : dist (nat -> R)) t uy i v : increasing n t -> in_segment n t i v ->
  is_prob d -> has_cov n d (uncorrelated uy) ->
  Cov d (fun s => chord t s i v) (fun s => chord t s i v) = seg_var t uy i v.
Proof.
  intros H Hs Hd Hc. pose proof (seg_pos _ _ _ _ H Hs) as Hp. destruct Hs as [Hi Hv].
  set (c := fun j => if (j =? i)%nat then (t (S i) - v) / (t (S i) - t i)
                     else if (j =? S i)%nat then (v - t i) / (t (S i) - t i) else 0).
  assert (Hlin : forall s, chord t s i v = rsum n (fun j => c j * s j)).
  { intros s. rewrite (rsum_two n i); auto.
    - unfold c. rewrite !Nat.eqb_refl. destruct (Nat.eqb_spec (S i) i); [lia|].
      unfold chord. field. lra.
    - intros j Hj H1 H2. unfold c. destruct (Nat.eqb_spec j i); [lia|].
      destruct (Nat.eqb_spec j (S i)); [lia|]. ring. }
  rewrite (Cov_ext d _ _ (fun s => rsum n (fun j => c j * s j)) (fun s => rsum n (fun j => c j * s j)))
    by (intros; apply Hlin).
  rewrite (linear_cov n d (uncorrelated uy) c c Hc).
  rewrite (rsum_ext n _ (fun a => c a ^ 2 * uy a ^ 2)).
  - rewrite (rsum_two n i); auto.
    + unfold c. rewrite !Nat.eqb_refl. destruct (Nat.eqb_spec (S i) i); [lia|]. reflexivity.
    + intros j Hj H1 H2. unfold c. destruct (Nat.eqb_spec j i); [lia|].
      destruct (Nat.eqb_spec j (S i)); [lia|]. ring.
  - intros a Ha.
    rewrite (rsum_ext n _ (fun b => if (b =? a)%nat then c a * uy a ^ 2 * c b else 0)).
    + rewrite (rsum_delta n a (fun b => c a * uy a ^ 2 * c b)) by auto. ring.
    + intros b Hb. unfold uncorrelated. rewrite (Nat.eqb_sym a b).
      destruct (b =? a)%nat; ring.
Qed.

(** ** Sorting *)
Lemma sorted_perm_unique {A} (Rel : A -> A -> Prop) :
  (forall a b, Rel a b -> Rel b a -> False) ->
  forall l l', StronglySorted Rel l -> StronglySorted Rel l' -> Permutation l l' -> l = l'.
Proof.
  intros Hasym. induction l as [|a l IH]; intros l' Hs Hs' Hp.
  - apply Permutation_nil in Hp. auto.
  - destruct l' as [|b l']; [apply Permutation_sym, Permutation_nil in Hp; discriminate|].
    inversion Hs as [|? ? Hl Ha]; inversion Hs' as [|? ? Hl' Hb]; subst.
    rewrite Forall_forall in Ha, Hb.
    assert (E : a = b).
    { assert (Ia : In a (b :: l')) by (apply (Permutation_in a Hp); left; auto).
      assert (Ib : In b (a :: l)) by (apply (Permutation_in b (Permutation_sym Hp)); left; auto).
      destruct Ia as [Ia|Ia]; auto. destruct Ib as [Ib|Ib]; auto.
      exfalso. apply (Hasym a b); auto. }
    subst b. f_equal. apply IH; auto. apply Permutation_cons_inv in Hp. auto.
Qed.

Lemma ins_perm t i l : Permutation (ins t i l) (i :: l).
Proof.
  induction l as [|j l IH]; cbn [ins]; auto. destruct (Rle_dec (t i) (t j)); auto.
  rewrite IH. apply perm_swap.
Qed.
Lemma isort_perm t l : Permutation (isort t l) l.
Proof. induction l as [|i l IH]; cbn [isort]; auto. rewrite ins_perm, IH. auto. Qed.

Definition le_by (t : nat -> R) (i j : nat) : Prop := t i <= t j.
Lemma ins_sorted t i l : StronglySorted (le_by t) l -> StronglySorted (le_by t) (ins t i l).
Proof.
  induction l as [|j l IH]; intros H; cbn [ins].
  - repeat constructor.
  - inversion H as [|? ? Hl Hj]; subst. destruct (Rle_dec (t i) (t j)) as [L|L].
    + constructor; auto. constructor; auto. rewrite Forall_forall in *. intros x Hx.
      specialize (Hj x Hx). unfold le_by in *. lra.
    + constructor; auto. rewrite Forall_forall in *. intros x Hx.
      apply (Permutation_in x (ins_perm t i l)) in Hx. destruct Hx as [Hx|Hx]; [subst|auto].
      unfold le_by. lra.
Qed.
Lemma isort_sorted t l : StronglySorted (le_by t) (isort t l).
Proof. induction l; cbn [isort]; [constructor|apply ins_sorted; auto]. Qed.

(** Data rows of arrays of equal length. *)
Definition row_of (t y u : nat -> R) (i : nat) : R * (R * R) := (t i, (y i, u i)).
Definition row_lt (a b : R * (R * R)) : Prop := fst a < fst b.

Lemma map_nth_seq (l : list R) : map (fun i => nth i l 0) (seq 0 (length l)) = l.
Proof.
  induction l as [|a l IH]; cbn [length seq map]; auto. f_equal.
  rewrite <- seq_shift, map_map. exact IH.
Qed.
Lemma rows3_map t y u l : rows3 (map t l) (map y l) (map u l) = map (row_of t y u) l.
Proof. induction l; cbn; auto. unfold rows3 in IHl. rewrite IHl. reflexivity. Qed.
Lemma rows3_lists lt ly lu : length ly = length lt -> length lu = length lt ->
  rows3 lt ly lu = map (row_of (of_list lt) (of_list ly) (of_list lu)) (seq 0 (length lt)).
Proof.
  intros Hy Hu. rewrite <- rows3_map. cbn [aget of_list].
  rewrite map_nth_seq. rewrite <- Hy at 1. rewrite map_nth_seq. rewrite <- Hu at 1.
  rewrite map_nth_seq. reflexivity.
Qed.
Lemma rows3_fst lt ly lu : length ly = length lt -> length lu = length lt ->
  map fst (rows3 lt ly lu) = lt /\ map (fun r => fst (snd r)) (rows3 lt ly lu) = ly /\
  map (fun r => snd (snd r)) (rows3 lt ly lu) = lu.
Proof.
  revert ly lu. induction lt as [|a lt IH]; intros [|b ly] [|c lu] Hy Hu; try discriminate; auto.
  cbn in *. destruct (IH ly lu) as (A & B & C); auto. unfold rows3 in *.
  rewrite A, B, C. auto.
Qed.

Lemma strongly_sorted_map {A B} (f : A -> B) (P : A -> A -> Prop) (Q : B -> B -> Prop) l :
  (forall a b, In a l -> In b l -> a <> b -> P a b -> Q (f a) (f b)) -> NoDup l ->
  StronglySorted P l -> StronglySorted Q (map f l).
Proof.
  induction l as [|a l IH]; intros H Hnd Hs; cbn [map]; [constructor|].
  inversion Hs; inversion Hnd; subst. constructor.
  - apply IH; auto. intros; apply H; auto; right; auto.
  - rewrite Forall_forall in *. intros x Hx. apply in_map_iff in Hx.
    destruct Hx as [b [<- Hb]]. apply H; [left; auto|right; auto|intros ->; contradiction|auto].
Qed.

(** What argsort and take produce: the rows in strictly increasing order. *)
Lemma sorted_rows lt ly lu : length ly = length lt -> length lu = length lt -> NoDup lt ->
  let t := of_list lt in let ind := argsort t in
  np_take t ind = Ok (of_list (map t ind)) /\
  np_take (of_list ly) ind = Ok (of_list (map (of_list ly) ind)) /\
  np_take (of_list lu) ind = Ok (of_list (map (of_list lu) ind)) /\
  let r := rows3 (map t ind) (map (of_list ly) ind) (map (of_list lu) ind) in
  Permutation r (rows3 lt ly lu) /\ StronglySorted row_lt r.
Proof.
  intros Hy Hu Hnd t ind.
  assert (Hp : Permutation ind (seq 0 (length lt))) by apply isort_perm.
  assert (Hin : forall i, In i ind -> (i < length lt)%nat).
  { intros i Hi. apply (Permutation_in i Hp) in Hi. apply in_seq in Hi. lia. }
  assert (Hf : forall m, m = length lt -> forallb (fun i => (i <? m)%nat) ind = true).
  { intros m ->. apply forallb_forall. intros i Hi. apply Nat.ltb_lt. auto. }
  unfold np_take. cbn [alen of_list t].
  rewrite !Hf by (cbn [alen of_list]; auto).
  split; [auto|split; [auto|split; [auto|]]].
  cbv zeta. rewrite rows3_map. split.
  - rewrite rows3_lists by auto. apply Permutation_map. exact Hp.
  - apply strongly_sorted_map with (P := le_by t).
    + intros a b Ha Hb Hab Hle. unfold row_lt. cbn [fst row_of]. unfold le_by in Hle.
      destruct (Req_dec (t a) (t b)) as [E|E]; [|lra]. exfalso. apply Hab.
      apply (proj1 (NoDup_nth lt 0) Hnd a b); auto.
    + apply (Permutation_NoDup (Permutation_sym Hp)), seq_NoDup.
    + apply isort_sorted.
Qed.

Lemma unsorted_equal lt ly lu lt' ly' lu' t_new k be fv fu rC :
  length ly = length lt -> length lu = length lt -> NoDup lt ->
  length ly' = length lt' -> length lu' = length lt' -> NoDup lt' ->
  Permutation (rows3 lt ly lu) (rows3 lt' ly' lu') ->
  interp1d_unc t_new (of_list lt) (of_list ly) (of_list lu) k be fv fu false rC
  = interp1d_unc t_new (of_list lt') (of_list ly') (of_list lu') k be fv fu false rC.
Proof.
  intros Hy Hu Hnd Hy' Hu' Hnd' Hp.
  destruct (sorted_rows lt ly lu Hy Hu Hnd) as (A & B & C & P1 & S1).
  destruct (sorted_rows lt' ly' lu' Hy' Hu' Hnd') as (A' & B' & C' & P2 & S2).
  cbv zeta in *.
  assert (E : rows3 (map (of_list lt) (argsort (of_list lt))) (map (of_list ly) (argsort (of_list lt)))
                (map (of_list lu) (argsort (of_list lt)))
            = rows3 (map (of_list lt') (argsort (of_list lt'))) (map (of_list ly') (argsort (of_list lt')))
                (map (of_list lu') (argsort (of_list lt')))).
  { apply sorted_perm_unique with (Rel := row_lt); auto.
    - intros a b H1 H2. unfold row_lt in *. lra.
    - rewrite P1, Hp, <- P2. auto. }
  destruct (rows3_fst (map (of_list lt) (argsort (of_list lt))) (map (of_list ly) (argsort (of_list lt)))
              (map (of_list lu) (argsort (of_list lt)))) as (F1 & F2 & F3); [now rewrite !map_length..|].
  destruct (rows3_fst (map (of_list lt') (argsort (of_list lt'))) (map (of_list ly') (argsort (of_list lt')))
              (map (of_list lu') (argsort (of_list lt')))) as (F1' & F2' & F3'); [now rewrite !map_length..|].
  rewrite E, F1' in F1. rewrite E, F2' in F2. rewrite E, F3' in F3.
  unfold interp1d_unc. rewrite A, B, C, A', B', C'. cbn [bind].
  rewrite F1, F2, F3. reflexivity.
Qed.

Lemma sorted_is_identity lt ly lu t_new k be fv fu rC :
  length ly = length lt -> length lu = length lt -> StronglySorted Rlt lt ->
  interp1d_unc t_new (of_list lt) (of_list ly) (of_list lu) k be fv fu false rC
  = interp1d_unc t_new (of_list lt) (of_list ly) (of_list lu) k be fv fu true rC.
Proof.
  intros Hy Hu Hs.
  assert (Hnd : NoDup lt).
  { clear - Hs. induction Hs as [|a l Hl IH Ha]; constructor; auto.
    intros Hin. rewrite Forall_forall in Ha. specialize (Ha a Hin). lra. }
  destruct (sorted_rows lt ly lu Hy Hu Hnd) as (A & B & C & P1 & S1). cbv zeta in *.
  assert (E : rows3 (map (of_list lt) (argsort (of_list lt))) (map (of_list ly) (argsort (of_list lt)))
                (map (of_list lu) (argsort (of_list lt))) = rows3 lt ly lu).
  { apply sorted_perm_unique with (Rel := row_lt); auto.
    - intros a b H1 H2. unfold row_lt in *. lra.
    - clear - Hy Hu Hs. revert ly lu Hy Hu.
      induction Hs as [|a l Hl IH Ha]; intros [|b ly] [|c lu] Hy Hu; try discriminate; [constructor|].
      cbn. constructor.
      + apply IH; cbn in *; lia.
      + rewrite Forall_forall in *. intros [x r] Hx. unfold row_lt. cbn [fst].
        apply Ha. apply in_combine_l in Hx. auto. }
  destruct (rows3_fst (map (of_list lt) (argsort (of_list lt))) (map (of_list ly) (argsort (of_list lt)))
              (map (of_list lu) (argsort (of_list lt)))) as (F1 & F2 & F3); [now rewrite !map_length..|].
  destruct (rows3_fst lt ly lu) as (F1' & F2' & F3'); auto.
  rewrite E, F1' in F1. rewrite E, F2' in F2. rewrite E, F3' in F3.
  unfold interp1d_unc. rewrite A, B, C. cbn [bind].
  rewrite <- F1, <- F2, <- F3. reflexivity.
Qed.
