(** The block loop of UMC_generic. *)
From Coq Require Import Reals List Arith ZArith Bool Lra Lia Permutation.
From Verif Require Import Base Sums M_Filter M_Interp M_MC S_MC P_Interp P_MC.
Import ListNotations.
Open Scope R_scope.

Section UMC.
Context {A : Type}.
Variable draw : nat -> nat -> list A.
Variable evaluate : A -> vec.
Variable order : nat -> list vec -> list vec.
Hypothesis draw_len : forall c n, length (draw c n) = n.
Hypothesis order_perm : forall c l, Permutation (order c l) l.

(** Samples and results of the first B blocks of size bs, in the order of the draws. *)
Definition all_samples (bs B : nat) : list A := flat_map (fun m => draw (S m) bs) (seq 0 B).
Definition all_results (bs B : nat) : list vec := map evaluate (all_samples bs B).
Definition Yb (bs m : nat) : list vec := order (S m) (map evaluate (draw (S m) bs)).

Lemma all_samples_S bs B : all_samples bs (S B) = (all_samples bs B ++ draw (S B) bs)%list.
Proof. unfold all_samples. rewrite seq_S, flat_map_app. cbn. rewrite app_nil_r. reflexivity. Qed.
Lemma all_results_S bs B : all_results bs (S B) = (all_results bs B ++ map evaluate (draw (S B) bs))%list.
Proof. unfold all_results. rewrite all_samples_S, map_app. reflexivity. Qed.
Lemma all_samples_length bs B : length (all_samples bs B) = (B * bs)%nat.
Proof. induction B; auto. rewrite all_samples_S, app_length, IHB, draw_len. lia. Qed.
Lemma all_results_length bs B : length (all_results bs B) = (B * bs)%nat.
Proof. unfold all_results. rewrite map_length. apply all_samples_length. Qed.
Lemma Yb_perm bs m : Permutation (Yb bs m) (map evaluate (draw (S m) bs)).
Proof. apply order_perm. Qed.
Lemma Yb_length bs m : length (Yb bs m) = bs.
Proof. rewrite (Permutation_length (Yb_perm bs m)), map_length. apply draw_len. Qed.

Definition delivered (bs B : nat) : list vec := flat_map (Yb bs) (seq 0 B).
Lemma delivered_S bs B : delivered bs (S B) = (delivered bs B ++ Yb bs B)%list.
Proof. unfold delivered. rewrite seq_S, flat_map_app. cbn. rewrite app_nil_r. reflexivity. Qed.
Lemma delivered_perm bs B : Permutation (delivered bs B) (all_results bs B).
Proof.
  induction B; [constructor|]. rewrite delivered_S, all_results_S.
  apply Permutation_app; auto. apply Yb_perm.
Qed.
Lemma delivered_length bs B : length (delivered bs B) = (B * bs)%nat.
Proof. rewrite (Permutation_length (delivered_perm bs B)). apply all_results_length. Qed.

Fixpoint hist_after (bs B : nat) (h : hist) : hist :=
  match B with O => h | S m => hist_add (Yb bs m) (hist_after bs m h) end.
Lemma hist_after_bins bs B h : h_bins (hist_after bs B h) = h_bins h.
Proof. induction B; auto. Qed.
Lemma hist_after_edges bs B h : h_edges (hist_after bs B h) = h_edges h.
Proof. induction B; auto. Qed.
Lemma hist_after_counts bs B h i k : (i < h_bins h)%nat -> h_edges h i k <= h_edges h (S i) k ->
  h_counts (hist_after bs B h) i k =
  h_counts h i k + INR (how_many (fun r : vec => in_binb (fun j => h_edges h j k) (h_bins h) i (r k)) (all_results bs B)).
Proof.
  intros Hi He. induction B as [|B IH].
  - cbn. lra.
  - cbn [hist_after hist_add h_counts]. rewrite IH, hist_after_bins, hist_after_edges.
    rewrite histogram_spec by auto. rewrite how_many_map.
    rewrite all_results_S, how_many_app, (how_many_perm _ _ _ (Yb_perm bs B)), plus_INR. ring.
Qed.

Definition block_min (bs B : nat) (m0 : nat -> R) (k : nat) : R :=
  fold_left Rmin (map (fun r : vec => r k) (delivered bs B)) (m0 k).
Definition block_max (bs B : nat) (m0 : nat -> R) (k : nat) : R :=
  fold_left Rmax (map (fun r : vec => r k) (delivered bs B)) (m0 k).

Record Inv (bs d : nat) (h0 : list hist) (mn0 mx0 : nat -> R) (m : nat) (s : @umc_state A) : Prop := {
  inv_y : (1 <= m)%nat -> forall k, s_y s k = avg (fun r : vec => r k) (delivered bs m);
  inv_U : (1 <= m)%nat -> forall i j,
    (INR (m * bs) - 1) * s_U s i j =
    scatter (fun r : vec => r i) (fun r : vec => r j) (delivered bs m)
    + (INR bs - 2) * scatter (fun r : vec => r i) (fun r : vec => r j) (delivered bs 1);
  inv_U1 : m = 1%nat -> forall i j,
    s_U s i j = scatter (fun r : vec => r i) (fun r : vec => r j) (delivered bs 1);
  inv_h : s_h s = map (hist_after bs m) h0;
  inv_min : forall k, s_min s k = block_min bs m mn0 k;
  inv_max : forall k, s_max s k = block_max bs m mx0 k;
  inv_s : fst (s_sims s) = all_samples bs m;
  inv_r : snd (s_sims s) = delivered bs m;
  inv_d : forall r, In r (delivered bs m) -> alen r = d
}.

Lemma umc_block_inv runs bs nb d rs h0 mn0 mx0 m s s' :
  (0 < bs)%nat -> (m < nb)%nat -> Inv bs d h0 mn0 mx0 m s ->
  umc_block draw evaluate order runs bs nb d rs m s = Ok s' ->
  Inv bs d h0 mn0 mx0 (S m) s' /\ (rs = true -> (S m * bs <= runs)%nat).
Proof.
  intros Hbs Hm I H. unfold umc_block in H.
  destruct (Nat.eqb_spec m nb); [lia|]. cbv zeta in H. fold (Yb bs m) in H.
  destruct (forallb (fun r : vec => alen r =? d)%nat (Yb bs m)) eqn:Ef; cbn [negb] in H; [|discriminate].
  assert (Hb : INR bs <> 0) by (apply not_0_INR; lia).
  destruct (s_sims s) as [ss rr] eqn:Es.
  assert (D1 : delivered bs 1 = Yb bs 0) by (rewrite delivered_S; reflexivity).
  assert (Hd : forall r, In r (delivered bs (S m)) -> alen r = d).
  { intros r. rewrite delivered_S, in_app_iff. intros [Hr|Hr]; [apply (inv_d _ _ _ _ _ _ _ I); auto|].
    rewrite forallb_forall in Ef. apply Nat.eqb_eq, Ef, Hr. }
  destruct (Nat.eqb_spec m 0) as [->|Hm0].
  - (* first block *)
    destruct (rs && (runs <? 0 * bs + bs)%nat) eqn:Er; [discriminate|].
    injection H as <-. split.
    + assert (Dl : delivered bs 1 = Yb bs 0) by exact D1.
      assert (Hy : forall k, lsum (map (fun r : vec => r k) (Yb bs 0)) / INR (length (Yb bs 0))
                     = avg (fun r : vec => r k) (delivered bs 1)).
      { intros k. rewrite Dl. reflexivity. }
      constructor; cbn [s_y s_U s_h s_min s_max s_sims]; auto.
      * intros _ i j. rewrite Nat.mul_1_l.
        change (lsum (map (fun r : vec => (r i - lsum (map (fun r0 : vec => r0 i) (Yb bs 0)) / INR (length (Yb bs 0)))
           * (r j - lsum (map (fun r0 : vec => r0 j) (Yb bs 0)) / INR (length (Yb bs 0)))) (Yb bs 0)))
          with (scatter (fun r : vec => r i) (fun r : vec => r j) (Yb bs 0)).
        rewrite D1. ring.
      * intros _ i j. rewrite D1. reflexivity.
      * rewrite (inv_h _ _ _ _ _ _ _ I), map_map. reflexivity.
      * intros k. rewrite (inv_min _ _ _ _ _ _ _ I). unfold block_min. rewrite D1. reflexivity.
      * intros k. rewrite (inv_max _ _ _ _ _ _ _ I). unfold block_max. rewrite D1. reflexivity.
      * cbn [fst]. pose proof (inv_s _ _ _ _ _ _ _ I) as X. rewrite Es in X. cbn [fst] in X.
        rewrite X, all_samples_S. reflexivity.
      * cbn [snd]. pose proof (inv_r _ _ _ _ _ _ _ I) as X. rewrite Es in X. cbn [snd] in X.
        rewrite X, delivered_S. reflexivity.
    + intros ->. cbn [andb] in Er. apply Nat.ltb_ge in Er. lia.
  - (* further blocks *)
    destruct (rs && (runs <? m * bs + bs)%nat) eqn:Er; [discriminate|].
    injection H as <-. split.
    + assert (L : length (delivered bs m) = (m * bs)%nat) by apply delivered_length.
      assert (Hne : delivered bs m <> []).
      { intros E. rewrite E in L. cbn in L. nia. }
      assert (Hy : forall k, s_y s k + lsum (map (fun r : vec => r k - s_y s k) (Yb bs m)) / INR (m * bs + bs)
                     = avg (fun r : vec => r k) (delivered bs (S m))).
      { intros k. rewrite delivered_S, avg_update by auto. rewrite L, Yb_length.
        rewrite (inv_y _ _ _ _ _ _ _ I) by lia. reflexivity. }
      assert (HK : INR (m * bs + bs) - 1 <> 0).
      { assert (2 <= INR (m * bs + bs)); [|lra]. apply (le_INR 2). nia. }
      constructor; cbn [s_y s_U s_h s_min s_max s_sims]; auto.
      * intros _ i j.
        replace (S m * bs)%nat with (m * bs + bs)%nat by lia.
        rewrite (tot_ext
          (fun r : vec => (r i - (s_y s i + lsum (map (fun r0 : vec => r0 i - s_y s i) (Yb bs m)) / INR (m * bs + bs)))
             * (r j - (s_y s j + lsum (map (fun r0 : vec => r0 j - s_y s j) (Yb bs m)) / INR (m * bs + bs))))
          (fun r : vec => (r i - avg (fun r0 : vec => r0 i) (delivered bs (S m)))
             * (r j - avg (fun r0 : vec => r0 j) (delivered bs (S m))))) by (intros; rewrite !Hy; reflexivity).
        rewrite !Hy, !(inv_y _ _ _ _ _ _ _ I) by lia.
        rewrite delivered_S. rewrite (scatter_update _ _ (delivered bs m) (Yb bs m) Hne).
        rewrite L, <- !delivered_S.
        rewrite (inv_U _ _ _ _ _ _ _ I ltac:(lia) i j).
        field. auto.
      * intros E. lia.
      * rewrite (inv_h _ _ _ _ _ _ _ I), map_map. reflexivity.
      * intros k. rewrite (inv_min _ _ _ _ _ _ _ I). unfold block_min.
        rewrite delivered_S, map_app, fold_left_app. reflexivity.
      * intros k. rewrite (inv_max _ _ _ _ _ _ _ I). unfold block_max.
        rewrite delivered_S, map_app, fold_left_app. reflexivity.
      * cbn [fst]. pose proof (inv_s _ _ _ _ _ _ _ I) as X. rewrite Es in X. cbn [fst] in X.
        rewrite X, all_samples_S. reflexivity.
      * cbn [snd]. pose proof (inv_r _ _ _ _ _ _ _ I) as X. rewrite Es in X. cbn [snd] in X.
        rewrite X, delivered_S. reflexivity.
    + intros ->. cbn [andb] in Er. apply Nat.ltb_ge in Er. lia.
Qed.

Lemma umc_blocks_inv runs bs nb d rs h0 mn0 mx0 todo : forall m s s',
  (0 < bs)%nat -> (m + todo <= nb)%nat -> Inv bs d h0 mn0 mx0 m s ->
  (m = 0%nat \/ rs = false \/ (m * bs <= runs)%nat) ->
  umc_blocks draw evaluate order runs bs nb d rs todo m s = Ok s' ->
  Inv bs d h0 mn0 mx0 (m + todo) s' /\ (rs = true -> (m + todo = 0 \/ (m + todo) * bs <= runs)%nat).
Proof.
  induction todo as [|t IH]; intros m s s' Hbs Hm I Hr H.
  - cbn in H. injection H as <-. rewrite Nat.add_0_r. split; auto.
    intros ->. destruct Hr as [->|[Hr|Hr]]; auto. discriminate.
  - cbn [umc_blocks] in H.
    destruct (umc_block draw evaluate order runs bs nb d rs m s) as [s1|] eqn:E; cbn [bind] in H; [|discriminate].
    destruct (umc_block_inv runs bs nb d rs h0 mn0 mx0 m s s1 Hbs ltac:(lia) I E) as [I1 R1].
    replace (m + S t)%nat with (S m + t)%nat by lia.
    apply (IH (S m) s1 s'); auto; [lia|].
    destruct rs; auto.
Qed.

Lemma umc_block_ok runs bs nb d rs m s :
  (m < nb)%nat -> (forall a, alen (evaluate a) = d) ->
  (rs = true -> (S m * bs <= runs)%nat) ->
  exists s', umc_block draw evaluate order runs bs nb d rs m s = Ok s'.
Proof.
  intros Hm Hd Hr. unfold umc_block. destruct (Nat.eqb_spec m nb); [lia|]. cbv zeta.
  replace (forallb (fun r : vec => alen r =? d)%nat (order (S m) (map evaluate (draw (S m) bs)))) with true.
  - cbn [negb].
    match goal with |- exists s', (let (y, U) := ?p in _) = _ => destruct p as [y U] end.
    destruct rs; cbn [andb].
    + destruct (Nat.ltb_spec runs (m * bs + bs)); [specialize (Hr eq_refl); lia|].
      destruct (s_sims s). eexists; reflexivity.
    + destruct (s_sims s). eexists; reflexivity.
  - symmetry. apply forallb_forall. intros r Hr'. apply Nat.eqb_eq.
    apply (Permutation_in _ (order_perm _ _)) in Hr'. apply in_map_iff in Hr'.
    destruct Hr' as [a [<- _]]. apply Hd.
Qed.
Lemma umc_blocks_ok runs bs nb d rs todo : forall m s,
  (m + todo <= nb)%nat -> (forall a, alen (evaluate a) = d) ->
  (rs = true -> ((m + todo) * bs <= runs)%nat) ->
  exists s', umc_blocks draw evaluate order runs bs nb d rs todo m s = Ok s'.
Proof.
  induction todo as [|t IH]; intros m s Hm Hd Hr; [eexists; reflexivity|].
  cbn [umc_blocks].
  destruct (umc_block_ok runs bs nb d rs m s) as [s1 ->]; auto; [lia| |].
  { intros E. specialize (Hr E). nia. }
  cbn [bind]. apply IH; auto; [lia|].
  intros E. specialize (Hr E). nia.
Qed.

Lemma nblocks_spec runs bs : (0 < bs)%nat ->
  let B := ((runs + bs - 1) / bs)%nat in
  (runs <= B * bs)%nat /\ (B * bs < runs + bs)%nat.
Proof.
  intros Hb B. pose proof (Nat.div_mod (runs + bs - 1) bs ltac:(lia)) as E. fold B in E.
  pose proof (Nat.mod_upper_bound (runs + bs - 1) bs ltac:(lia)). nia.
Qed.

(** Everything about a result of UMC_generic. *)
Lemma umc_generic_inv runs bs ri nbins rs o :
  UMC_generic draw evaluate order runs bs ri nbins rs = Ok o ->
  exists B r0 init s,
    (0 < bs)%nat /\ (1 <= B)%nat /\ (runs <= B * bs)%nat /\ (B * bs < runs + bs)%nat /\
    order 0 (map evaluate (draw 0 ri)) = r0 :: init /\
    (forall r, In r (r0 :: init) -> alen r = alen r0) /\
    Inv bs (alen r0)
      (map (fun n => mkHist n (fun i k => linspace (lmin (map (fun r : vec => r k) (r0 :: init)))
                                           (lmax (map (fun r : vec => r k) (r0 :: init))) n i)
                            (fun _ _ => 0)) (nodup Nat.eq_dec nbins))
      (fun k => lmin (map (fun r : vec => r k) (r0 :: init)))
      (fun k => lmax (map (fun r : vec => r k) (r0 :: init))) B s /\
    (rs = true -> (B * bs <= runs)%nat) /\
    o = mkUmc (mkArr (alen r0) (s_y s)) (mkMat (alen r0) (alen r0) (s_U s))
          (map (hist_close (s_min s) (s_max s)) (s_h s)) (alen r0)
          (if rs then Some (s_sims s) else None).
Proof.
  unfold UMC_generic. destruct (order 0 (map evaluate (draw 0 ri))) as [|r0 init] eqn:E0; [discriminate|].
  cbv zeta. destruct (forallb (fun r : vec => alen r =? alen r0)%nat (r0 :: init)) eqn:Ef; cbn [negb]; [|discriminate].
  destruct (Nat.eqb_spec bs 0); [discriminate|].
  match goal with |- context [umc_blocks _ _ _ _ _ _ _ _ _ _ ?s0] => set (s00 := s0) end.
  set (B := ((runs + bs - 1) / bs)%nat).
  destruct (umc_blocks draw evaluate order runs bs B (alen r0) rs B 0 s00) as [s|] eqn:Eb; cbn [bind]; [|discriminate].
  destruct (Nat.eqb_spec B 0); [discriminate|]. intros H. injection H as <-.
  destruct (nblocks_spec runs bs ltac:(lia)) as [N1 N2]. fold B in N1, N2.
  match type of (eq_refl s00) with _ = _ => idtac end.
  destruct (umc_blocks_inv runs bs B (alen r0) rs (s_h s00) (s_min s00) (s_max s00) B 0 s00 s) as [I R]; auto; try lia.
  { constructor; auto; try lia.
    - cbn [hist_after]. rewrite map_id. reflexivity.
    - intros r []. }
  exists B, r0, init, s. split; [lia|split; [lia|split; [auto|split; [auto|split; [auto|split]]]]].
  - rewrite forallb_forall in Ef. intros r Hr. apply Nat.eqb_eq. apply Ef, Hr.
  - split; [exact I|]. split; [|reflexivity]. intros Hrs. destruct (R Hrs); auto. lia.
Qed.

Lemma umc_generic_ok runs bs ri nbins rs d :
  (forall a, alen (evaluate a) = d) -> (0 < runs)%nat -> (0 < bs)%nat -> (0 < ri)%nat ->
  (rs = true -> (runs mod bs = 0)%nat) ->
  exists o, UMC_generic draw evaluate order runs bs ri nbins rs = Ok o.
Proof.
  intros Hd Hr Hb Hi Hrs. unfold UMC_generic.
  assert (L : length (order 0 (map evaluate (draw 0 ri))) = ri).
  { rewrite (Permutation_length (order_perm _ _)), map_length. apply draw_len. }
  assert (Hall : forall r, In r (order 0 (map evaluate (draw 0 ri))) -> alen r = d).
  { intros r Hin. apply (Permutation_in _ (order_perm _ _)) in Hin. apply in_map_iff in Hin.
    destruct Hin as [a [<- _]]. apply Hd. }
  destruct (order 0 (map evaluate (draw 0 ri))) as [|r0 init]; [cbn in L; lia|].
  cbv zeta. replace (forallb (fun r : vec => alen r =? alen r0)%nat (r0 :: init)) with true.
  2:{ symmetry. apply forallb_forall. intros r Hin. apply Nat.eqb_eq.
      rewrite (Hall r Hin), (Hall r0 (or_introl eq_refl)). reflexivity. }
  cbn [negb]. destruct (Nat.eqb_spec bs 0); [lia|].
  destruct (nblocks_spec runs bs Hb) as [N1 N2].
  set (B := ((runs + bs - 1) / bs)%nat) in *.
  match goal with |- context [umc_blocks _ _ _ _ _ _ _ _ _ _ ?s0] => set (s00 := s0) end.
  destruct (umc_blocks_ok runs bs B (alen r0) rs B 0 s00) as [s ->]; auto.
  - intros a. rewrite Hd. symmetry. apply Hall. left; reflexivity.
  - intros E. specialize (Hrs E). cbn [Nat.add].
    apply Nat.mod_divide in Hrs; [|lia]. destruct Hrs as [q Hq].
    clearbody B. rewrite Hq in N2 |- *.
    assert (B < S q)%nat; [|nia].
    apply (proj2 (Nat.mul_lt_mono_pos_r bs B (S q) Hb)). lia.
  - cbn [bind]. destruct (Nat.eqb_spec B 0); [nia|]. eexists; reflexivity.
Qed.
End UMC.
