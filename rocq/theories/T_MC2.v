(** Theorems about Monte Carlo propagation (C53-C58, C92). *)
From Coq Require Import String.
From Coq Require Import Reals List Arith ZArith Bool Lra Lia Permutation.
From Verif Require Import Base Sums M_Filter S_Filter P_Filter M_Interp M_MC S_MC S_MC2
  P_Interp P_MC P_MC2 P_MC3 P_MC4.
Import ListNotations.
Open Scope R_scope.

(** ** C54 first, as C53 uses the same example. *)
(** For a histogram with counts c_i >= 0 and non-decreasing edges the bound for the level q
    is the q-quantile of the piecewise linear distribution of the histogram. *)
Theorem C54_quantile : forall h k q, let n := h_bins h in
  let T := rsum n (fun i => h_counts h i k) in
  let G := fun j => rsum j (fun i => h_counts h i k) / T in
  (1 <= n)%nat -> (forall i, (i < n)%nat -> 0 <= h_counts h i k) ->
  (forall i, (i < n)%nat -> h_edges h i k <= h_edges h (S i) k) -> 0 < T ->
  (0 <= q <= 1 -> exists v j, cred_bound h k q = Ok (Some v) /\ (j < n)%nat /\
     G j <= q <= G (S j) /\ h_edges h j k <= v <= h_edges h (S j) k /\
     (v - h_edges h j k) * (G (S j) - G j) = (q - G j) * (h_edges h (S j) k - h_edges h j k)) /\
  (q < 0 \/ 1 < q -> cred_bound h k q = Err ValueError).
Proof.
  intros h k q n T G Hn Hc He HT. split; intros Hq.
  - destruct (cred_bound_value h k q Hn Hc He HT Hq) as (v & j & E & Hj & A & B & C). exists v, j. auto.
  - apply cred_bound_outside; auto.
Qed.
(** Every count zero: the cumulated counts are 0/0. *)
Theorem C54_no_counts : forall h k q, rsum (h_bins h) (fun i => h_counts h i k) = 0 ->
  cred_bound h k q = Ok None.
Proof.
  intros h k q H. unfold cred_bound, cum_rel. rewrite H. destruct (Req_EM_T 0 0); [reflexivity|lra].
Qed.

Lemma cred_bound_order h k q1 q2 v1 v2 : (1 <= h_bins h)%nat ->
  (forall i, (i < h_bins h)%nat -> 0 <= h_counts h i k) ->
  mono (h_bins h) (fun j => h_edges h j k) ->
  0 < rsum (h_bins h) (fun i => h_counts h i k) -> 0 <= q1 -> q1 <= q2 -> q2 <= 1 ->
  cred_bound h k q1 = Ok (Some v1) -> cred_bound h k q2 = Ok (Some v2) ->
  h_edges h 0%nat k <= v1 /\ v1 <= v2 /\ v2 <= h_edges h (h_bins h) k.
Proof.
  intros Hn Hc He HT H0 H12 H1 E1 E2.
  destruct (cred_bound_value h k q1 Hn Hc He HT) as (w1 & j1 & F1 & J1 & A1 & B1 & C1); [lra|].
  destruct (cred_bound_value h k q2 Hn Hc He HT) as (w2 & j2 & F2 & J2 & A2 & B2 & C2); [lra|].
  rewrite E1 in F1. injection F1 as <-. rewrite E2 in F2. injection F2 as <-. cbv beta zeta in *.
  pose proof (mono_le _ _ He 0 j1 ltac:(lia) ltac:(lia)) as X. cbv beta in X.
  pose proof (mono_le _ _ He (S j2) (h_bins h) ltac:(lia) ltac:(lia)) as Y. cbv beta in Y.
  split; [lra|]. split; [|lra].
  destruct (Req_EM_T q1 q2) as [Eq|Ne].
  - subst q2. rewrite E1 in E2. injection E2 as ->. lra.
  - destruct (cum_rel_facts h k Hn Hc HT) as (G & _ & EG & HG & _ & _).
    rewrite <- !EG in *.
    apply (quantile_mono G (fun j => h_edges h j k) (h_bins h) q1 q2 v1 v2 j1 j2); auto. lra.
Qed.
(** The bounds returned by UMC for an output element with at least one counted sample. *)
Theorem C54_bounds_ordered : forall draw order x b a runs bs blow alow Delta ri nbins cred o,
  (forall c n, length (draw c n) = n) -> (forall c l, Permutation (order c l) l) ->
  UMC draw order x b a runs bs blow alow Delta ri nbins cred = Ok o ->
  nbins <> [] -> 0 <= cred <= 1 ->
  exists h, uf_h o = [h] /\ forall k, (k < alen x)%nat ->
    0 < rsum (h_bins h) (fun i => h_counts h i k) ->
    exists low high, nth k (nth 0 (uf_low o) []) None = Some low /\
      nth k (nth 0 (uf_high o) []) None = Some high /\
      h_edges h 0%nat k <= low /\ low <= high /\ high <= h_edges h (h_bins h) k.
Proof.
  intros draw order x b a runs bs blow alow Delta ri nbins cred o Hd Ho H Hnb Hc.
  destruct (UMC_inv draw order Hd Ho _ _ _ _ _ _ _ _ _ _ _ _ H)
    as (bl & al & g & h & _ & Eg & Eu & Eb & Eh & _ & _ & El & Er).
  exists h. split; [auto|]. intros k Hk HT.
  destruct nbins as [|n1 nb]; [congruence|]. cbn [Datatypes.length] in El, Er.
  apply cred_rows_one in El. destruct El as (l1 & R1 & ->).
  apply cred_rows_one in Er. destruct Er as (l2 & R2 & ->).
  cbn [nth].
  destruct (cred_row_inv _ _ _ _ R1) as [_ N1]. destruct (cred_row_inv _ _ _ _ R2) as [_ N2].
  assert (Ek : nth_error (seq 0 (alen x)) k = Some k).
  { rewrite (nth_error_nth' _ 0%nat) by (rewrite seq_length; auto). rewrite seq_nth by auto. reflexivity. }
  destruct (N1 k k Ek) as (v1 & V1 & ->). destruct (N2 k k Ek) as (v2 & V2 & ->).
  assert (Hin : In h (u_h g)) by (rewrite Eu; left; reflexivity).
  assert (Hb : (1 <= h_bins h)%nat) by (rewrite Eb; lia).
  destruct (umc_hist_shape draw _ order Hd Ho _ _ _ _ _ _ h Eg Hin Hb k) as [M1 M2].
  destruct (cred_bound_value h k ((1 - cred) / 2) Hb M2 M1 HT) as (w1 & _ & F1 & _); [lra|].
  destruct (cred_bound_value h k ((1 + cred) / 2) Hb M2 M1 HT) as (w2 & _ & F2 & _); [lra|].
  rewrite V1 in F1. injection F1 as ->. rewrite V2 in F2. injection F2 as ->.
  exists w1, w2. split; [auto|]. split; [auto|].
  apply (cred_bound_order h k ((1 - cred) / 2) ((1 + cred) / 2)); auto; lra.
Qed.

(** Example: one coefficient b, signal (1); initial coefficients 0 and 1, then the
    coefficients 1/4 and 3/4. *)
Definition f54 (c i : nat) : R :=
  match c, i with O, O => 0 | O, _ => 1 | _, O => 1 / 4 | _, _ => 3 / 4 end.
Definition smp54 (v : R) : vec * vec * vec :=
  (mkArr 1 (fun _ => v), mkArr 1 (fun _ => 0), mkArr 1 (fun _ => 1 / 2)).
Definition draw54 (c n : nat) : list (vec * vec * vec) := map (fun i => smp54 (f54 c i)) (seq 0 n).
Lemma draw54_length c n : Datatypes.length (draw54 c n) = n.
Proof. unfold draw54. rewrite map_length, seq_length. reflexivity. Qed.
Definition unit_filter : vec := mkArr 1 (fun _ => 1).
Lemma ev54_value v : UMCevaluate 1 unit_filter 0 unit_filter unit_filter (smp54 v) 0%nat = v.
Proof.
  unfold UMCevaluate, smp54, vplus, slice. cbn [alen aget Nat.sub Nat.add Nat.min].
  unfold lfilter0, lfilter. cbn. unfold lf_out, vpad. cbn. lra.
Qed.
Example C54_example : exists o h,
  UMC draw54 (fun _ l => l) unit_filter unit_filter unit_filter 2 2 unit_filter unit_filter 0 2 [10%nat; 20%nat] (1/2) = Ok o /\
  uf_h o = [h] /\ rsum (h_bins h) (fun i => h_counts h i 0%nat) = 2 /\
  exists low high, nth 0 (nth 0 (uf_low o) []) None = Some low /\
      nth 0 (nth 0 (uf_high o) []) None = Some high /\ low <= high.
Proof.
  destruct (UMC_ok draw54 (fun _ l => l) draw54_length (fun _ l => Permutation_refl l)
    unit_filter unit_filter unit_filter 2 2 unit_filter unit_filter 0 2 [10%nat; 20%nat] (1/2)) as [o Ho];
    try lia; try discriminate; [cbn; lia|lra|].
  destruct (C54_bounds_ordered _ _ _ _ _ _ _ _ _ _ _ _ _ _ draw54_length (fun _ l => Permutation_refl l) Ho)
    as (h & Eh & K); [discriminate|lra|].
  destruct (UMC_inv draw54 _ draw54_length (fun _ l => Permutation_refl l) _ _ _ _ _ _ _ _ _ _ _ _ Ho)
    as (bl & al & g & h' & Ep & Eg & Eu & Eb & Eh' & _).
  rewrite Eh in Eh'. injection Eh' as <-.
  destruct (Req_EM_T (unit_filter 0%nat) 1) as [_|N]; [|exfalso; apply N; reflexivity].
  injection Ep as -> ->.
  assert (HT : rsum (h_bins h) (fun i => h_counts h i 0%nat) = 2).
  { destruct (umc_hist draw54 _ _ draw54_length (fun _ l => Permutation_refl l) _ _ _ _ _ _ h Eg) as (B & N1 & N2 & _ & Kh).
    - rewrite Eu. left; reflexivity.
    - rewrite Eb. lia.
    - assert (B = 1%nat) by lia. subst B.
      destruct (Kh 0%nat) as (lo & hi & _ & _ & Hb & Hc & _).
      rewrite (rsum_ext _ _ _ Hc).
      pose proof (Hb (UMCevaluate 1 unit_filter 0 unit_filter unit_filter (smp54 0)) (or_introl eq_refl)) as X0.
      pose proof (Hb (UMCevaluate 1 unit_filter 0 unit_filter unit_filter (smp54 1)) (or_intror (or_introl eq_refl))) as X1.
      rewrite ev54_value in X0, X1.
      rewrite (how_many_sum (h_bins h) _ (fun r : vec => rleb lo (r 0%nat) && rleb (r 0%nat) hi)).
      + cbn [all_results all_samples flat_map seq draw54 map app how_many].
        change (alen unit_filter) with 1%nat.
        rewrite !ev54_value. cbn [f54].
        assert (T : forall v, 0 <= v <= 1 -> rleb lo v && rleb v hi = true).
        { intros v Hv. apply andb_true_iff. rewrite !rleb_true. lra. }
        rewrite !T by lra. cbn. lra.
      + intros r. rewrite in_bins_total; [|rewrite Eb; lia|apply even_mono; [rewrite Eb; lia|lra]].
        rewrite <- !linspace_even by (rewrite Eb; lia). rewrite linspace_0, linspace_n by (rewrite Eb; lia). reflexivity. }
  exists o, h. split; [auto|]. split; [auto|]. split; [auto|].
  destruct (K 0%nat ltac:(cbn; lia) ltac:(rewrite HT; lra)) as (lo & hi & E1 & E2 & _ & H12 & _).
  exists lo, hi. auto.
Qed.
Print Assumptions C54_quantile.
Print Assumptions C54_no_counts.
Print Assumptions C54_bounds_ordered.

(** ** C53 *)
Theorem C53_nbins_refuted : exists draw order x b a runs bs blow alow Delta ri nbins cred o,
  (forall c n, Datatypes.length (draw c n) = n) /\ (forall c l, Permutation (order c l) l) /\
  UMC draw order x b a runs bs blow alow Delta ri nbins cred = Ok o /\ (1 <= alen x)%nat /\
  NoDup nbins /\ map h_bins (uf_h o) <> nbins /\
  (* no bounds for the second number of bins: the row keeps its zeros *)
  (2 <= Datatypes.length nbins)%nat /\
  nth 1 (uf_low o) [] = repeat (Some 0) (alen x) /\ nth 1 (uf_high o) [] = repeat (Some 0) (alen x).
Proof.
  destruct C54_example as (o & h & Ho & Eh & _).
  destruct (UMC_inv draw54 _ draw54_length (fun _ l => Permutation_refl l) _ _ _ _ _ _ _ _ _ _ _ _ Ho)
    as (bl & al & g & h' & _ & _ & _ & Eb & Eh' & _ & _ & El & Er).
  exists draw54, (fun _ l => l), unit_filter, unit_filter, unit_filter, 2%nat, 2%nat, unit_filter, unit_filter,
    0, 2%nat, [10%nat; 20%nat], (1/2), o.
  split; [apply draw54_length|]. split; [intros; apply Permutation_refl|]. split; [auto|]. split; [cbn; lia|].
  split. { constructor; [cbn; intros [E|[]]; discriminate|]. constructor; [intros []|constructor]. }
  split. { rewrite Eh'. cbn [map]. rewrite Eb. discriminate. }
  split; [cbn; lia|].
  cbn [Datatypes.length] in El, Er.
  apply cred_rows_one in El. destruct El as (l1 & _ & ->).
  apply cred_rows_one in Er. destruct Er as (l2 & _ & ->). auto.
Qed.
(** Whatever nbins is: one histogram with 100 bins; the bounds belong to it; the further
    rows are zero. *)
Theorem C53_hundred_bins_partial : forall draw order x b a runs bs blow alow Delta ri nbins cred o,
  (forall c n, Datatypes.length (draw c n) = n) -> (forall c l, Permutation (order c l) l) ->
  UMC draw order x b a runs bs blow alow Delta ri nbins cred = Ok o ->
  map h_bins (uf_h o) = [100%nat] /\
  (nbins <> [] -> Datatypes.length (uf_low o) = Datatypes.length nbins /\ Datatypes.length (uf_high o) = Datatypes.length nbins /\
     forall m, (1 <= m < Datatypes.length nbins)%nat ->
       nth m (uf_low o) [] = repeat (Some 0) (alen x) /\ nth m (uf_high o) [] = repeat (Some 0) (alen x)).
Proof.
  intros draw order x b a runs bs blow alow Delta ri nbins cred o Hd Hp Ho.
  destruct (UMC_inv draw _ Hd Hp _ _ _ _ _ _ _ _ _ _ _ _ Ho)
    as (bl & al & g & h' & _ & _ & _ & Eb & Eh' & _ & _ & El & Er).
  split. { rewrite Eh'. cbn [map]. rewrite Eb. reflexivity. }
  intros Hn. destruct nbins as [|n1 nb]; [congruence|]. cbn [Datatypes.length] in El, Er |- *.
  apply cred_rows_one in El. destruct El as (l1 & _ & ->).
  apply cred_rows_one in Er. destruct Er as (l2 & _ & ->).
  cbn [Datatypes.length]. rewrite !repeat_length. split; [auto|]. split; [auto|].
  intros [|m] Hm; [lia|]. cbn [nth].
  assert (N : forall (v : list (option R)), nth m (repeat v (Datatypes.length nb)) [] = v).
  { intros v. rewrite (nth_indep _ [] v) by (rewrite repeat_length; lia). apply nth_repeat. }
  rewrite !N. auto.
Qed.
(** An empty list of bin numbers never gives a result for a signal with samples: the bounds of the histogram with
    100 bins do not fit into the arrays without rows. *)
Theorem C53_no_bins_partial : forall draw order x b a runs bs blow alow Delta ri cred,
  (forall c n, Datatypes.length (draw c n) = n) -> (forall c l, Permutation (order c l) l) -> (1 <= alen x)%nat ->
  (forall o, UMC draw order x b a runs bs blow alow Delta ri [] cred <> Ok o) /\
  forall nbins o, UMC draw order x b a runs bs blow alow Delta ri nbins cred = Ok o ->
    UMC draw order x b a runs bs blow alow Delta ri [] cred = Err IndexError.
Proof.
  intros draw order x b a runs bs blow alow Delta ri cred Hd Hp Hx. split.
  - intros o Ho. destruct (UMC_inv draw _ Hd Hp _ _ _ _ _ _ _ _ _ _ _ _ Ho)
      as (bl & al & g & h' & _ & _ & _ & Eb & Eh' & _ & _ & El & Er).
    cbn in El. destruct (Nat.eqb_spec (alen x) 0); [lia|discriminate].
  - intros nbins o Ho. destruct (UMC_inv draw _ Hd Hp _ _ _ _ _ _ _ _ _ _ _ _ Ho)
      as (bl & al & g & h' & Ep & Eg & Eh & _).
    unfold UMC in *. destruct (Nat.eqb_spec (alen alow) 0); [discriminate|]. cbv zeta. rewrite <- Ep, Eg. cbn [bind].
    rewrite Eh. cbn. destruct (Nat.eqb_spec (alen x) 0); [lia|reflexivity].
Qed.
Example C53_no_bins_ex : exists o,
  UMC draw54 (fun _ l => l) unit_filter unit_filter unit_filter 2 2 unit_filter unit_filter 0 2 [10%nat; 20%nat] (1/2) = Ok o /\
  UMC draw54 (fun _ l => l) unit_filter unit_filter unit_filter 2 2 unit_filter unit_filter 0 2 [] (1/2) = Err IndexError.
Proof.
  destruct C54_example as (o & h & Ho & _). exists o. split; [exact Ho|].
  apply (C53_no_bins_partial draw54 (fun _ l => l) unit_filter) with (nbins := [10%nat; 20%nat]) (o := o); auto using draw54_length.
Qed.
Print Assumptions C53_no_bins_partial.
Print Assumptions C53_nbins_refuted.
Print Assumptions C53_hundred_bins_partial.
