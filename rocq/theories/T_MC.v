(** Theorems about Monte Carlo propagation (C48-C53). *)
From Coq Require Import Reals List Arith ZArith Bool Lra Lia Permutation.
From Verif Require Import Base Sums M_Filter M_Interp M_MC S_MC P_MC P_MC2 P_MC3 P_MC4.
Import ListNotations.
Open Scope R_scope.

(** Scalar draws given by a table: number i of the c-th call is f c i. *)
Definition table (f : nat -> nat -> R) (c n : nat) : list R := map (f c) (seq 0 n).
Lemma table_length f c n : length (table f c n) = n.
Proof. unfold table. rewrite map_length, seq_length. reflexivity. Qed.
Definition one (v : R) : vec := mkArr 1 (fun _ => v).
Definition same_order (c : nat) (l : list vec) : list vec := l.
Lemma same_order_perm c l : Permutation (same_order c l) l.
Proof. apply Permutation_refl. Qed.
Definition reversed (c : nat) (l : list vec) : list vec := rev l.
Lemma reversed_perm c l : Permutation (reversed c l) l.
Proof. apply Permutation_sym, Permutation_rev. Qed.

(** All samples of B blocks of size bs: the calls 1..B of draw_samples. *)
Definition drawn {A} (draw : nat -> nat -> list A) (bs B : nat) : list A :=
  flat_map (fun m => draw (S m) bs) (seq 0 B).

(** ** C48 *)
Theorem C48_mean : forall A (draw : nat -> nat -> list A) evaluate order runs bs ri nbins rs o,
  (forall c n, length (draw c n) = n) -> (forall c l, Permutation (order c l) l) ->
  UMC_generic draw evaluate order runs bs ri nbins rs = Ok o ->
  exists B, (runs <= B * bs < runs + bs)%nat /\
    let results := map evaluate (drawn draw bs B) in
    length results = (B * bs)%nat /\ alen (u_y o) = u_len o /\
    (forall r, In r results -> alen r = u_len o) /\
    forall k, u_y o k = avg (fun r : vec => r k) results.
Proof.
  intros A draw evaluate order runs bs ri nbins rs o Hd Ho H.
  destruct (umc_generic_inv draw evaluate order Hd Ho runs bs ri nbins rs o H)
    as (B & r0 & init & s & Hbs & HB & N1 & N2 & E0 & _ & I & _ & ->).
  exists B. split; [lia|]. cbv zeta. cbn [u_y u_len alen aget].
  split; [apply (all_results_length draw evaluate Hd)|]. split; [reflexivity|]. split.
  - intros r Hr. apply (inv_d _ _ _ _ _ _ _ _ _ _ I).
    apply (Permutation_in _ (Permutation_sym (delivered_perm draw evaluate order Ho bs B)) Hr).
  - intros k. rewrite (inv_y _ _ _ _ _ _ _ _ _ _ I) by lia.
    apply avg_perm. apply (delivered_perm draw evaluate order Ho).
Qed.
Theorem C48_returns : forall A (draw : nat -> nat -> list A) evaluate order runs bs ri nbins d,
  (forall c n, length (draw c n) = n) -> (forall c l, Permutation (order c l) l) ->
  (forall a, alen (evaluate a) = d) -> (0 < runs)%nat -> (0 < bs)%nat -> (0 < ri)%nat ->
  exists o, UMC_generic draw evaluate order runs bs ri nbins false = Ok o.
Proof.
  intros A draw evaluate order runs bs ri nbins d Hd Ho He Hr Hb Hi.
  apply (umc_generic_ok draw evaluate order Hd Ho runs bs ri nbins false d); auto. discriminate.
Qed.
(** No draws, blocks of size zero: exceptions. *)
Theorem C48_degenerate : forall A (draw : nat -> nat -> list A) evaluate order runs bs ri nbins rs d,
  (forall c n, length (draw c n) = n) -> (forall c l, Permutation (order c l) l) ->
  (forall a, alen (evaluate a) = d) ->
  UMC_generic draw evaluate order runs bs 0 nbins rs = Err IndexError /\
  UMC_generic draw evaluate order runs 0 (S ri) nbins rs = Err ZeroDivisionError /\
  UMC_generic draw evaluate order 0 (S bs) (S ri) nbins rs = Err UnboundLocalError.
Proof.
  intros A draw evaluate order runs bs ri nbins rs d Hd Ho He.
  assert (L : forall n, length (order 0%nat (map evaluate (draw 0%nat n))) = n).
  { intros n. rewrite (Permutation_length (Ho _ _)), map_length. apply Hd. }
  assert (Hall : forall n r, In r (order 0%nat (map evaluate (draw 0%nat n))) -> alen r = d).
  { intros n r Hin. apply (Permutation_in _ (Ho _ _)) in Hin. apply in_map_iff in Hin.
    destruct Hin as [a [<- _]]. apply He. }
  assert (K : forall n r0 init, order 0%nat (map evaluate (draw 0%nat n)) = r0 :: init ->
     forallb (fun r : vec => alen r =? alen r0)%nat (r0 :: init) = true).
  { intros n r0 init E. apply forallb_forall. intros r Hin. apply Nat.eqb_eq. rewrite <- E in Hin.
    rewrite (Hall n r Hin), (Hall n r0); auto. rewrite E. left; reflexivity. }
  unfold UMC_generic. split; [|split].
  - specialize (L 0%nat). destruct (order 0%nat (map evaluate (draw 0%nat 0%nat))); [reflexivity|discriminate].
  - specialize (L (S ri)). specialize (K (S ri)).
    destruct (order 0%nat (map evaluate (draw 0%nat (S ri)))) as [|r0 init]; [discriminate|].
    cbv zeta. rewrite (K r0 init eq_refl). reflexivity.
  - specialize (L (S ri)). specialize (K (S ri)).
    destruct (order 0%nat (map evaluate (draw 0%nat (S ri)))) as [|r0 init]; [discriminate|].
    cbv zeta. rewrite (K r0 init eq_refl). cbn [negb Nat.eqb].
    replace ((0 + S bs - 1) / S bs)%nat with 0%nat; [reflexivity|].
    symmetry. apply Nat.div_small. lia.
Qed.
(** Two blocks of two with results 1,2 | 3,6, delivered in reverse order. *)
Definition f48 (c i : nat) : R :=
  match c, i with 1%nat, O => 1 | 1%nat, _ => 2 | 2%nat, O => 3 | _, _ => 6 end.
Example C48_example : exists o,
  UMC_generic (table f48) one reversed 4 2 1 [10%nat] false = Ok o /\ u_y o 0%nat = 3.
Proof.
  destruct (C48_returns R (table f48) one reversed 4 2 1 [10%nat] 1) as [o Ho];
    try lia; auto using table_length, reversed_perm.
  exists o. split; auto.
  destruct (C48_mean _ _ _ _ _ _ _ _ _ _ (table_length f48) reversed_perm Ho) as (B & HB & _ & _ & _ & E).
  rewrite E. replace B with 2%nat by lia. unfold avg. cbn. lra.
Qed.
Print Assumptions C48_mean.
Print Assumptions C48_returns.
Print Assumptions C48_degenerate.

(** ** C49: the (n-1)-normalised sample covariance?  Not in general: the scatter matrix of
    the first block is not divided by its size minus one (line 699). *)
Theorem C49_sample_covariance_refuted :
  exists A (draw : nat -> nat -> list A) evaluate order runs bs ri nbins o,
  (forall c n, length (draw c n) = n) /\ (forall c l, Permutation (order c l) l) /\
  UMC_generic draw evaluate order runs bs ri nbins false = Ok o /\
  (runs mod bs = 0)%nat /\
  u_U o 0%nat 0%nat
    <> sample_cov (fun r : vec => r 0%nat) (fun r : vec => r 0%nat) (map evaluate (drawn draw bs (runs / bs))).
Proof.
  destruct (C48_returns R (table (fun _ i => INR i)) one same_order 3 3 1 [1%nat] 1) as [o Ho];
    try lia; auto using table_length, same_order_perm.
  exists R, (table (fun _ i => INR i)), one, same_order, 3%nat, 3%nat, 1%nat, [1%nat], o.
  split; [apply table_length|]. split; [apply same_order_perm|]. split; [auto|]. split; [reflexivity|].
  destruct (umc_generic_inv _ _ _ (table_length _) same_order_perm _ _ _ _ _ _ Ho)
    as (B & r0 & init & s & Hbs & HB & N1 & N2 & E0 & _ & I & _ & ->).
  cbn [u_U mget]. assert (B = 1%nat) by lia. subst B.
  rewrite (inv_U1 _ _ _ _ _ _ _ _ _ _ I eq_refl).
  change (3 / 3)%nat with 1%nat. unfold sample_cov, scatter, avg. cbn. lra.
Qed.
(** What is returned: with n = B*bs results, the scatter of the first block enters with the
    weight bs-1 instead of 1; it is exact for blocks of one or two. *)
Theorem C49_covariance_error_partial :
  forall A (draw : nat -> nat -> list A) evaluate order runs bs ri nbins rs o,
  (forall c n, length (draw c n) = n) -> (forall c l, Permutation (order c l) l) ->
  UMC_generic draw evaluate order runs bs ri nbins rs = Ok o ->
  exists B, (runs <= B * bs < runs + bs)%nat /\ mrows (u_U o) = u_len o /\ mcols (u_U o) = u_len o /\
    let results := map evaluate (drawn draw bs B) in
    let first := map evaluate (drawn draw bs 1) in
    forall i j, ((2 <= B)%nat \/ (2 <= bs)%nat) ->
      u_U o i j =
      sample_cov (fun r : vec => r i) (fun r : vec => r j) results
      + (INR bs - 2) * scatter (fun r : vec => r i) (fun r : vec => r j) first / (INR (B * bs) - 1).
Proof.
  intros A draw evaluate order runs bs ri nbins rs o Hd Ho H.
  destruct (umc_generic_inv draw evaluate order Hd Ho runs bs ri nbins rs o H)
    as (B & r0 & init & s & Hbs & HB & N1 & N2 & E0 & _ & I & _ & ->).
  exists B. split; [lia|]. cbv zeta. cbn [u_U u_len mrows mcols mget].
  split; [reflexivity|]. split; [reflexivity|]. intros i j HBs.
  pose proof (inv_U _ _ _ _ _ _ _ _ _ _ I ltac:(lia) i j) as E.
  rewrite (scatter_perm _ _ _ _ (delivered_perm draw evaluate order Ho bs B)) in E.
  rewrite (scatter_perm _ _ _ _ (delivered_perm draw evaluate order Ho bs 1)) in E.
  assert (HK : INR (B * bs) - 1 <> 0).
  { assert (2 <= INR (B * bs)); [|lra]. apply (le_INR 2). nia. }
  unfold sample_cov. rewrite map_length.
  change (drawn draw bs B) with (all_samples draw bs B).
  rewrite (all_samples_length draw Hd).
  change (map evaluate (all_samples draw bs B)) with (all_results draw evaluate bs B).
  change (map evaluate (drawn draw bs 1)) with (all_results draw evaluate bs 1).
  apply Rmult_eq_reg_l with (INR (B * bs) - 1); auto. rewrite E. field. auto.
Qed.
Theorem C49_small_blocks_partial :
  forall A (draw : nat -> nat -> list A) evaluate order runs bs ri nbins rs o,
  (forall c n, length (draw c n) = n) -> (forall c l, Permutation (order c l) l) ->
  UMC_generic draw evaluate order runs bs ri nbins rs = Ok o ->
  (bs = 2%nat \/ (bs = 1%nat /\ (2 <= runs)%nat)) ->
  exists B, (runs <= B * bs < runs + bs)%nat /\
    forall i j, u_U o i j =
      sample_cov (fun r : vec => r i) (fun r : vec => r j) (map evaluate (drawn draw bs B)).
Proof.
  intros A draw evaluate order runs bs ri nbins rs o Hd Ho H Hbs.
  destruct (C49_covariance_error_partial _ _ _ _ _ _ _ _ _ _ Hd Ho H) as (B & HB & _ & _ & E).
  exists B. split; [auto|]. intros i j. rewrite E by lia.
  destruct Hbs as [-> | [-> Hr]].
  - replace (INR 2 - 2) with 0 by (cbn; ring). unfold Rdiv. ring.
  - assert (Z : scatter (fun r : vec => r i) (fun r : vec => r j) (map evaluate (drawn draw 1 1)) = 0).
    { unfold drawn. cbn [seq flat_map]. rewrite app_nil_r.
      pose proof (Hd 1%nat 1%nat). destruct (draw 1%nat 1%nat) as [|a [|]]; try discriminate.
      unfold scatter, avg. cbn. field. }
    rewrite Z. unfold Rdiv. ring.
Qed.
Example C49_example : exists o,
  UMC_generic (table f48) one reversed 4 2 1 [10%nat] false = Ok o /\ u_U o 0%nat 0%nat = 14 / 3.
Proof.
  destruct C48_example as (o & Ho & _). exists o. split; auto.
  destruct (C49_small_blocks_partial _ _ _ _ _ _ _ _ _ _ (table_length f48) reversed_perm Ho (or_introl eq_refl))
    as (B & HB & E).
  rewrite E. replace B with 2%nat by lia. unfold sample_cov, scatter, avg. cbn. lra.
Qed.
Print Assumptions C49_sample_covariance_refuted.
Print Assumptions C49_covariance_error_partial.
Print Assumptions C49_small_blocks_partial.

(** ** C50: the loop rounds the number of runs up to a multiple of the block size. *)
Theorem C50_requested_runs_refuted :
  exists A (draw : nat -> nat -> list A) evaluate order runs bs ri nbins o,
  (forall c n, length (draw c n) = n) /\ (forall c l, Permutation (order c l) l) /\
  UMC_generic draw evaluate order runs bs ri nbins false = Ok o /\
  (* the first [runs] results have another mean than the one returned *)
  u_y o 0%nat <> avg (fun r : vec => r 0%nat)
                     (map evaluate (firstn runs (drawn draw bs runs))) /\
  UMC_generic draw evaluate order runs bs ri nbins true = Err ValueError.
Proof.
  set (f := fun c i => match c, i with 2%nat, 1%nat => 4 | _, _ => 0 end).
  destruct (C48_returns R (table f) one same_order 3 2 1 [1%nat] 1) as [o Ho];
    try lia; auto using table_length, same_order_perm.
  exists R, (table f), one, same_order, 3%nat, 2%nat, 1%nat, [1%nat], o.
  split; [apply table_length|]. split; [apply same_order_perm|]. split; [auto|]. split.
  - destruct (C48_mean _ _ _ _ _ _ _ _ _ _ (table_length f) same_order_perm Ho) as (B & HB & _ & _ & _ & E).
    rewrite E. replace B with 2%nat by lia. unfold avg. cbn. lra.
  - reflexivity.
Qed.
Theorem C50_multiples_partial :
  forall A (draw : nat -> nat -> list A) evaluate order bs B ri nbins d,
  (forall c n, length (draw c n) = n) -> (forall c l, Permutation (order c l) l) ->
  (forall a, alen (evaluate a) = d) -> (0 < B)%nat -> (0 < bs)%nat -> (0 < ri)%nat ->
  exists o ss rr, UMC_generic draw evaluate order (B * bs) bs ri nbins true = Ok o /\
    u_sims o = Some (ss, rr) /\ length ss = (B * bs)%nat /\ length rr = (B * bs)%nat /\
    ss = drawn draw bs B /\ Permutation rr (map evaluate ss) /\
    forall k, u_y o k = avg (fun r : vec => r k) rr.
Proof.
  intros A draw evaluate order bs B ri nbins d Hd Ho He HB Hb Hi.
  destruct (umc_generic_ok draw evaluate order Hd Ho (B * bs) bs ri nbins true d) as [o H]; auto; [nia| |].
  { intros _. apply Nat.mod_mul. lia. }
  destruct (umc_generic_inv draw evaluate order Hd Ho _ _ _ _ _ _ H)
    as (B' & r0 & init & s & Hbs & HB' & N1 & N2 & E0 & _ & I & _ & ->).
  assert (B' = B) by nia. subst B'.
  exists (mkUmc (mkArr (alen r0) (s_y s)) (mkMat (alen r0) (alen r0) (s_U s))
          (map (hist_close (s_min s) (s_max s)) (s_h s)) (alen r0) (Some (s_sims s))).
  exists (fst (s_sims s)), (snd (s_sims s)). cbn [u_sims u_y aget].
  rewrite (inv_s _ _ _ _ _ _ _ _ _ _ I), (inv_r _ _ _ _ _ _ _ _ _ _ I).
  split; [auto|]. split.
  { rewrite <- (inv_s _ _ _ _ _ _ _ _ _ _ I), <- (inv_r _ _ _ _ _ _ _ _ _ _ I). destruct (s_sims s); reflexivity. }
  split; [apply (all_samples_length draw Hd)|].
  split; [apply (delivered_length draw evaluate order Hd Ho)|]. split; [reflexivity|].
  split; [apply (delivered_perm draw evaluate order Ho)|].
  intros k. apply (inv_y _ _ _ _ _ _ _ _ _ _ I). lia.
Qed.
Example C50_example : exists o ss rr,
  UMC_generic (table f48) one reversed 4 2 1 [10%nat] true = Ok o /\ u_sims o = Some (ss, rr) /\
  ss = [1; 2; 3; 6].
Proof.
  destruct (C50_multiples_partial R (table f48) one reversed 2 2 1 [10%nat] 1)
    as (o & ss & rr & H & E & _ & _ & Es & _); try lia; auto using table_length, reversed_perm.
  exists o, ss, rr. auto.
Qed.
Print Assumptions C50_requested_runs_refuted.
Print Assumptions C50_multiples_partial.

(** ** C51 *)
(** What the histogram contains: equidistant bins between the least and the largest initial
    result; every bin counts the results falling into it, results outside this range are
    dropped; afterwards the first edge is lowered to the least value seen, the last edge
    stays. *)
Theorem C51_histogram_partial :
  forall A (draw : nat -> nat -> list A) evaluate order runs bs ri nbins rs o h,
  (forall c n, length (draw c n) = n) -> (forall c l, Permutation (order c l) l) ->
  UMC_generic draw evaluate order runs bs ri nbins rs = Ok o ->
  In h (u_h o) -> let n := h_bins h in (1 <= n)%nat ->
  exists B, (runs <= B * bs < runs + bs)%nat /\ In n nbins /\
  let init := map evaluate (draw 0%nat ri) in
  let results := map evaluate (drawn draw bs B) in
  forall k, exists lo hi,
    (exists r, In r init /\ lo = r k) /\ (exists r, In r init /\ hi = r k) /\
    (forall r, In r init -> lo <= r k <= hi) /\
    (forall i, (i < n)%nat -> exists p, (forall v, p v = true <-> in_bin (even_edge lo hi n) n i v) /\
        h_counts h i k = INR (how_many (fun r : vec => p (r k)) results)) /\
    (exists q, (forall v, q v = true <-> lo <= v <= hi) /\
        rsum n (fun i => h_counts h i k) = INR (how_many (fun r : vec => q (r k)) results)) /\
    (forall i, (1 <= i <= n)%nat -> h_edges h i k = even_edge lo hi n i) /\
    h_edges h 0%nat k <= lo /\ (forall r, In r results -> h_edges h 0%nat k <= r k) /\
    (h_edges h 0%nat k = lo \/ exists r, In r results /\ h_edges h 0%nat k = r k) /\
    (forall i, (i < n)%nat -> h_edges h i k <= h_edges h (S i) k) /\ h_edges h n k = hi.
Proof.
  intros A draw evaluate order runs bs ri nbins rs o h Hd Ho H Hin n Hn.
  pose proof (umc_hist_shape draw evaluate order Hd Ho runs bs ri nbins rs o h H Hin Hn) as Sh.
  destruct (umc_hist draw evaluate order Hd Ho runs bs ri nbins rs o h H Hin Hn) as (B & N1 & N2 & Hnb & K).
  exists B. split; [lia|]. split; [auto|]. cbv zeta. intros k.
  destruct (K k) as (lo & hi & Hlo & Hhi & Hb & Hc & He & H0 & H1 & H2).
  destruct (Sh k) as [Mo _].
  assert (Hlh : lo <= hi) by (destruct Hlo as [r [Hr _]]; specialize (Hb r Hr); lra).
  exists lo, hi. split; [auto|]. split; [auto|]. split; [auto|]. split; [|split; [|split]].
  - intros i Hi. exists (in_binb (even_edge lo hi n) n i). split; [intros v; apply in_binb_spec|]. apply Hc; auto.
  - exists (fun v => rleb lo v && rleb v hi). split.
    { intros v. rewrite andb_true_iff, !P_Interp.rleb_true. tauto. }
    rewrite (rsum_ext n _ (fun i => INR (how_many (fun r : vec => in_binb (even_edge lo hi n) n i (r k))
                                      (all_results draw evaluate bs B)))) by (intros; apply Hc; auto).
    apply how_many_sum. intros r. rewrite in_bins_total; [|auto|apply even_mono; auto].
    replace (even_edge lo hi n 0) with lo by (unfold even_edge; cbn; ring).
    replace (even_edge lo hi n n) with hi; [reflexivity|].
    unfold even_edge. field. apply not_0_INR. lia.
  - auto.
  - split; [auto|]. split; [auto|]. split; [auto|]. split; [exact Mo|].
    rewrite He by (unfold n; lia). unfold even_edge, n. field. apply not_0_INR. unfold n in Hn. lia.
Qed.
(** ... hence samples are lost and lie beyond the last edge: initial results 0 and 1, then
    the results 5 and 1/2. *)
Definition f51 (c i : nat) : R :=
  match c, i with O, O => 0 | O, _ => 1 | 1%nat, O => 5 | _, _ => 1 / 2 end.
Theorem C51_every_sample_refuted :
  exists A (draw : nat -> nat -> list A) evaluate order runs bs ri nbins o h,
  (forall c n, length (draw c n) = n) /\ (forall c l, Permutation (order c l) l) /\
  UMC_generic draw evaluate order runs bs ri nbins false = Ok o /\ (runs mod bs = 0)%nat /\
  In h (u_h o) /\ (1 <= h_bins h)%nat /\
  rsum (h_bins h) (fun i => h_counts h i 0%nat) <> INR runs /\
  exists r, In r (map evaluate (drawn draw bs (runs / bs))) /\ h_edges h (h_bins h) 0%nat < r 0%nat.
Proof.
  destruct (C48_returns R (table f51) one same_order 2 2 2 [1%nat] 1) as [o Ho];
    try lia; auto using table_length, same_order_perm.
  pose proof Ho as Hu.
  destruct (umc_generic_inv _ _ _ (table_length _) same_order_perm _ _ _ _ _ _ Hu)
    as (B0 & r0 & init & s & _ & _ & _ & _ & _ & _ & I & _ & Eo).
  assert (Hh : exists h, In h (u_h o) /\ h_bins h = 1%nat).
  { rewrite Eo. cbn [u_h]. rewrite (inv_h _ _ _ _ _ _ _ _ _ _ I).
    eexists. split; [left; reflexivity|]. cbn [hist_close h_bins]. rewrite hist_after_bins. reflexivity. }
  destruct Hh as (h & Hin & Hn). clear Eo I.
  exists R, (table f51), one, same_order, 2%nat, 2%nat, 2%nat, [1%nat], o, h.
  split; [apply table_length|]. split; [apply same_order_perm|]. split; [auto|]. split; [reflexivity|].
  split; [auto|]. split; [lia|].
  destruct (C51_histogram_partial _ _ _ _ _ _ _ _ _ _ _ (table_length _) same_order_perm Ho Hin ltac:(lia))
    as (B & HB & _ & K).
  assert (B = 1%nat) by lia. subst B.
  destruct (K 0%nat) as (lo & hi & (r & Hr & Elo) & (r' & Hr' & Ehi) & Hb & _ & (q & Hq & Et) & _ & _ & _ & _ & _ & Ee).
  assert (Hhi : hi = 1).
  { pose proof (Hb (one 1) ltac:(cbn; auto)) as X. cbn in X.
    cbn in Hr'. destruct Hr' as [<- | [<- | []]]; cbn in Ehi; lra. }
  split.
  - rewrite Et. cbn [drawn seq flat_map table f51 app map how_many one aget].
    destruct (q 5) eqn:E5; [apply Hq in E5; lra|]. destruct (q (1/2)); cbn; lra.
  - exists (one 5). split; [cbn; auto|]. rewrite Ee, Hhi. cbn. lra.
Qed.
Print Assumptions C51_histogram_partial.
Print Assumptions C51_every_sample_refuted.

(** ** C52 *)
Theorem C52_pairing_refuted :
  exists A (draw : nat -> nat -> list A) evaluate order runs bs ri nbins o ss rr,
  (forall c n, length (draw c n) = n) /\ (forall c l, Permutation (order c l) l) /\
  UMC_generic draw evaluate order runs bs ri nbins true = Ok o /\ u_sims o = Some (ss, rr) /\
  exists a r, nth_error ss 0 = Some a /\ nth_error rr 0 = Some r /\ r 0%nat <> evaluate a 0%nat.
Proof.
  destruct (umc_generic_ok (table f48) one reversed (table_length f48) reversed_perm 2 2 1 [1%nat] true 1)
    as [o Ho]; try lia; auto.
  destruct (umc_generic_inv _ _ _ (table_length _) reversed_perm _ _ _ _ _ _ Ho)
    as (B & r0 & init & s & Hbs & HB & N1 & N2 & E0 & _ & I & _ & Eo).
  assert (B = 1%nat) by lia. subst B.
  exists R, (table f48), one, reversed, 2%nat, 2%nat, 1%nat, [1%nat], o, (fst (s_sims s)), (snd (s_sims s)).
  split; [apply table_length|]. split; [apply reversed_perm|]. split; [auto|]. split.
  { rewrite Eo. cbn [u_sims]. destruct (s_sims s); reflexivity. }
  rewrite (inv_s _ _ _ _ _ _ _ _ _ _ I), (inv_r _ _ _ _ _ _ _ _ _ _ I).
  exists 1, (one 2). split; [reflexivity|]. split; [reflexivity|]. cbn. lra.
Qed.
(** Results that arrive in the order of the samples (n_cpu=1) are paired. *)
Theorem C52_serial_partial : forall A (draw : nat -> nat -> list A) evaluate runs bs ri nbins o ss rr,
  (forall c n, length (draw c n) = n) ->
  UMC_generic draw evaluate (fun _ l => l) runs bs ri nbins true = Ok o -> u_sims o = Some (ss, rr) ->
  length ss = runs /\ rr = map evaluate ss.
Proof.
  intros A draw evaluate runs bs ri nbins o ss rr Hd H Hs.
  destruct (umc_generic_inv draw evaluate (fun _ l => l) Hd (fun _ l => Permutation_refl l) _ _ _ _ _ _ H)
    as (B & r0 & init & s & Hbs & HB & N1 & N2 & E0 & _ & I & Hr & ->).
  cbn [u_sims] in Hs. injection Hs as Hs.
  pose proof (inv_s _ _ _ _ _ _ _ _ _ _ I) as E1. pose proof (inv_r _ _ _ _ _ _ _ _ _ _ I) as E2.
  rewrite Hs in E1, E2. cbn [fst snd] in E1, E2. subst ss rr.
  split; [rewrite (all_samples_length draw Hd); specialize (Hr eq_refl); lia|].
  clear. unfold delivered, all_samples, Yb. induction (seq 0 B) as [|m l IH]; auto.
  cbn [flat_map]. rewrite map_app, IH. reflexivity.
Qed.
Example C52_example : exists o ss,
  UMC_generic (table f48) one (fun _ l => l) 4 2 1 [10%nat] true = Ok o /\
  u_sims o = Some (ss, map one ss) /\ length ss = 4%nat.
Proof.
  destruct (C50_multiples_partial R (table f48) one (fun _ l => l) 2 2 1 [10%nat] 1)
    as (o & ss & rr & H & E & _); try lia; auto using table_length.
  destruct (C52_serial_partial _ _ _ _ _ _ _ _ _ _ (table_length f48) H E) as [L ->].
  exists o, ss. auto.
Qed.
Print Assumptions C52_pairing_refuted.
Print Assumptions C52_serial_partial.
