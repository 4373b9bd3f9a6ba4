(** Histogram edges, credible bounds and the MC loop. *)
From Coq Require Import Reals List Arith ZArith Bool Lra Lia Permutation.
From Verif Require Import Base Sums M_Filter M_Interp M_MC S_MC P_Interp P_MC P_MC2.
Import ListNotations.
Open Scope R_scope.

Definition mono (n : nat) (e : nat -> R) : Prop := forall i, (i < n)%nat -> e i <= e (S i).
Lemma mono_le n e : mono n e -> forall i j, (i <= j)%nat -> (j <= n)%nat -> e i <= e j.
Proof.
  intros H i j. induction j as [|j IH]; intros Hij Hj.
  - replace i with 0%nat by lia. lra.
  - destruct (Nat.eq_dec i (S j)); [subst; lra|]. specialize (IH ltac:(lia) ltac:(lia)).
    specialize (H j ltac:(lia)). lra.
Qed.

(** ** linspace *)
Lemma linspace_even a b n i : (1 <= n)%nat -> (i <= n)%nat -> linspace a b n i = even_edge a b n i.
Proof.
  intros Hn Hi. unfold linspace, even_edge.
  destruct (Nat.eqb_spec i n) as [->|]; cbn [andb]; auto.
  destruct (Nat.ltb_spec 0 n); [|lia]. field. apply not_0_INR. lia.
Qed.
Lemma even_mono a b n : (1 <= n)%nat -> a <= b -> mono n (even_edge a b n).
Proof.
  intros Hn H i Hi. unfold even_edge. rewrite S_INR.
  assert (0 < INR n) by (apply lt_0_INR; lia).
  assert (0 <= (b - a) / INR n) by (apply Rmult_le_pos; [lra|apply Rlt_le, Rinv_0_lt_compat; auto]).
  nra.
Qed.
Lemma linspace_mono a b n : (1 <= n)%nat -> a <= b -> mono n (linspace a b n).
Proof. intros Hn H i Hi. rewrite !linspace_even by lia. apply even_mono; auto. Qed.
Lemma linspace_0 a b n : (1 <= n)%nat -> linspace a b n 0 = a.
Proof. intros. rewrite linspace_even by lia. unfold even_edge. cbn. ring. Qed.
Lemma linspace_n a b n : (1 <= n)%nat -> linspace a b n n = b.
Proof. intros. unfold linspace. rewrite Nat.eqb_refl. destruct (Nat.ltb_spec 0 n); [reflexivity|lia]. Qed.

Lemma lmin_spec x l : In (lmin (x :: l)) (x :: l) /\ forall v, In v (x :: l) -> lmin (x :: l) <= v.
Proof.
  cbn [lmin]. destruct (fold_min_le l x) as [A B]. split.
  - destruct (fold_min_in l x) as [->|H]; [left|right]; auto.
  - intros v [<-|H]; auto.
Qed.
Lemma lmax_spec x l : In (lmax (x :: l)) (x :: l) /\ forall v, In v (x :: l) -> v <= lmax (x :: l).
Proof.
  cbn [lmax]. destruct (fold_max_ge l x) as [A B]. split.
  - destruct (fold_max_in l x) as [->|H]; [left|right]; auto.
  - intros v [<-|H]; auto.
Qed.

(** ** Every value in the range of the edges lies in exactly one bin. *)
Lemma bins_partition e v : forall n, mono n e ->
  rsum n (fun i => if rleb (e i) v && rltb v (e (S i)) then 1 else 0)
  = if rleb (e 0%nat) v && rltb v (e n) then 1 else 0.
Proof.
  induction n as [|n IH]; intros H.
  - cbn [rsum]. destruct (rleb (e 0%nat) v) eqn:E1, (rltb v (e 0%nat)) eqn:E2; auto.
    apply rleb_true in E1. apply rltb_true in E2. lra.
  - cbn [rsum]. rewrite IH by (intros i Hi; apply H; lia).
    pose proof (mono_le _ _ H 0 n ltac:(lia) ltac:(lia)). pose proof (H n ltac:(lia)).
    destruct (rleb (e 0%nat) v) eqn:E1, (rltb v (e n)) eqn:E2, (rleb (e n) v) eqn:E3, (rltb v (e (S n))) eqn:E4;
      cbn [andb]; try lra; exfalso;
    repeat match goal with
    | H : rleb _ _ = true |- _ => apply rleb_true in H | H : rleb _ _ = false |- _ => apply rleb_false in H
    | H : rltb _ _ = true |- _ => apply rltb_true in H | H : rltb _ _ = false |- _ => apply rltb_false in H end; lra.
Qed.
Lemma in_bins_total e n v : (1 <= n)%nat -> mono n e ->
  rsum n (fun i => if in_binb e n i v then 1 else 0) = if rleb (e 0%nat) v && rleb v (e n) then 1 else 0.
Proof.
  intros Hn H. destruct n as [|n]; [lia|]. cbn [rsum].
  rewrite (rsum_ext n _ (fun i => if rleb (e i) v && rltb v (e (S i)) then 1 else 0)).
  - rewrite bins_partition by (intros i Hi; apply H; lia).
    pose proof (mono_le _ _ H 0 n ltac:(lia) ltac:(lia)). pose proof (H n ltac:(lia)).
    unfold in_binb. rewrite Nat.eqb_refl. cbn [andb].
    destruct (rleb (e 0%nat) v) eqn:E1, (rltb v (e n)) eqn:E2, (rleb (e n) v) eqn:E3, (rltb v (e (S n))) eqn:E4,
      (rleb v (e (S n))) eqn:E5, (Req_EM_T v (e (S n)));
      cbn [andb orb]; try lra; exfalso;
    repeat match goal with
    | H : rleb _ _ = true |- _ => apply rleb_true in H | H : rleb _ _ = false |- _ => apply rleb_false in H
    | H : rltb _ _ = true |- _ => apply rltb_true in H | H : rltb _ _ = false |- _ => apply rltb_false in H end; lra.
  - intros i Hi. unfold in_binb. destruct (Nat.eqb_spec (S i) (S n)); [lia|]. cbn [andb].
    rewrite orb_false_r. reflexivity.
Qed.
Lemma how_many_sum {A} n (p : nat -> A -> bool) (q : A -> bool) l :
  (forall a, rsum n (fun i => if p i a then 1 else 0) = if q a then 1 else 0) ->
  rsum n (fun i => INR (how_many (p i) l)) = INR (how_many q l).
Proof.
  intros H. induction l as [|a l IH].
  - cbn. apply rsum_zero. auto.
  - cbn [how_many]. rewrite plus_INR, <- IH.
    rewrite (rsum_ext n _ (fun i => (if p i a then 1 else 0) + INR (how_many (p i) l))).
    + rewrite rsum_plus, H. destruct (q a); reflexivity.
    + intros i _. rewrite plus_INR. destruct (p i a); reflexivity.
Qed.

(** ** Interpolation of the cumulated relative counts *)
Lemma search_right_mono (t : vec) v : mono (alen t - 1) t ->
  (search_right t v <= alen t)%nat /\
  (forall i, (i < search_right t v)%nat -> t i <= v) /\
  (forall i, (search_right t v <= i)%nat -> (i < alen t)%nat -> v < t i).
Proof.
  intros H. unfold search_right.
  destruct (count_mono (fun i => rleb (t i) v) (alen t)) as (A & B & C).
  - intros i j Hij Hj E. apply rleb_true in E. apply rleb_true.
    pose proof (mono_le _ _ H i j ltac:(lia) ltac:(lia)). lra.
  - repeat split; auto.
    + intros i Hi. apply rleb_true, B, Hi.
    + intros i Hi Hi'. apply rleb_false, C; auto.
Qed.

Lemma interp_quantile (G e : nat -> R) n q : (1 <= n)%nat ->
  mono n G -> mono n e -> G 0%nat = 0 -> G n = 1 -> 0 <= q <= 1 ->
  let v := np_interp (mkArr (n + 1) G) (mkArr (n + 1) e) q in
  exists j, (j < n)%nat /\ G j <= q <= G (S j) /\ e j <= v <= e (S j) /\
            (v - e j) * (G (S j) - G j) = (q - G j) * (e (S j) - e j).
Proof.
  intros Hn HG He G0 G1 Hq. cbv zeta. unfold np_interp. cbn [alen aget].
  replace (n + 1 - 1)%nat with n by lia.
  destruct (rltb q (G 0%nat)) eqn:E0; [apply rltb_true in E0; lra|].
  destruct (rltb (G n) q) eqn:E1; [apply rltb_true in E1; lra|].
  destruct (search_right_mono (mkArr (n + 1) G) q) as (A & B & C).
  { cbn [alen aget]. replace (n + 1 - 1)%nat with n by lia. exact HG. }
  cbn [alen aget] in A, B, C.
  set (m := search_right (mkArr (n + 1) G) q) in *.
  assert (Hm : (1 <= m)%nat).
  { destruct (le_lt_dec m 0) as [L|L]; [|lia]. specialize (C 0%nat L ltac:(lia)). lra. }
  destruct (Nat.eqb_spec (m - 1) n) as [E|E].
  - exists (n - 1)%nat. replace (S (n - 1)) with n by lia.
    pose proof (B n ltac:(lia)). assert (q = 1) by lra. subst q.
    pose proof (HG (n - 1)%nat ltac:(lia)) as X. pose proof (He (n - 1)%nat ltac:(lia)) as Y.
    replace (S (n - 1)) with n in X, Y by lia.
    rewrite E, G1 in *. repeat split; try lia; try lra.
  - exists (m - 1)%nat. pose proof (B (m - 1)%nat ltac:(lia)) as L.
    pose proof (C (S (m - 1)) ltac:(lia) ltac:(lia)) as U.
    pose proof (He (m - 1)%nat ltac:(lia)) as Y.
    destruct (Req_EM_T (G (m - 1)%nat) q) as [Eq|Ne].
    + repeat split; try lia; try lra. rewrite Eq. ring.
    + set (g0 := G (m - 1)%nat) in *. set (g1 := G (S (m - 1))) in *.
      set (e0 := e (m - 1)%nat) in *. set (e1 := e (S (m - 1))) in *.
      assert (Ht : 0 <= (q - g0) / (g1 - g0) <= 1).
      { split.
        - apply Rmult_le_pos; [lra|]. apply Rlt_le, Rinv_0_lt_compat. lra.
        - apply Rmult_le_reg_r with (g1 - g0); [lra|]. unfold Rdiv. rewrite Rmult_assoc, Rinv_l by lra. lra. }
      assert (Ev : (e1 - e0) / (g1 - g0) * (q - g0) + e0 = e0 + (q - g0) / (g1 - g0) * (e1 - e0)) by (field; lra).
      rewrite Ev. set (t := (q - g0) / (g1 - g0)) in *.
      repeat split; try lia; try lra; try nra.
      unfold t. field. lra.
Qed.

(** A quantile of the piecewise linear distribution is monotone in the level. *)
Lemma quantile_mono (G e : nat -> R) n q1 q2 v1 v2 j1 j2 :
  mono n G -> mono n e -> q1 < q2 -> (j1 < n)%nat -> (j2 < n)%nat ->
  G j1 <= q1 <= G (S j1) -> e j1 <= v1 <= e (S j1) ->
  (v1 - e j1) * (G (S j1) - G j1) = (q1 - G j1) * (e (S j1) - e j1) ->
  G j2 <= q2 <= G (S j2) -> e j2 <= v2 <= e (S j2) ->
  (v2 - e j2) * (G (S j2) - G j2) = (q2 - G j2) * (e (S j2) - e j2) -> v1 <= v2.
Proof.
  intros HG He Hq H1 H2 A1 B1 C1 A2 B2 C2.
  destruct (lt_eq_lt_dec j1 j2) as [[L|L]|L].
  - pose proof (mono_le _ _ He (S j1) j2 ltac:(lia) ltac:(lia)). lra.
  - subst j2. assert (0 < G (S j1) - G j1) by lra.
    apply Rmult_le_reg_r with (G (S j1) - G j1); auto.
    assert ((q1 - G j1) * (e (S j1) - e j1) <= (q2 - G j1) * (e (S j1) - e j1)) by (apply Rmult_le_compat_r; lra).
    lra.
  - pose proof (mono_le _ _ HG (S j2) j1 ltac:(lia) ltac:(lia)). lra.
Qed.

Lemma cum_rel_facts h k : (1 <= h_bins h)%nat -> (forall i, (i < h_bins h)%nat -> 0 <= h_counts h i k) ->
  0 < rsum (h_bins h) (fun i => h_counts h i k) ->
  exists G, cum_rel h k = Some (mkArr (h_bins h + 1) G) /\
    (forall j, G j = rsum j (fun i => h_counts h i k) / rsum (h_bins h) (fun i => h_counts h i k)) /\
    mono (h_bins h) G /\ G 0%nat = 0 /\ G (h_bins h) = 1.
Proof.
  intros Hn Hc Ht. unfold cum_rel.
  set (T := rsum (h_bins h) (fun i => h_counts h i k)) in *.
  destruct (Req_EM_T T 0); [lra|].
  eexists. split; [reflexivity|]. split; [reflexivity|]. split; [|split].
  - intros i Hi. cbn [rsum]. unfold Rdiv. apply Rmult_le_compat_r; [apply Rlt_le, Rinv_0_lt_compat; auto|].
    specialize (Hc i Hi). lra.
  - cbn. unfold Rdiv. ring.
  - unfold Rdiv. apply Rinv_r. auto.
Qed.

Lemma cred_bound_value h k q : (1 <= h_bins h)%nat ->
  (forall i, (i < h_bins h)%nat -> 0 <= h_counts h i k) ->
  mono (h_bins h) (fun j => h_edges h j k) ->
  0 < rsum (h_bins h) (fun i => h_counts h i k) -> 0 <= q <= 1 ->
  exists v j, cred_bound h k q = Ok (Some v) /\ (j < h_bins h)%nat /\
    let T := rsum (h_bins h) (fun i => h_counts h i k) in
    let G := fun j => rsum j (fun i => h_counts h i k) / T in
    G j <= q <= G (S j) /\ h_edges h j k <= v <= h_edges h (S j) k /\
    (v - h_edges h j k) * (G (S j) - G j) = (q - G j) * (h_edges h (S j) k - h_edges h j k).
Proof.
  intros Hn Hc He Ht Hq. destruct (cum_rel_facts h k Hn Hc Ht) as (G & Ec & EG & HG & G0 & G1).
  destruct (interp_quantile G (fun j => h_edges h j k) (h_bins h) q Hn HG He G0 G1 Hq) as (j & Hj & A & B & C).
  unfold cred_bound. rewrite Ec.
  exists (np_interp (mkArr (h_bins h + 1) G) (mkArr (h_bins h + 1) (fun j => h_edges h j k)) q), j.
  split; [|split; [auto|]].
  - unfold scipy_interp1d. cbn [alen aget bind]. rewrite Nat.eqb_refl. cbn [negb].
    destruct (Nat.eqb_spec (h_bins h + 1) 0); [lia|]. cbn [seq existsb].
    replace (h_bins h + 1 - 1)%nat with (h_bins h) by lia.
    rewrite G0, G1. unfold rltb at 1 2.
    destruct (Rlt_dec q 0); [lra|]. destruct (Rlt_dec 1 q); [lra|]. cbn [orb andb bind aget].
    unfold rltb. destruct (Rlt_dec q 0); [lra|]. destruct (Rlt_dec 1 q); [lra|]. reflexivity.
  - cbv zeta. rewrite <- !EG. auto.
Qed.
Lemma cred_bound_outside h k q : (1 <= h_bins h)%nat ->
  (forall i, (i < h_bins h)%nat -> 0 <= h_counts h i k) ->
  0 < rsum (h_bins h) (fun i => h_counts h i k) -> q < 0 \/ 1 < q ->
  cred_bound h k q = Err ValueError.
Proof.
  intros Hn Hc Ht Hq. destruct (cum_rel_facts h k Hn Hc Ht) as (G & Ec & EG & HG & G0 & G1).
  unfold cred_bound. rewrite Ec.
  unfold scipy_interp1d. cbn [alen aget bind]. rewrite Nat.eqb_refl. cbn [negb].
  destruct (Nat.eqb_spec (h_bins h + 1) 0); [lia|]. cbn [seq existsb].
  replace (h_bins h + 1 - 1)%nat with (h_bins h) by lia.
  rewrite G0, G1. unfold rltb at 1 2.
  destruct (Rlt_dec q 0), (Rlt_dec 1 q); cbn [orb andb bind]; try reflexivity; lra.
Qed.
Lemma cred_bound_ok h k q : (1 <= h_bins h)%nat ->
  (forall i, (i < h_bins h)%nat -> 0 <= h_counts h i k) ->
  mono (h_bins h) (fun j => h_edges h j k) -> 0 <= q <= 1 -> exists v, cred_bound h k q = Ok v.
Proof.
  intros Hn Hc He Hq.
  destruct (Req_EM_T (rsum (h_bins h) (fun i => h_counts h i k)) 0) as [E|E].
  - exists None. unfold cred_bound, cum_rel. rewrite E. destruct (Req_EM_T 0 0); [reflexivity|lra].
  - pose proof (rsum_nonneg (h_bins h) (fun i => h_counts h i k) Hc).
    destruct (cred_bound_value h k q Hn Hc He) as (v & j & Ev & _); auto; [lra|]. eauto.
Qed.

Lemma cred_row_inv h q ks l : cred_row h q ks = Ok l ->
  length l = length ks /\ forall i k, nth_error ks i = Some k -> exists v, cred_bound h k q = Ok v /\ nth i l None = v.
Proof.
  revert l. induction ks as [|k ks IH]; intros l H; cbn [cred_row] in H.
  - injection H as <-. split; auto. intros [|i] k; discriminate.
  - destruct (cred_bound h k q) as [v|] eqn:E; cbn [bind] in H; [|discriminate].
    destruct (cred_row h q ks) as [r|] eqn:Er; cbn [bind] in H; [|discriminate].
    injection H as <-. destruct (IH r eq_refl) as [L N]. split; [cbn; auto|].
    intros [|i] k'; cbn [nth_error nth].
    + intros X. injection X as <-. eauto.
    + apply N.
Qed.
Lemma cred_row_ok h q : forall ks, (forall k, In k ks -> exists v, cred_bound h k q = Ok v) ->
  exists l, cred_row h q ks = Ok l.
Proof.
  induction ks as [|k ks IH]; intros H; [eexists; reflexivity|].
  cbn [cred_row]. destruct (H k (or_introl eq_refl)) as [v ->]. cbn [bind].
  destruct IH as [l ->]; [intros; apply H; right; auto|]. eexists; reflexivity.
Qed.

(** ** The histograms returned by UMC_generic *)
Section UMC.
Context {A : Type}.
Variable draw : nat -> nat -> list A.
Variable evaluate : A -> vec.
Variable order : nat -> list vec -> list vec.
Hypothesis draw_len : forall c n, length (draw c n) = n.
Hypothesis order_perm : forall c l, Permutation (order c l) l.

Lemma block_min_spec bs B m0 k :
  block_min draw evaluate order bs B m0 k <= m0 k /\
  (forall r, In r (all_results draw evaluate bs B) -> block_min draw evaluate order bs B m0 k <= r k) /\
  (block_min draw evaluate order bs B m0 k = m0 k \/
   exists r, In r (all_results draw evaluate bs B) /\ block_min draw evaluate order bs B m0 k = r k).
Proof.
  unfold block_min. destruct (fold_min_le (map (fun r : vec => r k) (delivered draw evaluate order bs B)) (m0 k)) as [L H].
  split; [auto|split].
  - intros r Hr. apply H. apply (in_map (fun r : vec => r k)).
    apply (Permutation_in _ (Permutation_sym (delivered_perm draw evaluate order order_perm bs B)) Hr).
  - destruct (fold_min_in (map (fun r : vec => r k) (delivered draw evaluate order bs B)) (m0 k)) as [E|E]; [auto|].
    right. apply in_map_iff in E. destruct E as [r [E Hr]]. exists r. split; auto.
    apply (Permutation_in _ (delivered_perm draw evaluate order order_perm bs B) Hr).
Qed.
Lemma block_max_ge bs B m0 k : m0 k <= block_max draw evaluate order bs B m0 k.
Proof. exact (proj1 (fold_max_ge _ _)). Qed.

Lemma umc_hist runs bs ri nbins rs o h :
  UMC_generic draw evaluate order runs bs ri nbins rs = Ok o -> In h (u_h o) -> (1 <= h_bins h)%nat ->
  exists B, (runs <= B * bs)%nat /\ (B * bs < runs + bs)%nat /\
  In (h_bins h) nbins /\
  forall k, exists lo hi,
    (exists r, In r (map evaluate (draw 0 ri)) /\ lo = r k) /\
    (exists r, In r (map evaluate (draw 0 ri)) /\ hi = r k) /\
    (forall r, In r (map evaluate (draw 0 ri)) -> lo <= r k <= hi) /\
    (forall i, (i < h_bins h)%nat ->
       h_counts h i k = INR (how_many (fun r : vec => in_binb (even_edge lo hi (h_bins h)) (h_bins h) i (r k))
                                      (all_results draw evaluate bs B))) /\
    (forall i, (1 <= i <= h_bins h)%nat -> h_edges h i k = even_edge lo hi (h_bins h) i) /\
    h_edges h 0%nat k <= lo /\
    (forall r, In r (all_results draw evaluate bs B) -> h_edges h 0%nat k <= r k) /\
    (h_edges h 0%nat k = lo \/ exists r, In r (all_results draw evaluate bs B) /\ h_edges h 0%nat k = r k).
Proof.
  intros H Hin Hn.
  destruct (umc_generic_inv draw evaluate order draw_len order_perm runs bs ri nbins rs o H)
    as (B & r0 & init & s & Hbs & HB & N1 & N2 & E0 & _ & I & _ & ->).
  exists B. split; [auto|split; [auto|]].
  cbn [u_h] in Hin. rewrite (inv_h _ _ _ _ _ _ _ _ _ _ I), !map_map in Hin.
  apply in_map_iff in Hin. destruct Hin as [n [<- Hin]]. apply nodup_In in Hin.
  cbn [hist_close h_bins] in Hn |- *. rewrite hist_after_bins in Hn |- *. cbn [h_bins] in Hn |- *.
  split; [auto|]. intros k.
  set (col := map (fun r : vec => r k) (r0 :: init)).
  assert (Ecol : forall v, In v col <-> exists r, In r (map evaluate (draw 0%nat ri)) /\ v = r k).
  { intros v. unfold col. rewrite in_map_iff. split.
    - intros [r [<- Hr]]. exists r. split; auto. rewrite <- E0 in Hr.
      apply (Permutation_in _ (order_perm _ _) Hr).
    - intros [r [Hr ->]]. exists r. split; auto. rewrite <- E0.
      apply (Permutation_in _ (Permutation_sym (order_perm _ _)) Hr). }
  destruct (lmin_spec (r0 k) (map (fun r : vec => r k) init)) as [Ml Mm]. fold col in Ml, Mm.
  destruct (lmax_spec (r0 k) (map (fun r : vec => r k) init)) as [Xl Xm]. fold col in Xl, Xm.
  change (r0 k :: map (fun r : vec => r k) init) with col in *.
  exists (lmin col), (lmax col).
  assert (Hlh : lmin col <= lmax col) by (apply Mm; auto).
  split; [apply Ecol; auto|]. split; [apply Ecol; auto|].
  split; [intros r Hr; split; [apply Mm|apply Xm]; apply Ecol; eauto|].
  split; [|].
  { intros i Hi. unfold hist_close. cbn [h_counts]. rewrite hist_after_counts; cbn [h_bins h_edges h_counts]; auto.
    - rewrite Rplus_0_l. f_equal. apply how_many_ext. intros r _. unfold in_binb. fold col.
      rewrite !linspace_even by lia. reflexivity.
    - fold col. apply linspace_mono; auto. }
  unfold hist_close. cbn [h_edges]. rewrite !hist_after_bins, !hist_after_edges. cbn [h_bins h_edges].
  change (map (fun r : vec => r k) (r0 :: init)) with col.
  pose proof (inv_min _ _ _ _ _ _ _ _ _ _ I k) as Emin. pose proof (inv_max _ _ _ _ _ _ _ _ _ _ I k) as Emax.
  cbn [s_min] in *.
  match type of Emin with _ = block_min _ _ _ _ _ ?m0 _ =>
    destruct (block_min_spec bs B m0 k) as (P1 & P2 & P3) end. cbv beta in *.
  match type of Emax with _ = block_max _ _ _ _ _ ?m0 _ =>
    pose proof (block_max_ge bs B m0 k) as Q1 end. cbv beta in *.
  change (map (fun r : vec => r k) (r0 :: init)) with col in P1, P3, Q1.
  rewrite <- Emin in P1, P2, P3. rewrite <- Emax in Q1.
  rewrite linspace_0 by auto.
  destruct (Nat.eqb_spec n 0); [lia|].
  rewrite linspace_n by auto.
  assert (En0 : (0 =? n)%nat = false) by (apply Nat.eqb_neq; lia). rewrite En0.
  change (0 =? 0)%nat with true. cbv iota.
  rewrite (Rmin_left (s_min s k)) by auto.
  split.
  { intros i Hi. destruct (Nat.eqb_spec i n) as [->|Hne].
    - rewrite Rmin_right by auto. rewrite <- linspace_even, linspace_n by lia. reflexivity.
    - destruct (Nat.eqb_spec i 0); [lia|]. apply linspace_even; lia. }
  auto.
Qed.

(** The pieces needed for credible bounds. *)
Lemma umc_hist_shape runs bs ri nbins rs o h :
  UMC_generic draw evaluate order runs bs ri nbins rs = Ok o -> In h (u_h o) -> (1 <= h_bins h)%nat ->
  forall k, mono (h_bins h) (fun j => h_edges h j k) /\ forall i, (i < h_bins h)%nat -> 0 <= h_counts h i k.
Proof.
  intros H Hin Hn k. destruct (umc_hist runs bs ri nbins rs o h H Hin Hn) as (B & _ & _ & _ & K).
  destruct (K k) as (lo & hi & (r & Hr & _) & _ & Hb & Hc & He & H0 & _).
  assert (Hlh : lo <= hi) by (specialize (Hb r Hr); lra).
  split.
  - intros i Hi. rewrite (He (S i)) by lia. destruct i as [|i].
    + apply Rle_trans with lo; auto. unfold even_edge. change (INR 1) with 1; rewrite Rmult_1_l.
      assert (0 < INR (h_bins h)) by (apply lt_0_INR; lia).
      assert (0 <= (hi - lo) / INR (h_bins h)) by (apply Rmult_le_pos; [lra|apply Rlt_le, Rinv_0_lt_compat; auto]).
      lra.
    + rewrite (He (S i)) by lia. apply even_mono; auto.
  - intros i Hi. rewrite Hc by auto. apply pos_INR.
Qed.
End UMC.
