(** Monte Carlo results of an affine function of the quantity that is evaluated (C165).  Model: M_MC.v.  Vocabulary: S_MC.v, drawn (T_MC.v). *)
From Coq Require Import Reals List Arith ZArith Bool Lra Lia Permutation.
From Verif Require Import Base Sums M_Filter M_Interp M_MC S_MC P_MC P_MC2 P_MC3 P_MC4 T_MC.
From Verif Require P_Fit2.
Import ListNotations.
Open Scope R_scope.

Lemma avg_of_map {A B} (h : A -> B) f l : avg f (map h l) = avg (fun a => f (h a)) l.
Proof. unfold avg. rewrite map_map, map_length. reflexivity. Qed.
Lemma scatter_of_map {A B} (h : A -> B) f g l : scatter f g (map h l) = scatter (fun a => f (h a)) (fun a => g (h a)) l.
Proof. unfold scatter. rewrite map_map, !avg_of_map. reflexivity. Qed.
Lemma avg_affine {A} n (c : nat -> R) (f : nat -> A -> R) b l : l <> [] ->
  avg (fun a => rsum n (fun p => c p * f p a) + b) l = rsum n (fun p => c p * avg (f p) l) + b.
Proof.
  intros Hl. rewrite <- P_Fit2.avg_lin. set (g := fun a => rsum n (fun p => c p * f p a)). change (avg (fun a => g a + b) l = avg g l + b).
  assert (Hn : INR (length l) <> 0) by (apply not_0_INR; destruct l; [congruence|cbn; lia]).
  unfold avg. rewrite (tot_ext (fun a => g a + b) (fun a => 1 * g a + b * 1)) by (intros; ring).
  rewrite (tot_lin g (fun _ => 1) 1 b), tot_const. field. exact Hn.
Qed.
Lemma scatter_affine {A} n m (c e : nat -> R) (f g : nat -> A -> R) b b' l : l <> [] ->
  scatter (fun a => rsum n (fun p => c p * f p a) + b) (fun a => rsum m (fun q => e q * g q a) + b') l =
  rsum n (fun p => rsum m (fun q => c p * scatter (f p) (g q) l * e q)).
Proof.
  intros Hl. unfold scatter. rewrite !avg_affine by assumption.
  rewrite (tot_ext _ (fun a => rsum n (fun p => rsum m (fun q => c p * e q * ((f p a - avg (f p) l) * (g q a - avg (g q) l)))))).
  - rewrite (P_Fit2.tot_rsum n (fun p a => rsum m (fun q => c p * e q * ((f p a - avg (f p) l) * (g q a - avg (g q) l))))).
    apply rsum_ext. intros p Hp.
    rewrite (P_Fit2.tot_rsum m (fun q a => c p * e q * ((f p a - avg (f p) l) * (g q a - avg (g q) l)))).
    apply rsum_ext. intros q Hq. rewrite P_Fit2.tot_scal. ring.
  - intros a Ha.
    replace (rsum n (fun p => c p * f p a) + b - (rsum n (fun p => c p * avg (f p) l) + b)) with (rsum n (fun p => c p * (f p a - avg (f p) l))).
    2:{ rewrite (rsum_ext n (fun p => c p * (f p a - avg (f p) l)) (fun p => c p * f p a - c p * avg (f p) l)) by (intros; ring). rewrite rsum_minus. ring. }
    replace (rsum m (fun p => e p * g p a) + b' - (rsum m (fun p => e p * avg (g p) l) + b')) with (rsum m (fun p => e p * (g p a - avg (g p) l))).
    2:{ rewrite (rsum_ext m (fun p => e p * (g p a - avg (g p) l)) (fun p => e p * g p a - e p * avg (g p) l)) by (intros; ring). rewrite rsum_minus. ring. }
    rewrite <- rsum_scal_r. apply rsum_ext. intros p Hp. rewrite <- rsum_scal. apply rsum_ext; intros; ring.
Qed.

(** The q values M r + b of the d values r. *)
Definition affine (q d : nat) (M : nat -> nat -> R) (b : nat -> R) (r : vec) : vec :=
  mkArr q (fun k => rsum d (fun p => M k p * r p) + b k).

(** The same draws with M evaluate(..) + b in place of evaluate, in whatever order the results arrive: mean and covariance follow the affine map.
    (A single draw is the only case left out.) *)
Theorem C165_affine : forall A (draw : nat -> nat -> list A) evaluate order order' runs bs ri ri' nbins nbins' rs rs' o o' q d M b,
  (forall c n, length (draw c n) = n) -> (forall c l, Permutation (order c l) l) -> (forall c l, Permutation (order' c l) l) ->
  (2 <= runs \/ 2 <= bs)%nat ->
  UMC_generic draw evaluate order runs bs ri nbins rs = Ok o ->
  UMC_generic draw (fun a => affine q d M b (evaluate a)) order' runs bs ri' nbins' rs' = Ok o' ->
  alen (u_y o') = q /\
  (forall k, u_y o' k = rsum d (fun p => M k p * u_y o p) + b k) /\
  forall i j, u_U o' i j = rsum d (fun p => rsum d (fun p' => M i p * u_U o p p' * M j p')).
Proof.
  intros A draw evaluate order order' runs bs ri ri' nbins nbins' rs rs' o o' q d M b Hd Ho Ho' H2 E E'.
  destruct (C48_mean _ _ _ _ _ _ _ _ _ _ Hd Ho E) as (B & HB & L1 & _ & _ & Y).
  destruct (C48_mean _ _ _ _ _ _ _ _ _ _ Hd Ho' E') as (B' & HB' & L2 & L3 & L4 & Y').
  destruct (C49_covariance_error_partial _ _ _ _ _ _ _ _ _ _ Hd Ho E) as (B1 & HB1 & _ & _ & U).
  destruct (C49_covariance_error_partial _ _ _ _ _ _ _ _ _ _ Hd Ho' E') as (B2 & HB2 & _ & _ & U').
  assert (B' = B) by nia. assert (B1 = B) by nia. assert (B2 = B) by nia. subst B' B1 B2. cbv zeta in *.
  assert (Hpos : (0 < B * bs)%nat).
  { destruct (Nat.eq_0_gt_0_cases (B * bs)) as [Z|]; [|assumption]. exfalso.
    assert (B = 0%nat \/ bs = 0%nat) as [-> | ->] by nia; [|nia].
    destruct H2 as [H2|H2]; [lia|]. cbn in HB.
    destruct (umc_generic_inv draw evaluate order Hd Ho runs bs ri nbins rs o E) as (B0 & r0 & init & s & Hbs & HB0 & N1 & N2 & _).
    assert (runs = 0%nat) by lia. subst runs. nia. }
  assert (ND : drawn draw bs B <> []) by (intros X; rewrite X in L1; cbn in L1; lia).
  assert (N1 : drawn draw bs 1 <> []).
  { intros X. apply (f_equal (@length A)) in X. unfold drawn in X. cbn [seq flat_map] in X. rewrite app_nil_r, Hd in X. cbn in X. nia. }
  assert (G : (2 <= B)%nat \/ (2 <= bs)%nat) by nia.
  split; [|split].
  - destruct (drawn draw bs B) as [|a l] eqn:ED; [congruence|]. rewrite L3, <- (L4 (affine q d M b (evaluate a))); [reflexivity|].
    left. reflexivity.
  - intros k. rewrite Y', avg_of_map. cbn [affine aget]. rewrite (avg_affine d (M k) (fun p a => evaluate a p) (b k)) by assumption.
    f_equal. apply rsum_ext. intros p Hp. rewrite Y, avg_of_map. reflexivity.
  - intros i j. rewrite U' by assumption. unfold sample_cov. rewrite !scatter_of_map, !map_length. cbn [affine aget].
    rewrite !(scatter_affine d d (M i) (M j) (fun p a => evaluate a p) (fun p a => evaluate a p) (b i) (b j)) by assumption.
    unfold Rdiv. rewrite <- (rsum_scal _ (INR bs - 2)), <- !rsum_scal_r, <- rsum_plus. apply rsum_ext. intros p Hp.
    rewrite <- (rsum_scal _ (INR bs - 2)), <- !rsum_scal_r, <- rsum_plus. apply rsum_ext. intros p' Hp'.
    rewrite U by assumption. unfold sample_cov, Rdiv. rewrite !scatter_of_map, !map_length. ring.
Qed.

Definition times_plus (c : R) (b : nat -> R) (r : vec) : vec := mkArr (alen r) (fun k => c * r k + b k).
Lemma how_many_eq {A} (p q : A -> bool) l : (forall a, In a l -> (p a = true <-> q a = true)) -> how_many p l = how_many q l.
Proof. intros H. apply how_many_ext. intros a Ha. specialize (H a Ha). destruct (p a), (q a); intuition congruence. Qed.
(** With c evaluate(..) + b, c > 0 (another unit), the bins move along: same number of results in every bin, edges in the new unit. *)
Theorem C165_histogram : forall A (draw : nat -> nat -> list A) evaluate order order' runs bs ri nbins rs rs' o o' c b h h',
  (forall m n, length (draw m n) = n) -> (forall m l, Permutation (order m l) l) -> (forall m l, Permutation (order' m l) l) ->
  0 < c ->
  UMC_generic draw evaluate order runs bs ri nbins rs = Ok o ->
  UMC_generic draw (fun a => times_plus c b (evaluate a)) order' runs bs ri nbins rs' = Ok o' ->
  In h (u_h o) -> In h' (u_h o') -> h_bins h' = h_bins h -> (1 <= h_bins h)%nat ->
  (forall i k, (i < h_bins h)%nat -> h_counts h' i k = h_counts h i k) /\
  (forall i k, (i <= h_bins h)%nat -> h_edges h' i k = c * h_edges h i k + b k).
Proof.
  intros A draw evaluate order order' runs bs ri nbins rs rs' o o' c b h h' Hd Ho Ho' Hc E E' Hin Hin' Hb Hn.
  destruct (C51_histogram_partial _ _ _ _ _ _ _ _ _ _ h Hd Ho E Hin Hn) as (B & HB & _ & K).
  destruct (C51_histogram_partial _ _ _ _ _ _ _ _ _ _ h' Hd Ho' E' Hin' ltac:(rewrite Hb; exact Hn)) as (B' & HB' & _ & K').
  assert (B' = B) by nia. subst B'. cbv zeta in K, K'. rewrite Hb in K'. set (n := h_bins h) in *.
  assert (P : forall k, 
    (forall i, (i < n)%nat -> h_counts h' i k = h_counts h i k) /\ (forall i, (i <= n)%nat -> h_edges h' i k = c * h_edges h i k + b k)).
  { intros k. destruct (K k) as (lo & hi & (rl & Il & ->) & (rh & Ih & ->) & Hbd & Hcnt & _ & Hed & H0 & H1 & H2 & _).
    destruct (K' k) as (lo' & hi' & (rl' & Il' & ->) & (rh' & Ih' & ->) & Hbd' & Hcnt' & _ & Hed' & H0' & H1' & H2' & _).
    apply in_map_iff in Il, Ih, Il', Ih'. destruct Il as (al & <- & Il). destruct Ih as (ah & <- & Ih).
    destruct Il' as (al' & <- & Il'). destruct Ih' as (ah' & <- & Ih'). cbn [times_plus aget] in *.
    assert (Lo : evaluate al' k = evaluate al k).
    { pose proof (Hbd (evaluate al') ltac:(apply in_map; assumption)) as X1. pose proof (Hbd' (times_plus c b (evaluate al)) ltac:(apply (in_map (fun a => times_plus c b (evaluate a))); assumption)) as X2.
      cbn [times_plus aget] in X2. nra. }
    assert (Hi : evaluate ah' k = evaluate ah k).
    { pose proof (Hbd (evaluate ah') ltac:(apply in_map; assumption)) as X1. pose proof (Hbd' (times_plus c b (evaluate ah)) ltac:(apply (in_map (fun a => times_plus c b (evaluate a))); assumption)) as X2.
      cbn [times_plus aget] in X2. nra. }
    rewrite Lo, Hi in *. set (lo := evaluate al k) in *. set (hi := evaluate ah k) in *.
    assert (Ed : forall i, even_edge (c * lo + b k) (c * hi + b k) n i = c * even_edge lo hi n i + b k).
    { intros i. unfold even_edge, Rdiv. ring. }
    split.
    - intros i Hi1. destruct (Hcnt i Hi1) as (p & Hp & ->). destruct (Hcnt' i Hi1) as (p' & Hp' & ->). f_equal.
      rewrite !how_many_map. apply how_many_eq. intros a _. cbn [times_plus aget]. rewrite Hp, Hp'. unfold in_bin. rewrite !Ed.
      set (v := evaluate a k). set (e1 := even_edge lo hi n i). set (e2 := even_edge lo hi n (S i)). set (e3 := even_edge lo hi n n).
      assert (Q1 : c * e1 + b k <= c * v + b k <-> e1 <= v) by (split; intros; nra).
      assert (Q2 : c * v + b k < c * e2 + b k <-> v < e2) by (split; intros; nra).
      assert (Q3 : c * v + b k = c * e3 + b k <-> v = e3) by (split; [intros Q; apply (Rmult_eq_reg_l c); lra|intros ->; reflexivity]).
      rewrite Q1, Q2, Q3. reflexivity.
    - intros i Hi1. destruct (Nat.eq_dec i 0) as [->|Hi0]; [|rewrite Hed, Hed' by lia; apply Ed].
      assert (S1 : forall r, In r (map (fun a => times_plus c b (evaluate a)) (drawn draw bs B)) -> exists r0, In r0 (map evaluate (drawn draw bs B)) /\ r k = c * r0 k + b k).
      { intros r Hr. apply in_map_iff in Hr. destruct Hr as (a & <- & Ha). exists (evaluate a). split; [now apply in_map|reflexivity]. }
      assert (S2 : forall r0, In r0 (map evaluate (drawn draw bs B)) -> exists r, In r (map (fun a => times_plus c b (evaluate a)) (drawn draw bs B)) /\ r k = c * r0 k + b k).
      { intros r Hr. apply in_map_iff in Hr. destruct Hr as (a & <- & Ha). exists (times_plus c b (evaluate a)). split; [now apply (in_map (fun a => times_plus c b (evaluate a)))|reflexivity]. }
      apply Rle_antisym.
      + destruct H2 as [->|(r & Hr & ->)]; [exact H0'|]. destruct (S2 r Hr) as (r' & Hr' & <-). apply H1'. exact Hr'.
      + destruct H2' as [->|(r & Hr & ->)].
        * apply Rplus_le_compat_r. apply Rmult_le_compat_l; [lra|exact H0].
        * destruct (S1 r Hr) as (r' & Hr' & ->). apply Rplus_le_compat_r. apply Rmult_le_compat_l; [lra|]. apply H1. exact Hr'. }
  split; intros i k; [apply (proj1 (P k) i)|apply (proj2 (P k) i)].
Qed.

Lemma bins_of A (draw : nat -> nat -> list A) ev order runs bs ri nbins rs o :
  (forall c n, length (draw c n) = n) -> (forall c l, Permutation (order c l) l) ->
  UMC_generic draw ev order runs bs ri nbins rs = Ok o -> map h_bins (u_h o) = nodup Nat.eq_dec nbins.
Proof.
  intros Hd Ho H. destruct (umc_generic_inv draw ev order Hd Ho runs bs ri nbins rs o H)
    as (B & r0 & init & s & _ & _ & _ & _ & _ & _ & I & _ & ->).
  cbn [u_h]. rewrite (inv_h _ _ _ _ _ _ _ _ _ _ I), !map_map.
  rewrite <- (map_id (nodup Nat.eq_dec nbins)) at 2. apply map_ext. intros n. cbn [hist_close h_bins].
  rewrite hist_after_bins. reflexivity.
Qed.
(** The draws 1, 2, 3, 6: mean 3 and variance 14/3; twice the value minus 1 has the mean 5 and the variance 56/3, and the same histogram. *)
Definition twice_less_one (v : R) : vec := affine 1 1 (fun _ _ => 2) (fun _ => -1) (one v).
Example C165_example : exists o o', 
  UMC_generic (table f48) one reversed 4 2 1 [10%nat] false = Ok o /\
  UMC_generic (table f48) twice_less_one same_order 4 2 1 [10%nat] false = Ok o' /\
  u_y o' 0%nat = 5 /\ u_U o' 0%nat 0%nat = 56 / 3.
Proof.
  destruct C49_example as (o & Ho & HU). destruct C48_example as (o1 & Ho1 & HY). assert (o1 = o) by congruence. subst o1.
  destruct (C48_returns R (table f48) twice_less_one same_order 4 2 1 [10%nat] 1) as [o' Ho']; try lia; auto using table_length, same_order_perm.
  exists o, o'. split; [exact Ho|]. split; [exact Ho'|].
  destruct (C165_affine R (table f48) one reversed same_order 4 2 1 1 [10%nat] [10%nat] false false o o' 1 1 (fun _ _ => 2) (fun _ => -1)
    (table_length f48) reversed_perm same_order_perm ltac:(lia) Ho Ho') as (_ & Y & U).
  rewrite Y, U. cbn [rsum]. rewrite HU, HY. split; field.
Qed.
Example C165_histogram_example : exists o o' h h',
  UMC_generic (table f48) one reversed 4 2 1 [10%nat] false = Ok o /\
  UMC_generic (table f48) (fun a => times_plus 2 (fun _ => -1) (one a)) same_order 4 2 1 [10%nat] false = Ok o' /\
  In h (u_h o) /\ In h' (u_h o') /\ h_bins h' = h_bins h /\ h_bins h = 10%nat /\ h_edges h' 0%nat 0%nat = 2 * h_edges h 0%nat 0%nat + -1.
Proof.
  destruct (C48_returns R (table f48) one reversed 4 2 1 [10%nat] 1) as [o Ho]; try lia; auto using table_length, reversed_perm.
  destruct (C48_returns R (table f48) (fun a => times_plus 2 (fun _ => -1) (one a)) same_order 4 2 1 [10%nat] 1) as [o' Ho']; try lia; auto using table_length, same_order_perm.
  assert (G : forall (l : list hist), map h_bins l = [10%nat] -> exists h, In h l /\ h_bins h = 10%nat).
  { intros [|h l] X; inversion X. exists h. split; [left; reflexivity|congruence]. }
  destruct (G _ (bins_of _ _ _ _ _ _ _ _ _ _ (table_length _) reversed_perm Ho)) as (h & Ih & Hh).
  destruct (G _ (bins_of _ _ _ _ _ _ _ _ _ _ (table_length _) same_order_perm Ho')) as (h' & Ih' & Hh').
  exists o, o', h, h'. repeat (split; [assumption||congruence|]).
  apply (C165_histogram R (table f48) one reversed same_order 4 2 1 [10%nat] false false o o' 2 (fun _ => -1) h h'); auto using table_length, reversed_perm, same_order_perm; try lra; try congruence; lia.
Qed.
Print Assumptions C165_affine.
Print Assumptions C165_histogram.
