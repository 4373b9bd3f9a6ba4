(** Stationary noise after an FIR filter (C155). *)
From Coq Require Import Reals List Arith ZArith Bool String Lia Lra.
From Verif Require Import Base Sums Stats M_Filter S_Filter P_Filter P_Filter2 P_Filter3 T_Filter T_Filter2.
Import ListNotations.
Open Scope R_scope.

(** Autocovariance of the noise at the input as the user describes it: white noise of standard deviation s, or the values in
    a vector with sigma_noise kind "corr" (zero for longer lags). *)
Definition input_acf (sn : noise) (l : nat) : R :=
  match sn with
  | NsFloat s => if (l =? 0)%nat then s * s else 0
  | NsVec v => if (l <? alen v)%nat then v l else 0
  | _ => 0
  end.
Definition stationary_noise (sn : noise) (kind : string) : Prop :=
  match sn with NsFloat _ => True | NsVec _ => kind = "corr"%string | _ => False end.
(** Autocovariance at lag l of the filtered noise, for an autocovariance r of the noise. *)
Definition output_acf (theta : vec) (r : nat -> R) (l : nat) : R :=
  rsum (alen theta) (fun a => rsum (alen theta) (fun b => theta a * theta b * r (Nat.max (l + b) a - Nat.min (l + b) a)%nat)).

Lemma stat_cont_lag n P sn kind i j : stationary_noise sn kind -> (1 <= n)%nat -> (i < n + P)%nat -> (j < n + P)%nat ->
  stat_cont n P (sig_cov sn kind) i j =
  (if (Nat.max i j - Nat.min i j <? n)%nat then input_acf sn (Nat.max i j - Nat.min i j) else 0).
Proof.
  intros Hs Hn Hi Hj. unfold stat_cont.
  assert (S : forall a b, sig_cov sn kind a b = input_acf sn (Nat.max a b - Nat.min a b)).
  { intros a b. destruct sn as [|s|v|m| |]; simpl in Hs; try contradiction; unfold sig_cov, input_acf.
    - destruct (Nat.eqb_spec a b), (Nat.eqb_spec (Nat.max a b - Nat.min a b) 0); try lia; reflexivity.
    - subst kind. reflexivity. }
  rewrite !S.
  destruct (Nat.leb_spec P i), (Nat.leb_spec P j); cbn [andb].
  - replace (Nat.max (i - P) (j - P) - Nat.min (i - P) (j - P))%nat with (Nat.max i j - Nat.min i j)%nat by lia.
    destruct (Nat.ltb_spec (Nat.max i j - Nat.min i j) n); [reflexivity|lia].
  - destruct (Nat.leb_spec j i).
    + replace (Nat.max i j - Nat.min i j)%nat with (i - j)%nat by lia.
      replace (Nat.max (i - j) 0 - Nat.min (i - j) 0)%nat with (i - j)%nat by lia. reflexivity.
    + replace (Nat.max i j - Nat.min i j)%nat with (j - i)%nat by lia.
      replace (Nat.max 0 (j - i) - Nat.min 0 (j - i))%nat with (j - i)%nat by lia. reflexivity.
  - destruct (Nat.leb_spec j i).
    + replace (Nat.max i j - Nat.min i j)%nat with (i - j)%nat by lia.
      replace (Nat.max (i - j) 0 - Nat.min (i - j) 0)%nat with (i - j)%nat by lia. reflexivity.
    + replace (Nat.max i j - Nat.min i j)%nat with (j - i)%nat by lia.
      replace (Nat.max 0 (j - i) - Nat.min 0 (j - i))%nat with (j - i)%nat by lia. reflexivity.
  - destruct (Nat.leb_spec j i).
    + replace (Nat.max i j - Nat.min i j)%nat with (i - j)%nat by lia.
      replace (Nat.max (i - j) 0 - Nat.min (i - j) 0)%nat with (i - j)%nat by lia. reflexivity.
    + replace (Nat.max i j - Nat.min i j)%nat with (j - i)%nat by lia.
      replace (Nat.max 0 (j - i) - Nat.min 0 (j - i))%nat with (j - i)%nat by lia. reflexivity.
Qed.

(** With exactly known coefficients the covariance depends on the lag only; it is the autocovariance of the filtered noise,
    if lags >= len(y) of the input noise are taken for zero. *)
Theorem C155_stationary_partial : forall ydt tdt y sn theta kind n N,
  alen y = n -> alen theta = N -> (1 <= n)%nat -> (2 <= N)%nat -> stationary_noise sn kind ->
  exists x U, FIRuncFilter ydt tdt y sn theta UtNone 0 None kind true = Ok (x, FullU U) /\
    mrows U = n /\ mcols U = n /\
    (forall i j, (i < n)%nat -> (j < n)%nat -> (j <= i)%nat ->
       U i j = output_acf theta (fun l => if (l <? n)%nat then input_acf sn l else 0) (i - j) /\ U j i = U i j) /\
    (* in particular: *)
    (forall i j, (i + 1 < n)%nat -> (j + 1 < n)%nat -> U (i + 1)%nat (j + 1)%nat = U i j) /\
    ((match sn with NsVec v => (alen v <= n)%nat | _ => True end) ->
       forall i j, (i < n)%nat -> (j < n)%nat -> (j <= i)%nat -> U i j = output_acf theta (input_acf sn) (i - j)) /\
    (forall s, sn = NsFloat s -> forall i, (i < n)%nat -> U i i = s * s * rsum N (fun k => theta k * theta k)).
Proof.
  intros ydt tdt y sn theta kind n N Hy Ht Hn HN Hs.
  assert (F1 : noise_fits n sn kind) by (destruct sn; simpl in *; try contradiction; auto).
  destruct (FIR_general ydt tdt y sn theta UtNone kind n N) as (x & U & H1 & _ & A2 & A3 & _ & G1); auto; [exact I|].
  assert (G : forall i j, (i < n)%nat -> (j < n)%nat -> (j <= i)%nat ->
       U i j = output_acf theta (fun l => if (l <? n)%nat then input_acf sn l else 0) (i - j) /\ U j i = U i j).
  { intros i j Hi Hj Hji.
    assert (E : U i j = output_acf theta (fun l => if (l <? n)%nat then input_acf sn l else 0) (i - j)).
    { rewrite G1 by assumption. unfold gen_cov, output_acf. rewrite Ht. apply rsum_ext. intros a Ha. apply rsum_ext. intros b Hb.
      rewrite stat_cont_lag by (auto; lia). cbn [coeff_cov].
      replace (Nat.max (i + (N - 1) - a) (j + (N - 1) - b) - Nat.min (i + (N - 1) - a) (j + (N - 1) - b))%nat
        with (Nat.max (i - j + b) a - Nat.min (i - j + b) a)%nat by lia. ring. }
    split; [exact E|]. rewrite G1 by assumption. rewrite (G1 i j) by assumption. unfold gen_cov.
    rewrite rsum_swap. apply rsum_ext. intros a Ha. apply rsum_ext. intros b Hb.
    rewrite !stat_cont_lag by (auto; lia). cbn [coeff_cov].
    replace (Nat.max (j + (N - 1) - b) (i + (N - 1) - a) - Nat.min (j + (N - 1) - b) (i + (N - 1) - a))%nat
      with (Nat.max (i + (N - 1) - a) (j + (N - 1) - b) - Nat.min (i + (N - 1) - a) (j + (N - 1) - b))%nat by lia. ring. }
  exists x, U. split; [exact H1|]. split; [exact A2|]. split; [exact A3|]. split; [exact G|]. split; [|split].
  - intros i j Hi Hj. destruct (Nat.le_ge_cases j i).
    + destruct (G (i + 1)%nat (j + 1)%nat) as [-> _]; try lia. destruct (G i j) as [-> _]; try lia. f_equal. lia.
    + destruct (G (j + 1)%nat (i + 1)%nat) as [E1 E2]; try lia. destruct (G j i) as [E3 E4]; try lia.
      rewrite E2, E4, E1, E3. f_equal. lia.
  - intros Hv i j Hi Hj Hji. destruct (G i j) as [-> _]; auto. unfold output_acf. apply rsum_ext. intros a _. apply rsum_ext. intros b _.
    f_equal. set (l := (Nat.max _ _ - _)%nat). destruct (Nat.ltb_spec l n); [reflexivity|].
    destruct sn as [|s|v|m| |]; simpl in Hs; try contradiction; unfold input_acf.
    + destruct (Nat.eqb_spec l 0); [lia|reflexivity].
    + destruct (Nat.ltb_spec l (alen v)); [lia|reflexivity].
  - intros s -> i Hi. destruct (G i i) as [-> _]; auto. unfold output_acf. rewrite Ht, <- rsum_scal. apply rsum_ext. intros a Ha.
    rewrite (rsum_single N a); [|exact Ha|].
    + replace (Nat.max (i - i + a) a - Nat.min (i - i + a) a)%nat with 0%nat by lia.
      destruct (Nat.ltb_spec 0 n); [|lia]. cbn [input_acf Nat.eqb]. ring.
    + intros b Hb Hne. cbn [input_acf]. destruct (Nat.eqb_spec (Nat.max (i - i + b) a - Nat.min (i - i + b) a) 0); [lia|].
      destruct (_ <? _)%nat; ring.
Qed.
Example C155_example : exists x U,
  FIRuncFilter DFloat DFloat (of_list [1; 2; 3]) (NsVec (of_list [1; 1/2])) (of_list [1; 1]) UtNone 0 None "corr" true = Ok (x, FullU U) /\
  U 2%nat 2%nat = 3 /\ U 0%nat 0%nat = 3 /\ U 1%nat 0%nat = 2.
Proof.
  destruct (C155_stationary_partial DFloat DFloat (of_list [1; 2; 3]) (NsVec (of_list [1; 1/2])) (of_list [1; 1]) "corr" 3 2)
    as (x & U & E & _ & _ & _ & _ & H & _); auto; try reflexivity.
  exists x, U. split; [exact E|]. rewrite !H by (simpl; lia). unfold output_acf, input_acf. cbn. repeat split; lra.
Qed.

(** An autocovariance with more values than the signal: the lag-1 value is lost for a signal of one sample, the variance of the sum of two
    neighbouring noise values is 2 instead of 3. *)
Theorem C155_stationary_refuted : exists y sn theta x U,
  stationary_noise sn "corr" /\
  FIRuncFilter DFloat DFloat y sn theta UtNone 0 None "corr" true = Ok (x, FullU U) /\ mrows U = 1%nat /\
  output_acf theta (input_acf sn) 0 = 3 /\ U 0%nat 0%nat = 2.
Proof.
  destruct (C155_stationary_partial DFloat DFloat (of_list [1]) (NsVec (of_list [1; 1/2])) (of_list [1; 1]) "corr" 1 2)
    as (x & U & E & R1 & _ & H & _); auto; try reflexivity.
  exists (of_list [1]), (NsVec (of_list [1; 1/2])), (of_list [1; 1]), x, U.
  split; [reflexivity|]. split; [exact E|]. split; [exact R1|]. split.
  - unfold output_acf, input_acf. cbn. lra.
  - destruct (H 0%nat 0%nat) as [-> _]; try lia. unfold output_acf, input_acf. cbn. lra.
Qed.
Print Assumptions C155_stationary_partial.
Print Assumptions C155_stationary_refuted.
