(** Convolution of signals read backwards (C172).  Model: M_Filter.v (convolve_unc).  Vocabulary: S_Conv.v. *)
From Coq Require Import Reals List Arith ZArith Bool Lia Lra Psatz String.
From Verif Require Import Base Sums Stats StatsFacts M_Filter S_Filter S_Conv P_Filter P_Filter2 P_Filter3 P_Conv T_Filter.
Import ListNotations.
Open Scope R_scope.

(** Signals and covariance matrices read backwards. *)
Definition flipped (x : vec) : vec := mkArr (alen x) (fun i => x (alen x - 1 - i)%nat).
Definition flipped2 (U : mat) : mat := mkMat (mrows U) (mcols U) (fun i j => U (mrows U - 1 - i)%nat (mcols U - 1 - j)%nat).

Lemma np_closed_flip n1 n2 (x1 : nat -> R) U1 (x2 : nat -> R) U2 (x1' : nat -> R) U1' (x2' : nat -> R) U2' k l :
  (1 <= n1)%nat -> (1 <= n2)%nat -> (k <= n1 + n2 - 2)%nat -> (l <= n1 + n2 - 2)%nat ->
  (forall i, (i < n1)%nat -> x1' i = x1 (n1 - 1 - i)%nat) -> (forall i, (i < n2)%nat -> x2' i = x2 (n2 - 1 - i)%nat) ->
  (forall i j, (i < n1)%nat -> (j < n1)%nat -> U1' i j = U1 (n1 - 1 - i)%nat (n1 - 1 - j)%nat) ->
  (forall i j, (i < n2)%nat -> (j < n2)%nat -> U2' i j = U2 (n2 - 1 - i)%nat (n2 - 1 - j)%nat) ->
  np_closed n1 n2 x1' U1' x2' U2' k l = np_closed n1 n2 x1 U1 x2 U2 (n1 + n2 - 2 - k) (n1 + n2 - 2 - l).
Proof.
  intros H1 H2 Hk Hl X1 X2 V1 V2. rewrite !np_closed_win by assumption.
  assert (W : forall k a, (k <= n1 + n2 - 2)%nat -> (a < n2)%nat -> inwin n1 (n1 + n2 - 2 - k) (n2 - 1 - a) = inwin n1 k a).
  { intros k' a Hk' Ha. unfold inwin. destruct (Nat.leb_spec a k'), (Nat.leb_spec (n2 - 1 - a) (n1 + n2 - 2 - k')), (Nat.ltb_spec (k' - a) n1),
      (Nat.ltb_spec (n1 + n2 - 2 - k' - (n2 - 1 - a)) n1); cbn; try reflexivity; lia. }
  rewrite (rsum_rev n2 (fun a => if inwin n1 (n1 + n2 - 2 - k) a then _ else _)). apply rsum_ext. intros a Ha.
  rewrite W by assumption. destruct (inwin n1 k a) eqn:Ea; [|reflexivity].
  rewrite (rsum_rev n2 (fun b => if inwin n1 (n1 + n2 - 2 - l) b then _ else _)). apply rsum_ext. intros b Hb.
  rewrite W by assumption. destruct (inwin n1 l b) eqn:Eb; [|reflexivity].
  unfold inwin in Ea, Eb. apply andb_prop in Ea, Eb. destruct Ea as [A1 A2], Eb as [B1 B2].
  apply Nat.leb_le in A1, B1. apply Nat.ltb_lt in A2, B2.
  rewrite !X2, !X1, !V1, !V2 by assumption.
  replace (n1 + n2 - 2 - k - (n2 - 1 - a))%nat with (n1 - 1 - (k - a))%nat by lia.
  replace (n1 + n2 - 2 - l - (n2 - 1 - b))%nat with (n1 - 1 - (l - b))%nat by lia. reflexivity.
Qed.
Lemma full_conv_flip n1 n2 (x1 x2 x1' x2' : nat -> R) k : (1 <= n1)%nat -> (1 <= n2)%nat -> (k <= n1 + n2 - 2)%nat ->
  (forall i, (i < n1)%nat -> x1' i = x1 (n1 - 1 - i)%nat) -> (forall i, (i < n2)%nat -> x2' i = x2 (n2 - 1 - i)%nat) ->
  full_conv n1 n2 x1' x2' k = full_conv n1 n2 x1 x2 (n1 + n2 - 2 - k).
Proof.
  intros H1 H2 Hk X1 X2. unfold full_conv. rewrite (rsum_rev n1 (fun i => rsum n2 (fun j => if (i + j =? n1 + n2 - 2 - k)%nat then _ else _))).
  apply rsum_ext. intros i Hi. rewrite (rsum_rev n2 (fun j => if (n1 - 1 - i + j =? n1 + n2 - 2 - k)%nat then _ else _)). apply rsum_ext. intros j Hj.
  rewrite X1, X2 by assumption.
  destruct (Nat.eqb_spec (i + j) k), (Nat.eqb_spec (n1 - 1 - i + (n2 - 1 - j)) (n1 + n2 - 2 - k)); try reflexivity; lia.
Qed.
Lemma opt_flip n U : opt_square n U -> opt_square n (option_map flipped2 U) /\
  forall i j, (i < n)%nat -> (j < n)%nat -> opt_cov (option_map flipped2 U) i j = opt_cov U (n - 1 - i)%nat (n - 1 - j)%nat.
Proof. destruct U as [m|]; cbn; [intros [-> ->]; auto|auto]. Qed.
(** Modes for which the returned part lies in the middle: "full" and "valid", and "same" if the shorter signal has an odd number of samples. *)
Definition centred (mode : string) (n1 n2 : nat) : Prop := mode = "full"%string \/ mode = "valid"%string \/ (mode = "same"%string /\ Nat.odd (Nat.min n1 n2) = true).

Lemma odd_half m : Nat.odd m = true -> exists q, (m = 2 * q + 1)%nat /\ (m / 2)%nat = q /\ ((m - 1) / 2)%nat = q.
Proof.
  intros O. apply Nat.odd_spec in O. destruct O as [q ->]. exists q. split; [reflexivity|].
  replace (2 * q + 1 - 1)%nat with (q * 2)%nat by lia. replace (2 * q + 1)%nat with (1 + q * 2)%nat by lia. rewrite Nat.div_add, Nat.div_mul by lia. cbn. lia.
Qed.
Lemma start_flip mode n1 n2 k : (1 <= n1)%nat -> (1 <= n2)%nat -> centred mode n1 n2 -> (k < np_conv_len mode n1 n2)%nat ->
  (n1 + n2 - 2 - (k + np_conv_start mode n1 n2) = np_conv_len mode n1 n2 - 1 - k + np_conv_start mode n1 n2)%nat.
Proof.
  intros H1 H2 [-> | [-> | [-> O]]]; unfold np_conv_len, np_conv_start; cbn [String.eqb Ascii.eqb Bool.eqb]; intros Hk; try lia.
  destruct (odd_half _ O) as (q & E & _ & ->). lia.
Qed.
Lemma np_turn x1 U1 x2 U2 mode n1 n2 : alen x1 = n1 -> alen x2 = n2 -> (2 <= n2)%nat -> (n2 <= n1)%nat -> opt_square n1 U1 -> opt_square n2 U2 -> centred mode n1 n2 ->
  exists y U y' U', convolve_unc x1 U1 x2 U2 mode = Ok (y, U) /\
    convolve_unc (flipped x1) (option_map flipped2 U1) (flipped x2) (option_map flipped2 U2) mode = Ok (y', U') /\ veq y' (flipped y) /\ meq U' (flipped2 U).
Proof.
  intros H1 H2 Hn2 Hle S1 S2 Hc.
  assert (Hm : numpy_mode mode) by (unfold numpy_mode; destruct Hc as [C|[C|[C _]]]; auto).
  destruct (opt_flip n1 U1 S1) as [S1' V1], (opt_flip n2 U2 S2) as [S2' V2].
  destruct (np_conv_noswap x1 U1 x2 U2 mode n1 n2) as (y & U & E & L1 & L2 & L3 & V); auto.
  destruct (np_conv_noswap (flipped x1) (option_map flipped2 U1) (flipped x2) (option_map flipped2 U2) mode n1 n2) as (y' & U' & E' & L1' & L2' & L3' & V'); auto.
  set (L := np_conv_len mode n1 n2) in *. set (s := np_conv_start mode n1 n2) in *.
  assert (B : (L + s <= n1 + n2 - 1)%nat).
  { unfold L, s. destruct Hc as [-> | [-> | [-> O]]]; unfold np_conv_len, np_conv_start; cbn [String.eqb Ascii.eqb Bool.eqb]; try lia. destruct (odd_half _ O) as (q & EE & _ & ->). lia. }
  assert (F1 : forall i, (i < n1)%nat -> flipped x1 i = x1 (n1 - 1 - i)%nat) by (intros i Hi; cbn; rewrite H1; reflexivity).
  assert (F2 : forall i, (i < n2)%nat -> flipped x2 i = x2 (n2 - 1 - i)%nat) by (intros i Hi; cbn; rewrite H2; reflexivity).
  exists y, U, y', U'. split; [exact E|]. split; [exact E'|]. split.
  - split; [cbn [flipped alen]; congruence|]. rewrite L1'. intros i Hi. cbn [flipped aget]. rewrite L1.
    destruct (V' i i Hi Hi) as [-> _]. destruct (V (L - 1 - i)%nat (L - 1 - i)%nat) as [-> _]; try lia.
    unfold np_conv. fold s. rewrite (full_conv_flip n1 n2 x1 x2) by (auto; lia). f_equal. apply start_flip; auto; lia.
  - split; [cbn [flipped2 mrows]; congruence|]. split; [cbn [flipped2 mcols]; congruence|]. rewrite L2', L3'. intros i j Hi Hj. cbn [flipped2 mget]. rewrite L2, L3.
    destruct (V' i j Hi Hj) as [_ ->]. destruct (V (L - 1 - i)%nat (L - 1 - j)%nat) as [_ ->]; try lia.
    rewrite (np_closed_flip n1 n2 x1 (opt_cov U1) x2 (opt_cov U2)) by (auto; lia). f_equal; apply start_flip; auto; lia.
Qed.
(** Convolving two signals read backwards gives the convolution read backwards, value and covariance. *)
Theorem C172_numpy_partial : forall x1 U1 x2 U2 mode n1 n2,
  alen x1 = n1 -> alen x2 = n2 -> (2 <= n1)%nat -> (2 <= n2)%nat -> opt_square n1 U1 -> opt_square n2 U2 -> centred mode n1 n2 ->
  exists y U y' U', convolve_unc x1 U1 x2 U2 mode = Ok (y, U) /\
    convolve_unc (flipped x1) (option_map flipped2 U1) (flipped x2) (option_map flipped2 U2) mode = Ok (y', U') /\ veq y' (flipped y) /\ meq U' (flipped2 U).
Proof.
  intros x1 U1 x2 U2 mode n1 n2 H1 H2 Hn1 Hn2 S1 S2 Hc.
  assert (Hm : numpy_mode mode) by (unfold numpy_mode; destruct Hc as [C|[C|[C _]]]; auto).
  destruct (Nat.lt_ge_cases n1 n2) as [Hlt|Hge].
  - rewrite (convolve_swap x1 U1 x2 U2), (convolve_swap (flipped x1)) by (cbn; auto; lia). apply (np_turn x2 U2 x1 U1 mode n2 n1); auto; try lia.
    unfold centred in *. rewrite Nat.min_comm. exact Hc.
  - apply (np_turn x1 U1 x2 U2 mode n1 n2); auto.
Qed.

(** ** Modes that continue the signal *)
Lemma cont_reverse mode n e z : (1 <= n)%nat -> ndimage_mode mode -> is_continuation mode n e -> e (Z.of_nat n - 1 - z)%Z = (n - 1 - e z)%nat.
Proof.
  intros Hn Hm He.
  assert (B : forall z, (e z < n)%nat).
  { intros y. rewrite <- (Z.sub_0_r y). replace (y - 0)%Z with (Z.of_nat (Z.to_nat (y + Z.abs y)) - Z.of_nat (Z.to_nat (Z.abs y)))%Z by lia.
    rewrite <- (pad_idx_cont mode n) by assumption. now apply pad_idx_lt. }
  assert (R : is_continuation mode n (fun z => (n - 1 - e (Z.of_nat n - 1 - z)%Z)%nat)).
  { destruct He as (A0 & A1 & A2 & A3). split; [|split; [|split]].
    - intros i Hi. replace (Z.of_nat n - 1 - Z.of_nat i)%Z with (Z.of_nat (n - 1 - i)) by lia. rewrite A0 by lia. lia.
    - intros M. destruct (A1 M) as [N1 N2]. split; intros y Hy; [rewrite N2 by lia; lia|rewrite N1 by lia; lia].
    - intros M. destruct (A2 M) as [N1 N2]. split; intros y; f_equal.
      + rewrite <- (N2 (Z.of_nat n - 1 - y)%Z). f_equal. lia.
      + rewrite <- (N1 (Z.of_nat n - 1 - y)%Z). f_equal. lia.
    - intros M. destruct (A3 M) as (N0 & N1 & N2). split; [intros E1 y; rewrite N0 by assumption; lia|]. split; intros y; f_equal.
      + rewrite <- (N2 (Z.of_nat n - 1 - y)%Z). f_equal. lia.
      + rewrite <- (N1 (Z.of_nat n - 1 - y)%Z). f_equal. lia. }
  set (k := Z.to_nat (Z.abs z)). set (i := Z.to_nat (z + Z.abs z)).
  assert (Ez : z = (Z.of_nat i - Z.of_nat k)%Z) by (unfold i, k; lia).
  pose proof (pad_idx_cont mode n k i e Hn Hm He) as P1. pose proof (pad_idx_cont mode n k i _ Hn Hm R) as P2. rewrite <- Ez in P1, P2.
  pose proof (B (Z.of_nat n - 1 - z)%Z). cbv beta in P2. lia.
Qed.
Lemma nd_cov_closed mode n1 N e (x1 : nat -> R) U1 (x2 : nat -> R) U2 i j : (1 <= n1)%nat -> (1 <= N)%nat -> (i < n1)%nat -> (j < n1)%nat ->
  ndimage_mode mode -> is_continuation mode n1 e ->
  ext_conv_cov N (shiftg (N - 1) (ndg mode n1 ((N + 1) / 2))) x1 U1 x2 U2 (N + i) (N + j) =
  rsum N (fun a => rsum N (fun b =>
    let p := e (Z.of_nat i + Z.of_nat (N / 2) - Z.of_nat a)%Z in let q := e (Z.of_nat j + Z.of_nat (N / 2) - Z.of_nat b)%Z in
    x2 a * x2 b * U1 p q + U2 a b * (x1 p * x1 q) + U2 b a * U1 p q)).
Proof.
  intros Hn HN Hi Hj Hm He. unfold ext_conv_cov.
  assert (Hd : ((N + 1) / 2 + N / 2 = N)%nat).
  { pose proof (Nat.div_mod N 2 ltac:(lia)). pose proof (Nat.div_mod (N + 1) 2 ltac:(lia)).
    pose proof (Nat.mod_upper_bound N 2 ltac:(lia)). pose proof (Nat.mod_upper_bound (N + 1) 2 ltac:(lia)). lia. }
  assert (Hd2 : (N / 2 <= (N + 1) / 2)%nat) by (apply Nat.div_le_mono; lia).
  assert (G : forall i a, (i < n1)%nat -> (a < N)%nat -> shiftg (N - 1) (ndg mode n1 ((N + 1) / 2)) (N + i + (N - 1) - a) = Some (e (Z.of_nat i + Z.of_nat (N / 2) - Z.of_nat a)%Z)).
  { intros i' a Hi' Ha. unfold shiftg, ndg. destruct (Nat.ltb_spec (N + i' + (N - 1) - a) (N - 1)); [lia|].
    destruct (Nat.ltb_spec (N + i' + (N - 1) - a - (N - 1)) ((N + 1) / 2 + n1 + (N + 1) / 2)); [|lia].
    rewrite (pad_idx_cont mode n1 _ _ e) by assumption. do 2 f_equal. lia. }
  apply rsum_ext. intros a Ha. apply rsum_ext. intros b Hb. unfold extcov, extsig. rewrite !G by assumption. reflexivity.
Qed.
Lemma rsum_rev2 n (F : nat -> nat -> R) : rsum n (fun a => rsum n (fun b => F a b)) = rsum n (fun a => rsum n (fun b => F (n - 1 - a)%nat (n - 1 - b)%nat)).
Proof. rewrite (rsum_rev n (fun a => rsum n (fun b => F a b))). apply rsum_ext. intros a _. apply rsum_rev. Qed.
Theorem C172_ndimage_partial : forall x1 U1 x2 U2 mode n1 n2,
  alen x1 = n1 -> alen x2 = n2 -> (1 <= n1)%nat -> (2 <= n2)%nat -> Nat.odd n2 = true -> opt_square n1 U1 -> opt_square n2 U2 -> ndimage_mode mode ->
  exists y U y' U', convolve_unc x1 U1 x2 U2 mode = Ok (y, U) /\
    convolve_unc (flipped x1) (option_map flipped2 U1) (flipped x2) (option_map flipped2 U2) mode = Ok (y', U') /\ veq y' (flipped y) /\ meq U' (flipped2 U).
Proof.
  intros x1 U1 x2 U2 mode n1 n2 H1 H2 Hn1 Hn2 Ho S1 S2 Hm.
  destruct (opt_flip n1 U1 S1) as [S1' V1], (opt_flip n2 U2 S2) as [S2' V2].
  destruct (continuation_exists mode n1 Hn1 Hm) as [e He].
  destruct (convolve_nd_closed x1 U1 x2 U2 mode n1 n2) as (y & U & E & L1 & L2 & L3 & V); auto.
  destruct (convolve_nd_closed (flipped x1) (option_map flipped2 U1) (flipped x2) (option_map flipped2 U2) mode n1 n2) as (y' & U' & E' & L1' & L2' & L3' & V'); auto.
  destruct (odd_half n2 Ho) as (q & Eq & Eh & _).
  assert (B : forall z, (e z < n1)%nat).
  { intros z. pose proof (cont_reverse mode n1 e z Hn1 Hm He). pose proof (cont_reverse mode n1 e (Z.of_nat n1 - 1 - z)%Z Hn1 Hm He) as R.
    replace (Z.of_nat n1 - 1 - (Z.of_nat n1 - 1 - z))%Z with z in R by lia. lia. }
  assert (I : forall i a, (i < n1)%nat -> (a < n2)%nat ->
     (n1 - 1 - e (Z.of_nat i + Z.of_nat (n2 / 2) - Z.of_nat a)%Z)%nat = e (Z.of_nat (n1 - 1 - i) + Z.of_nat (n2 / 2) - Z.of_nat (n2 - 1 - a))%Z).
  { intros i a Hi Ha. rewrite <- (cont_reverse mode n1 e) by assumption. f_equal. rewrite Eh. lia. }
  exists y, U, y', U'. split; [exact E|]. split; [exact E'|]. split.
  - split; [cbn [flipped alen]; congruence|]. rewrite L1'. intros i Hi. cbn [flipped aget]. rewrite L1.
    destruct (V' i i Hi Hi) as [-> _]. destruct (V (n1 - 1 - i)%nat (n1 - 1 - i)%nat) as [-> _]; try lia.
    rewrite !(nd_outcome mode n1 n2 e) by (auto; lia). unfold nd_conv.
    rewrite (rsum_rev n2 (fun a => x2 a * _)). apply rsum_ext. intros a Ha. cbn [flipped aget]. rewrite H1, H2. rewrite I by assumption. reflexivity.
  - split; [cbn [flipped2 mrows]; congruence|]. split; [cbn [flipped2 mcols]; congruence|]. rewrite L2', L3'. intros i j Hi Hj. cbn [flipped2 mget]. rewrite L2, L3.
    destruct (V' i j Hi Hj) as [_ ->]. destruct (V (n1 - 1 - i)%nat (n1 - 1 - j)%nat) as [_ ->]; try lia.
    rewrite !(nd_cov_closed mode n1 n2 e) by (auto; lia).
    cbv zeta. match goal with |- _ = rsum _ (fun a => rsum _ (fun b => @?F a b)) => rewrite (rsum_rev2 n2 F) end.
    apply rsum_ext. intros a Ha. apply rsum_ext. intros b Hb. cbv beta.
    rewrite !V1, !V2 by (auto; apply B). cbn [flipped aget]. rewrite !H1, !H2. rewrite !I by assumption. reflexivity.
Qed.

(** An even number of coefficients has no middle: "same" and the continuing modes are not symmetric. *)
Theorem C172_even_refuted : exists x1 x2 y U y' U' z V z' V',
  convolve_unc x1 None x2 None "same" = Ok (y, U) /\ convolve_unc (flipped x1) None (flipped x2) None "same" = Ok (y', U') /\
  y' 0%nat = 3 /\ flipped y 0%nat = 5 /\
  convolve_unc x1 None x2 None "nearest" = Ok (z, V) /\ convolve_unc (flipped x1) None (flipped x2) None "nearest" = Ok (z', V') /\
  z' 0%nat = 5 /\ flipped z 0%nat = 6.
Proof.
  set (x1 := of_list [1; 2; 3]). set (x2 := of_list [1; 1]).
  destruct (np_conv_noswap x1 None x2 None "same" 3 2) as (y & U & E & L & _ & _ & V); auto; try (cbn; lia); try exact I; [unfold numpy_mode; auto|].
  destruct (np_conv_noswap (flipped x1) None (flipped x2) None "same" 3 2) as (y' & U' & E' & _ & _ & _ & V'); auto; try (cbn; lia); try exact I; [unfold numpy_mode; auto|].
  assert (Hm : ndimage_mode "nearest") by (unfold ndimage_mode; auto).
  destruct (continuation_exists "nearest" 3 ltac:(lia) Hm) as [e He].
  destruct (convolve_nd_closed x1 None x2 None "nearest" 3 2) as (z & W & F & Lz & _ & _ & X); auto; try (cbn; lia); try exact I.
  destruct (convolve_nd_closed (flipped x1) None (flipped x2) None "nearest" 3 2) as (z' & W' & F' & _ & _ & _ & X'); auto; try (cbn; lia); try exact I.
  exists x1, x2, y, U, y', U', z, W, z', W'. split; [exact E|]. split; [exact E'|].
  change (np_conv_len "same" 3 2) with 3%nat in *.
  destruct (V' 0%nat 0%nat ltac:(lia) ltac:(lia)) as [-> _]. cbn [flipped aget]. rewrite L. destruct (V 2%nat 2%nat ltac:(lia) ltac:(lia)) as [V2 _].
  change (3 - 1 - 0)%nat with 2%nat. rewrite V2.
  split; [cbv -[Rplus Rmult IZR]; ring|]. split; [cbv -[Rplus Rmult IZR]; ring|]. split; [exact F|]. split; [exact F'|].
  rewrite Lz. change (3 - 1 - 0)%nat with 2%nat. destruct (X' 0%nat 0%nat ltac:(lia) ltac:(lia)) as [-> _]. destruct (X 2%nat 2%nat ltac:(lia) ltac:(lia)) as [-> _].
  rewrite !(nd_outcome "nearest" 3 2 e) by (auto; lia). unfold nd_conv. cbn [rsum]. destruct He as (A0 & A1 & _). destruct (A1 eq_refl) as [N1 N2].
  change (Z.of_nat 0 + Z.of_nat (2 / 2) - Z.of_nat 0)%Z with (Z.of_nat 1). change (Z.of_nat 0 + Z.of_nat (2 / 2) - Z.of_nat 1)%Z with (Z.of_nat 0).
  change (Z.of_nat 2 + Z.of_nat (2 / 2) - Z.of_nat 0)%Z with 3%Z. change (Z.of_nat 2 + Z.of_nat (2 / 2) - Z.of_nat 1)%Z with (Z.of_nat 2).
  rewrite !A0 by lia. rewrite (N2 3%Z) by lia. split; cbn; ring.
Qed.
Example C172_example : exists y U y' U', convolve_unc (of_list [1; 2; 3]) None (of_list [1; 4]) (Some (of_rows [[1; 0]; [0; 2]])) "full" = Ok (y, U) /\
  convolve_unc (flipped (of_list [1; 2; 3])) None (flipped (of_list [1; 4])) (Some (flipped2 (of_rows [[1; 0]; [0; 2]]))) "full" = Ok (y', U') /\
  y 0%nat = 1 /\ y' 3%nat = 1 /\ U' 3%nat 3%nat = U 0%nat 0%nat.
Proof.
  set (x1 := of_list [1; 2; 3]). set (x2 := of_list [1; 4]). set (M := of_rows [[1; 0]; [0; 2]]).
  destruct (C172_numpy_partial x1 None x2 (Some M) "full" 3 2) as (y & U & y' & U' & E & E' & [Lv Ev] & Lr & Lc & Em); auto; try (cbn; lia); try exact I; try (split; reflexivity); try (left; reflexivity).
  destruct (np_conv_noswap x1 None x2 (Some M) "full" 3 2) as (y2 & U2 & E2 & L1 & L2 & L3 & V); auto; try (cbn; lia); try exact I; try (split; reflexivity); try (left; reflexivity).
  assert (Q : Ok (y2, U2) = Ok (y, U)) by congruence. injection Q as -> ->.
  change (np_conv_len "full" 3 2) with 4%nat in *. cbn [flipped flipped2 alen mrows mcols aget mget] in *. rewrite L1 in *. rewrite L2, L3 in *.
  destruct (V 0%nat 0%nat ltac:(lia) ltac:(lia)) as [V1 _].
  assert (Y0 : y 0%nat = 1) by (rewrite V1; cbv -[Rplus Rmult IZR]; ring).
  exists y, U, y', U'. split; [exact E|]. split; [exact E'|]. split; [exact Y0|]. split.
  - rewrite Ev by lia. exact Y0.
  - apply (Em 3%nat 3%nat); lia.
Qed.
Print Assumptions C172_numpy_partial.
Print Assumptions C172_ndimage_partial.
Print Assumptions C172_even_refuted.
