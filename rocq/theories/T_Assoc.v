(** convolve_unc: associativity (C150), delayed unit impulse (C147); FIRuncFilter: delay
    line (C147), cascade of two filters (C148). *)
From Coq Require Import Reals List Arith ZArith Bool Lia Lra Psatz String.
From Verif Require Import Base Sums Stats StatsFacts M_Filter S_Filter S_Conv
  P_Filter P_Filter2 P_Filter3 P_Conv T_Filter.
Import ListNotations.
Open Scope R_scope.

(** ** Convolution against a test function *)
Definition hit (k i a : nat) : R := if (i + a =? k)%nat then 1 else 0.
Lemma full_conv_hit n1 n2 x1 x2 k :
  full_conv n1 n2 x1 x2 k = rsum n1 (fun i => rsum n2 (fun a => hit k i a * (x1 i * x2 a))).
Proof.
  unfold full_conv, hit. apply rsum_ext. intros i _. apply rsum_ext. intros a _.
  destruct (i + a =? k)%nat; ring.
Qed.
Lemma hit_sum N (G : nat -> R) i a : (i + a < N)%nat ->
  rsum N (fun k => hit k i a * G k) = G (i + a)%nat.
Proof.
  intros H. rewrite (rsum_single N (i + a)); [unfold hit; rewrite Nat.eqb_refl; ring|exact H|].
  intros k Hk Hne. unfold hit. destruct (Nat.eqb_spec (i + a) k); [lia|ring].
Qed.
Lemma full_conv_test n1 n2 x1 x2 (G : nat -> R) : (1 <= n1)%nat -> (1 <= n2)%nat ->
  rsum (n1 + n2 - 1) (fun k => full_conv n1 n2 x1 x2 k * G k)
  = rsum n1 (fun i => rsum n2 (fun a => x1 i * x2 a * G (i + a)%nat)).
Proof.
  intros H1 H2.
  rewrite (rsum_ext (n1 + n2 - 1) _ (fun k => rsum n1 (fun i => rsum n2 (fun a => x1 i * x2 a * (hit k i a * G k))))).
  - rewrite rsum_swap. apply rsum_ext. intros i Hi. rewrite rsum_swap. apply rsum_ext. intros a Ha.
    rewrite rsum_scal, hit_sum by lia. reflexivity.
  - intros k _. rewrite full_conv_hit, <- rsum_scal_r. apply rsum_ext. intros i _.
    rewrite <- rsum_scal_r. apply rsum_ext. intros a _. ring.
Qed.
Lemma full_conv_assoc n1 n2 n3 x1 x2 x3 m : (1 <= n1)%nat -> (1 <= n2)%nat -> (1 <= n3)%nat ->
  full_conv (n1 + n2 - 1) n3 (full_conv n1 n2 x1 x2) x3 m
  = full_conv n1 (n2 + n3 - 1) x1 (full_conv n2 n3 x2 x3) m.
Proof.
  intros H1 H2 H3. rewrite !full_conv_hit.
  rewrite (rsum_ext (n1 + n2 - 1) _ (fun k => full_conv n1 n2 x1 x2 k * rsum n3 (fun c => hit m k c * x3 c))).
  2:{ intros k _. rewrite <- rsum_scal. apply rsum_ext. intros c _. ring. }
  rewrite full_conv_test by assumption. apply rsum_ext. intros i _.
  rewrite (rsum_ext (n2 + n3 - 1) _ (fun k => full_conv n2 n3 x2 x3 k * (hit m i k * x1 i))) by (intros; ring).
  rewrite full_conv_test by assumption. apply rsum_ext. intros a _.
  rewrite <- rsum_scal. apply rsum_ext. intros c _. unfold hit. rewrite Nat.add_assoc. ring.
Qed.

(** Two-dimensional counterpart. *)
Definition conv2 (n1 n2 : nat) (S1 S2 : nat -> nat -> R) (k l : nat) : R :=
  rsum n1 (fun i => rsum n1 (fun j => rsum n2 (fun a => rsum n2 (fun b =>
    hit k i a * hit l j b * (S1 i j * S2 a b))))).
Lemma conv2_comm n1 n2 S1 S2 k l : conv2 n1 n2 S1 S2 k l = conv2 n2 n1 S2 S1 k l.
Proof.
  unfold conv2.
  rewrite (rsum_ext n1 _ (fun i => rsum n2 (fun a => rsum n1 (fun j => rsum n2 (fun b =>
    hit k i a * hit l j b * (S1 i j * S2 a b)))))) by (intros; apply rsum_swap).
  rewrite rsum_swap. apply rsum_ext. intros a _.
  rewrite (rsum_ext n1 _ (fun i => rsum n2 (fun b => rsum n1 (fun j =>
    hit k i a * hit l j b * (S1 i j * S2 a b))))) by (intros; apply rsum_swap).
  rewrite rsum_swap. apply rsum_ext. intros b _. apply rsum_ext. intros i _. apply rsum_ext. intros j _.
  unfold hit. rewrite (Nat.add_comm i a), (Nat.add_comm j b). ring.
Qed.
Lemma conv2_test n1 n2 S1 S2 (G : nat -> nat -> R) : (1 <= n1)%nat -> (1 <= n2)%nat ->
  rsum (n1 + n2 - 1) (fun k => rsum (n1 + n2 - 1) (fun l => conv2 n1 n2 S1 S2 k l * G k l))
  = rsum n1 (fun i => rsum n1 (fun j => rsum n2 (fun a => rsum n2 (fun b =>
      S1 i j * S2 a b * G (i + a)%nat (j + b)%nat)))).
Proof.
  intros H1 H2. set (N := (n1 + n2 - 1)%nat).
  assert (P : forall k l, conv2 n1 n2 S1 S2 k l * G k l = rsum n1 (fun i => rsum n1 (fun j => rsum n2 (fun a => rsum n2 (fun b =>
      S1 i j * S2 a b * (hit k i a * (hit l j b * G k l))))))).
  { intros k l. unfold conv2. rewrite <- rsum_scal_r. apply rsum_ext. intros i _. rewrite <- rsum_scal_r. apply rsum_ext. intros j _.
    rewrite <- rsum_scal_r. apply rsum_ext. intros a _. rewrite <- rsum_scal_r. apply rsum_ext. intros b _. ring. }
  rewrite (rsum_ext N _ (fun k => rsum n1 (fun i => rsum n1 (fun j => rsum n2 (fun a => rsum n2 (fun b =>
      S1 i j * S2 a b * (hit k i a * G k (j + b)%nat))))))).
  - rewrite rsum_swap. apply rsum_ext. intros i Hi. rewrite rsum_swap. apply rsum_ext. intros j Hj.
    rewrite rsum_swap. apply rsum_ext. intros a Ha. rewrite rsum_swap. apply rsum_ext. intros b Hb.
    rewrite rsum_scal. f_equal. apply (hit_sum N (fun k => G k (j + b)%nat)). unfold N. lia.
  - intros k _. rewrite (rsum_ext N _ _ (fun l _ => P k l)).
    rewrite rsum_swap. apply rsum_ext. intros i Hi. rewrite rsum_swap. apply rsum_ext. intros j Hj.
    rewrite rsum_swap. apply rsum_ext. intros a Ha. rewrite rsum_swap. apply rsum_ext. intros b Hb.
    rewrite rsum_scal. f_equal. rewrite rsum_scal. f_equal. apply hit_sum. unfold N. lia.
Qed.
Lemma conv2_assoc n1 n2 n3 S1 S2 S3 m p : (1 <= n1)%nat -> (1 <= n2)%nat -> (1 <= n3)%nat ->
  conv2 (n1 + n2 - 1) n3 (conv2 n1 n2 S1 S2) S3 m p
  = conv2 n1 (n2 + n3 - 1) S1 (conv2 n2 n3 S2 S3) m p.
Proof.
  intros H1 H2 H3. unfold conv2 at 1 3.
  rewrite (rsum_ext (n1 + n2 - 1) _ (fun k => rsum (n1 + n2 - 1) (fun l => conv2 n1 n2 S1 S2 k l
    * rsum n3 (fun c => rsum n3 (fun d => hit m k c * hit p l d * S3 c d))))).
  2:{ intros k _. apply rsum_ext. intros l _. rewrite <- rsum_scal. apply rsum_ext. intros c _.
      rewrite <- rsum_scal. apply rsum_ext. intros d _. ring. }
  rewrite conv2_test by assumption. apply rsum_ext. intros i _. apply rsum_ext. intros j _.
  rewrite (rsum_ext (n2 + n3 - 1) _ (fun k => rsum (n2 + n3 - 1) (fun l => conv2 n2 n3 S2 S3 k l
    * (hit m i k * hit p j l * S1 i j)))) by (intros; apply rsum_ext; intros; ring).
  rewrite conv2_test by assumption. apply rsum_ext. intros a _. apply rsum_ext. intros b _.
  rewrite <- rsum_scal. apply rsum_ext. intros c _. rewrite <- rsum_scal. apply rsum_ext. intros d _.
  unfold hit. rewrite !Nat.add_assoc. ring.
Qed.

(** second moments *)
Definition moment2 (x : nat -> R) (U : nat -> nat -> R) (i j : nat) : R := U i j + x i * x j.
Lemma win_hit n1 n2 k (F : nat -> nat -> R) :
  rsum n2 (fun a => if inwin n1 k a then F (k - a)%nat a else 0)
  = rsum n1 (fun i => rsum n2 (fun a => hit k i a * F i a)).
Proof.
  rewrite rsum_swap. apply rsum_ext. intros a _. unfold inwin.
  destruct (Nat.leb_spec a k); cbn [andb].
  - destruct (Nat.ltb_spec (k - a) n1).
    + rewrite (rsum_single n1 (k - a)).
      * unfold hit. rewrite Nat.sub_add, Nat.eqb_refl by lia. ring.
      * assumption.
      * intros i Hi Hne. unfold hit. destruct (Nat.eqb_spec (i + a) k); [lia|ring].
    + symmetry. apply rsum_zero. intros i Hi. unfold hit. destruct (Nat.eqb_spec (i + a) k); [lia|ring].
  - symmetry. apply rsum_zero. intros i Hi. unfold hit. destruct (Nat.eqb_spec (i + a) k); [lia|ring].
Qed.
Lemma np_closed_moment n1 n2 x1 U1 x2 U2 k l : (1 <= n2)%nat -> symm n2 U2 ->
  np_closed n1 n2 x1 U1 x2 U2 k l + full_conv n1 n2 x1 x2 k * full_conv n1 n2 x1 x2 l
  = conv2 n1 n2 (moment2 x1 U1) (moment2 x2 U2) k l.
Proof.
  intros H2 Sy. rewrite np_closed_win by exact H2.
  rewrite (win_hit n1 n2 k (fun i a => rsum n2 (fun b => if inwin n1 l b then
    x2 a * x2 b * U1 i (l - b)%nat + U2 a b * (x1 i * x1 (l - b)%nat) + U2 b a * U1 i (l - b)%nat else 0))).
  rewrite (full_conv_hit n1 n2 x1 x2 k), <- rsum_scal_r, <- rsum_plus. unfold conv2. apply rsum_ext. intros i Hi.
  rewrite <- rsum_scal_r, <- rsum_plus.
  rewrite (rsum_swap n1 n2 (fun j a => rsum n2 (fun b => hit k i a * hit l j b * (moment2 x1 U1 i j * moment2 x2 U2 a b)))).
  apply rsum_ext. intros a Ha.
  rewrite (win_hit n1 n2 l (fun j b => x2 a * x2 b * U1 i j + U2 a b * (x1 i * x1 j) + U2 b a * U1 i j)).
  rewrite Rmult_assoc, <- Rmult_plus_distr_l.
  rewrite (full_conv_hit n1 n2 x1 x2 l), <- rsum_scal, <- rsum_plus, <- rsum_scal. apply rsum_ext. intros j Hj.
  rewrite <- rsum_scal, <- rsum_plus, <- rsum_scal. apply rsum_ext. intros b Hb. unfold moment2. rewrite (Sy b a) by assumption. ring.
Qed.
Lemma conv2_symm n1 n2 S1 S2 k l : symm n1 S1 -> symm n2 S2 -> conv2 n1 n2 S1 S2 k l = conv2 n1 n2 S1 S2 l k.
Proof.
  intros Y1 Y2. unfold conv2. rewrite rsum_swap. apply rsum_ext. intros j Hj. apply rsum_ext. intros i Hi.
  rewrite rsum_swap. apply rsum_ext. intros b Hb. apply rsum_ext. intros a Ha.
  rewrite (Y1 i j), (Y2 a b) by assumption. ring.
Qed.
Lemma moment2_symm n x U : symm n U -> symm n (moment2 x U).
Proof. intros Y i j Hi Hj. unfold moment2. rewrite (Y i j) by assumption. ring. Qed.

(** "full": mean and second moments of the result *)
Lemma full_moment x1 U1 x2 U2 n1 n2 :
  alen x1 = n1 -> alen x2 = n2 -> (2 <= n1)%nat -> (2 <= n2)%nat ->
  opt_square n1 U1 -> opt_square n2 U2 -> symm n1 (opt_cov U1) -> symm n2 (opt_cov U2) ->
  exists y U, convolve_unc x1 U1 x2 U2 "full" = Ok (y, U) /\
    alen y = (n1 + n2 - 1)%nat /\ mrows U = (n1 + n2 - 1)%nat /\ mcols U = (n1 + n2 - 1)%nat /\
    (forall k, (k < n1 + n2 - 1)%nat -> y k = full_conv n1 n2 x1 x2 k) /\
    (forall k l, (k < n1 + n2 - 1)%nat -> (l < n1 + n2 - 1)%nat ->
       moment2 y U k l = conv2 n1 n2 (moment2 x1 (opt_cov U1)) (moment2 x2 (opt_cov U2)) k l) /\
    symm (n1 + n2 - 1) U.
Proof.
  intros H1 H2 Hn1 Hn2 S1 S2 Y1 Y2.
  assert (K : exists y U, convolve_unc x1 U1 x2 U2 "full" = Ok (y, U) /\
    alen y = (n1 + n2 - 1)%nat /\ mrows U = (n1 + n2 - 1)%nat /\ mcols U = (n1 + n2 - 1)%nat /\
    (forall k, (k < n1 + n2 - 1)%nat -> y k = full_conv n1 n2 x1 x2 k) /\
    (forall k l, (k < n1 + n2 - 1)%nat -> (l < n1 + n2 - 1)%nat ->
       moment2 y U k l = conv2 n1 n2 (moment2 x1 (opt_cov U1)) (moment2 x2 (opt_cov U2)) k l)).
  { destruct (Nat.lt_ge_cases n1 n2) as [Hlt|Hge].
    - rewrite convolve_swap by (try (left; reflexivity); lia).
      destruct (np_conv_noswap x2 U2 x1 U1 "full" n2 n1) as (y & U & E & L1 & L2 & L3 & F); auto; [lia|left; reflexivity|].
      unfold np_conv_len, np_conv, np_conv_start in *. cbn in L1, L2, L3, F. rewrite (Nat.add_comm n2 n1) in *.
      exists y, U. split; [exact E|]. do 3 (split; [assumption|]). split.
      + intros k Hk. destruct (F k k Hk Hk) as [-> _]. rewrite Nat.add_0_r. apply full_conv_comm.
      + intros k l Hk Hl. destruct (F k l Hk Hl) as [Ey EU]. destruct (F l l Hl Hl) as [Ey' _]. unfold moment2 at 1.
        rewrite EU, Ey, Ey', !Nat.add_0_r, np_closed_moment by (auto; lia). apply conv2_comm.
    - destruct (np_conv_noswap x1 U1 x2 U2 "full" n1 n2) as (y & U & E & L1 & L2 & L3 & F); auto; [left; reflexivity|].
      unfold np_conv_len, np_conv, np_conv_start in *. cbn in L1, L2, L3, F.
      exists y, U. split; [exact E|]. do 3 (split; [assumption|]). split.
      + intros k Hk. destruct (F k k Hk Hk) as [-> _]. rewrite Nat.add_0_r. reflexivity.
      + intros k l Hk Hl. destruct (F k l Hk Hl) as [Ey EU]. destruct (F l l Hl Hl) as [Ey' _]. unfold moment2 at 1.
        rewrite EU, Ey, Ey', !Nat.add_0_r, np_closed_moment by (auto; lia). reflexivity. }
  destruct K as (y & U & E & L1 & L2 & L3 & F & M). exists y, U. do 6 (split; [assumption|]).
  intros k l Hk Hl. pose proof (M k l Hk Hl) as A. pose proof (M l k Hl Hk) as B.
  rewrite conv2_symm in A by (apply moment2_symm; assumption). unfold moment2 at 1 in A. unfold moment2 at 1 in B. lra.
Qed.

(** ** C150 *)
Lemma full_conv_ext_l n1 n2 f g x2 k : (forall i, (i < n1)%nat -> f i = g i) -> full_conv n1 n2 f x2 k = full_conv n1 n2 g x2 k.
Proof. intros H. unfold full_conv. apply rsum_ext. intros i Hi. rewrite H by exact Hi. reflexivity. Qed.
Lemma full_conv_ext_r n1 n2 x1 f g k : (forall i, (i < n2)%nat -> f i = g i) -> full_conv n1 n2 x1 f k = full_conv n1 n2 x1 g k.
Proof. intros H. rewrite full_conv_comm, (full_conv_comm n1 n2 x1 g). apply full_conv_ext_l. exact H. Qed.
Lemma conv2_ext_l n1 n2 S S' S2 k l : (forall i j, (i < n1)%nat -> (j < n1)%nat -> S i j = S' i j) ->
  conv2 n1 n2 S S2 k l = conv2 n1 n2 S' S2 k l.
Proof.
  intros H. unfold conv2. apply rsum_ext. intros i Hi. apply rsum_ext. intros j Hj. rewrite H by assumption. reflexivity.
Qed.
Lemma conv2_ext_r n1 n2 S1 S S' k l : (forall i j, (i < n2)%nat -> (j < n2)%nat -> S i j = S' i j) ->
  conv2 n1 n2 S1 S k l = conv2 n1 n2 S1 S' k l.
Proof. intros H. rewrite conv2_comm, (conv2_comm n1 n2 S1 S'). apply conv2_ext_l. exact H. Qed.

Theorem C150_associative : forall x1 U1 x2 U2 x3 U3 n1 n2 n3,
  alen x1 = n1 -> alen x2 = n2 -> alen x3 = n3 -> (2 <= n1)%nat -> (2 <= n2)%nat -> (2 <= n3)%nat ->
  opt_square n1 U1 -> opt_square n2 U2 -> opt_square n3 U3 ->
  symm n1 (opt_cov U1) -> symm n2 (opt_cov U2) -> symm n3 (opt_cov U3) ->
  exists y12 U12 y23 U23 yl Ul yr Ur,
    convolve_unc x1 U1 x2 U2 "full" = Ok (y12, U12) /\
    convolve_unc y12 (Some U12) x3 U3 "full" = Ok (yl, Ul) /\
    convolve_unc x2 U2 x3 U3 "full" = Ok (y23, U23) /\
    convolve_unc x1 U1 y23 (Some U23) "full" = Ok (yr, Ur) /\
    alen yl = (n1 + n2 + n3 - 2)%nat /\ veq yl yr /\ meq Ul Ur.
Proof.
  intros x1 U1 x2 U2 x3 U3 n1 n2 n3 H1 H2 H3 Hn1 Hn2 Hn3 S1 S2 S3 Y1 Y2 Y3.
  destruct (full_moment x1 U1 x2 U2 n1 n2) as (y12 & U12 & E12 & A1 & A2 & A3 & A4 & A5 & A6); auto.
  destruct (full_moment x2 U2 x3 U3 n2 n3) as (y23 & U23 & E23 & B1 & B2 & B3 & B4 & B5 & B6); auto.
  destruct (full_moment y12 (Some U12) x3 U3 (n1 + n2 - 1) n3) as (yl & Ul & El & L1 & L2 & L3 & L4 & L5 & _);
    auto; [lia|split; assumption|].
  destruct (full_moment x1 U1 y23 (Some U23) n1 (n2 + n3 - 1)) as (yr & Ur & Er & R1 & R2 & R3 & R4 & R5 & _);
    auto; [lia|split; assumption|].
  exists y12, U12, y23, U23, yl, Ul, yr, Ur. do 4 (split; [assumption|]).
  assert (N : (n1 + (n2 + n3 - 1) - 1 = n1 + n2 - 1 + n3 - 1)%nat) by lia. rewrite N in *.
  split; [lia|].
  assert (V : forall k, (k < n1 + n2 - 1 + n3 - 1)%nat -> yl k = yr k).
  { intros k Hk. rewrite L4, R4 by exact Hk.
    rewrite (full_conv_ext_l _ _ _ _ _ _ A4), (full_conv_ext_r _ _ _ _ _ _ B4). apply full_conv_assoc; lia. }
  split.
  - split; [congruence|]. rewrite L1. exact V.
  - split; [congruence|]. split; [congruence|]. rewrite L2, L3. intros k l Hk Hl.
    assert (Q : moment2 yl Ul k l = moment2 yr Ur k l).
    { rewrite L5, R5 by assumption. cbn [opt_cov].
      rewrite (conv2_ext_l _ _ _ _ _ _ _ A5), (conv2_ext_r _ _ _ _ _ _ _ B5). apply conv2_assoc; lia. }
    unfold moment2 in Q. rewrite !V in Q by assumption. lra.
Qed.
Example C150_example : exists y12 U12 y23 U23 yl Ul yr Ur,
  convolve_unc cx1 cU1 cx2 cU2 "full" = Ok (y12, U12) /\
  convolve_unc y12 (Some U12) ex_y (Some (of_rows [[1; 0]; [0; 2]])) "full" = Ok (yl, Ul) /\
  convolve_unc cx2 cU2 ex_y (Some (of_rows [[1; 0]; [0; 2]])) "full" = Ok (y23, U23) /\
  convolve_unc cx1 cU1 y23 (Some U23) "full" = Ok (yr, Ur) /\
  alen yl = 5%nat /\ veq yl yr /\ meq Ul Ur.
Proof.
  apply (C150_associative cx1 cU1 cx2 cU2 ex_y (Some (of_rows [[1; 0]; [0; 2]])) 3 2 2);
    try reflexivity; try lia; try (split; reflexivity);
    intros [|[|[|i]]] [|[|[|j]]] Hi Hj; cbn; try lra; lia.
Qed.
Print Assumptions C150_associative.

(** ** C147: delay and gain *)
Definition impulse (N d : nat) (g : R) (theta : nat -> R) : Prop :=
  forall k, (k < N)%nat -> theta k = if (k =? d)%nat then g else 0.
Theorem C147_fir_delay : forall ydt tdt y sn theta kind n N d g,
  alen y = n -> alen theta = N -> (1 <= n)%nat -> (2 <= N)%nat -> (d < N)%nat -> impulse N d g theta ->
  noise_fits n sn kind ->
  exists x U, FIRuncFilter ydt tdt y sn theta UtNone 0 None kind true = Ok (x, FullU U) /\
    alen x = n /\ mrows U = n /\ mcols U = n /\
    (forall i, (i < n)%nat -> x i = g * y (i - d)%nat) /\
    (forall i j, (d <= i < n)%nat -> (d <= j < n)%nat -> U i j = g ^ 2 * sig_cov sn kind (i - d) (j - d)) /\
    (forall i, (i < d)%nat -> (i < n)%nat -> U i i = g ^ 2 * sig_cov sn kind 0 0).
Proof.
  intros ydt tdt y sn theta kind n N d g Hy Ht Hn HN Hd Hi Hs.
  destruct (FIR_general ydt tdt y sn theta UtNone kind n N) as (x & U & E & L1 & L2 & L3 & F & G); auto; [exact I|].
  exists x, U. do 4 (split; [assumption|]).
  assert (K : forall i j, (i < n)%nat -> (j < n)%nat ->
    U i j = g ^ 2 * stat_cont n (N - 1) (sig_cov sn kind) (i + (N - 1) - d) (j + (N - 1) - d)).
  { intros i j Hii Hj. rewrite G by assumption. unfold gen_cov. cbn [coeff_cov].
    rewrite (rsum_single N d); [|exact Hd|].
    - rewrite (rsum_single N d); [|exact Hd|].
      + rewrite (Hi d Hd), Nat.eqb_refl. ring.
      + intros b Hb Hne. rewrite (Hi b Hb). destruct (Nat.eqb_spec b d); [lia|]. ring.
    - intros a Ha Hne. apply rsum_zero. intros b Hb. rewrite (Hi a Ha). destruct (Nat.eqb_spec a d); [lia|]. ring. }
  split; [|split].
  - intros i Hii. rewrite F by exact Hii. unfold fir_value. rewrite Ht, (rsum_single N d); [|exact Hd|].
    + rewrite (Hi d Hd), Nat.eqb_refl. destruct (Nat.leb_spec d i); [reflexivity|].
      replace (i - d)%nat with 0%nat by lia. reflexivity.
    + intros k Hk Hne. rewrite (Hi k Hk). destruct (Nat.eqb_spec k d); [lia|]. ring.
  - intros i j [Hi1 Hi2] [Hj1 Hj2]. rewrite K by assumption. f_equal. unfold stat_cont.
    destruct (Nat.leb_spec (N - 1) (i + (N - 1) - d)); [|lia]. destruct (Nat.leb_spec (N - 1) (j + (N - 1) - d)); [|lia].
    cbn [andb]. f_equal; lia.
  - intros i Hid Hin. rewrite K by assumption. f_equal. unfold stat_cont.
    destruct (Nat.leb_spec (N - 1) (i + (N - 1) - d)); [lia|]. cbn [andb].
    rewrite Nat.leb_refl, Nat.sub_diag. destruct (Nat.ltb_spec 0 n); [reflexivity|lia].
Qed.
Theorem C147_convolve_delay : forall x1 U1 x2 n1 n2 d g,
  alen x1 = n1 -> alen x2 = n2 -> (2 <= n1)%nat -> (2 <= n2)%nat -> (d < n2)%nat -> impulse n2 d g x2 ->
  opt_square n1 U1 -> symm n1 (opt_cov U1) ->
  exists y U, convolve_unc x1 U1 x2 None "full" = Ok (y, U) /\
    alen y = (n1 + n2 - 1)%nat /\ mrows U = (n1 + n2 - 1)%nat /\ mcols U = (n1 + n2 - 1)%nat /\
    (forall i, (i < n1)%nat -> y (d + i)%nat = g * x1 i) /\
    (forall i j, (i < n1)%nat -> (j < n1)%nat -> U (d + i)%nat (d + j)%nat = g ^ 2 * opt_cov U1 i j) /\
    (forall k, (k < d \/ d + n1 <= k)%nat -> (k < n1 + n2 - 1)%nat ->
       y k = 0 /\ forall l, (l < n1 + n2 - 1)%nat -> U k l = 0 /\ U l k = 0).
Proof.
  intros x1 U1 x2 n1 n2 d g H1 H2 Hn1 Hn2 Hd Hi S1 Y1.
  destruct (full_moment x1 U1 x2 None n1 n2) as (y & U & E & L1 & L2 & L3 & F & M & Sy); auto.
  { exact I. } { intros i j _ _. reflexivity. }
  exists y, U. do 4 (split; [assumption|]).
  assert (Y : forall k, (k < n1 + n2 - 1)%nat -> y k = rsum n1 (fun i => hit k i d * (g * x1 i))).
  { intros k Hk. rewrite F, full_conv_hit by exact Hk. apply rsum_ext. intros i _.
    rewrite (rsum_single n2 d); [|exact Hd|].
    - rewrite (Hi d Hd), Nat.eqb_refl. ring.
    - intros a Ha Hne. rewrite (Hi a Ha). destruct (Nat.eqb_spec a d); [lia|]. ring. }
  assert (Q : forall k l, (k < n1 + n2 - 1)%nat -> (l < n1 + n2 - 1)%nat ->
     U k l = g ^ 2 * rsum n1 (fun i => rsum n1 (fun j => hit k i d * hit l j d * opt_cov U1 i j))).
  { intros k l Hk Hl. pose proof (M k l Hk Hl) as A. unfold moment2 at 1 in A.
    assert (B : conv2 n1 n2 (moment2 x1 (opt_cov U1)) (moment2 x2 (opt_cov None)) k l
      = g ^ 2 * rsum n1 (fun i => rsum n1 (fun j => hit k i d * hit l j d * opt_cov U1 i j)) + y k * y l).
    { rewrite !Y by assumption. rewrite rsum_mult, <- rsum_scal, <- rsum_plus. unfold conv2. apply rsum_ext. intros i _.
      rewrite <- rsum_scal, <- rsum_plus. apply rsum_ext. intros j _. unfold moment2. cbn [opt_cov].
      rewrite (rsum_single n2 d); [|exact Hd|].
      - rewrite (rsum_single n2 d); [|exact Hd|].
        + rewrite (Hi d Hd), Nat.eqb_refl. ring.
        + intros b Hb Hne. rewrite (Hi b Hb). destruct (Nat.eqb_spec b d); [lia|]. ring.
      - intros a Ha Hne. apply rsum_zero. intros b Hb. rewrite (Hi a Ha). destruct (Nat.eqb_spec a d); [lia|]. ring. }
    lra. }
  assert (Ho : forall k i, (k < d \/ d + n1 <= k)%nat -> (i < n1)%nat -> hit k i d = 0).
  { intros k i Hk Hii. unfold hit. destruct (Nat.eqb_spec (i + d) k); [lia|reflexivity]. }
  assert (Hin : forall i k, k <> i -> hit (d + i) k d = 0).
  { intros i k Hne. unfold hit. destruct (Nat.eqb_spec (k + d) (d + i)); [lia|reflexivity]. }
  assert (He : forall i, hit (d + i) i d = 1).
  { intros i. unfold hit. rewrite (Nat.add_comm d i), Nat.eqb_refl. reflexivity. }
  split; [|split].
  - intros i Hii. rewrite Y by lia. rewrite (rsum_single n1 i), He; [ring|exact Hii|].
    intros k _ Hne. rewrite Hin by exact Hne. ring.
  - intros i j Hii Hj. rewrite Q by lia. f_equal. rewrite (rsum_single n1 i); [|exact Hii|].
    + rewrite (rsum_single n1 j), !He; [ring|exact Hj|]. intros k _ Hne. rewrite (Hin j k Hne). ring.
    + intros k _ Hne. apply rsum_zero. intros l _. rewrite (Hin i k Hne). ring.
  - intros k Hk Hkn. split.
    + rewrite Y by exact Hkn. apply rsum_zero. intros i Hii. rewrite Ho by assumption. ring.
    + assert (Z : forall l, (l < n1 + n2 - 1)%nat -> U k l = 0).
      { intros l Hl. rewrite Q by assumption. rewrite rsum_zero; [ring|]. intros i Hii. apply rsum_zero. intros j _.
        rewrite (Ho k i) by assumption. ring. }
      intros l Hl. split; [apply Z; exact Hl|]. rewrite (Sy l k) by assumption. apply Z. exact Hl.
Qed.
(** theta = [0, 3]: one sample of delay, gain 3. *)
Example C147_example : exists x U,
  FIRuncFilter DFloat DFloat cx1 (NsMat (of_rows [[2; 1; 0]; [1; 2; 0]; [0; 0; 1]])) (of_list [0; 3]) UtNone 0 None "diag" true = Ok (x, FullU U) /\
  x 2%nat = 6 /\ U 1%nat 2%nat = 9 /\ U 0%nat 0%nat = 18.
Proof.
  destruct (C147_fir_delay DFloat DFloat cx1 (NsMat (of_rows [[2; 1; 0]; [1; 2; 0]; [0; 0; 1]])) (of_list [0; 3]) "diag" 3 2 1 3)
    as (x & U & E & _ & _ & _ & X & C & T); try reflexivity; try lia.
  - intros [|[|k]] Hk; cbn; try reflexivity; lia.
  - split; reflexivity.
  - exists x, U. split; [exact E|]. rewrite X, C, T by lia. cbn. lra.
Qed.
Example C147_example_convolve : exists y U,
  convolve_unc cx1 cU1 (of_list [0; 3]) None "full" = Ok (y, U) /\ y 0%nat = 0 /\ y 3%nat = 9 /\ U 1%nat 2%nat = 9 /\ U 0%nat 2%nat = 0.
Proof.
  destruct (C147_convolve_delay cx1 cU1 (of_list [0; 3]) 3 2 1 3) as (y & U & E & _ & _ & _ & Y & C & Z); try reflexivity; try lia.
  - intros [|[|k]] Hk; cbn; try reflexivity; lia.
  - split; reflexivity.
  - intros [|[|[|i]]] [|[|[|j]]] Hi Hj; cbn; try lra; lia.
  - exists y, U. split; [exact E|]. destruct (Z 0%nat ltac:(lia) ltac:(lia)) as [-> Z'].
    split; [reflexivity|]. rewrite (Y 2%nat ltac:(lia) : y 3%nat = _).
    rewrite (C 0%nat 1%nat ltac:(lia) ltac:(lia) : U 1%nat 2%nat = _). destruct (Z' 2%nat ltac:(lia)) as [-> _]. cbn. lra.
Qed.
Print Assumptions C147_fir_delay.
Print Assumptions C147_convolve_delay.

(** ** C148: two filters in a row are one filter *)
Lemma stat_cont_shift n p q U i j : stat_cont n (p + q) U (i + q) (j + q) = stat_cont n p U i j.
Proof.
  unfold stat_cont.
  replace (p + q <=? i + q)%nat with (p <=? i)%nat by (destruct (Nat.leb_spec p i), (Nat.leb_spec (p + q) (i + q)); auto; lia).
  replace (p + q <=? j + q)%nat with (p <=? j)%nat by (destruct (Nat.leb_spec p j), (Nat.leb_spec (p + q) (j + q)); auto; lia).
  replace (j + q <=? i + q)%nat with (j <=? i)%nat by (destruct (Nat.leb_spec j i), (Nat.leb_spec (j + q) (i + q)); auto; lia).
  replace (i + q - (p + q))%nat with (i - p)%nat by lia. replace (j + q - (p + q))%nat with (j - p)%nat by lia.
  replace (i + q - (j + q))%nat with (i - j)%nat by lia. replace (j + q - (i + q))%nat with (j - i)%nat by lia. reflexivity.
Qed.
Definition one_filter (n1 n2 : nat) (b1 b2 b12 : vec) : Prop :=
  alen b12 = (n1 + n2 - 1)%nat /\ forall k, (k < n1 + n2 - 1)%nat -> b12 k = full_conv n1 n2 b1 b2 k.
(** Covariances that involve the past (or the first sample) depend on the lag only. *)
Lemma stat_cont_early n p U i j : (i < n + p)%nat -> (j < n + p)%nat -> (i <= p \/ j <= p)%nat ->
  stat_cont n p U i j = if (j <=? i)%nat then (if (i - j <? n)%nat then U (i - j)%nat 0%nat else 0)
                        else (if (j - i <? n)%nat then U 0%nat (j - i)%nat else 0).
Proof.
  intros Hi Hj He. unfold stat_cont.
  destruct (Nat.leb_spec p i); [|reflexivity]. destruct (Nat.leb_spec p j); [|reflexivity]. cbn [andb].
  destruct (Nat.leb_spec j i).
  - destruct (Nat.ltb_spec (i - j) n); [|lia]. f_equal; lia.
  - destruct (Nat.ltb_spec (j - i) n); [|lia]. f_equal; lia.
Qed.
(** Full statement: filtering with b1 (low-pass [blow]) and then with b2 is filtering with
    np.convolve(b1, b2).  The estimate agrees everywhere; the covariance of samples i, j
    agrees after the transient of b2 or if |i-j| + len(b2) <= len(y) (missing: other
    covariances, where it is false). *)
Theorem C148_cascade_partial : forall ydt tdt y sn b1 b2 b12 kind n n1 n2,
  alen y = n -> alen b1 = n1 -> alen b2 = n2 -> (1 <= n)%nat -> (2 <= n1)%nat -> (2 <= n2)%nat ->
  one_filter n1 n2 b1 b2 b12 -> noise_fits n sn kind ->
  exists x U x' U',
    FIRuncFilter ydt tdt y sn b2 UtNone 0 (Some b1) kind true = Ok (x, FullU U) /\
    FIRuncFilter ydt tdt y sn b12 UtNone 0 None kind true = Ok (x', FullU U') /\
    veq x x' /\ mrows U = n /\ mcols U = n /\ mrows U' = n /\ mcols U' = n /\
    (forall i j, (i < n)%nat -> (j < n)%nat ->
       (n2 - 1 <= i /\ n2 - 1 <= j)%nat \/ (i + n2 <= n + j /\ j + n2 <= n + i)%nat -> U i j = U' i j).
Proof.
  intros ydt tdt y sn b1 b2 b12 kind n n1 n2 Hy H1 H2 Hn Hn1 Hn2 [H12 Hc] Hs.
  destruct (C02_fir_lowpass_cascade ydt tdt y sn b2 UtNone kind b1 n n2) as (yl & Ul & x & U & El & Ex & E);
    auto; try lia; [exact I|].
  destruct (FIR_general ydt tdt y sn b1 UtNone kind n n1) as (yl' & Ul' & El' & A1 & A2 & A3 & A4 & A5); auto; [exact I|].
  rewrite El in El'. injection El' as <- <-.
  destruct (FIR_general ydt tdt yl (NsMat Ul) b2 UtNone kind n n2) as (x0 & U0 & E0 & B1 & B2 & B3 & B4 & B5); auto;
    [split; assumption|exact I|]. rewrite Ex in E0. injection E0 as <- <-.
  destruct (FIR_general ydt tdt y sn b12 UtNone kind n (n1 + n2 - 1)) as (x' & U' & E' & C1 & C2 & C3 & C4 & C5); auto;
    [lia|exact I|].
  exists x, U, x', U'. split; [exact E|]. split; [exact E'|]. split; [|do 4 (split; [assumption|])].
  - split; [congruence|]. rewrite B1. intros i Hi. rewrite B4, C4 by exact Hi. unfold fir_value. rewrite H2, H12.
    rewrite (rsum_ext (n1 + n2 - 1) _ (fun k => full_conv n1 n2 b1 b2 k * (if (k <=? i)%nat then y (i - k)%nat else y 0%nat)))
      by (intros k Hk; rewrite Hc by exact Hk; reflexivity).
    rewrite full_conv_test, rsum_swap by lia. apply rsum_ext. intros a Ha.
    assert (K : forall m, (m < n)%nat -> yl m = rsum n1 (fun c => b1 c * (if (c <=? m)%nat then y (m - c)%nat else y 0%nat))).
    { intros m Hm. rewrite A4 by exact Hm. unfold fir_value. rewrite H1. reflexivity. }
    destruct (Nat.leb_spec a i).
    + rewrite K by lia. rewrite <- rsum_scal. apply rsum_ext. intros c Hcc.
      destruct (Nat.leb_spec c (i - a)), (Nat.leb_spec (c + a) i); try lia; [|ring].
      replace (i - a - c)%nat with (i - (c + a))%nat by lia. ring.
    + rewrite K by lia. rewrite <- rsum_scal. apply rsum_ext. intros c Hcc.
      destruct (Nat.leb_spec (c + a) i); [lia|]. destruct c; cbn [Nat.leb Nat.sub]; ring.
  - intros i j Hi2 Hj2 Hij. rewrite B5, C5 by assumption. unfold gen_cov. cbn [coeff_cov].
    set (V := stat_cont n (n1 - 1) (sig_cov sn kind)) in *.
    set (T := fun e f => stat_cont n (n1 + n2 - 1 - 1) (sig_cov sn kind) (i + (n1 + n2 - 1 - 1) - e) (j + (n1 + n2 - 1 - 1) - f)).
    rewrite (rsum_ext (n1 + n2 - 1) _ (fun e => full_conv n1 n2 b1 b2 e * rsum (n1 + n2 - 1) (fun f => full_conv n1 n2 b1 b2 f * T e f))).
    2:{ intros e He. rewrite <- rsum_scal. apply rsum_ext. intros f Hf. rewrite !Hc by assumption. unfold T. ring. }
    rewrite full_conv_test, (rsum_swap n1 n2) by lia. apply rsum_ext. intros a Ha.
    rewrite (rsum_ext n1 _ (fun c => b1 c * b2 a * rsum n2 (fun b => rsum n1 (fun d => b1 d * b2 b * T (c + a)%nat (d + b)%nat)))).
    2:{ intros c Hcc. f_equal. rewrite full_conv_test by lia. apply rsum_swap. }
    rewrite (rsum_ext n1 _ (fun c => rsum n2 (fun b => b1 c * b2 a * rsum n1 (fun d => b1 d * b2 b * T (c + a)%nat (d + b)%nat))))
      by (intros; symmetry; apply rsum_scal).
    rewrite (rsum_swap n1 n2). apply rsum_ext. intros b Hb.
    assert (W : stat_cont n (n2 - 1) (sig_cov (NsMat Ul) kind) (i + (n2 - 1) - a) (j + (n2 - 1) - b)
      = rsum n1 (fun c => rsum n1 (fun d => b1 c * b1 d * T (c + a)%nat (d + b)%nat))).
    { assert (G : forall p q, (p < n)%nat -> (q < n)%nat -> Ul p q
        = rsum n1 (fun c => rsum n1 (fun d => b1 c * b1 d * V (p + (n1 - 1) - c)%nat (q + (n1 - 1) - d)%nat))).
      { intros p q Hp Hq. rewrite A5 by assumption. unfold gen_cov. cbn [coeff_cov].
        apply rsum_ext. intros c _. apply rsum_ext. intros d _. ring. }
      unfold stat_cont at 1. cbn [sig_cov].
      set (p := (i + (n2 - 1) - a)%nat) in *. set (q := (j + (n2 - 1) - b)%nat) in *.
      destruct (((n2 - 1 <=? p)%nat && (n2 - 1 <=? q)%nat)%bool) eqn:Z.
      - apply andb_prop in Z. destruct Z as [Z1 Z2]. apply Nat.leb_le in Z1, Z2.
        rewrite G by (unfold p, q; lia). apply rsum_ext. intros c Hcc. apply rsum_ext. intros d Hdd. f_equal.
        unfold V, T. replace (n1 + n2 - 1 - 1)%nat with (n1 - 1 + (n2 - 1))%nat by lia.
        rewrite <- (stat_cont_shift n (n1 - 1) (n2 - 1)). f_equal; unfold p, q in *; lia.
      - assert (Early : (p < n2 - 1 \/ q < n2 - 1)%nat)
          by (destruct (Nat.leb_spec (n2 - 1) p), (Nat.leb_spec (n2 - 1) q); try discriminate; lia).
        assert (Tv : forall c d, (c < n1)%nat -> (d < n1)%nat -> T (c + a)%nat (d + b)%nat =
          if (q + (n1 - 1) - d <=? p + (n1 - 1) - c)%nat
          then (if (p + (n1 - 1) - c - (q + (n1 - 1) - d) <? n)%nat then sig_cov sn kind (p + (n1 - 1) - c - (q + (n1 - 1) - d))%nat 0%nat else 0)
          else (if (q + (n1 - 1) - d - (p + (n1 - 1) - c) <? n)%nat then sig_cov sn kind 0%nat (q + (n1 - 1) - d - (p + (n1 - 1) - c))%nat else 0)).
        { intros c d Hcc Hdd. unfold T. rewrite stat_cont_early by (unfold p, q in *; lia).
          replace (i + (n1 + n2 - 1 - 1) - (c + a))%nat with (p + (n1 - 1) - c)%nat by (unfold p; lia).
          replace (j + (n1 + n2 - 1 - 1) - (d + b))%nat with (q + (n1 - 1) - d)%nat by (unfold q; lia). reflexivity. }
        destruct (Nat.leb_spec q p) as [Hqp|Hqp].
        + destruct (Nat.ltb_spec (p - q) n); [|unfold p, q in *; lia].
          rewrite G by lia. apply rsum_ext. intros c Hcc. apply rsum_ext. intros d Hdd. f_equal. rewrite Tv by assumption.
          unfold V. rewrite stat_cont_early by lia.
          replace (0 + (n1 - 1) - d <=? p - q + (n1 - 1) - c)%nat with (q + (n1 - 1) - d <=? p + (n1 - 1) - c)%nat
            by (destruct (Nat.leb_spec (q + (n1 - 1) - d) (p + (n1 - 1) - c)), (Nat.leb_spec (0 + (n1 - 1) - d) (p - q + (n1 - 1) - c)); auto; lia).
          destruct (Nat.leb_spec (q + (n1 - 1) - d) (p + (n1 - 1) - c)).
          * replace (p - q + (n1 - 1) - c - (0 + (n1 - 1) - d))%nat with (p + (n1 - 1) - c - (q + (n1 - 1) - d))%nat by lia. reflexivity.
          * replace (0 + (n1 - 1) - d - (p - q + (n1 - 1) - c))%nat with (q + (n1 - 1) - d - (p + (n1 - 1) - c))%nat by lia. reflexivity.
        + destruct (Nat.ltb_spec (q - p) n); [|unfold p, q in *; lia].
          rewrite G by lia. apply rsum_ext. intros c Hcc. apply rsum_ext. intros d Hdd. f_equal. rewrite Tv by assumption.
          unfold V. rewrite stat_cont_early by lia.
          replace (q - p + (n1 - 1) - d <=? 0 + (n1 - 1) - c)%nat with (q + (n1 - 1) - d <=? p + (n1 - 1) - c)%nat
            by (destruct (Nat.leb_spec (q + (n1 - 1) - d) (p + (n1 - 1) - c)), (Nat.leb_spec (q - p + (n1 - 1) - d) (0 + (n1 - 1) - c)); auto; lia).
          destruct (Nat.leb_spec (q + (n1 - 1) - d) (p + (n1 - 1) - c)).
          * replace (0 + (n1 - 1) - c - (q - p + (n1 - 1) - d))%nat with (p + (n1 - 1) - c - (q + (n1 - 1) - d))%nat by lia. reflexivity.
          * replace (q - p + (n1 - 1) - d - (0 + (n1 - 1) - c))%nat with (q + (n1 - 1) - d - (p + (n1 - 1) - c))%nat by lia. reflexivity. }
    rewrite W, !Rmult_0_l, !Rplus_0_r, <- rsum_scal. apply rsum_ext. intros c Hcc. rewrite <- !rsum_scal. apply rsum_ext. intros d Hdd. ring.
Qed.
(** Signals shorter than the second filter: white noise of variance 1, two samples, first
    [1, 1, 1], then [1, 0, 1]: variance 6 instead of 8. *)
Theorem C148_short_signal_refuted : exists y b1 b2 b12 x U x' U',
  one_filter 3 3 b1 b2 b12 /\ alen b1 = 3%nat /\ alen b2 = 3%nat /\ alen y = 2%nat /\
  FIRuncFilter DFloat DFloat y (NsFloat 1) b2 UtNone 0 (Some b1) "diag" true = Ok (x, FullU U) /\
  FIRuncFilter DFloat DFloat y (NsFloat 1) b12 UtNone 0 None "diag" true = Ok (x', FullU U') /\
  U 0%nat 0%nat = 6 /\ U' 0%nat 0%nat = 8.
Proof.
  set (y := of_list [1; 2]). set (b1 := of_list [1; 1; 1]). set (b2 := of_list [1; 0; 1]). set (b12 := of_list [1; 1; 2; 1; 1]).
  destruct (C02_fir_lowpass_cascade DFloat DFloat y (NsFloat 1) b2 UtNone "diag" b1 2 3) as (yl & Ul & x & U & El & Ex & E);
    try reflexivity; try (cbn; lia).
  destruct (FIR_general DFloat DFloat y (NsFloat 1) b1 UtNone "diag" 2 3) as (yl' & Ul' & El' & A1 & A2 & A3 & A4 & A5);
    try reflexivity; try lia; try exact I.
  rewrite El in El'. injection El' as <- <-.
  destruct (FIR_general DFloat DFloat yl (NsMat Ul) b2 UtNone "diag" 2 3) as (x0 & U0 & E0 & B1 & B2 & B3 & B4 & B5);
    try reflexivity; try lia; try exact I; [split; assumption|]. rewrite Ex in E0. injection E0 as <- <-.
  destruct (FIR_general DFloat DFloat y (NsFloat 1) b12 UtNone "diag" 2 5) as (x' & U' & E' & C1 & C2 & C3 & C4 & C5);
    try reflexivity; try lia; try exact I.
  exists y, b1, b2, b12, x, U, x', U'. split.
  { split; [reflexivity|]. intros [|[|[|[|[|k]]]]] Hk; [cbv -[Rplus Rmult IZR]; ring ..|lia]. }
  do 3 (split; [reflexivity|]). split; [exact E|]. split; [exact E'|]. split.
  - rewrite B5 by lia. unfold gen_cov. cbn [coeff_cov]. cbn [rsum Nat.sub Nat.add]. unfold stat_cont. cbn [Nat.leb Nat.ltb andb Nat.sub sig_cov].
    rewrite !A5 by lia. unfold gen_cov. cbn [coeff_cov rsum Nat.sub Nat.add]. unfold stat_cont. cbn. ring.
  - rewrite C5 by lia. unfold gen_cov. cbn [coeff_cov rsum Nat.sub Nat.add]. unfold stat_cont. cbn. ring.
Qed.
Example C148_example : exists x U x' U',
  FIRuncFilter DFloat DFloat (of_list [1; 2; 5]) (NsVec (of_list [1; 2; 3])) (of_list [2; 1]) UtNone 0 (Some (of_list [1; -1])) "diag" true = Ok (x, FullU U) /\
  FIRuncFilter DFloat DFloat (of_list [1; 2; 5]) (NsVec (of_list [1; 2; 3])) (of_list [2; -1; -1]) UtNone 0 None "diag" true = Ok (x', FullU U') /\
  veq x x' /\ U 0%nat 0%nat = U' 0%nat 0%nat /\ U 2%nat 1%nat = U' 2%nat 1%nat.
Proof.
  destruct (C148_cascade_partial DFloat DFloat (of_list [1; 2; 5]) (NsVec (of_list [1; 2; 3])) (of_list [1; -1]) (of_list [2; 1]) (of_list [2; -1; -1])
    "diag" 3 2 2) as (x & U & x' & U' & E & E' & V & _ & _ & _ & _ & C); try reflexivity; try lia.
  - split; [reflexivity|]. intros [|[|[|k]]] Hk; [cbv -[Rplus Rmult IZR]; ring ..|lia].
  - left. split; reflexivity.
  - exists x, U, x', U'. split; [exact E|]. split; [exact E'|]. split; [exact V|]. split; apply C; lia.
Qed.
Print Assumptions C148_cascade_partial.
Print Assumptions C148_short_signal_refuted.
