(** Superposition and units in convolve_unc (C191).
    Model: M_Filter.v.  Vocabulary: Stats.v, S_Filter.v, S_Conv.v. *)
From Coq Require Import Reals List Arith ZArith Bool Lia Lra Psatz String.
From Verif Require Import Base Sums Stats StatsFacts M_Filter S_Filter S_Conv P_Filter P_Filter2 P_Filter3 P_Conv T_Filter.
Import ListNotations.
Open Scope R_scope.

(** One closed form for all modes; which argument acts as kernel depends on mode and lengths only. *)
Lemma conv_uniform mode n1 n2 : (2 <= n1)%nat -> (2 <= n2)%nat -> numpy_mode mode \/ ndimage_mode mode ->
  exists (L : nat) (swap : bool) g (s : nat -> nat),
    (forall i a, g i = Some a -> (a < if swap then n2 else n1)%nat) /\
    forall x1 U1 x2 U2, alen x1 = n1 -> alen x2 = n2 -> opt_square n1 U1 -> opt_square n2 U2 ->
      exists y U, convolve_unc x1 U1 x2 U2 mode = Ok (y, U) /\ alen y = L /\ mrows U = L /\ mcols U = L /\
        forall i j, (i < L)%nat -> (j < L)%nat ->
          y i = (if swap then fir_outcome n1 x1 (extsig g x2) (s i) else fir_outcome n2 x2 (extsig g x1) (s i)) /\
          U i j = (if swap then ext_conv_cov n1 g x2 (opt_cov U2) x1 (opt_cov U1) (s i) (s j)
                   else ext_conv_cov n2 g x1 (opt_cov U1) x2 (opt_cov U2) (s i) (s j)).
Proof.
  intros Hn1 Hn2 [Hm|Hm].
  - destruct (Nat.lt_ge_cases n1 n2) as [Hlt|Hge].
    + exists (np_conv_len mode n2 n1), true, (shiftg (n1 - 1) (zp n2)), (fun i => i + np_conv_start mode n2 n1)%nat.
      split; [intros i a; apply zp_in|]. intros x1 U1 x2 U2 H1 H2 S1 S2. rewrite convolve_swap by (auto; lia).
      destruct (np_conv_noswap x2 U2 x1 U1 mode n2 n1) as [y [U [Hok [L1 [L2 [L3 E]]]]]]; auto; try lia.
      exists y, U. repeat (split; [assumption|]). intros i j Hi Hj. destruct (E i j Hi Hj) as [E1 E2].
      split; [|exact E2]. rewrite E1. unfold np_conv. symmetry. apply zp_outcome. lia.
    + exists (np_conv_len mode n1 n2), false, (shiftg (n2 - 1) (zp n1)), (fun i => i + np_conv_start mode n1 n2)%nat.
      split; [intros i a; apply zp_in|]. intros x1 U1 x2 U2 H1 H2 S1 S2.
      destruct (np_conv_noswap x1 U1 x2 U2 mode n1 n2) as [y [U [Hok [L1 [L2 [L3 E]]]]]]; auto; try lia.
      exists y, U. repeat (split; [assumption|]). intros i j Hi Hj. destruct (E i j Hi Hj) as [E1 E2].
      split; [|exact E2]. rewrite E1. unfold np_conv. symmetry. apply zp_outcome. lia.
  - exists n1, false, (shiftg (n2 - 1) (ndg mode n1 ((n2 + 1) / 2))), (fun i => n2 + i)%nat.
    split; [intros i a; apply nd_in; lia|]. intros x1 U1 x2 U2 H1 H2 S1 S2.
    apply convolve_nd_closed; auto; lia.
Qed.

(** ** C191 *)
(** Linear in each signal, for every mode and whatever the uncertainties. *)
Theorem C191_superposition : forall mode n1 n2 (x x' z : vec) (w : vec) U U' Uz Uw k k',
  (2 <= n1)%nat -> (2 <= n2)%nat -> numpy_mode mode \/ ndimage_mode mode ->
  alen x = n1 -> alen x' = n1 -> alen z = n1 -> alen w = n2 ->
  opt_square n1 U -> opt_square n1 U' -> opt_square n1 Uz -> opt_square n2 Uw ->
  (forall i, (i < n1)%nat -> z i = k * x i + k' * x' i) ->
  (exists y V y' V' yz Vz,
     convolve_unc x U w Uw mode = Ok (y, V) /\ convolve_unc x' U' w Uw mode = Ok (y', V') /\
     convolve_unc z Uz w Uw mode = Ok (yz, Vz) /\ alen y = alen yz /\ alen y' = alen yz /\
     forall i, (i < alen yz)%nat -> yz i = k * y i + k' * y' i) /\
  (exists y V y' V' yz Vz,
     convolve_unc w Uw x U mode = Ok (y, V) /\ convolve_unc w Uw x' U' mode = Ok (y', V') /\
     convolve_unc w Uw z Uz mode = Ok (yz, Vz) /\ alen y = alen yz /\ alen y' = alen yz /\
     forall i, (i < alen yz)%nat -> yz i = k * y i + k' * y' i).
Proof.
  intros mode n1 n2 x x' z w U U' Uz Uw k k' Hn1 Hn2 Hm Lx Lx' Lz Lw S S' Sz Sw Hz.
  assert (Sig : forall g i, (forall i a, g i = Some a -> (a < n1)%nat) -> extsig g z i = k * extsig g x i + k' * extsig g x' i).
  { intros g i Hg. unfold extsig. destruct (g i) eqn:E; [apply Hz; eauto|ring]. }
  assert (K1 : forall N (th : nat -> R) g i, (forall i a, g i = Some a -> (a < n1)%nat) ->
     fir_outcome N th (extsig g z) i = k * fir_outcome N th (extsig g x) i + k' * fir_outcome N th (extsig g x') i).
  { intros N th g i Hg. unfold fir_outcome. rewrite <- !rsum_scal, <- rsum_plus. apply rsum_ext. intros j _. rewrite Sig by assumption. ring. }
  assert (K2 : forall g (v : nat -> R) i,
     fir_outcome n1 z (extsig g v) i = k * fir_outcome n1 x (extsig g v) i + k' * fir_outcome n1 x' (extsig g v) i).
  { intros g v i. unfold fir_outcome. rewrite <- !rsum_scal, <- rsum_plus. apply rsum_ext. intros j Hj. rewrite Hz by assumption. ring. }
  split.
  - destruct (conv_uniform mode n1 n2 Hn1 Hn2 Hm) as [L [sw [g [s [Hg C]]]]].
    destruct (C x U w Uw) as [y [V [E [A [_ [_ F]]]]]]; auto.
    destruct (C x' U' w Uw) as [y' [V' [E' [A' [_ [_ F']]]]]]; auto.
    destruct (C z Uz w Uw) as [yz [Vz [Ez [Az [_ [_ Fz]]]]]]; auto.
    exists y, V, y', V', yz, Vz. repeat (split; [assumption || congruence|]). intros i Hi. rewrite Az in Hi.
    destruct (F i i Hi Hi) as [-> _]. destruct (F' i i Hi Hi) as [-> _]. destruct (Fz i i Hi Hi) as [-> _].
    destruct sw; [apply K2|apply K1, Hg].
  - destruct (conv_uniform mode n2 n1 Hn2 Hn1 Hm) as [L [sw [g [s [Hg C]]]]].
    destruct (C w Uw x U) as [y [V [E [A [_ [_ F]]]]]]; auto.
    destruct (C w Uw x' U') as [y' [V' [E' [A' [_ [_ F']]]]]]; auto.
    destruct (C w Uw z Uz) as [yz [Vz [Ez [Az [_ [_ Fz]]]]]]; auto.
    exists y, V, y', V', yz, Vz. repeat (split; [assumption || congruence|]). intros i Hi. rewrite Az in Hi.
    destruct (F i i Hi Hi) as [-> _]. destruct (F' i i Hi Hi) as [-> _]. destruct (Fz i i Hi Hi) as [-> _].
    destruct sw; [apply K1, Hg|apply K2].
Qed.

(** Other units of the signals: estimates are multiplied by k l, covariances by (k l)^2. *)
Theorem C191_units : forall mode n1 n2 (x1 x1' x2 x2' : vec) U1 U1' U2 U2' k l,
  (2 <= n1)%nat -> (2 <= n2)%nat -> numpy_mode mode \/ ndimage_mode mode ->
  alen x1 = n1 -> alen x1' = n1 -> alen x2 = n2 -> alen x2' = n2 ->
  opt_square n1 U1 -> opt_square n1 U1' -> opt_square n2 U2 -> opt_square n2 U2' ->
  (forall i, (i < n1)%nat -> x1' i = k * x1 i) -> (forall i, (i < n2)%nat -> x2' i = l * x2 i) ->
  (forall i j, (i < n1)%nat -> (j < n1)%nat -> opt_cov U1' i j = k ^ 2 * opt_cov U1 i j) ->
  (forall i j, (i < n2)%nat -> (j < n2)%nat -> opt_cov U2' i j = l ^ 2 * opt_cov U2 i j) ->
  exists y U y' U', convolve_unc x1 U1 x2 U2 mode = Ok (y, U) /\ convolve_unc x1' U1' x2' U2' mode = Ok (y', U') /\
    alen y' = alen y /\ mrows U' = alen y /\ mcols U' = alen y /\
    forall i j, (i < alen y)%nat -> (j < alen y)%nat -> y' i = k * l * y i /\ U' i j = (k * l) ^ 2 * U i j.
Proof.
  intros mode n1 n2 x1 x1' x2 x2' U1 U1' U2 U2' k l Hn1 Hn2 Hm L1 L1' L2 L2' S1 S1' S2 S2' X1 X2 Y1 Y2.
  destruct (conv_uniform mode n1 n2 Hn1 Hn2 Hm) as [L [sw [g [s [Hg C]]]]].
  destruct (C x1 U1 x2 U2) as [y [V [E [A [_ [_ F]]]]]]; auto.
  destruct (C x1' U1' x2' U2') as [y' [V' [E' [A' [R' [C' F']]]]]]; auto.
  exists y, V, y', V'. repeat (split; [assumption || congruence|]). intros i j Hi Hj. rewrite A in *.
  destruct (F i j Hi Hj) as [-> ->]. destruct (F' i j Hi Hj) as [-> ->].
  assert (G : forall N n (x x' th th' : nat -> R) W W' T T' c d p q,
    (forall i a, g i = Some a -> (a < n)%nat) ->
    (forall i, (i < n)%nat -> x' i = c * x i) -> (forall i, (i < N)%nat -> th' i = d * th i) ->
    (forall i j, (i < n)%nat -> (j < n)%nat -> W' i j = c ^ 2 * W i j) ->
    (forall i j, (i < N)%nat -> (j < N)%nat -> T' i j = d ^ 2 * T i j) ->
    fir_outcome N th' (extsig g x') p = c * d * fir_outcome N th (extsig g x) p /\
    ext_conv_cov N g x' W' th' T' p q = (c * d) ^ 2 * ext_conv_cov N g x W th T p q).
  { intros N n x x' th th' W W' T T' c d p q G0 G1 G2 G3 G4.
    assert (Q1 : forall i, extsig g x' i = c * extsig g x i).
    { intros i0. unfold extsig. destruct (g i0) eqn:Eg; [apply G1; eauto|ring]. }
    assert (Q2 : forall i j, extcov g W' i j = c ^ 2 * extcov g W i j).
    { intros i0 j0. unfold extcov. destruct (g i0) eqn:Eg; [|ring]. destruct (g j0) eqn:Eg'; [|ring]. apply G3; eauto. }
    split.
    - unfold fir_outcome. rewrite <- rsum_scal. apply rsum_ext. intros a Ha. rewrite Q1, G2 by assumption. ring.
    - unfold ext_conv_cov. rewrite <- rsum_scal. apply rsum_ext. intros a Ha. rewrite <- rsum_scal. apply rsum_ext. intros b Hb.
      rewrite !Q1, !Q2, !G2, !G4 by assumption. ring. }
  destruct sw.
  - destruct (G n1 n2 x2 x2' x1 x1' (opt_cov U2) (opt_cov U2') (opt_cov U1) (opt_cov U1') l k (s i) (s j)) as [-> ->]; auto.
    split; ring.
  - destruct (G n2 n1 x1 x1' x2 x2' (opt_cov U1) (opt_cov U1') (opt_cov U2) (opt_cov U2') k l (s i) (s j)) as [-> ->]; auto.
Qed.

(** Uncorrelated contributions to one signal, the other one being known exactly: covariances add. *)
Theorem C191_covariances_add : forall mode n1 n2 (x x' z w : vec) U U' Uz,
  (2 <= n1)%nat -> (2 <= n2)%nat -> numpy_mode mode \/ ndimage_mode mode ->
  alen x = n1 -> alen x' = n1 -> alen z = n1 -> alen w = n2 ->
  opt_square n1 U -> opt_square n1 U' -> opt_square n1 Uz ->
  (forall i j, (i < n1)%nat -> (j < n1)%nat -> opt_cov Uz i j = opt_cov U i j + opt_cov U' i j) ->
  exists y V y' V' yz Vz,
     convolve_unc x U w None mode = Ok (y, V) /\ convolve_unc x' U' w None mode = Ok (y', V') /\
     convolve_unc z Uz w None mode = Ok (yz, Vz) /\ mrows Vz = alen yz /\ mcols Vz = alen yz /\
     forall i j, (i < alen yz)%nat -> (j < alen yz)%nat -> Vz i j = V i j + V' i j.
Proof.
  intros mode n1 n2 x x' z w U U' Uz Hn1 Hn2 Hm Lx Lx' Lz Lw S S' Sz HU.
  destruct (conv_uniform mode n1 n2 Hn1 Hn2 Hm) as [L [sw [g [s [Hg C]]]]].
  destruct (C x U w None) as [y [V [E [A [_ [_ F]]]]]]; auto; [exact I|].
  destruct (C x' U' w None) as [y' [V' [E' [A' [_ [_ F']]]]]]; auto; [exact I|].
  destruct (C z Uz w None) as [yz [Vz [Ez [Az [Rz [Cz Fz]]]]]]; auto; [exact I|].
  exists y, V, y', V', yz, Vz. repeat (split; [assumption || congruence|]). intros i j Hi Hj. rewrite Az in *.
  destruct (F i j Hi Hj) as [_ ->]. destruct (F' i j Hi Hj) as [_ ->]. destruct (Fz i j Hi Hj) as [_ ->].
  destruct sw; unfold ext_conv_cov; rewrite <- rsum_plus; apply rsum_ext; intros a Ha; rewrite <- rsum_plus; apply rsum_ext; intros b Hb.
  - assert (Z : forall p q, extcov g (opt_cov None) p q = 0).
    { intros p q. unfold extcov. destruct (g p); [destruct (g q)|]; reflexivity. }
    rewrite !Z, !HU by assumption. ring.
  - assert (Q : forall p q, extcov g (opt_cov Uz) p q = extcov g (opt_cov U) p q + extcov g (opt_cov U') p q).
    { intros p q. unfold extcov. destruct (g p) eqn:Eg; [|ring]. destruct (g q) eqn:Eg'; [|ring]. apply HU; eauto. }
    rewrite Q. simpl. ring.
Qed.

Example C191_example : exists y U y' U',
  convolve_unc (of_list [1; 2]) (Some (of_rows [[1; 0]; [0; 4]])) (of_list [1; 0; 1]) (Some (of_rows [[1; 0; 0]; [0; 0; 0]; [0; 0; 0]])) "same" = Ok (y, U) /\
  convolve_unc (of_list [-3; -6]) (Some (of_rows [[9; 0]; [0; 36]])) (of_list [1; 0; 1]) (Some (of_rows [[1; 0; 0]; [0; 0; 0]; [0; 0; 0]])) "same" = Ok (y', U') /\
  y' 1%nat = -3 * 1 * y 1%nat /\ U' 1%nat 1%nat = (-3 * 1) ^ 2 * U 1%nat 1%nat.
Proof.
  destruct (C191_units "same" 2 3 (of_list [1; 2]) (of_list [-3; -6]) (of_list [1; 0; 1]) (of_list [1; 0; 1])
    (Some (of_rows [[1; 0]; [0; 4]])) (Some (of_rows [[9; 0]; [0; 36]]))
    (Some (of_rows [[1; 0; 0]; [0; 0; 0]; [0; 0; 0]])) (Some (of_rows [[1; 0; 0]; [0; 0; 0]; [0; 0; 0]])) (-3) 1)
    as [y [U [y' [U' [E [E' [L [_ [_ F]]]]]]]]]; try reflexivity; try lia; try (split; reflexivity).
  - left; right; right; reflexivity.
  - intros i Hi. below i Hi; cbn; ring.
  - intros i Hi. below i Hi; cbn; ring.
  - intros i j Hi Hj. below i Hi; below j Hj; cbn; ring.
  - intros i j Hi Hj. below i Hi; below j Hj; cbn; ring.
  - exists y, U, y', U'. split; [exact E|]. split; [exact E'|].
    assert (Ly : alen y = 3%nat).
    { destruct (C11_numpy_modes (of_list [1; 2]) (Some (of_rows [[1; 0]; [0; 4]])) (of_list [1; 0; 1]) (Some (of_rows [[1; 0; 0]; [0; 0; 0]; [0; 0; 0]])) "same" 2 3)
        as [y2 [U2 [E2 [L2 _]]]]; try reflexivity; try lia; try (split; reflexivity); [right; right; reflexivity|].
      rewrite E in E2. injection E2 as <- <-. exact L2. }
    apply F; lia.
Qed.
Example C191_add_example : exists y V y' V' yz Vz,
  convolve_unc (of_list [1; 2]) (Some (of_rows [[1; 0]; [0; 4]])) (of_list [1; 3]) None "mirror" = Ok (y, V) /\
  convolve_unc (of_list [5; 6]) (Some (of_rows [[1; 1]; [1; 1]])) (of_list [1; 3]) None "mirror" = Ok (y', V') /\
  convolve_unc (of_list [7; 8]) (Some (of_rows [[2; 1]; [1; 5]])) (of_list [1; 3]) None "mirror" = Ok (yz, Vz) /\
  mrows Vz = alen yz /\ mcols Vz = alen yz /\
  forall i j, (i < alen yz)%nat -> (j < alen yz)%nat -> Vz i j = V i j + V' i j.
Proof.
  apply (C191_covariances_add "mirror" 2 2); try reflexivity; try lia; try (split; reflexivity).
  - right; right; right; reflexivity.
  - intros i j Hi Hj. below i Hi; below j Hj; cbn; ring.
Qed.
Print Assumptions C191_superposition.
Print Assumptions C191_units.
Print Assumptions C191_covariances_add.
