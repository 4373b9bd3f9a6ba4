(** Amplitude and phase to time by two ways; products in the frequency domain: theorems
    C173-C175.  Model: M_DFT.v.  Vocabulary: S_DFT.v, Stats.v. *)
From Coq Require Import Reals List Arith ZArith Bool Lia Lra Psatz.
From Verif Require Import Base Sums Stats StatsFacts M_DFT S_Jac S_DFT P_Jac P_Trig P_DFT P_iDFT
  P_Deriv P_AmpPhase P_APTime P_Deconv P_T2AP T_AmpPhase.
Import ListNotations.
Open Scope R_scope.

(** ** C173 *)
Lemma matvec_full u : matrix_or_vector u -> dia_full u.
Proof. destruct u; simpl; tauto. Qed.

Lemma even_two N : Nat.Even N -> (2 * (N / 2 + 1) = N + 2)%nat.
Proof. intros [p ->]. rewrite (Nat.mul_comm 2 p), Nat.div_mul; lia. Qed.
(** The chain rule for idft_map after to_real_imag. *)
Lemma apt_jac_chain N A P h : Nat.Even N -> (2 <= N)%nat -> h = (N / 2 + 1)%nat -> alen A = h -> alen P = h ->
  is_jac N (2 * h) (fun s n => idft_map N (to_real_imag h s) n) (stk A P)
    (fun n j => rsum (2 * h) (fun i => idft_coeff N n i * Kl h (ri_al h (stk A P)) (ri_be h (stk A P)) i j)).
Proof.
  intros He HN Hh HA HP n j Hn Hj.
  apply (derivable_pt_lim_ext (fun t => rsum (2 * h) (fun i => idft_coeff N n i * to_real_imag h (upd (stk A P) j t) i))).
  { intros t. rewrite idft_map_linear by (auto; lia). now rewrite <- Hh. }
  assert (HD : forall m, (m <= 2 * h)%nat ->
    derivable_pt_lim (fun t => rsum m (fun i => idft_coeff N n i * to_real_imag h (upd (stk A P) j t) i)) (stk A P j)
      (rsum m (fun i => idft_coeff N n i * Kl h (ri_al h (stk A P)) (ri_be h (stk A P)) i j))).
  { induction m as [|m IH]; intros Hm.
    - simpl. apply derivable_pt_lim_const.
    - simpl. apply dl_plus.
      + apply IH. lia.
      + eapply dl_eq; [apply dl_mult; [apply dl_const|apply (to_real_imag_jac h (stk A P)); lia]|]. cbv beta. ring. }
  apply HD. lia.
Qed.

Theorem C173_two_ways_partial : forall (A P : vec) UAP N,
  let h := (N / 2 + 1)%nat in
  Nat.Even N -> (2 <= N)%nat -> alen A = h -> alen P = h ->
  ap_fits (2 * h) UAP -> symm (2 * h) (ap_U UAP) -> matrix_or_vector UAP ->
  exists x V F M x' V' c, AmpPhase2Time A P UAP = Ok (x, V) /\
    AmpPhase2DFT A P UAP false = Ok (F, UDense M) /\
    GUM_iDFT F (FuMat M) None None None = Ok (x', V', c) /\
    alen x = N /\ alen x' = N /\ mrows V = N /\ mcols V = N /\ mrows V' = N /\ mcols V' = N /\
    (forall n, (n < N)%nat -> x n = x' n) /\
    (forall n, (n < N)%nat -> V n n = V' n n) /\
    (forall n m, (n < N)%nat -> (m < N)%nat -> V n m + V m n = V' n m + V' m n).
Proof.
  intros A P UAP N h He HN HA HP Hf Hs Hm.
  assert (H2 : (2 * h = N + 2)%nat) by (unfold h; now apply even_two).
  assert (Hh : (1 <= h)%nat) by (unfold h; lia).
  destruct (AmpPhase2Time_run A P UAP N h) as [x [V [E [Lx [Rv [Cv [Hx HV]]]]]]]; auto using matvec_full.
  destruct (AmpPhase2DFT_run A P UAP false h) as [F [U [E' [LF [HF [SU HU]]]]]]; auto.
  assert (ED : exists M, U = UDense M).
  { destruct U as [M|D]; [now exists M|]. exfalso. clear - E' Hm.
    unfold AmpPhase2DFT in E'. destruct UAP; simpl in Hm; try tauto.
    all: cbv beta iota zeta delta [bind] in E';
      repeat match type of E' with
             | match ?e with Ok _ => _ | Err _ => _ end = _ => destruct e; [|discriminate E']
             | (if ?b then _ else _) = _ => destruct b; [discriminate E'|]
             | match ?p with (_, _) => _ end = _ => destruct p end; discriminate E'. }
  destruct ED as [M ->]. simpl in SU. destruct SU as [RM CM]. cbn [dense] in HU.
  assert (HU' : forall i j, (i < 2 * h)%nat -> (j < 2 * h)%nat -> M i j = S4 h (ri_al h (stk A P)) (ri_be h (stk A P)) (ap_U UAP) i j).
  { intros i j Hi Hj. rewrite HU by assumption. destruct UAP; simpl in Hm; try tauto; unfold sparse_error; lra. }
  destruct (GUM_iDFT_run F (FuMat M) None N N) as [x' [V' [c [E3 [L1 [R1 [C1 [X1 [V1 _]]]]]]]]]; auto.
  { reflexivity. } { now rewrite LF. } { split; [rewrite RM|rewrite CM]; exact H2. }
  { intros i j Hi Hj. simpl. rewrite !HU' by lia. apply S4_symm. assumption. }
  assert (HS : forall n m, (n < N)%nat -> (m < N)%nat ->
    sandwich (N + 2) (idft_coeff N) (fun_U (FuMat M)) (idft_coeff N) n m
    = sandwich (2 * h) (apt_coeff N A P) (ap_U UAP) (apt_coeff N A P) n m).
  { intros n m Hn Hmm. rewrite <- H2. cbn [fun_U].
    rewrite (sandwich_ext N (2 * h) (idft_coeff N) (idft_coeff N) (fun i j => M i j)
       (S4 h (ri_al h (stk A P)) (ri_be h (stk A P)) (ap_U UAP)) (idft_coeff N) (idft_coeff N));
      auto.
    unfold S4. rewrite sandwich_compose.
    apply (sandwich_ext N (2 * h)); auto.
    all: intros a b Ha Hb; symmetry; exact (is_jac_unique _ _ _ _ _ _ (apt_jac N A P h He HN eq_refl HA HP)
      (apt_jac_chain N A P h He HN eq_refl HA HP) a b Ha Hb). }
  exists x, V, F, M, x', V', c.
  repeat (split; [assumption|]). split; [|split].
  - intros n Hn. rewrite Hx, X1 by assumption. rewrite !idft_map_linear by (auto; lia).
    apply rsum_ext. intros i Hi. f_equal. symmetry. apply HF. unfold h. exact Hi.
  - intros n Hn. rewrite HV, V1, HS by assumption. ring.
  - intros n m Hn Hmm. rewrite !HV, !V1, !HS by assumption. ring.
Qed.

(** ** C174: products *)
Lemma cmul_comm h (a b : nat -> R) i : cmul_map h a b i = cmul_map h b a i.
Proof. unfold cmul_map. destruct (i <? h)%nat; ring. Qed.

Lemma S4_mul_compose h (F G : nat -> R) U i j : (i < 2 * h)%nat -> (j < 2 * h)%nat ->
  S4 h (mul_al h G) (mul_be h G) (S4 h (mul_al h F) (mul_be h F) U) i j
  = S4 h (mul_al h (cmul_map h F G)) (mul_be h (cmul_map h F G)) U i j.
Proof.
  intros Hi Hj.
  assert (C : forall i, (i < 2 * h)%nat -> exists k, (k < h)%nat /\ (i = k \/ i = h + k)%nat).
  { intros a Ha. destruct (Nat.lt_ge_cases a h); [exists a | exists (a - h)%nat]; lia. }
  destruct (C i Hi) as [k [Hk Ei]]. destruct (C j Hj) as [l [Hl Ej]].
  rewrite !S4_term by assumption. unfold term4 at 1.
  assert (Bi : base h i = k) by (destruct Ei as [-> | ->]; [now apply base_lo|apply base_hi]).
  assert (Bj : base h j = l) by (destruct Ej as [-> | ->]; [now apply base_lo|apply base_hi]).
  rewrite Bi, Bj. rewrite !S4_term by lia. rewrite !base_hi, !base_lo by assumption.
  unfold term4, mul_al, mul_be, cmul_map.
  assert (Tk : (k <? h)%nat = true) by now apply Nat.ltb_lt.
  assert (Tl : (l <? h)%nat = true) by now apply Nat.ltb_lt.
  assert (Sk : (h + k - h)%nat = k) by lia. assert (Sl : (h + l - h)%nat = l) by lia.
  destruct Ei as [-> | ->]; destruct Ej as [-> | ->]; rewrite ?hi_false, ?Tk, ?Tl, ?hi_false, ?Tk, ?Tl;
    rewrite ?Sk, ?Sl, ?Tk, ?Tl; ring.
Qed.
Lemma cmul_assoc h (a b c : nat -> R) i : (i < 2 * h)%nat ->
  cmul_map h (cmul_map h a b) c i = cmul_map h a (cmul_map h b c) i.
Proof.
  intros Hi. unfold cmul_map.
  destruct (Nat.ltb_spec i h) as [L|L].
  - rewrite hi_false. replace (i <? h)%nat with true by (symmetry; now apply Nat.ltb_lt).
    replace (h + i - h)%nat with i by lia. ring.
  - replace (i - h <? h)%nat with true by (symmetry; apply Nat.ltb_lt; lia).
    replace (h + (i - h))%nat with i by lia.
    replace (i <? h)%nat with false by (symmetry; now apply Nat.ltb_ge). ring.
Qed.
Lemma cmul_ext h (a a' b b' : nat -> R) i : (i < 2 * h)%nat ->
  (forall i, (i < 2 * h)%nat -> a i = a' i) -> (forall i, (i < 2 * h)%nat -> b i = b' i) ->
  cmul_map h a b i = cmul_map h a' b' i.
Proof.
  intros Hi Ha Hb. unfold cmul_map. destruct (Nat.ltb_spec i h); rewrite !Ha, !Hb by lia; reflexivity.
Qed.
Lemma S4_mul_ext h (F F' : nat -> R) U U' i j : (i < 2 * h)%nat -> (j < 2 * h)%nat ->
  (forall i, (i < 2 * h)%nat -> F i = F' i) ->
  (forall i j, (i < 2 * h)%nat -> (j < 2 * h)%nat -> U i j = U' i j) ->
  S4 h (mul_al h F) (mul_be h F) U i j = S4 h (mul_al h F') (mul_be h F') U' i j.
Proof.
  intros Hi Hj HF HU. rewrite !S4_term by assumption. pose proof (base_lt h i Hi). pose proof (base_lt h j Hj).
  unfold term4. rewrite !HU by lia. unfold mul_al, mul_be. rewrite (HF i), (HF j) by assumption.
  destruct (Nat.ltb_spec i h); destruct (Nat.ltb_spec j h);
    rewrite ?(HF (h + i)%nat), ?(HF (h + j)%nat), ?(HF (i - h)%nat), ?(HF (j - h)%nat) by lia; reflexivity.
Qed.
Lemma S4_plus h al be U V i j : S4 h al be (fun a b => U a b + V a b) i j = S4 h al be U i j + S4 h al be V i j.
Proof.
  unfold S4, sandwich. rewrite <- rsum_plus. apply rsum_ext; intros a _.
  rewrite <- rsum_plus. apply rsum_ext; intros b _. ring.
Qed.

(** The factors may be exchanged. *)
Theorem C174_commutative : forall (Y F : vec) UY UF h,
  alen Y = (2 * h)%nat -> alen F = (2 * h)%nat ->
  mrows UY = (2 * h)%nat -> mcols UY = (2 * h)%nat -> symm (2 * h) (fun i j => UY i j) ->
  mrows UF = (2 * h)%nat -> mcols UF = (2 * h)%nat -> symm (2 * h) (fun i j => UF i j) ->
  exists Z U Z' U', DFT_multiply Y F (SuMat UY) (Some (SuMat UF)) = Ok (Z, U) /\
    DFT_multiply F Y (SuMat UF) (Some (SuMat UY)) = Ok (Z', U') /\
    alen Z = (2 * h)%nat /\ mrows U = (2 * h)%nat /\ mcols U = (2 * h)%nat /\
    veq Z Z' /\ meq U U'.
Proof.
  intros Y F UY UF h LY LF RY CY SY RF CF SF.
  destruct (DFT_multiply_run Y F UY (Some (SuMat UF)) h) as [Z [U [E [L [R1 [C1 [HZ HU]]]]]]]; simpl; auto.
  destruct (DFT_multiply_run F Y UF (Some (SuMat UY)) h) as [Z' [U' [E' [L' [R1' [C1' [HZ' HU']]]]]]]; simpl; auto.
  exists Z, U, Z', U'. repeat (split; [assumption|]). split.
  - split; [congruence|]. intros i Hi. rewrite L in Hi. rewrite HZ, HZ' by assumption. apply cmul_comm.
  - split; [congruence|]. split; [congruence|]. intros i j Hi Hj. rewrite R1 in Hi. rewrite C1 in Hj.
    rewrite HU, HU' by assumption. cbn [opt_U]. apply Rplus_comm.
Qed.

(** Three factors may be multiplied in either grouping. *)
Theorem C174_associative : forall (X Y Z : vec) UX UY UZ h,
  alen X = (2 * h)%nat -> alen Y = (2 * h)%nat -> alen Z = (2 * h)%nat ->
  mrows UX = (2 * h)%nat -> mcols UX = (2 * h)%nat -> symm (2 * h) (fun i j => UX i j) ->
  mrows UY = (2 * h)%nat -> mcols UY = (2 * h)%nat -> symm (2 * h) (fun i j => UY i j) ->
  mrows UZ = (2 * h)%nat -> mcols UZ = (2 * h)%nat -> symm (2 * h) (fun i j => UZ i j) ->
  exists XY Ul YZ Ur P U P' U',
    DFT_multiply X Y (SuMat UX) (Some (SuMat UY)) = Ok (XY, Ul) /\
    DFT_multiply XY Z (SuMat Ul) (Some (SuMat UZ)) = Ok (P, U) /\
    DFT_multiply Y Z (SuMat UY) (Some (SuMat UZ)) = Ok (YZ, Ur) /\
    DFT_multiply X YZ (SuMat UX) (Some (SuMat Ur)) = Ok (P', U') /\
    alen P = (2 * h)%nat /\ mrows U = (2 * h)%nat /\ mcols U = (2 * h)%nat /\ veq P P' /\ meq U U'.
Proof.
  intros X Y Z UX UY UZ h LX LY LZ RX CX SX RY CY SY RZ CZ SZ.
  destruct (DFT_multiply_run X Y UX (Some (SuMat UY)) h) as [XY [Ul [E1 [L1 [R1 [C1 [H1 V1]]]]]]]; simpl; auto.
  destruct (DFT_multiply_run Y Z UY (Some (SuMat UZ)) h) as [YZ [Ur [E2 [L2 [R2 [C2 [H2 V2]]]]]]]; simpl; auto.
  assert (Sl : symm (2 * h) (fun i j => Ul i j)).
  { intros i j Hi Hj. rewrite !V1 by assumption. cbn [opt_U].
    f_equal; apply S4_symm; assumption. }
  assert (Sr : symm (2 * h) (fun i j => Ur i j)).
  { intros i j Hi Hj. rewrite !V2 by assumption. cbn [opt_U].
    f_equal; apply S4_symm; assumption. }
  destruct (DFT_multiply_run XY Z Ul (Some (SuMat UZ)) h) as [P [U [E3 [L3 [R3 [C3 [H3 V3]]]]]]]; simpl; auto.
  destruct (DFT_multiply_run X YZ UX (Some (SuMat Ur)) h) as [P' [U' [E4 [L4 [R4 [C4 [H4 V4]]]]]]]; simpl; auto.
  exists XY, Ul, YZ, Ur, P, U, P', U'. repeat (split; [assumption|]). split.
  - split; [congruence|]. intros i Hi. rewrite L3 in Hi. rewrite H3, H4 by assumption.
    rewrite (cmul_ext h XY (cmul_map h X Y) Z Z) by auto. rewrite cmul_assoc by assumption.
    symmetry. apply cmul_ext; auto.
  - split; [congruence|]. split; [congruence|]. intros i j Hi Hj. rewrite R3 in Hi. rewrite C3 in Hj.
    rewrite V3, V4 by assumption. cbn [opt_U].
    rewrite (S4_mul_ext h Z Z (fun a b => Ul a b)
      (fun a b => S4 h (mul_al h Y) (mul_be h Y) (fun a b => UX a b) a b + S4 h (mul_al h X) (mul_be h X) (fun a b => UY a b) a b)) by auto.
    rewrite (S4_mul_ext h X X (fun a b => Ur a b)
      (fun a b => S4 h (mul_al h Z) (mul_be h Z) (fun a b => UY a b) a b + S4 h (mul_al h Y) (mul_be h Y) (fun a b => UZ a b) a b)) by auto.
    rewrite !S4_plus.
    change (fun a b => S4 h (mul_al h Y) (mul_be h Y) (fun a b => UX a b) a b) with (S4 h (mul_al h Y) (mul_be h Y) (fun a b => UX a b)).
    rewrite !S4_mul_compose by assumption.
    rewrite (S4_mul_ext h XY (cmul_map h X Y) (fun a b => UZ a b) (fun a b => UZ a b)) by auto.
    rewrite (S4_mul_ext h YZ (cmul_map h Y Z) (fun a b => UX a b) (fun a b => UX a b)) by auto.
    rewrite (S4_mul_ext h (cmul_map h Z X) (cmul_map h X Z) (fun a b => UY a b) (fun a b => UY a b)) by auto using cmul_comm.
    rewrite (S4_mul_ext h (cmul_map h Y X) (cmul_map h X Y) (fun a b => UZ a b) (fun a b => UZ a b)) by auto using cmul_comm.
    ring.
Qed.

(** Multiplication by the exactly known response 1 changes nothing. *)
Theorem C174_one : forall (Y F : vec) UY h,
  alen Y = (2 * h)%nat -> alen F = (2 * h)%nat ->
  mrows UY = (2 * h)%nat -> mcols UY = (2 * h)%nat -> symm (2 * h) (fun i j => UY i j) ->
  (forall k, (k < h)%nat -> F k = 1 /\ F (h + k)%nat = 0) ->
  exists Z U, DFT_multiply Y F (SuMat UY) None = Ok (Z, U) /\ veq Z Y /\ meq U UY.
Proof.
  intros Y F UY h LY LF RY CY SY HF.
  destruct (DFT_multiply_run Y F UY None h) as [Z [U [E [L [R1 [C1 [HZ HU]]]]]]]; simpl; auto.
  { intros ? ? _ _; reflexivity. }
  assert (F1 : forall i, (i < 2 * h)%nat -> mul_al h F i = (if (i <? h)%nat then 1 else 0) /\ mul_be h F i = (if (i <? h)%nat then 0 else 1)).
  { intros i Hi. unfold mul_al, mul_be. destruct (Nat.ltb_spec i h) as [Q|Q].
    - destruct (HF i Q) as [-> ->]. split; ring.
    - replace i with (h + (i - h))%nat at 1 by lia. destruct (HF (i - h)%nat) as [-> ->]; [lia|]. split; ring. }
  exists Z, U. split; [assumption|]. split.
  - split; [congruence|]. intros i Hi. rewrite L in Hi. rewrite HZ by assumption. unfold cmul_map.
    destruct (Nat.ltb_spec i h) as [Q|Q].
    + destruct (HF i Q) as [-> ->]. ring.
    + destruct (HF (i - h)%nat) as [E1 E2]; [lia|]. replace (h + (i - h))%nat with i in E2 by lia. rewrite E1, E2. ring.
  - split; [congruence|]. split; [congruence|]. intros i j Hi Hj. rewrite R1 in Hi. rewrite C1 in Hj.
    rewrite HU by assumption. change (opt_U None) with (fun _ _ : nat => 0). rewrite S4_zero, S4_term by assumption.
    destruct (F1 i Hi) as [-> ->]. destruct (F1 j Hj) as [-> ->]. unfold term4, base.
    destruct (Nat.ltb_spec i h); destruct (Nat.ltb_spec j h);
      rewrite ?(Nat.add_comm h), ?Nat.sub_add by lia; ring.
Qed.
Print Assumptions C173_two_ways_partial.
Print Assumptions C174_commutative.
Print Assumptions C174_associative.
Print Assumptions C174_one.

(** The complete covariances differ: with correlated amplitudes and phases the part that
    AmpPhase2Time adds antisymmetrically (C34) is not the one that GUM_iDFT adds (C28). *)
Theorem C173_covariance_refuted : exists A P UAP x V F M x' V' c,
  alen A = 2%nat /\ alen P = 2%nat /\ ap_fits 4 UAP /\ psd 4 (ap_U UAP) /\ matrix_or_vector UAP /\
  AmpPhase2Time A P UAP = Ok (x, V) /\ AmpPhase2DFT A P UAP false = Ok (F, UDense M) /\
  GUM_iDFT F (FuMat M) None None None = Ok (x', V', c) /\
  V' 0%nat 1%nat = V' 1%nat 0%nat /\ V 0%nat 1%nat - V 1%nat 0%nat = 1.
Proof.
  pose proof ex_uap_psd as Hp.
  destruct (C173_two_ways_partial (of_list [1; 1]) (of_list [0; PI / 2]) (ApMat ex_uap) 2)
    as [x [V [F [M [x' [V' [c [E1 [E2 [E3 _]]]]]]]]]]; simpl; auto; [exists 1%nat; lia|apply Hp|].
  exists (of_list [1; 1]), (of_list [0; PI / 2]), (ApMat ex_uap), x, V, F, M, x', V', c.
  repeat (split; [solve [assumption | reflexivity | simpl; auto]|]). split.
  - destruct (AmpPhase2DFT_run (of_list [1; 1]) (of_list [0; PI / 2]) (ApMat ex_uap) false 2) as [F0 [U0 [E0 [LF [_ [SU HU]]]]]]; simpl; auto.
    { apply Hp. }
    rewrite E2 in E0. injection E0 as <- <-. simpl in SU. destruct SU as [RM CM].
    destruct (GUM_iDFT_run F (FuMat M) None 2 2) as [x0 [V0 [c0 [E0 [_ [R1 [C1 [_ [HV _]]]]]]]]]; simpl; auto.
    { exists 1%nat; lia. }
    { intros i j Hi Hj. change (M i j = M j i). cbn [dense] in HU. rewrite !HU by lia. simpl sparse_error. f_equal. apply S4_symm. apply Hp. }
    rewrite E3 in E0. injection E0 as <- <- <-.
    assert (Z : forall n m, idft_cross 2 (fun_U (FuMat M)) n m = 0).
    { intros n m. unfold idft_cross. apply rsum_zero; intros a Ha. apply rsum_zero; intros b Hb.
      assert (W : idft_coeff 2 m (2 / 2 + 1 + b) = 0).
      { rewrite idft_coeff_hi. change (2 / 2 + 1)%nat with 2%nat in Hb. destruct b as [|[|b]]; try lia; unfold idft_Cs; cbn [mget Nat.div Nat.leb Nat.ltb Nat.eqb andb]; simpl Nat.eqb; cbv iota; rewrite ?sin_PI_nat; simpl; field. }
      rewrite W. ring. }
    rewrite !HV, !Z. rewrite (sandwich_symm _ _ _ 1 0); [ring|].
    intros i j Hi Hj. change (M i j = M j i). cbn [dense] in HU. rewrite !HU by lia. simpl sparse_error. f_equal. apply S4_symm. apply Hp.
  - destruct (AmpPhase2Time_run (of_list [1; 1]) (of_list [0; PI / 2]) (ApMat ex_uap) 2 2)
      as [x0 [V0 [E [_ [R1 [C1 [Hx HV]]]]]]]; simpl; auto; [exists 1%nat; lia| |].
    { apply Hp. }
    rewrite E1 in E. injection E as <- <-.
    rewrite !HV. rewrite (sandwich_symm _ _ _ 1 0) by apply Hp.
    unfold cross, apt_coeff, apt_Cc, apt_Cs, beta_dft. simpl.
    replace (PI * 0) with 0 by ring. replace (PI * 1) with PI by ring. replace (PI / 2 + 0) with (PI / 2) by ring.
    assert (Ec : cos (PI / 2 + PI) = 0) by (rewrite neg_cos, cos_PI2; ring).
    assert (Es : sin (PI / 2 + PI) = -1) by (rewrite neg_sin, sin_PI2; ring).
    rewrite Ec, Es, cos_PI2, sin_PI2, cos_0, sin_0. field.
Qed.
Print Assumptions C173_covariance_refuted.
Example C173_example : exists x V F M x' V' c,
  AmpPhase2Time (of_list [3; 1]) (of_list [0; PI]) (ApVec (of_list [1; 1; 0; 0])) = Ok (x, V) /\
  AmpPhase2DFT (of_list [3; 1]) (of_list [0; PI]) (ApVec (of_list [1; 1; 0; 0])) false = Ok (F, UDense M) /\
  GUM_iDFT F (FuMat M) None None None = Ok (x', V', c) /\ x 0%nat = x' 0%nat /\ V 1%nat 1%nat = V' 1%nat 1%nat.
Proof.
  destruct (C173_two_ways_partial (of_list [3; 1]) (of_list [0; PI]) (ApVec (of_list [1; 1; 0; 0])) 2)
    as [x [V [F [M [x' [V' [c [E1 [E2 [E3 [_ [_ [_ [_ [_ [_ [A1 [A2 _]]]]]]]]]]]]]]]]]]; simpl; auto.
  - exists 1%nat; lia.
  - intros i j _ _. cbn [ap_U]. rewrite (Nat.eqb_sym j i). destruct (Nat.eqb_spec i j) as [->|]; reflexivity.
  - exists x, V, F, M, x', V', c. repeat (split; [assumption|]). split; [apply A1|apply A2]; lia.
Qed.
Definition ex_id2 : mat := of_rows [[1; 0]; [0; 1]].
Lemma ex_id2_symm : symm 2 (fun i j => ex_id2 i j).
Proof. intros i j Hi Hj. destruct i as [|[|i]]; try lia; destruct j as [|[|j]]; try lia; reflexivity. Qed.
Example C174_example : exists Z U Z' U',
  DFT_multiply (of_list [1; 2]) (of_list [3; 4]) (SuMat ex_id2) (Some (SuMat ex_id2)) = Ok (Z, U) /\
  DFT_multiply (of_list [3; 4]) (of_list [1; 2]) (SuMat ex_id2) (Some (SuMat ex_id2)) = Ok (Z', U') /\
  Z 0%nat = -5 /\ Z' 0%nat = -5 /\ U 0%nat 0%nat = 30 /\ U' 0%nat 0%nat = 30.
Proof.
  destruct (C174_commutative (of_list [1; 2]) (of_list [3; 4]) ex_id2 ex_id2 1)
    as [Z [U [Z' [U' [E1 [E2 [L [R1 [C1 [[_ V1] [_ [_ V2]]]]]]]]]]]]; simpl; auto using ex_id2_symm.
  destruct (DFT_multiply_run (of_list [1; 2]) (of_list [3; 4]) ex_id2 (Some (SuMat ex_id2)) 1)
    as [Z0 [U0 [E0 [_ [_ [_ [HZ HU]]]]]]]; simpl; auto using ex_id2_symm.
  rewrite E1 in E0. injection E0 as <- <-.
  exists Z, U, Z', U'. split; [assumption|]. split; [assumption|].
  rewrite <- V1, <- V2 by lia. rewrite HZ, HU by lia. rewrite !S4_term by lia.
  unfold term4, mul_al, mul_be, cmul_map, base. simpl. repeat split; lra.
Qed.
Example C174_associative_example : exists XY Ul YZ Ur P U P' U',
    DFT_multiply (of_list [1; 2]) (of_list [3; 4]) (SuMat ex_id2) (Some (SuMat ex_id2)) = Ok (XY, Ul) /\
    DFT_multiply XY (of_list [0; 1]) (SuMat Ul) (Some (SuMat ex_id2)) = Ok (P, U) /\
    DFT_multiply (of_list [3; 4]) (of_list [0; 1]) (SuMat ex_id2) (Some (SuMat ex_id2)) = Ok (YZ, Ur) /\
    DFT_multiply (of_list [1; 2]) YZ (SuMat ex_id2) (Some (SuMat Ur)) = Ok (P', U') /\ veq P P' /\ meq U U'.
Proof.
  destruct (C174_associative (of_list [1; 2]) (of_list [3; 4]) (of_list [0; 1]) ex_id2 ex_id2 ex_id2 1)
    as [XY [Ul [YZ [Ur [P [U [P' [U' [E1 [E2 [E3 [E4 [_ [_ [_ [V1 V2]]]]]]]]]]]]]]]]; simpl; auto using ex_id2_symm.
  exists XY, Ul, YZ, Ur, P, U, P', U'. auto 10.
Qed.
Example C174_one_example : exists Z U, DFT_multiply (of_list [1; 2]) (of_list [1; 0]) (SuMat ex_id2) None = Ok (Z, U) /\
  veq Z (of_list [1; 2]) /\ meq U ex_id2.
Proof.
  apply (C174_one (of_list [1; 2]) (of_list [1; 0]) ex_id2 1); simpl; auto using ex_id2_symm.
  intros k Hk. destruct k; [split; reflexivity|lia].
Qed.

(** ** C175: quotients by exactly known responses *)
(** Reciprocal of a stacked response. *)
Definition rcp (h : nat) (H : nat -> R) (i : nat) : R :=
  if (i <? h)%nat then H i / nrm h H i else - H i / nrm h H (i - h).
Lemma S4_dy h (H : nat -> R) U i j : (i < 2 * h)%nat -> (j < 2 * h)%nat ->
  S4 h (dy_al h H) (dy_be h H) U i j = S4 h (mul_al h (rcp h H)) (mul_be h (rcp h H)) U i j.
Proof.
  assert (E : forall i, (i < 2 * h)%nat -> dy_al h H i = mul_al h (rcp h H) i /\ dy_be h H i = mul_be h (rcp h H) i).
  { intros a Ha. unfold dy_al, dy_be, mul_al, mul_be, rcp, base. destruct (Nat.ltb_spec a h) as [L|L].
    - rewrite hi_false. replace (h + a - h)%nat with a by lia. split; [reflexivity|]. unfold Rdiv. ring.
    - replace (a - h <? h)%nat with true by (symmetry; apply Nat.ltb_lt; lia).
      replace (h + (a - h))%nat with a by lia. split; reflexivity. }
  intros Hi Hj. rewrite !S4_term by assumption. destruct (E i Hi) as [-> ->]. now destruct (E j Hj) as [-> ->].
Qed.
Lemma cdiv_rcp h (Y H : nat -> R) i : (i < 2 * h)%nat -> cdiv_map h Y H i = cmul_map h Y (rcp h H) i.
Proof.
  intros Hi. unfold cdiv_map, cmul_map, rcp, nrm. destruct (Nat.ltb_spec i h) as [L|L].
  - rewrite hi_false. replace (h + i - h)%nat with i by lia. unfold Rdiv. ring.
  - replace (i - h <? h)%nat with true by (symmetry; apply Nat.ltb_lt; lia).
    replace (h + (i - h))%nat with i by lia. unfold Rdiv. ring.
Qed.
Lemma rcp_mul h (F G : nat -> R) i : (i < 2 * h)%nat ->
  (forall k, (k < h)%nat -> nrm h F k <> 0) -> (forall k, (k < h)%nat -> nrm h G k <> 0) ->
  cmul_map h (rcp h F) (rcp h G) i = rcp h (cmul_map h F G) i.
Proof.
  intros Hi HF HG.
  assert (EN : forall k, (k < h)%nat -> nrm h (cmul_map h F G) k = nrm h F k * nrm h G k).
  { intros k Hk. unfold nrm, cmul_map. rewrite hi_false. replace (k <? h)%nat with true by (symmetry; now apply Nat.ltb_lt).
    replace (h + k - h)%nat with k by lia. ring. }
  unfold rcp at 3. destruct (Nat.ltb_spec i h) as [L|L].
  - rewrite EN by assumption. unfold cmul_map, rcp. rewrite hi_false.
    replace (i <? h)%nat with true by (symmetry; now apply Nat.ltb_lt). replace (h + i - h)%nat with i by lia.
    field. auto.
  - rewrite EN by lia. unfold cmul_map, rcp.
    replace (i <? h)%nat with false by (symmetry; now apply Nat.ltb_ge).
    replace (i - h <? h)%nat with true by (symmetry; apply Nat.ltb_lt; lia).
    field. split; [apply HG | apply HF]; lia.
Qed.
Lemma S4_null h al be U i j : (forall a b, (a < 2 * h)%nat -> (b < 2 * h)%nat -> U a b = 0) -> S4 h al be U i j = 0.
Proof. intros HU. unfold S4, sandwich. apply rsum_zero; intros. apply rsum_zero; intros. rewrite HU by assumption. ring. Qed.
Lemma pow_nrm h (H : nat -> R) k : H k ^ 2 + H (h + k)%nat ^ 2 <> 0 -> nrm h H k <> 0.
Proof. unfold nrm. intros E Z. apply E. simpl. lra. Qed.

(** Two known systems may be deconvolved one after another or by their product. *)
Theorem C175_in_series : forall (H1 H2 H Y : vec) U1 U2 U0 UY h,
  alen H1 = (2 * h)%nat -> alen H2 = (2 * h)%nat -> alen H = (2 * h)%nat -> alen Y = (2 * h)%nat ->
  matrix_or_vector U1 -> matrix_or_vector U2 -> matrix_or_vector U0 ->
  ap_fits (2 * h) U1 -> ap_fits (2 * h) U2 -> ap_fits (2 * h) U0 -> ap_fits (2 * h) UY -> symm (2 * h) (ap_U UY) ->
  (forall i j, (i < 2 * h)%nat -> (j < 2 * h)%nat -> ap_U U1 i j = 0 /\ ap_U U2 i j = 0 /\ ap_U U0 i j = 0) ->
  (forall k, (k < h)%nat -> H1 k ^ 2 + H1 (h + k)%nat ^ 2 <> 0) ->
  (forall k, (k < h)%nat -> H2 k ^ 2 + H2 (h + k)%nat ^ 2 <> 0) ->
  (forall i, (i < 2 * h)%nat -> H i = cmul_map h H1 H2 i) ->
  exists X1 V1 X2 V2 X V, DFT_deconv H1 Y U1 UY = Ok (X1, V1) /\
    DFT_deconv H2 X1 U2 (ApMat V1) = Ok (X2, V2) /\ DFT_deconv H Y U0 UY = Ok (X, V) /\
    alen X = (2 * h)%nat /\ mrows V = (2 * h)%nat /\ mcols V = (2 * h)%nat /\ veq X2 X /\ meq V2 V.
Proof.
  intros H1 H2 H Y U1 U2 U0 UY h LH1 LH2 LH LY M1 M2 M0 F1 F2 F0 FY SY HU N1 N2 HH.
  assert (SZ : forall u, (forall i j, (i < 2 * h)%nat -> (j < 2 * h)%nat -> ap_U u i j = 0) -> symm (2 * h) (ap_U u))
    by (intros u Hu i j Hi Hj; now rewrite !Hu).
  assert (Z1 : forall i j, (i < 2 * h)%nat -> (j < 2 * h)%nat -> ap_U U1 i j = 0) by (intros; now apply HU).
  assert (Z2 : forall i j, (i < 2 * h)%nat -> (j < 2 * h)%nat -> ap_U U2 i j = 0) by (intros; now apply HU).
  assert (Z0 : forall i j, (i < 2 * h)%nat -> (j < 2 * h)%nat -> ap_U U0 i j = 0) by (intros; now apply HU).
  destruct (DFT_deconv_run H1 Y U1 UY h) as [X1 [V1 [E1 [L1 [R1 [C1 [HX1 HV1]]]]]]]; auto.
  assert (S1 : symm (2 * h) (fun i j => V1 i j)).
  { intros i j Hi Hj. rewrite !HV1 by assumption. rewrite !(S4_null _ _ _ (ap_U U1)) by assumption.
    f_equal. now apply S4_symm. }
  destruct (DFT_deconv_run H2 X1 U2 (ApMat V1) h) as [X2 [V2 [E2 [L2 [R2 [C2 [HX2 HV2]]]]]]]; simpl; auto.
  destruct (DFT_deconv_run H Y U0 UY h) as [X [V [E0 [L0 [R0 [C0 [HX0 HV0]]]]]]]; auto.
  assert (ER : forall i, (i < 2 * h)%nat -> cmul_map h (rcp h H1) (rcp h H2) i = rcp h H i).
  { intros i Hi. rewrite rcp_mul; auto using pow_nrm.
    unfold rcp, nrm. destruct (Nat.ltb_spec i h); rewrite <- !HH by lia; reflexivity. }
  exists X1, V1, X2, V2, X, V. repeat (split; [assumption|]). split.
  - split; [congruence|]. intros i Hi. rewrite L2 in Hi. rewrite HX2, HX0 by assumption.
    rewrite !cdiv_rcp by assumption.
    rewrite (cmul_ext h X1 (cmul_map h Y (rcp h H1)) (rcp h H2) (rcp h H2)) by (auto; intros; rewrite HX1 by assumption; now apply cdiv_rcp).
    rewrite cmul_assoc by assumption. apply cmul_ext; auto.
  - split; [congruence|]. split; [congruence|]. intros i j Hi Hj. rewrite R2 in Hi. rewrite C2 in Hj.
    rewrite HV2, HV0 by assumption. rewrite !(S4_null _ _ _ (ap_U U2)), !(S4_null _ _ _ (ap_U U0)) by assumption.
    f_equal. rewrite !S4_dy by assumption. cbn [ap_U].
    rewrite (S4_mul_ext h (rcp h H2) (rcp h H2) (fun a b => V1 a b) (S4 h (mul_al h (rcp h H1)) (mul_be h (rcp h H1)) (ap_U UY))); auto.
    2:{ intros a b Ha Hb. rewrite HV1 by assumption. rewrite !(S4_null _ _ _ (ap_U U1)) by assumption. rewrite S4_dy by assumption. ring. }
    rewrite S4_mul_compose by assumption. apply S4_mul_ext; auto.
Qed.

(** Deconvolution of a known system is multiplication by its reciprocal response, which is
    what deconvolving the constant 1 returns. *)
Theorem C175_reciprocal : forall (H Y one : vec) UH UY Uone h,
  alen H = (2 * h)%nat -> alen Y = (2 * h)%nat -> alen one = (2 * h)%nat ->
  matrix_or_vector UH -> ap_fits (2 * h) UH -> mrows UY = (2 * h)%nat -> mcols UY = (2 * h)%nat ->
  symm (2 * h) (fun i j => UY i j) -> ap_fits (2 * h) Uone ->
  (forall i j, (i < 2 * h)%nat -> (j < 2 * h)%nat -> ap_U UH i j = 0 /\ ap_U Uone i j = 0) ->
  (forall k, (k < h)%nat -> H k ^ 2 + H (h + k)%nat ^ 2 <> 0) ->
  (forall k, (k < h)%nat -> one k = 1 /\ one (h + k)%nat = 0) ->
  exists G UG X V X' V', DFT_deconv H one UH Uone = Ok (G, UG) /\
    DFT_deconv H Y UH (ApMat UY) = Ok (X, V) /\ DFT_multiply Y G (SuMat UY) None = Ok (X', V') /\
    (forall k, (k < h)%nat -> G k = H k / (H k ^ 2 + H (h + k)%nat ^ 2) /\
                              G (h + k)%nat = - H (h + k)%nat / (H k ^ 2 + H (h + k)%nat ^ 2)) /\
    (forall i j, (i < 2 * h)%nat -> (j < 2 * h)%nat -> UG i j = 0) /\
    alen X = (2 * h)%nat /\ mrows V = (2 * h)%nat /\ mcols V = (2 * h)%nat /\ veq X X' /\ meq V V'.
Proof.
  intros H Y one UH UY Uone h LH LY L1 MH FH RY CY SY F1 HU NH H1.
  assert (SZ : forall u, (forall i j, (i < 2 * h)%nat -> (j < 2 * h)%nat -> ap_U u i j = 0) -> symm (2 * h) (ap_U u))
    by (intros u Hu i j Hi Hj; now rewrite !Hu).
  assert (ZH : forall i j, (i < 2 * h)%nat -> (j < 2 * h)%nat -> ap_U UH i j = 0) by (intros; now apply HU).
  assert (Z1 : forall i j, (i < 2 * h)%nat -> (j < 2 * h)%nat -> ap_U Uone i j = 0) by (intros; now apply HU).
  destruct (DFT_deconv_run H one UH Uone h) as [G [UG [E1 [LG [RG [CG [HG HUG]]]]]]]; auto.
  destruct (DFT_deconv_run H Y UH (ApMat UY) h) as [X [V [E2 [LX [RX [CX [HX HV]]]]]]]; simpl; auto.
  destruct (DFT_multiply_run Y G UY None h) as [X' [V' [E3 [LX' [RX' [CX' [HX' HV']]]]]]]; simpl; auto.
  { intros ? ? _ _; reflexivity. }
  assert (EG : forall i, (i < 2 * h)%nat -> G i = rcp h H i).
  { intros i Hi. rewrite HG, cdiv_rcp by assumption. unfold cmul_map. destruct (Nat.ltb_spec i h) as [L|L].
    - destruct (H1 i L) as [-> ->]. ring.
    - destruct (H1 (i - h)%nat) as [A B]; [lia|]. replace (h + (i - h))%nat with i in B by lia. rewrite A, B. ring. }
  exists G, UG, X, V, X', V'. repeat (split; [assumption|]). split; [|split; [|repeat (split; [assumption|]); split]].
  - intros k Hk. rewrite !EG by lia. unfold rcp, nrm. rewrite hi_false.
    replace (k <? h)%nat with true by (symmetry; now apply Nat.ltb_lt). replace (h + k - h)%nat with k by lia.
    unfold Rdiv. split; f_equal; f_equal; simpl; ring.
  - intros i j Hi Hj. rewrite HUG by assumption. rewrite !S4_null by assumption. ring.
  - split; [congruence|]. intros i Hi. rewrite LX in Hi. rewrite HX, HX', cdiv_rcp by assumption. apply cmul_ext; auto.
    intros; symmetry; auto.
  - split; [congruence|]. split; [congruence|]. intros i j Hi Hj. rewrite RX in Hi. rewrite CX in Hj.
    rewrite HV, HV' by assumption. rewrite (S4_null _ _ _ (ap_U UH)) by assumption.
    change (opt_U None) with (fun _ _ : nat => 0). rewrite S4_zero. f_equal. cbn [ap_U]. rewrite S4_dy by assumption.
    apply S4_mul_ext; auto. intros; symmetry; auto.
Qed.
Example C175_example : exists X1 V1 X2 V2 X V,
  DFT_deconv (of_list [1; 1]) (of_list [2; 4]) (ApVec (of_list [0; 0])) (ApVec (of_list [1; 2])) = Ok (X1, V1) /\
  DFT_deconv (of_list [0; 1]) X1 (ApVec (of_list [0; 0])) (ApMat V1) = Ok (X2, V2) /\
  DFT_deconv (of_list [-1; 1]) (of_list [2; 4]) (ApVec (of_list [0; 0])) (ApVec (of_list [1; 2])) = Ok (X, V) /\
  veq X2 X /\ meq V2 V.
Proof.
  destruct (C175_in_series (of_list [1; 1]) (of_list [0; 1]) (of_list [-1; 1]) (of_list [2; 4])
    (ApVec (of_list [0; 0])) (ApVec (of_list [0; 0])) (ApVec (of_list [0; 0])) (ApVec (of_list [1; 2])) 1)
    as [X1 [V1 [X2 [V2 [X [V [E1 [E2 [E3 [_ [_ [_ [A B]]]]]]]]]]]]]; simpl; auto.
  - intros i j _ _. cbn [ap_U]. rewrite (Nat.eqb_sym j i). destruct (Nat.eqb_spec i j) as [->|]; reflexivity.
  - intros i j Hi Hj. simpl. destruct i as [|[|i]]; try lia; destruct j as [|[|j]]; try lia; simpl; auto.
  - intros k Hk. replace k with 0%nat by lia. simpl. lra.
  - intros k Hk. replace k with 0%nat by lia. simpl. lra.
  - intros i Hi. destruct i as [|[|i]]; try lia; unfold cmul_map; simpl; lra.
  - exists X1, V1, X2, V2, X, V. auto 10.
Qed.
Example C175_reciprocal_example : exists G UG X V X' V',
  DFT_deconv (of_list [1; 1]) (of_list [1; 0]) (ApVec (of_list [0; 0])) (ApVec (of_list [0; 0])) = Ok (G, UG) /\
  DFT_deconv (of_list [1; 1]) (of_list [2; 4]) (ApVec (of_list [0; 0])) (ApMat ex_id2) = Ok (X, V) /\
  DFT_multiply (of_list [2; 4]) G (SuMat ex_id2) None = Ok (X', V') /\ G 0%nat = 1 / 2 /\ veq X X' /\ meq V V'.
Proof.
  destruct (C175_reciprocal (of_list [1; 1]) (of_list [2; 4]) (of_list [1; 0])
    (ApVec (of_list [0; 0])) ex_id2 (ApVec (of_list [0; 0])) 1)
    as [G [UG [X [V [X' [V' [E1 [E2 [E3 [HG [_ [_ [_ [_ [A B]]]]]]]]]]]]]]]; simpl; auto using ex_id2_symm.
  - intros i j Hi Hj. simpl. destruct i as [|[|i]]; try lia; destruct j as [|[|j]]; try lia; simpl; auto.
  - intros k Hk. replace k with 0%nat by lia. simpl. lra.
  - intros k Hk. replace k with 0%nat by lia. simpl. lra.
  - exists G, UG, X, V, X', V'. repeat (split; [assumption|]). split; [|auto].
    destruct (HG 0%nat) as [-> _]; [lia|]. simpl. field.
Qed.
Print Assumptions C175_in_series.
Print Assumptions C175_reciprocal.
