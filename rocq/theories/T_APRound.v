(** Forth and back between a signal and its amplitudes and phases (C135).
    Model: M_DFT.v.  Vocabulary: Stats.v, S_DFT.v. *)
From Coq Require Import Reals List Arith ZArith Bool Lia Lra Psatz.
From Verif Require Import Base Sums Stats StatsFacts M_DFT S_Jac S_DFT S_Order P_Jac P_Trig P_DFT P_iDFT
  P_Deriv P_AmpPhase P_APTime P_Deconv P_T2AP T_DFT T_AmpPhase.
Import ListNotations.
Open Scope R_scope.

(** Sensitivities of the signal with respect to amplitudes and phases by the chain rule. *)
Lemma apt_rows N A P h n j : Nat.Even N -> (2 <= N)%nat -> h = (N / 2 + 1)%nat -> alen A = h -> alen P = h ->
  (j < 2 * h)%nat ->
  apt_coeff N A P n j = rsum (2 * h) (fun i => idft_coeff N n i * Kl h (ri_al h (stk A P)) (ri_be h (stk A P)) i j).
Proof.
  intros He HN Hh HA HP Hj.
  assert (h2 : (2 <= h)%nat).
  { destruct He as [p Hp]. assert ((N / 2)%nat = p) by (rewrite Hp, Nat.mul_comm; apply Nat.div_mul; lia). lia. }
  assert (Hjk : exists k, (k < h)%nat /\ (j = k \/ j = h + k)%nat).
  { destruct (Nat.lt_ge_cases j h); [exists j | exists (j - h)%nat]; lia. }
  destruct Hjk as [k [Hk Hjk]].
  destruct (apt_chain N A P n k h Hh h2 HA HP Hk) as [E1 E2].
  rewrite (rsum_two _ k (h + k)).
  - unfold Kl. rewrite base_hi, base_lo, ri_al_lo, ri_be_lo, ri_al_hi, ri_be_hi by assumption.
    rewrite (stk_hi A P h), (stk_lo A P h) by assumption.
    destruct Hjk as [-> | ->].
    + rewrite Nat.eqb_refl, E1. replace (k =? h + k)%nat with false by (symmetry; apply Nat.eqb_neq; lia). ring.
    + rewrite Nat.eqb_refl, E2. replace (h + k =? k)%nat with false by (symmetry; apply Nat.eqb_neq; lia). ring.
  - lia.
  - lia.
  - lia.
  - intros i Hi H1 H3. unfold Kl.
    assert (base h i <> k) by (unfold base; destruct (Nat.ltb_spec i h); lia).
    replace (j =? base h i)%nat with false by (symmetry; apply Nat.eqb_neq; pose proof (base_lt h i Hi); lia).
    replace (j =? h + base h i)%nat with false by (symmetry; apply Nat.eqb_neq; pose proof (base_lt h i Hi); lia).
    ring.
Qed.

Lemma plain_dense F UF A P U : DFT2AmpPhase F UF false = Ok (A, P, U) -> exists m, U = UDense m.
Proof.
  intros E. destruct U as [m|d]; [now exists m|].
  exfalso. unfold DFT2AmpPhase in E. cbv zeta in E. destruct (negb _).
  { destruct UF as [v|M]; [discriminate|]. destruct (ap_odd prod3 F M) as [[[? ?] ?]|]; discriminate. }
  destruct UF as [v|M].
  - destruct (_ || _); discriminate.
  - cbv beta iota delta [bind] in E.
    repeat match type of E with match ?e with Ok _ => _ | Err _ => _ end = _ => destruct e; [|discriminate E] end.
    discriminate.
Qed.

(** ** C135.  Full statement: AmpPhase2Time applied to the result of Time2AmpPhase returns the
    signal with its variances, for every length.  False for odd lengths: *)
Theorem C135_odd_length_always_short : forall x Ux,
  let n := alen x in
  sig_fits n Ux -> symm n (sig_U Ux) -> Nat.Odd n -> (3 <= n)%nat ->
  exists A P U x' V, Time2AmpPhase x Ux = Ok (A, P, U) /\ AmpPhase2Time A P (as_ap U) = Ok (x', V) /\
    alen x' = (n - 1)%nat.
Proof.
  intros x Ux n Hs Hy [p Hp] Hn.
  destruct (dft_plain x Ux false) as [o [E [HL [_ [Hf [Hsy _]]]]]]; auto; [fold n; lia|].
  fold n in HL, Hf, Hsy. set (h := (n / 2 + 1)%nat) in *.
  assert (D1 : (n / 2 = p)%nat) by (rewrite Hp, Nat.mul_comm; rewrite Nat.div_add_l by lia; simpl; lia).
  assert (D2 : ((n - 1) / 2 = p)%nat) by (replace (n - 1)%nat with (p * 2)%nat by lia; apply Nat.div_mul; lia).
  destruct (DFT2AmpPhase_run (dft_F o) (dft_U o) false h) as [A [P [U [E1 [LA [LP [_ [_ [Sh HU]]]]]]]]]; auto; [unfold h; lia|].
  destruct (plain_dense _ _ _ _ _ E1) as [m ->]. cbn [dense dense_shape] in Sh, HU.
  destruct (AmpPhase2Time_run A P (ApMat m) (n - 1) h) as [x' [V [E2 [Lx _]]]]; auto.
  { exists p. lia. } { lia. } { unfold h. lia. } { intros i j Hi Hj. cbn [ap_U]. rewrite !HU by assumption. now apply S4_symm. }
  { exact I. }
  exists A, P, (UDense m), x', V. split; [|split; assumption]. unfold Time2AmpPhase. rewrite E. exact E1.
Qed.
Theorem C135_odd_length_refuted : exists x Ux A P U x' V,
  Time2AmpPhase x Ux = Ok (A, P, U) /\ AmpPhase2Time A P (as_ap U) = Ok (x', V) /\ alen x' <> alen x.
Proof.
  destruct (C135_odd_length_always_short (of_list [1; 2; 4]) (SuFloat 1)) as (A & P & U & x' & V & E & E' & L); simpl; auto; try exact I.
  { intros a b _ _; simpl; rewrite (Nat.eqb_sym b a); reflexivity. } { exists 1%nat; lia. }
  exists (of_list [1; 2; 4]), (SuFloat 1), A, P, U, x', V. split; [exact E|]. split; [exact E'|]. rewrite L. simpl. lia.
Qed.

(** For even lengths, without vanishing lines: *)
Theorem C135_even_length_partial : forall x Ux,
  let n := alen x in let h := (n / 2 + 1)%nat in
  sig_fits n Ux -> symm n (sig_U Ux) -> Nat.Even n -> (2 <= n)%nat ->
  (forall k, (k < h)%nat -> 0 < amp (dft_map n h n x k) (dft_map n h n x (h + k)%nat)) ->
  exists A P U x' V, Time2AmpPhase x Ux = Ok (A, P, U) /\ AmpPhase2Time A P (as_ap U) = Ok (x', V) /\
    alen x' = n /\ mrows V = n /\ mcols V = n /\
    (forall i, (i < n)%nat -> x' i = x i /\ V i i = sig_U Ux i i) /\
    (forall i j, (i < n)%nat -> (j < n)%nat -> (V i j + V j i) / 2 = sig_U Ux i j).
Proof.
  intros x Ux n h Hs Hy He Hn Ha.
  destruct (dft_plain x Ux false) as [o [E [HL [HF [Hf [Hsy HV]]]]]]; auto; [fold n; lia|].
  fold n in HL, HF, Hf, Hsy, HV. fold h in HL, HF, Hf, Hsy, HV.
  assert (H2 : (2 * h = n + 2)%nat) by now apply even_h2.
  assert (Ha' : forall k, (k < h)%nat -> 0 < amp (dft_F o k) (dft_F o (h + k)%nat)).
  { intros k Hk. rewrite !HF by lia. auto. }
  destruct (DFT2AmpPhase_run (dft_F o) (dft_U o) false h) as [A [P [U [E1 [LA [LP [HA [HP [Sh HU]]]]]]]]]; auto; [unfold h; lia|].
  destruct (plain_dense _ _ _ _ _ E1) as [m ->]. cbn [dense dense_shape] in Sh, HU.
  assert (Sm : symm (2 * h) (ap_U (ApMat m))).
  { intros i j Hi Hj. cbn [ap_U]. rewrite !HU by assumption. now apply S4_symm. }
  destruct (AmpPhase2Time_run A P (ApMat m) n h) as [x' [V [E2 [Lx [Rv [Cv [Hx HV2]]]]]]]; auto; [exact I|].
  assert (Hk : forall k, (k < h)%nat -> 0 < amp (dft_F o k) (dft_F o (h + k)%nat) /\ stk A P k = amp (dft_F o k) (dft_F o (h + k)%nat) /\
     stk A P k * cos (stk A P (h + k)%nat) = dft_F o k /\ stk A P k * sin (stk A P (h + k)%nat) = dft_F o (h + k)%nat).
  { intros k Hk. rewrite (stk_lo A P h), (stk_hi A P h) by auto. rewrite HA, HP.
    destruct (arctan2_polar (dft_F o k) (dft_F o (h + k)%nat)) as [F1 [F2 _]]; auto. }
  assert (HS : forall i j, (i < n)%nat -> (j < n)%nat ->
     sandwich (2 * h) (apt_coeff n A P) (ap_U (ApMat m)) (apt_coeff n A P) i j = sig_U Ux i j).
  { intros i j Hi Hj.
    set (K := Kl h (ri_al h (stk A P)) (ri_be h (stk A P))).
    rewrite (sandwich_ext n (2 * h) _ (fun p a => rsum (2 * h) (fun k => idft_coeff n p k * K k a)) _ (fun a b => m a b)
       _ (fun p a => rsum (2 * h) (fun k => idft_coeff n p k * K k a))); auto.
    2,3: intros p a Hp Hq; now apply apt_rows.
    rewrite <- sandwich_compose.
    rewrite (sandwich_ext n (2 * h) _ (idft_coeff n) _ (sandwich n (fun r q => dft_coeff n h r q) (sig_U Ux) (fun r q => dft_coeff n h r q))
       _ (idft_coeff n)); auto.
    2:{ intros a b Hp Hq. rewrite <- HV by assumption.
        exact (S4_roundtrip h (dft_F o) (stk A P) (fun_U (dft_U o)) (fun a b => m a b) a b Hp Hq Hk HU). }
    rewrite sandwich_compose.
    rewrite (sandwich_ext n n _ (fun p a => if (p =? a)%nat then 1 else 0) _ (sig_U Ux) _ (fun p a => if (p =? a)%nat then 1 else 0)); auto.
    - unfold sandwich. rewrite (rsum_single n i); auto.
      + rewrite (rsum_single n j); auto; [rewrite !Nat.eqb_refl; ring|].
        intros b _ Hb. apply Nat.neq_sym, Nat.eqb_neq in Hb. rewrite Hb. ring.
      + intros a _ Hq. apply Nat.neq_sym, Nat.eqb_neq in Hq. rewrite Hq. apply rsum_zero; intros; ring.
    - intros p a Hp Hq. now apply idft_dft_rows.
    - intros p a Hp Hq. now apply idft_dft_rows. }
  exists A, P, (UDense m), x', V.
  split; [unfold Time2AmpPhase; rewrite E; exact E1|]. split; [exact E2|]. split; [exact Lx|]. split; [exact Rv|].
  split; [exact Cv|]. split.
  - intros i Hi. split.
    + rewrite Hx by assumption. rewrite <- (idft_dft n x i He Hi). rewrite !idft_map_linear by (auto; lia).
      fold h. apply rsum_ext; intros k Hk2. f_equal. rewrite <- HF by assumption.
      unfold to_real_imag. destruct (Nat.ltb_spec k h).
      * now apply Hk.
      * replace k with (h + (k - h))%nat at 2 3 by lia. apply Hk. lia.
    + rewrite HV2, HS by assumption. ring.
  - intros i j Hi Hj. rewrite !HV2, !HS by assumption. rewrite (Hy j i) by assumption. field.
Qed.
Example C135_example : exists A P U x' V,
  Time2AmpPhase (of_list [1; 2]) (SuVec (of_list [1; 4])) = Ok (A, P, U) /\
  AmpPhase2Time A P (as_ap U) = Ok (x', V) /\ x' 0%nat = 1 /\ x' 1%nat = 2 /\ V 0%nat 0%nat = 1 /\ V 1%nat 1%nat = 4.
Proof.
  assert (D : dft_map 2 2 2 (of_list [1; 2]) 0 = 3 /\ dft_map 2 2 2 (of_list [1; 2]) 1 = -1 /\
     dft_map 2 2 2 (of_list [1; 2]) 2 = 0 /\ dft_map 2 2 2 (of_list [1; 2]) 3 = 0).
  { unfold dft_map, dft_coeff. simpl.
    replace (2 * PI * 0 * 0 / (1 + 1)) with 0 by lra. replace (2 * PI * 0 * 1 / (1 + 1)) with 0 by lra.
    replace (2 * PI * 1 * 0 / (1 + 1)) with 0 by lra. replace (2 * PI * 1 * 1 / (1 + 1)) with PI by lra.
    rewrite cos_0, sin_0, cos_PI, sin_PI. repeat split; ring. }
  destruct D as [D0 [D1 [D2 D3]]].
  destruct (C135_even_length_partial (of_list [1; 2]) (SuVec (of_list [1; 4])))
    as (A & P & U & x' & V & E & E' & _ & _ & _ & H & _); simpl; auto.
  { apply (diag_symm 2 (of_list [1; 4])). }
  { exists 1%nat; reflexivity. }
  { intros [|[|k]] Hk; try lia.
    - change (0 < amp (dft_map 2 2 2 (of_list [1; 2]) 0) (dft_map 2 2 2 (of_list [1; 2]) 2)). rewrite D0, D2.
      unfold amp. apply sqrt_lt_R0. lra.
    - change (0 < amp (dft_map 2 2 2 (of_list [1; 2]) 1) (dft_map 2 2 2 (of_list [1; 2]) 3)). rewrite D1, D3.
      unfold amp. apply sqrt_lt_R0. lra. }
  destruct (H 0%nat ltac:(simpl; lia)) as [A0 B0]. destruct (H 1%nat ltac:(simpl; lia)) as [A1 B1].
  exists A, P, U, x', V. split; [exact E|]. split; [exact E'|]. rewrite A0, A1, B0, B1. simpl. auto.
Qed.
Print Assumptions C135_odd_length_always_short.
Print Assumptions C135_odd_length_refuted.
Print Assumptions C135_even_length_partial.
