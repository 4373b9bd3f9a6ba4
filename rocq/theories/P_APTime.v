(** Lemmas for AmpPhase2Time and for the amplitude/phase round trip. *)
From Coq Require Import Reals List Arith Lia Lra Psatz Bool ZArith.
From Verif Require Import Base Sums Stats StatsFacts M_DFT S_Jac S_DFT P_Jac P_Trig P_DFT P_iDFT P_Deriv P_AmpPhase.
Open Scope R_scope.

(** ** Round trip *)
Lemma roundtrip_rows h (F s : nat -> R) p a :
  (p < 2 * h)%nat -> (a < 2 * h)%nat ->
  (forall k, (k < h)%nat -> 0 < amp (F k) (F (h + k)%nat) /\ s k = amp (F k) (F (h + k)%nat) /\
     s k * cos (s (h + k)%nat) = F k /\ s k * sin (s (h + k)%nat) = F (h + k)%nat) ->
  rsum (2 * h) (fun k => Kl h (ri_al h s) (ri_be h s) p k * Kl h (ap_al h F) (ap_be h F) k a)
  = if (p =? a)%nat then 1 else 0.
Proof.
  intros Hp Ha H. rewrite Kl_row by assumption.
  pose proof (base_lt h p Hp) as Hb. destruct (H _ Hb) as [H1 [H2 [H3 H4]]].
  set (k := base h p) in *.
  unfold Kl. rewrite base_hi, base_lo by assumption.
  rewrite ap_al_lo, ap_be_lo, ap_al_hi, ap_be_hi by assumption.
  set (A := amp (F k) (F (h + k)%nat)) in *. rewrite H2 in H3, H4.
  assert (Hc : cos (s (h + k)%nat) = F k / A) by (rewrite <- H3; field; lra).
  assert (Hs : sin (s (h + k)%nat) = F (h + k)%nat / A) by (rewrite <- H4; field; lra).
  assert (HA : F k * F k + F (h + k)%nat * F (h + k)%nat = A * A) by (unfold A; symmetry; apply amp_sq).
  unfold ri_al, ri_be. fold k. rewrite H2, Hc, Hs.
  assert (Hpk : p = k \/ p = (h + k)%nat).
  { unfold k, base. destruct (Nat.ltb_spec p h); lia. }
  destruct Hpk as [Hpk|Hpk].
  - replace (p <? h)%nat with true by (symmetry; apply Nat.ltb_lt; lia).
    rewrite Hpk, (Nat.eqb_sym k a). destruct (Nat.eqb_spec a k) as [->|Hn].
    + apply (Rmult_eq_reg_r (A * A)); [|nra]. transitivity (F k * F k + F (h + k)%nat * F (h + k)%nat).
      * field. lra.
      * lra.
    + destruct (Nat.eqb_spec a (h + k)); [field; lra | ring].
  - replace (p <? h)%nat with false by (symmetry; apply Nat.ltb_ge; lia).
    rewrite Hpk, (Nat.eqb_sym (h + k)%nat a). destruct (Nat.eqb_spec a k) as [->|Hn].
    + replace (k =? h + k)%nat with false by (symmetry; apply Nat.eqb_neq; lia). field. lra.
    + destruct (Nat.eqb_spec a (h + k)); [|ring].
      apply (Rmult_eq_reg_r (A * A)); [|nra]. transitivity (F k * F k + F (h + k)%nat * F (h + k)%nat).
      * field. lra.
      * lra.
Qed.

Lemma sandwich_id m J U i j : (i < m)%nat -> (j < m)%nat ->
  (forall p a, (p < m)%nat -> (a < m)%nat -> J p a = if (p =? a)%nat then 1 else 0) ->
  sandwich m J U J i j = U i j.
Proof.
  intros Hi Hj HJ. unfold sandwich. rewrite (rsum_single m i); auto.
  - rewrite (rsum_single m j); auto.
    + rewrite !HJ, !Nat.eqb_refl by assumption. ring.
    + intros b Hb Hne. rewrite (HJ j b) by assumption. apply Nat.neq_sym, Nat.eqb_neq in Hne. rewrite Hne. ring.
  - intros a Ha Hne. apply rsum_zero. intros b Hb. rewrite (HJ i a) by assumption.
    apply Nat.neq_sym, Nat.eqb_neq in Hne. rewrite Hne. ring.
Qed.

Lemma S4_roundtrip h (F s : nat -> R) U V i j :
  (i < 2 * h)%nat -> (j < 2 * h)%nat ->
  (forall k, (k < h)%nat -> 0 < amp (F k) (F (h + k)%nat) /\ s k = amp (F k) (F (h + k)%nat) /\
     s k * cos (s (h + k)%nat) = F k /\ s k * sin (s (h + k)%nat) = F (h + k)%nat) ->
  (forall a b, (a < 2 * h)%nat -> (b < 2 * h)%nat -> V a b = S4 h (ap_al h F) (ap_be h F) U a b) ->
  S4 h (ri_al h s) (ri_be h s) V i j = U i j.
Proof.
  intros Hi Hj H HV. unfold S4.
  rewrite (sandwich_ext (2 * h) (2 * h) _ (Kl h (ri_al h s) (ri_be h s)) V
     (sandwich (2 * h) (Kl h (ap_al h F) (ap_be h F)) U (Kl h (ap_al h F) (ap_be h F)))
     _ (Kl h (ri_al h s) (ri_be h s))) by auto.
  rewrite sandwich_compose. apply sandwich_id; auto.
  intros p a Hp Ha. now apply roundtrip_rows.
Qed.

(** ** Quadratic forms split into two halves *)
Definition cross (h : nat) (C : nat -> nat -> R) (U : nat -> nat -> R) (n m : nat) : R :=
  rsum h (fun a => rsum h (fun b => C n a * U a (h + b)%nat * C m (h + b)%nat)).

Lemma half_sandwich h C U n m : symm (2 * h) U ->
  sandwich (2 * h) C U C n m =
  rsum h (fun a => rsum h (fun b => C n a * U a b * C m b))
  + cross h C U n m + cross h C U m n
  + rsum h (fun a => rsum h (fun b => C n (h + a)%nat * U (h + a)%nat (h + b)%nat * C m (h + b)%nat)).
Proof.
  intros Hs. unfold sandwich. rewrite rsum_halves.
  rewrite (rsum_ext h (fun a => rsum (2 * h) (fun b => C n a * U a b * C m b))
     (fun a => rsum h (fun b => C n a * U a b * C m b) +
               rsum h (fun b => C n a * U a (h + b)%nat * C m (h + b)%nat)))
    by (intros; apply rsum_halves).
  rewrite (rsum_ext h (fun a => rsum (2 * h) (fun b => C n (h + a)%nat * U (h + a)%nat b * C m b))
     (fun a => rsum h (fun b => C n (h + a)%nat * U (h + a)%nat b * C m b) +
               rsum h (fun b => C n (h + a)%nat * U (h + a)%nat (h + b)%nat * C m (h + b)%nat)))
    by (intros; apply rsum_halves).
  rewrite !rsum_plus. unfold cross.
  rewrite (rsum_swap h h (fun a b => C n (h + a)%nat * U (h + a)%nat b * C m b)).
  rewrite (rsum_ext h (fun j => rsum h (fun i => C n (h + i)%nat * U (h + i)%nat j * C m j))
    (fun a => rsum h (fun b => C m a * U a (h + b)%nat * C n (h + b)%nat))).
  - ring.
  - intros a Ha. apply rsum_ext; intros b Hb. rewrite (Hs (h + b)%nat a) by lia. ring.
Qed.

Lemma diag_double h (c d u : nat -> R) :
  rsum h (fun a => rsum h (fun b => c a * (if (a =? b)%nat then u a else 0) * d b))
  = rsum h (fun a => c a * (u a * d a)).
Proof.
  apply rsum_ext; intros a Ha. rewrite (rsum_single h a); auto.
  - rewrite Nat.eqb_refl. ring.
  - intros b _ Hb. apply Nat.neq_sym, Nat.eqb_neq in Hb. rewrite Hb. ring.
Qed.

(** ** Sensitivities of AmpPhase2Time *)
Definition apt_coeff (N : nat) (A P : vec) (n j : nat) : R :=
  let h := (N / 2 + 1)%nat in
  (if (j <? h)%nat then apt_Cc N A P n j else apt_Cs N A P n (j - h)%nat) / INR N.
Lemma apt_coeff_lo N A P n k : (k < N / 2 + 1)%nat -> apt_coeff N A P n k = apt_Cc N A P n k / INR N.
Proof. intros H. unfold apt_coeff. apply Nat.ltb_lt in H. now rewrite H. Qed.
Lemma apt_coeff_hi N A P n k : apt_coeff N A P n (N / 2 + 1 + k) = apt_Cs N A P n k / INR N.
Proof.
  unfold apt_coeff.
  replace (N / 2 + 1 + k <? N / 2 + 1)%nat with false by (symmetry; apply Nat.ltb_ge; lia).
  now replace (N / 2 + 1 + k - (N / 2 + 1))%nat with k by lia.
Qed.

Lemma apt_chain N A P n k h : h = (N / 2 + 1)%nat -> (2 <= h)%nat -> alen A = h -> alen P = h -> (k < h)%nat ->
  apt_coeff N A P n k = idft_coeff N n k * cos (P k) + idft_coeff N n (h + k) * sin (P k) /\
  apt_coeff N A P n (h + k) = idft_coeff N n k * (- A k * sin (P k)) + idft_coeff N n (h + k) * (A k * cos (P k)).
Proof.
  intros Hh H2 HA HP Hk.
  rewrite Hh. rewrite apt_coeff_hi, idft_coeff_hi, apt_coeff_lo, idft_coeff_lo by lia.
  assert (Hhm : (N / 2 = h - 1)%nat) by lia.
  unfold apt_Cc, apt_Cs, idft_Cc, idft_Cs. cbv zeta. cbn [mget]. rewrite <- Hh, Hhm, HA, HP.
  pose proof (sin_PI_nat n) as Hsp.
  destruct (Nat.leb_spec 1 k); destruct (Nat.ltb_spec k (h - 1)); cbn [andb].
  - rewrite cos_plus, sin_plus. unfold Rdiv. split; ring.
  - replace k with (h - 1)%nat by lia. rewrite Nat.eqb_refl. rewrite cos_plus, sin_plus, Hsp. unfold Rdiv. split; ring.
  - replace k with 0%nat by lia. replace (0 =? h - 1)%nat with false by (symmetry; apply Nat.eqb_neq; lia).
    unfold Rdiv. split; ring.
  - lia.
Qed.

Lemma apt_jac N A P h : Nat.Even N -> (2 <= N)%nat -> h = (N / 2 + 1)%nat -> alen A = h -> alen P = h ->
  is_jac N (2 * h) (fun s n => idft_map N (to_real_imag h s) n) (stk A P) (apt_coeff N A P).
Proof.
  intros He HN Hh HA HP n j Hn Hj.
  apply (derivable_pt_lim_ext (fun t => rsum (2 * h) (fun i => idft_coeff N n i * to_real_imag h (upd (stk A P) j t) i))).
  { intros t. rewrite idft_map_linear by (auto; lia). now rewrite <- Hh. }
  assert (HD : forall m, (m <= 2 * h)%nat ->
    derivable_pt_lim (fun t => rsum m (fun i => idft_coeff N n i * to_real_imag h (upd (stk A P) j t) i)) (stk A P j)
      (rsum m (fun i => idft_coeff N n i * Kl h (ri_al h (stk A P)) (ri_be h (stk A P)) i j))).
  { induction m as [|m IH]; intros Hm.
    - simpl. apply derivable_pt_lim_const.
    - simpl. apply dl_plus.
      + apply IH. lia.
      + eapply dl_eq; [apply dl_mult; [apply dl_const|apply (to_real_imag_jac h (stk A P)); lia]|]. cbv beta. ring. }
  eapply dl_eq; [apply (HD (2 * h)%nat); lia|].
  assert (h2 : (2 <= h)%nat).
  { destruct He as [p Hp]. assert ((N / 2)%nat = p) by (rewrite Hp, Nat.mul_comm; apply Nat.div_mul; lia). lia. }
  assert (Hjk : exists k, (k < h)%nat /\ (j = k \/ j = h + k)%nat).
  { destruct (Nat.lt_ge_cases j h); [exists j | exists (j - h)%nat]; lia. }
  destruct Hjk as [k [Hk Hjk]].
  destruct (apt_chain N A P n k h Hh h2 HA HP Hk) as [E1 E2].
  rewrite (rsum_two _ k (h + k)).
  - unfold Kl. rewrite base_hi, base_lo, ri_al_lo, ri_be_lo, ri_al_hi, ri_be_hi by assumption.
    rewrite (stk_hi A P h), (stk_lo A P h) by assumption.
    destruct Hjk as [-> | ->].
    + rewrite Nat.eqb_refl, E1. ring.
    + rewrite Nat.eqb_refl, E2. replace (h + k =? k)%nat with false by (symmetry; apply Nat.eqb_neq; lia). ring.
  - lia.
  - lia.
  - lia.
  - intros i Hi H1 H3. unfold Kl.
    assert (base h i <> k) by (unfold base; destruct (Nat.ltb_spec i h); lia).
    replace (j =? base h i)%nat with false by (symmetry; apply Nat.eqb_neq; pose proof (base_lt h i Hi); lia).
    replace (j =? h + base h i)%nat with false by (symmetry; apply Nat.eqb_neq; pose proof (base_lt h i Hi); lia).
    ring.
Qed.

(** ** AmpPhase2Time *)
Lemma AmpPhase2Time_run (A P : vec) UAP N h :
  Nat.Even N -> (2 <= N)%nat -> h = (N / 2 + 1)%nat -> alen A = h -> alen P = h ->
  ap_fits (2 * h) UAP -> symm (2 * h) (ap_U UAP) -> dia_full UAP ->
  exists x V, AmpPhase2Time A P UAP = Ok (x, V) /\ alen x = N /\ mrows V = N /\ mcols V = N /\
    (forall n, (n < N)%nat -> x n = idft_map N (to_real_imag h (stk A P)) n) /\
    (forall n m, V n m = sandwich (2 * h) (apt_coeff N A P) (ap_U UAP) (apt_coeff N A P) n m
       + (cross h (apt_coeff N A P) (ap_U UAP) n m - cross h (apt_coeff N A P) (ap_U UAP) m n)).
Proof.
  intros [p Hp] HN Hh HA HP Hf Hs Hd.
  assert (HN2 : (N / 2)%nat = p) by (rewrite Hp, Nat.mul_comm; apply Nat.div_mul; lia).
  assert (HNR : INR N <> 0) by (apply not_0_INR; lia).
  assert (H2h : (2 * h = N + 2)%nat) by lia.
  assert (Hlen : ap_len UAP = (2 * h)%nat) by (destruct UAP; simpl in *; tauto).
  unfold AmpPhase2Time. rewrite Hlen, HA, HP, Nat.eqb_refl. simpl negb. cbv iota.
  replace (Nat.odd (2 * h)) with false by (symmetry; rewrite <- Nat.negb_even; apply negb_false_iff, Nat.even_spec; exists h; reflexivity).
  unfold irfft. cbn [alen].
  replace (h <=? 1)%nat with false by (symmetry; apply Nat.leb_gt; lia).
  cbv beta iota zeta delta [bind].
  replace (2 * h <? 2)%nat with false by (symmetry; apply Nat.ltb_ge; lia).
  replace (2 * h - 2)%nat with N by lia.
  replace (h <? N / 2)%nat with false by (symmetry; apply Nat.ltb_ge; lia).
  rewrite <- Hh.
  assert (Hxv : forall n, irfft_val h (mkArr h (fun k => A k * cos (P k))) (mkArr h (fun k => A k * sin (P k))) n
     = idft_map N (to_real_imag h (stk A P)) n).
  { intros n. transitivity (idft_map (2 * (h - 1)) (to_real_imag h (stk A P)) n); [|f_equal; lia].
    rewrite <- irfft_val_map by lia. unfold irfft_val. cbv zeta. f_equal.
    assert (Q : forall k, (k < h)%nat -> A k * cos (P k) = to_real_imag h (stk A P) k /\
                          A k * sin (P k) = to_real_imag h (stk A P) (h + k)%nat).
    { intros k Hk. unfold to_real_imag.
      replace (k <? h)%nat with true by (symmetry; apply Nat.ltb_lt; lia).
      replace (h + k <? h)%nat with false by (symmetry; apply Nat.ltb_ge; lia).
      replace (h + k - h)%nat with k by lia.
      rewrite (stk_hi A P h), (stk_lo A P h) by assumption. split; reflexivity. }
    cbn [aget].
    destruct (Q 0%nat) as [E1 E2]; [lia|]. destruct (Q (h - 1)%nat) as [E3 E4]; [lia|].
    rewrite E1, E3. f_equal. f_equal. apply rsum_ext. intros k Hk. destruct (Q (S k)%nat) as [E5 E6]; [lia|].
    now rewrite E5, E6. }
  remember (apt_Cc N A P) as cc eqn:Ecc. remember (apt_Cs N A P) as cs eqn:Ecs.
  assert (R1 : mrows cc = N) by (subst cc; reflexivity).
  assert (R2 : mcols cc = h) by (subst cc; symmetry; exact Hh).
  assert (R3 : mrows cs = N) by (subst cs; reflexivity).
  assert (R4 : mcols cs = h) by (subst cs; symmetry; exact Hh).
  set (C := apt_coeff N A P).
  assert (V1 : forall n k, (k < h)%nat -> cc n k = C n k * INR N).
  { intros n k Hk. unfold C. rewrite apt_coeff_lo by lia. rewrite Ecc. field. exact HNR. }
  assert (V2 : forall n k, cs n k = C n (h + k)%nat * INR N).
  { intros n k. unfold C. rewrite Hh, apt_coeff_hi. rewrite Ecs. field. exact HNR. }
  clear Ecc Ecs.
  destruct UAP as [v|U|d].
  - simpl in Hf.
    rewrite prod_vm_ok by (simpl; lia). rewrite dot_ok by (simpl; lia).
    rewrite prod_vm_ok by (simpl; lia). rewrite dot_ok by (simpl; lia).
    match goal with |- context [add2 ?A ?B] =>
      destruct (add2_ok A B) as [S [ES [SR [SC SV]]]]; [simpl; lia|simpl; lia|] end.
    rewrite ES. eexists. eexists. split; [reflexivity|]. simpl in SR, SC.
    split; [simpl; lia|]. simpl mrows. simpl mcols. split; [lia|]. split; [lia|].
    split; [intros n Hn; simpl; apply Hxv|].
    intros n m. rewrite half_sandwich by exact Hs.
    assert (Hz : forall n m, cross h C (ap_U (ApVec v)) n m = 0).
    { intros. unfold cross. apply rsum_zero; intros a Ha. apply rsum_zero; intros b Hb.
      cbn [ap_U]. replace (a =? h + b)%nat with false by (symmetry; apply Nat.eqb_neq; lia). ring. }
    rewrite !Hz. cbn [ap_U].
    rewrite (diag_double h (C n) (C m) v).
    rewrite (rsum_ext h (fun a => rsum h (fun b => C n (h + a)%nat * (if (h + a =? h + b)%nat then v (h + a)%nat else 0) * C m (h + b)%nat))
      (fun a => rsum h (fun b => C n (h + a)%nat * (if (a =? b)%nat then v (h + a)%nat else 0) * C m (h + b)%nat))).
    2:{ intros a Ha. apply rsum_ext; intros b Hb.
        replace (h + a =? h + b)%nat with (a =? b)%nat; [reflexivity|].
        destruct (Nat.eqb_spec a b), (Nat.eqb_spec (h + a) (h + b)); lia || reflexivity. }
    rewrite (diag_double h (fun a => C n (h + a)%nat) (fun b => C m (h + b)%nat) (fun a => v (h + a)%nat)).
    simpl mget at 1. rewrite SV. simpl mget. simpl mcols. rewrite ?R2, ?R4.
    replace (rsum h (fun k => cc n k * (v k * cc m k))) with (INR N ^ 2 * rsum h (fun a => C n a * (v a * C m a))).
    2:{ rewrite <- rsum_scal. apply rsum_ext; intros a Ha. rewrite !V1 by assumption. ring. }
    replace (rsum h (fun k => cs n k * (v (h + k)%nat * cs m k)))
      with (INR N ^ 2 * rsum h (fun a => C n (h + a)%nat * (v (h + a)%nat * C m (h + a)%nat))).
    2:{ rewrite <- rsum_scal. apply rsum_ext; intros a Ha. rewrite !V2. ring. }
    field. exact HNR.
  - simpl in Hf. destruct Hf as [Hr Hc]. destruct (blk_ok U h Hr Hc) as [B1' [B2' B3']]. rewrite B1', B2', B3'.
    rewrite dot_ok by (simpl; lia). rewrite dot_ok by (simpl; lia).
    rewrite dot_ok by (simpl; lia). rewrite dot_ok by (simpl; lia).
    match goal with |- context [add2 ?A ?B] =>
      destruct (add2_ok A B) as [S [ES [SR [SC SV]]]]; [simpl; lia|simpl; lia|] end.
    rewrite ES.
    rewrite dot_ok by (simpl; lia). rewrite dot_ok by (simpl; lia).
    match goal with |- context [add2 ?A ?B] =>
      destruct (add2_ok A B) as [S2 [ES2 [SR2 [SC2 SV2]]]] end.
    { simpl in SR |- *; lia. } { simpl in SC |- *; lia. }
    rewrite ES2. eexists. eexists. split; [reflexivity|]. simpl in SR, SC.
    split; [simpl; lia|]. simpl mrows. simpl mcols. split; [lia|]. split; [lia|].
    split; [intros n Hn; simpl; apply Hxv|].
    intros n m. rewrite half_sandwich by exact Hs. unfold cross. cbn [ap_U].
    simpl mget at 1. rewrite SV2. simpl mget. rewrite SV. simpl mget. simpl mcols. rewrite ?R2, ?R4.
    replace (rsum h (fun k => cc n k * rsum h (fun k0 => U k k0 * cc m k0)))
      with (INR N ^ 2 * rsum h (fun a => rsum h (fun b => C n a * U a b * C m b))).
    2:{ rewrite <- rsum_scal. apply rsum_ext; intros a Ha. rewrite <- !rsum_scal. apply rsum_ext; intros b Hb.
        rewrite !V1 by assumption. ring. }
    replace (rsum h (fun k => cc n k * rsum h (fun k0 => U k (h + k0)%nat * cs m k0)))
      with (INR N ^ 2 * rsum h (fun a => rsum h (fun b => C n a * U a (h + b)%nat * C m (h + b)%nat))).
    2:{ rewrite <- rsum_scal. apply rsum_ext; intros a Ha. rewrite <- !rsum_scal. apply rsum_ext; intros b Hb.
        rewrite !V1, !V2 by assumption. ring. }
    replace (rsum h (fun k => cs n k * rsum h (fun k0 => U (h + k)%nat (h + k0)%nat * cs m k0)))
      with (INR N ^ 2 * rsum h (fun a => rsum h (fun b => C n (h + a)%nat * U (h + a)%nat (h + b)%nat * C m (h + b)%nat))).
    2:{ rewrite <- rsum_scal. apply rsum_ext; intros a Ha. rewrite <- !rsum_scal. apply rsum_ext; intros b Hb.
        rewrite !V2. ring. }
    field. exact HNR.
  - simpl in Hf. assert (Hdh : dia_half d = h) by lia. destruct Hd as [L1 [L2 L3]].
    rewrite prod_vm_ok by (simpl; lia). rewrite dot_ok by (simpl; lia).
    rewrite prod_vm_ok by (simpl; lia). rewrite dot_ok by (simpl; lia).
    match goal with |- context [add2 ?A ?B] =>
      destruct (add2_ok A B) as [S [ES [SR [SC SV]]]]; [simpl; lia|simpl; lia|] end.
    rewrite ES.
    rewrite prod_vm_ok by (simpl; lia). rewrite dot_ok by (simpl; lia).
    match goal with |- context [add2 ?A ?B] =>
      destruct (add2_ok A B) as [S2 [ES2 [SR2 [SC2 SV2]]]] end.
    { simpl in SR |- *; lia. } { simpl in SC |- *; lia. }
    rewrite ES2. eexists. eexists. split; [reflexivity|]. simpl in SR, SC.
    split; [simpl; lia|]. simpl mrows. simpl mcols. split; [lia|]. split; [lia|].
    split; [intros n Hn; simpl; apply Hxv|].
    intros n m. rewrite half_sandwich by exact Hs. unfold cross. cbn [ap_U].
    assert (D11 : forall a b, (a < h)%nat -> (b < h)%nat -> dia_toarray d a b = if (a =? b)%nat then dia_main d a else 0).
    { intros a b Ha Hb. unfold dia_toarray. cbn [mget]. rewrite Hdh. destruct (a =? b)%nat; [reflexivity|].
      replace (b =? a + h)%nat with false by (symmetry; apply Nat.eqb_neq; lia).
      replace (a =? b + h)%nat with false by (symmetry; apply Nat.eqb_neq; lia). reflexivity. }
    assert (D12 : forall a b, (a < h)%nat -> (b < h)%nat -> dia_toarray d a (h + b)%nat = if (a =? b)%nat then dia_up d a else 0).
    { intros a b Ha Hb. unfold dia_toarray. cbn [mget]. rewrite Hdh.
      replace (a =? h + b)%nat with false by (symmetry; apply Nat.eqb_neq; lia).
      replace (a =? h + b + h)%nat with false by (symmetry; apply Nat.eqb_neq; lia).
      destruct (Nat.eqb_spec (h + b) (a + h)), (Nat.eqb_spec a b); lia || reflexivity. }
    assert (D22 : forall a b, (a < h)%nat -> (b < h)%nat -> dia_toarray d (h + a)%nat (h + b)%nat = if (a =? b)%nat then dia_main d (h + a)%nat else 0).
    { intros a b Ha Hb. unfold dia_toarray. cbn [mget]. rewrite Hdh.
      replace (h + b =? h + a + h)%nat with false by (symmetry; apply Nat.eqb_neq; lia).
      replace (h + a =? h + b + h)%nat with false by (symmetry; apply Nat.eqb_neq; lia).
      destruct (Nat.eqb_spec (h + a) (h + b)), (Nat.eqb_spec a b); lia || reflexivity. }
    rewrite (rsum_ext h (fun a => rsum h (fun b => C n a * dia_toarray d a b * C m b))
      (fun a => rsum h (fun b => C n a * (if (a =? b)%nat then dia_main d a else 0) * C m b)))
      by (intros; apply rsum_ext; intros; now rewrite D11).
    rewrite (rsum_ext h (fun a => rsum h (fun b => C n a * dia_toarray d a (h + b)%nat * C m (h + b)%nat))
      (fun a => rsum h (fun b => C n a * (if (a =? b)%nat then dia_up d a else 0) * C m (h + b)%nat)))
      by (intros; apply rsum_ext; intros; now rewrite D12).
    rewrite (rsum_ext h (fun a => rsum h (fun b => C n (h + a)%nat * dia_toarray d (h + a)%nat (h + b)%nat * C m (h + b)%nat))
      (fun a => rsum h (fun b => C n (h + a)%nat * (if (a =? b)%nat then dia_main d (h + a)%nat else 0) * C m (h + b)%nat)))
      by (intros; apply rsum_ext; intros; now rewrite D22).
    rewrite (diag_double h (C n) (C m) (dia_main d)).
    rewrite (diag_double h (C n) (fun b => C m (h + b)%nat) (dia_up d)).
    rewrite (diag_double h (fun a => C n (h + a)%nat) (fun b => C m (h + b)%nat) (fun a => dia_main d (h + a)%nat)).
    simpl mget at 1. rewrite SV2. simpl mget. rewrite SV. simpl mget. simpl mcols. rewrite ?R2, ?R4.
    replace (rsum h (fun k => cc n k * (dia_main d k * cc m k)))
      with (INR N ^ 2 * rsum h (fun a => C n a * (dia_main d a * C m a))).
    2:{ rewrite <- rsum_scal. apply rsum_ext; intros a Ha. rewrite !V1 by assumption. ring. }
    replace (rsum h (fun k => cc n k * (dia_up d k * cs m k)))
      with (INR N ^ 2 * rsum h (fun a => C n a * (dia_up d a * C m (h + a)%nat))).
    2:{ rewrite <- rsum_scal. apply rsum_ext; intros a Ha. rewrite !V1, !V2 by assumption. ring. }
    replace (rsum h (fun k => cs n k * (dia_main d (h + k)%nat * cs m k)))
      with (INR N ^ 2 * rsum h (fun a => C n (h + a)%nat * (dia_main d (h + a)%nat * C m (h + a)%nat))).
    2:{ rewrite <- rsum_scal. apply rsum_ext; intros a Ha. rewrite !V2. ring. }
    field. exact HNR.
Qed.
