(** Lemmas about GUM_iDFT. *)
From Coq Require Import Reals List Arith ZArith Lia Lra Psatz Bool.
From Verif Require Import Base Sums Stats StatsFacts S_Jac P_Jac M_DFT S_DFT P_Trig P_DFT.
Import ListNotations.
Open Scope R_scope.

Lemma sin_PI_nat n : sin (PI * INR n) = 0.
Proof.
  induction n as [|n IH]; [simpl; rewrite Rmult_0_r; apply sin_0|].
  rewrite S_INR. replace (PI * (INR n + 1)) with (PI * INR n + PI) by ring.
  rewrite neg_sin. lra.
Qed.

(** numpy's half-spectrum formula is the inverse DFT of the Hermitian continuation. *)
Lemma irfft_val_map h (s : nat -> R) m : (2 <= h)%nat ->
  irfft_val h s (fun k => s (h + k)%nat) m = idft_map (2 * (h - 1)) s m.
Proof.
  intros Hh. unfold irfft_val, idft_map. set (N := (2 * (h - 1))%nat).
  assert (HN2 : (N / 2)%nat = (h - 1)%nat) by (unfold N; rewrite Nat.mul_comm; apply Nat.div_mul; lia).
  assert (HN : (0 < N)%nat) by (unfold N; lia).
  assert (HNR : INR N <> 0) by (apply not_0_INR; lia).
  set (T := fun k => spec_re N s k * cos (ang N k m) - spec_im N s k * sin (ang N k m)).
  change (fun k : nat => spec_re N s k * cos (2 * PI * INR k * INR m / INR N) -
     spec_im N s k * sin (2 * PI * INR k * INR m / INR N)) with T.
  f_equal.
  assert (ES : rsum N T = rsum (S (h - 2) + S (h - 2)) T) by (f_equal; unfold N; lia).
  rewrite ES.
  rewrite rsum_app. rewrite rsum_S_l. rewrite (rsum_S_l (h - 2) (fun i => T (S (h - 2) + i)%nat)).
  rewrite (rsum_rev (h - 2) (fun i => T (S (h - 2) + S i)%nat)).
  assert (T0 : T 0%nat = s 0%nat).
  { unfold T, spec_re, spec_im, ang. simpl. replace (2 * PI * 0 * INR m / INR N) with 0 by (field; auto).
    rewrite cos_0, sin_0. ring. }
  assert (Th : T (S (h - 2) + 0)%nat = s (h - 1)%nat * cos (PI * INR m)).
  { replace (S (h - 2) + 0)%nat with (h - 1)%nat by lia. unfold T, spec_re, spec_im. rewrite HN2.
    rewrite Nat.leb_refl. replace (ang N (h - 1) m) with (PI * INR m).
    - rewrite sin_PI_nat. ring.
    - unfold ang, N. rewrite mult_INR. simpl (INR 2).
      assert (INR (h - 1) <> 0) by (apply not_0_INR; lia). field. auto. }
  assert (TS : forall k, (k < h - 2)%nat -> T (S k) =
     s (S k) * cos (ang N (S k) m) - s (h + S k)%nat * sin (ang N (S k) m)).
  { intros k Hk. unfold T, spec_re, spec_im. rewrite HN2.
    replace (S k <=? h - 1)%nat with true by (symmetry; apply Nat.leb_le; lia).
    replace (h - 1 + 1)%nat with h by lia. reflexivity. }
  assert (TR : forall k, (k < h - 2)%nat -> T (S (h - 2) + S (h - 2 - 1 - k))%nat = T (S k)).
  { intros k Hk. replace (S (h - 2) + S (h - 2 - 1 - k))%nat with (N - S k)%nat by (unfold N; lia).
    rewrite TS by assumption. unfold T, spec_re, spec_im. rewrite HN2.
    replace (N - S k <=? h - 1)%nat with false by (symmetry; apply Nat.leb_gt; unfold N; lia).
    replace (N - (N - S k))%nat with (S k) by (unfold N; lia).
    replace (h - 1 + 1)%nat with h by lia.
    rewrite cos_refl, sin_refl by (unfold N; lia). ring. }
  rewrite (rsum_ext (h - 2) _ (fun k => T (S k)) TR). rewrite T0, Th.
  rewrite (rsum_ext (h - 2) _ (fun k => 2 * T (S k))).
  - rewrite rsum_scal. ring.
  - intros k Hk. rewrite TS by assumption. unfold rfft_angle, ang. ring.
Qed.

(** Sensitivities written as one matrix with 2h columns. *)
Definition idft_coeff (N n j : nat) : R :=
  let h := (N / 2 + 1)%nat in
  (if (j <? h)%nat then idft_Cc N N n j else idft_Cs N N n (j - h)%nat) / INR N.

Lemma idft_Cc_rows N a b : forall n k, idft_Cc N a n k = idft_Cc N b n k.
Proof. reflexivity. Qed.

Lemma rsum_halves h f : rsum (2 * h) f = rsum h f + rsum h (fun k => f (h + k)%nat).
Proof. replace (2 * h)%nat with (h + h)%nat by lia. apply rsum_app. Qed.

Lemma idft_map_linear N n s : Nat.Even N -> (1 <= N)%nat ->
  idft_map N s n = rsum (2 * (N / 2 + 1)) (fun j => idft_coeff N n j * s j).
Proof.
  intros [p Hp] HN.
  assert (HN2 : (N / 2)%nat = p) by (rewrite Hp, Nat.mul_comm; apply Nat.div_mul; lia).
  assert (HNR : INR N <> 0) by (apply not_0_INR; lia).
  set (h := (N / 2 + 1)%nat).
  replace N with (2 * (h - 1))%nat at 1 by (unfold h; lia).
  rewrite <- irfft_val_map by (unfold h; lia).
  rewrite rsum_halves.
  rewrite (rsum_ext h (fun j => idft_coeff N n j * s j) (fun k => idft_Cc N N n k * s k * / INR N)).
  2:{ intros k Hk. unfold idft_coeff. fold h. apply Nat.ltb_lt in Hk. rewrite Hk. unfold Rdiv. ring. }
  rewrite (rsum_ext h (fun k => idft_coeff N n (h + k) * s (h + k)%nat) (fun k => idft_Cs N N n k * s (h + k)%nat * / INR N)).
  2:{ intros k Hk. unfold idft_coeff. fold h.
      replace (h + k <? h)%nat with false by (symmetry; apply Nat.ltb_ge; lia).
      replace (h + k - h)%nat with k by lia. unfold Rdiv. ring. }
  rewrite !rsum_scal_r. rewrite <- Rmult_plus_distr_r, <- rsum_plus.
  unfold irfft_val. replace (2 * (h - 1))%nat with N by (unfold h; lia).
  unfold Rdiv. f_equal.
  set (G := fun i => idft_Cc N N n i * s i + idft_Cs N N n i * s (h + i)%nat).
  assert (ES : rsum h G = rsum (S (S (h - 2))) G) by (f_equal; unfold h; lia).
  rewrite ES. rewrite rsum_S_l. simpl rsum.
  replace (S (h - 2)) with (h - 1)%nat by (unfold h; lia).
  assert (E0 : idft_Cc N N n 0%nat * s 0%nat + idft_Cs N N n 0%nat * s (h + 0)%nat = s 0%nat).
  { unfold idft_Cc, idft_Cs. cbn [mget]. fold h.
    replace (0 =? h - 1)%nat with false by (symmetry; apply Nat.eqb_neq; unfold h; lia).
    simpl. ring. }
  assert (EL : idft_Cc N N n (h - 1)%nat * s (h - 1)%nat + idft_Cs N N n (h - 1)%nat * s (h + (h - 1))%nat
               = s (h - 1)%nat * cos (PI * INR n)).
  { unfold idft_Cc, idft_Cs. cbn [mget]. fold h.
    replace (h - 1 <? N / 2)%nat with false by (symmetry; apply Nat.ltb_ge; unfold h; lia).
    rewrite andb_false_r, Nat.eqb_refl, sin_PI_nat. ring. }
  unfold G. rewrite E0, EL, <- Rplus_assoc. f_equal. f_equal. apply rsum_ext. intros k Hk.
  unfold idft_Cc, idft_Cs. cbn [mget]. fold h.
  replace (S k <? N / 2)%nat with true by (symmetry; apply Nat.ltb_lt; unfold h in *; lia).
  simpl. unfold rfft_angle, beta_dft.
  replace (2 * PI * INR (S k) * INR n / INR N) with (INR (S k) * (2 * PI * INR n / INR N))
    by (unfold Rdiv; ring).
  simpl INR. ring.
Qed.

(** Inverse DFT of the DFT, even length. *)
Lemma idft_dft N x n : Nat.Even N -> (n < N)%nat ->
  idft_map N (dft_map N (N / 2 + 1) N x) n = x n.
Proof.
  intros [p Hp] Hn.
  assert (HN2 : (N / 2)%nat = p) by (rewrite Hp, Nat.mul_comm; apply Nat.div_mul; lia).
  assert (HNR : INR N <> 0) by (apply not_0_INR; lia).
  unfold idft_map.
  assert (Hre : forall k, (k < N)%nat -> spec_re N (dft_map N (N / 2 + 1) N x) k =
     rsum N (fun m => cos (ang N k m) * x m)).
  { intros k Hk. unfold spec_re, dft_map, dft_coeff. destruct (Nat.leb_spec k (N / 2)).
    - replace (k <? N / 2 + 1)%nat with true by (symmetry; apply Nat.ltb_lt; lia). reflexivity.
    - replace (N - k <? N / 2 + 1)%nat with true by (symmetry; apply Nat.ltb_lt; lia).
      apply rsum_ext; intros m _. f_equal. apply (cos_refl N k m); lia. }
  assert (Him : forall k, (k < N)%nat -> spec_im N (dft_map N (N / 2 + 1) N x) k =
     - rsum N (fun m => sin (ang N k m) * x m)).
  { intros k Hk. unfold spec_im, dft_map, dft_coeff. destruct (Nat.leb_spec k (N / 2)).
    - replace (N / 2 + 1 + k <? N / 2 + 1)%nat with false by (symmetry; apply Nat.ltb_ge; lia).
      replace (N / 2 + 1 + k - (N / 2 + 1))%nat with k by lia.
      rewrite <- rsum_opp. apply rsum_ext; intros m _. unfold ang. ring.
    - replace (N / 2 + 1 + (N - k) <? N / 2 + 1)%nat with false by (symmetry; apply Nat.ltb_ge; lia).
      replace (N / 2 + 1 + (N - k) - (N / 2 + 1))%nat with (N - k)%nat by lia.
      f_equal. apply rsum_ext; intros m _.
      pose proof (sin_refl N k m ltac:(lia) ltac:(lia)) as E. unfold ang in E. rewrite E.
      unfold ang. ring. }
  rewrite (rsum_ext N _ (fun k => rsum N (fun m => x m *
     (cos (ang N k m) * cos (ang N k n) + sin (ang N k m) * sin (ang N k n))))).
  2:{ intros k Hk. rewrite Hre, Him by assumption. fold (ang N k n).
      rewrite <- !rsum_opp. rewrite <- !rsum_scal_r, <- rsum_minus. apply rsum_ext; intros m _. ring. }
  rewrite rsum_swap.
  rewrite (rsum_ext N _ (fun m => if (m =? n)%nat then x m * INR N else 0)).
  - rewrite rsum_delta by assumption. field; auto.
  - intros m Hm. rewrite rsum_scal, delta_sum by assumption. destruct (m =? n)%nat; ring.
Qed.

(** ** GUM_iDFT *)
Lemma sub2_ok M a b c d : (b <= mrows M)%nat -> (d <= mcols M)%nat ->
  sub2 M a b c d = mkMat (b - a) (d - c) (fun i j => M (a + i)%nat (c + j)%nat).
Proof. intros. unfold sub2. now rewrite !Nat.min_l by assumption. Qed.

(** Cross term of the inverse transform: Cc RI Cs^T / N^2. *)
Definition idft_cross (N : nat) (U : nat -> nat -> R) (n m : nat) : R :=
  let h := (N / 2 + 1)%nat in
  rsum h (fun a => rsum h (fun b =>
    idft_coeff N n a * U a (h + b)%nat * idft_coeff N m (h + b)%nat)).

Lemma idft_sandwich N U n m : let h := (N / 2 + 1)%nat in symm (2 * h) U ->
  sandwich (2 * h) (idft_coeff N) U (idft_coeff N) n m =
  rsum h (fun a => rsum h (fun b => idft_coeff N n a * U a b * idft_coeff N m b))
  + idft_cross N U n m + idft_cross N U m n
  + rsum h (fun a => rsum h (fun b => idft_coeff N n (h + a)%nat * U (h + a)%nat (h + b)%nat * idft_coeff N m (h + b)%nat)).
Proof.
  intros h Hs. unfold sandwich. rewrite rsum_halves.
  rewrite (rsum_ext h (fun a => rsum (2 * h) (fun b => idft_coeff N n a * U a b * idft_coeff N m b))
     (fun a => rsum h (fun b => idft_coeff N n a * U a b * idft_coeff N m b) +
               rsum h (fun b => idft_coeff N n a * U a (h + b)%nat * idft_coeff N m (h + b)%nat)))
    by (intros; apply rsum_halves).
  rewrite (rsum_ext h (fun a => rsum (2 * h) (fun b => idft_coeff N n (h + a)%nat * U (h + a)%nat b * idft_coeff N m b))
     (fun a => rsum h (fun b => idft_coeff N n (h + a)%nat * U (h + a)%nat b * idft_coeff N m b) +
               rsum h (fun b => idft_coeff N n (h + a)%nat * U (h + a)%nat (h + b)%nat * idft_coeff N m (h + b)%nat)))
    by (intros; apply rsum_halves).
  rewrite !rsum_plus. unfold idft_cross. fold h.
  rewrite (rsum_swap h h (fun a b => idft_coeff N n (h + a)%nat * U (h + a)%nat b * idft_coeff N m b)).
  rewrite (rsum_ext h (fun j => rsum h (fun i => idft_coeff N n (h + i)%nat * U (h + i)%nat j * idft_coeff N m j))
    (fun a => rsum h (fun b => idft_coeff N m a * U a (h + b)%nat * idft_coeff N n (h + b)%nat))).
  - ring.
  - intros a Ha. apply rsum_ext; intros b Hb. rewrite (Hs (h + b)%nat a) by lia. ring.
Qed.

Lemma idft_coeff_lo N n k : (k < N / 2 + 1)%nat -> idft_coeff N n k = idft_Cc N N n k / INR N.
Proof. intros H. unfold idft_coeff. apply Nat.ltb_lt in H. now rewrite H. Qed.
Lemma idft_coeff_hi N n k : idft_coeff N n (N / 2 + 1 + k) = idft_Cs N N n k / INR N.
Proof.
  unfold idft_coeff.
  replace (N / 2 + 1 + k <? N / 2 + 1)%nat with false by (symmetry; apply Nat.ltb_ge; lia).
  now replace (N / 2 + 1 + k - (N / 2 + 1))%nat with k by lia.
Qed.


Lemma GUM_iDFT_run F UF Nx N nx :
  Nat.Even N -> (2 <= N)%nat -> nx_fits N Nx nx ->
  alen F = (N + 2)%nat -> fun_fits (N + 2) UF -> symm (N + 2) (fun_U UF) ->
  exists x V c, GUM_iDFT F UF Nx None None = Ok (x, V, c) /\
    alen x = nx /\ mrows V = nx /\ mcols V = nx /\
    (forall n, (n < nx)%nat -> x n = idft_map N F n) /\
    (forall n m, V n m = sandwich (N + 2) (idft_coeff N) (fun_U UF) (idft_coeff N) n m
                         + (idft_cross N (fun_U UF) n m - idft_cross N (fun_U UF) m n)) /\
    c = (idft_Cc N nx, idft_Cs N nx).
Proof.
  intros [p Hp] HN Hx HF Hf Hs.
  assert (HN2 : (N / 2)%nat = p) by (rewrite Hp, Nat.mul_comm; apply Nat.div_mul; lia).
  assert (HNR : INR N <> 0) by (apply not_0_INR; lia).
  set (h := (N / 2 + 1)%nat).
  assert (H2h : (N + 2 = 2 * h)%nat) by (unfold h; lia).
  assert (Hlen : fu_len UF = (N + 2)%nat) by (destruct UF; simpl in *; tauto).
  unfold GUM_iDFT. rewrite Hlen.
  replace (N + 2 <=? 2)%nat with false by (symmetry; apply Nat.leb_gt; lia).
  replace (N + 2 - 2)%nat with N by lia. fold h.
  assert (Hnx : match Nx with None => Ok N | Some v => if (N <? v)%nat then Err ValueError else Ok v end = Ok nx).
  { destruct Nx as [v|]; simpl in Hx.
    - destruct Hx as [-> Hv]. apply Nat.ltb_ge in Hv. now rewrite Hv.
    - now subst. }
  rewrite Hnx. cbv beta iota delta [bind].
  assert (Hnle : (nx <= N)%nat) by (destruct Nx; simpl in Hx; lia).
  assert (L1 : alen (slice F 0 h) = h) by (simpl; lia).
  assert (L2 : alen (slice F h (alen F)) = h) by (simpl; lia).
  rewrite L1, L2, Nat.eqb_refl.
  unfold irfft. rewrite L1.
  replace (h <=? 1)%nat with false by (symmetry; apply Nat.leb_gt; unfold h; lia).
  cbv zeta.
  assert (Hxv : forall n, irfft_val h (slice F 0 h) (slice F h (alen F)) n = idft_map N F n).
  { intros n. transitivity (idft_map (2 * (h - 1)) F n); [|f_equal; unfold h; lia].
    rewrite <- irfft_val_map by (unfold h; lia). reflexivity. }
  remember (idft_Cc N nx) as cc eqn:Ecc. remember (idft_Cs N nx) as cs eqn:Ecs.
  assert (R1 : mrows cc = nx) by (subst; reflexivity). assert (R2 : mcols cc = h) by (subst; reflexivity).
  assert (R3 : mrows cs = nx) by (subst; reflexivity). assert (R4 : mcols cs = h) by (subst; reflexivity).
  assert (V1 : forall n k, cc n k = idft_Cc N N n k) by (subst; reflexivity).
  assert (V2 : forall n k, cs n k = idft_Cs N N n k) by (subst; reflexivity).
  clear Ecc Ecs.
  destruct UF as [v|U].
  - (* vector *)
    simpl in Hf, Hlen. 
    rewrite prod_vm_ok by (simpl; lia). rewrite dot_ok by (simpl; lia).
    rewrite prod_vm_ok by (simpl; lia). rewrite dot_ok by (simpl; lia).
    match goal with |- context [add2 ?A ?B] =>
      destruct (add2_ok A B) as [S [ES [SR [SC SV]]]]; [simpl; lia|simpl; lia|] end.
    rewrite ES. eexists. eexists. eexists. split; [reflexivity|].
    simpl in SR, SC. split; [simpl; lia|]. simpl mrows. simpl mcols. split; [lia|]. split; [lia|].
    split; [intros n Hn; simpl; apply Hxv|]. split; [|reflexivity].
    intros n m. rewrite H2h in *.
    match type of Hs with symm _ ?UU => pose proof (idft_sandwich N UU n m Hs) as E end.
    cbv zeta in E. fold h in E. rewrite E. clear E.
    assert (Hz : forall n m, idft_cross N (fun_U (FuVec v)) n m = 0).
    { intros. unfold idft_cross. cbv zeta. fold h. apply rsum_zero; intros a Ha. apply rsum_zero; intros b Hb.
      cbn [fun_U]. replace (a =? h + b)%nat with false by (symmetry; apply Nat.eqb_neq; lia). ring. }
    rewrite !Hz. rewrite !Rplus_0_r, Rminus_0_r, Rplus_0_r. simpl mget at 1. rewrite SV. simpl mget. simpl mcols. rewrite ?R2, ?R4.
    rewrite Rmult_plus_distr_l. f_equal.
    + rewrite <- rsum_scal. apply rsum_ext; intros a Ha. fold h in Ha.
      rewrite (rsum_single h a); auto.
      * cbn [fun_U]. rewrite Nat.eqb_refl. rewrite !idft_coeff_lo by (fold h; lia).
        rewrite ?V1, ?V2. cbn [fun_U]. field; auto.
      * intros b _ Hb. cbn [fun_U]. apply Nat.neq_sym, Nat.eqb_neq in Hb. rewrite Hb. ring.
    + rewrite <- rsum_scal. apply rsum_ext; intros a Ha. fold h in Ha.
      rewrite (rsum_single h a); auto.
      * cbn [fun_U]. rewrite Nat.eqb_refl. unfold h. rewrite !idft_coeff_hi.
        rewrite ?V1, ?V2. cbn [fun_U]. field; auto.
      * intros b _ Hb. cbn [fun_U]. replace (h + a =? h + b)%nat with false by (symmetry; apply Nat.eqb_neq; lia). ring.
  - (* matrix *)
    simpl in Hf. destruct Hf as [Hr Hc].
    rewrite !sub2_ok by lia. rewrite Hr, Hc.
    rewrite dot_ok by (simpl; lia). rewrite dot_ok by (simpl; lia).
    rewrite dot_ok by (simpl; lia). rewrite dot_ok by (simpl; lia).
    match goal with |- context [add2 ?A ?B] =>
      destruct (add2_ok A B) as [S [ES [SR [SC SV]]]]; [simpl; lia|simpl; lia|] end.
    rewrite ES.
    rewrite dot_ok by (simpl; lia). rewrite dot_ok by (simpl; lia).
    match goal with |- context [add2 ?A ?B] =>
      destruct (add2_ok A B) as [S2 [ES2 [SR2 [SC2 SV2]]]] end.
    { simpl in SR |- *; lia. } { simpl in SC |- *; lia. }
    rewrite ES2. eexists. eexists. eexists. split; [reflexivity|].
    simpl in SR, SC. split; [simpl; lia|]. simpl mrows. simpl mcols.
    split; [lia|]. split; [lia|].
    split; [intros n Hn; simpl; apply Hxv|]. split; [|reflexivity].
    intros n m. rewrite H2h in *.
    match type of Hs with symm _ ?UU => pose proof (idft_sandwich N UU n m Hs) as E end.
    cbv zeta in E. fold h in E. rewrite E. clear E.
    simpl mget at 1. rewrite SV2. simpl mget. rewrite SV. simpl mget. simpl mcols. rewrite ?R2, ?R4.
    rewrite ?Nat.sub_0_r. replace (h + (h + 0) - h)%nat with h by lia.
    rewrite !Rmult_plus_distr_l.
    match goal with |- ?A + ?B + ?C = ?D + ?E + ?F + ?G + (?H - ?I) =>
      assert (HA : A = D); [|assert (HB : B = 2 * E); [|assert (HC : C = G); [|rewrite HA, HB, HC; ring]]] end.
    + rewrite <- rsum_scal. apply rsum_ext; intros a Ha.
      rewrite <- !rsum_scal. apply rsum_ext; intros b Hb.
      rewrite !idft_coeff_lo by (fold h; lia). rewrite ?V1, ?V2. cbn [fun_U]. field; auto.
    + unfold idft_cross. fold h. rewrite <- !rsum_scal. apply rsum_ext; intros a Ha.
      rewrite <- !rsum_scal. apply rsum_ext; intros b Hb.
      rewrite idft_coeff_lo by (fold h; lia). unfold h. rewrite idft_coeff_hi. fold h.
      rewrite ?V1, ?V2. cbn [fun_U]. field; auto.
    + rewrite <- rsum_scal. apply rsum_ext; intros a Ha.
      rewrite <- !rsum_scal. apply rsum_ext; intros b Hb.
      unfold h. rewrite !idft_coeff_hi. fold h. rewrite ?V1, ?V2. cbn [fun_U]. field; auto.
Qed.
