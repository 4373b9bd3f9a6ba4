(** Lines turned by a linear phase give the delayed signal (C201).  Model: M_DFT.v.  Vocabulary: S_DFT.v. *)
From Coq Require Import Reals List Arith ZArith Bool Lia Lra Psatz.
From Verif Require Import Base Sums Stats StatsFacts M_DFT S_Jac S_DFT S_Order P_Jac P_Trig P_DFT P_iDFT
  P_Deriv P_AmpPhase P_APTime P_Deconv T_DFT T_AmpPhase T_APDelay.
Import ListNotations.
Open Scope R_scope.

(** Multiplication of line k by exp (- 2 pi i k d / N), for real parts followed by imaginary parts of h lines. *)
Definition turn_angle (N d k : nat) : R := 2 * PI * INR k * INR d / INR N.
Definition turn_lines (N d h i j : nat) : R :=
  if (i <? h)%nat then
    if (j =? i)%nat then cos (turn_angle N d i) else if (j =? h + i)%nat then sin (turn_angle N d i) else 0
  else
    if (j =? i)%nat then cos (turn_angle N d (i - h)) else if (j =? i - h)%nat then - sin (turn_angle N d (i - h)) else 0.

Lemma turn_columns N d h (c : nat -> R) k : (k < h)%nat ->
  rsum (2 * h) (fun i => c i * turn_lines N d h i k) = c k * cos (turn_angle N d k) - c (h + k)%nat * sin (turn_angle N d k) /\
  rsum (2 * h) (fun i => c i * turn_lines N d h i (h + k)) = c k * sin (turn_angle N d k) + c (h + k)%nat * cos (turn_angle N d k).
Proof.
  intros Hk. replace (2 * h)%nat with (h + h)%nat by lia.
  assert (T : forall i j, (i < h)%nat -> turn_lines N d h i j =
    if (j =? i)%nat then cos (turn_angle N d i) else if (j =? h + i)%nat then sin (turn_angle N d i) else 0).
  { intros i j Hi. unfold turn_lines. destruct (Nat.ltb_spec i h); [reflexivity|lia]. }
  assert (T' : forall i j, turn_lines N d h (h + i) j =
    if (j =? h + i)%nat then cos (turn_angle N d i) else if (j =? i)%nat then - sin (turn_angle N d i) else 0).
  { intros i j. unfold turn_lines. destruct (Nat.ltb_spec (h + i) h); [lia|]. now replace (h + i - h)%nat with i by lia. }
  rewrite !rsum_app. split.
  - rewrite (rsum_single h k), (rsum_single h k (fun i => c (h + i)%nat * _)); try assumption.
    + rewrite T, T', !Nat.eqb_refl by assumption. destruct (Nat.eqb_spec k (h + k)); [lia|]. ring.
    + intros i Hi Ne. rewrite T'. destruct (Nat.eqb_spec k (h + i)); [lia|]. destruct (Nat.eqb_spec k i); [lia|]. ring.
    + intros i Hi Ne. rewrite T by assumption. destruct (Nat.eqb_spec k i); [lia|]. destruct (Nat.eqb_spec k (h + i)); [lia|]. ring.
  - rewrite (rsum_single h k), (rsum_single h k (fun i => c (h + i)%nat * _)); try assumption.
    + rewrite T, T' by assumption. destruct (Nat.eqb_spec (h + k) k); [lia|]. rewrite Nat.eqb_refl. ring.
    + intros i Hi Ne. rewrite T'. destruct (Nat.eqb_spec (h + k) (h + i)); [lia|]. destruct (Nat.eqb_spec (h + k) i); [lia|]. ring.
    + intros i Hi Ne. rewrite T by assumption. destruct (Nat.eqb_spec (h + k) i); [lia|]. destruct (Nat.eqb_spec (h + k) (h + i)); [lia|]. ring.
Qed.

(** The sensitivities at the delayed sample, applied to turned lines, are those at the sample. *)
Lemma turn_idft N d h n j : Nat.Even N -> (2 <= N)%nat -> h = (N / 2 + 1)%nat -> (j < 2 * h)%nat ->
  rsum (2 * h) (fun i => idft_coeff N (later N d n) i * turn_lines N d h i j) = idft_coeff N n j.
Proof.
  intros [p Hp] HN Hh Hj.
  assert (HN2 : (N / 2)%nat = p) by (rewrite Hp, Nat.mul_comm; apply Nat.div_mul; lia).
  assert (HNR : INR N <> 0) by (apply not_0_INR; lia).
  pose proof (Nat.div_mod (n + d) N ltac:(lia)) as DM. fold (later N d n) in DM. set (q := ((n + d) / N)%nat) in *.
  assert (DR : INR n + INR d = INR N * INR q + INR (later N d n)).
  { rewrite <- mult_INR, <- !plus_INR. now f_equal. }
  assert (Mid : forall k, cos (INR k * beta_dft N (later N d n) - turn_angle N d k) = cos (INR k * beta_dft N n) /\
                          sin (INR k * beta_dft N (later N d n) - turn_angle N d k) = sin (INR k * beta_dft N n)).
  { intros k. apply cs_turn with (k := (k * q)%nat). unfold turn_angle, beta_dft. rewrite mult_INR.
    replace (INR n) with (INR N * INR q + INR (later N d n) - INR d) by lra. field. exact HNR. }
  assert (Last : forall n, PI * INR n = INR p * beta_dft N n).
  { intros r. unfold beta_dft. assert (E : INR N = 2 * INR p) by (rewrite Hp, mult_INR; reflexivity). rewrite E in *. field.
    intro Z. apply HNR. rewrite Z. ring. }
  assert (Z : turn_angle N d 0 = 0) by (unfold turn_angle; replace (INR 0) with 0 by reflexivity; unfold Rdiv; ring).
  assert (C : forall r k, (k < h)%nat -> exists w, forall r', r' = r \/ r' = n ->
     idft_coeff N r' k = w * cos (INR k * beta_dft N r') /\ idft_coeff N r' (h + k)%nat = - w * sin (INR k * beta_dft N r')).
  { intros r k Hk. exists ((if (1 <=? k)%nat && (k <? p)%nat then 2 else 1) / INR N). intros r' _.
    unfold idft_coeff, idft_Cc, idft_Cs. cbv zeta. cbn [mget]. rewrite <- Hh, HN2.
    destruct (Nat.ltb_spec k h); [|lia]. destruct (Nat.ltb_spec (h + k) h); [lia|].
    replace (h + k - h)%nat with k by lia.
    destruct ((1 <=? k)%nat && (k <? p)%nat)%bool eqn:B; [split; unfold Rdiv; ring|].
    destruct (Nat.eqb_spec k (h - 1)).
    - replace k with p by lia. rewrite Last. split; unfold Rdiv; ring.
    - assert (k = 0)%nat.
      { destruct k as [|k']; [reflexivity|]. cbn [Nat.leb andb] in B. apply Nat.ltb_ge in B. lia. }
      subst k. replace (INR 0 * beta_dft N r') with 0 by (replace (INR 0) with 0 by reflexivity; ring).
      rewrite cos_0, sin_0. split; unfold Rdiv; ring. }
  destruct (Nat.lt_ge_cases j h) as [Hlo|Hhi].
  - destruct (turn_columns N d h (idft_coeff N (later N d n)) j Hlo) as [-> _].
    destruct (C (later N d n) j Hlo) as [w Hw]. destruct (Hw (later N d n)) as [-> ->]; auto. destruct (Hw n) as [-> _]; auto.
    destruct (Mid j) as [<- _]. rewrite cos_minus. ring.
  - replace j with (h + (j - h))%nat by lia. set (k := (j - h)%nat). assert (Hk : (k < h)%nat) by (unfold k; lia).
    destruct (turn_columns N d h (idft_coeff N (later N d n)) k Hk) as [_ ->].
    destruct (C (later N d n) k Hk) as [w Hw]. destruct (Hw (later N d n)) as [-> ->]; auto. destruct (Hw n) as [_ ->]; auto.
    destruct (Mid k) as [_ <-]. rewrite sin_minus. ring.
Qed.

(** ** C201 *)
Theorem C201_delay : forall (F F' : vec) UF UF' N h d,
  Nat.Even N -> (2 <= N)%nat -> h = (N / 2 + 1)%nat -> alen F = (2 * h)%nat -> alen F' = (2 * h)%nat ->
  fun_fits (2 * h) UF -> symm (2 * h) (fun_U UF) -> fun_fits (2 * h) UF' ->
  (forall i, (i < 2 * h)%nat -> F' i = rsum (2 * h) (fun j => turn_lines N d h i j * F j)) ->
  (forall i j, (i < 2 * h)%nat -> (j < 2 * h)%nat ->
     fun_U UF' i j = sandwich (2 * h) (turn_lines N d h) (fun_U UF) (turn_lines N d h) i j) ->
  exists x V c x' V' c', GUM_iDFT F UF None None None = Ok (x, V, c) /\ GUM_iDFT F' UF' None None None = Ok (x', V', c') /\
    alen x = N /\ alen x' = N /\
    forall n m, (n < N)%nat -> (m < N)%nat ->
      x' (later N d n) = x n /\ V' (later N d n) (later N d n) = V n n /\
      V' (later N d n) (later N d m) + V' (later N d m) (later N d n) = V n m + V m n.
Proof.
  intros F F' UF UF' N h d He HN Hh HF HF' Hf Hs Hf' EF EU.
  assert (H2 : (N + 2 = 2 * h)%nat).
  { destruct He as [p Hp]. assert ((N / 2)%nat = p) by (rewrite Hp, Nat.mul_comm; apply Nat.div_mul; lia). lia. }
  assert (Hs' : symm (2 * h) (fun_U UF')).
  { intros i j Hi Hj. rewrite !EU by assumption. now apply sandwich_symm. }
  destruct (GUM_iDFT_run F UF None N N) as (x & V & c & E & Lx & _ & _ & Hx & HV & _); rewrite ?H2; auto; [reflexivity|].
  destruct (GUM_iDFT_run F' UF' None N N) as (x' & V' & c' & E' & Lx' & _ & _ & Hx' & HV' & _); rewrite ?H2; auto; [reflexivity|].
  rewrite H2 in HV, HV'.
  assert (Hl : forall n, (later N d n < N)%nat) by (intros; apply Nat.mod_upper_bound; lia).
  assert (S : forall n m, sandwich (2 * h) (idft_coeff N) (fun_U UF') (idft_coeff N) (later N d n) (later N d m)
                        = sandwich (2 * h) (idft_coeff N) (fun_U UF) (idft_coeff N) n m).
  { intros n m.
    transitivity (sandwich (2 * h) (idft_coeff N) (sandwich (2 * h) (turn_lines N d h) (fun_U UF) (turn_lines N d h)) (idft_coeff N) (later N d n) (later N d m)).
    - unfold sandwich at 1 2. apply rsum_ext. intros a Ha. apply rsum_ext. intros b Hb. now rewrite EU.
    - rewrite sandwich_compose. unfold sandwich. apply rsum_ext. intros a Ha. apply rsum_ext. intros b Hb.
      rewrite !turn_idft by assumption. reflexivity. }
  assert (Sy : forall n m, sandwich (2 * h) (idft_coeff N) (fun_U UF) (idft_coeff N) n m = sandwich (2 * h) (idft_coeff N) (fun_U UF) (idft_coeff N) m n).
  { intros n m. now apply sandwich_symm. }
  exists x, V, c, x', V', c'. repeat (split; [assumption|]). intros n m Hn Hm. split; [|split].
  - rewrite Hx, Hx' by auto. rewrite !idft_map_linear by (auto; lia). rewrite <- Hh.
    transitivity (rsum (2 * h) (fun i => rsum (2 * h) (fun j => idft_coeff N (later N d n) i * turn_lines N d h i j * F j))).
    + apply rsum_ext. intros i Hi. rewrite EF by assumption. rewrite <- rsum_scal. apply rsum_ext. intros j _. ring.
    + rewrite rsum_swap. apply rsum_ext. intros j Hj. rewrite rsum_scal_r, turn_idft by assumption. reflexivity.
  - rewrite HV, HV', S. ring.
  - rewrite !HV, !HV', !S. ring.
Qed.

(** Lines 3 and -1 (samples 1, 2); delayed by one sample line 1 changes its sign: samples 2, 1. *)
Example C201_example : exists x V c x' V' c',
  GUM_iDFT (of_list [3; -1; 0; 0]) (FuVec (of_list [1; 1; 0; 0])) None None None = Ok (x, V, c) /\
  GUM_iDFT (of_list [3; 1; 0; 0]) (FuVec (of_list [1; 1; 0; 0])) None None None = Ok (x', V', c') /\
  x' 1%nat = x 0%nat /\ x' 0%nat = x 1%nat /\ V' 1%nat 1%nat = V 0%nat 0%nat.
Proof.
  assert (A0 : turn_angle 2 1 0 = 0) by (unfold turn_angle; simpl; field).
  assert (A1 : turn_angle 2 1 1 = PI) by (unfold turn_angle; simpl; field).
  assert (T : forall i j, (i < 4)%nat -> (j < 4)%nat -> turn_lines 2 1 2 i j =
     if (i =? j)%nat then (if Nat.even i then 1 else -1) else 0).
  { intros [|[|[|[|i]]]] [|[|[|[|j]]]] Hi Hj; try lia; unfold turn_lines; cbn [Nat.ltb Nat.leb Nat.eqb Nat.add Nat.sub Nat.even];
      rewrite ?A0, ?A1, ?cos_0, ?sin_0, ?cos_PI, ?sin_PI; ring. }
  destruct (C201_delay (of_list [3; -1; 0; 0]) (of_list [3; 1; 0; 0]) (FuVec (of_list [1; 1; 0; 0])) (FuVec (of_list [1; 1; 0; 0])) 2 2 1)
    as (x & V & c & x' & V' & c' & E & E' & _ & _ & G); auto; try reflexivity.
  { exists 1%nat; reflexivity. }
  { apply (diag_symm 4 (of_list [1; 1; 0; 0])). }
  { intros i Hi. cbn [rsum Nat.mul Nat.add]. rewrite !T by lia.
    destruct i as [|[|[|[|i]]]]; try lia; cbn; ring. }
  { intros i j Hi Hj. unfold sandwich. cbn [rsum Nat.mul Nat.add]. rewrite !T by lia.
    destruct i as [|[|[|[|i]]]]; try lia; destruct j as [|[|[|[|j]]]]; try lia; cbn; ring. }
  exists x, V, c, x', V', c'. split; [exact E|]. split; [exact E'|].
  destruct (G 0%nat 0%nat) as [X0 [V0 _]]; try lia. destruct (G 1%nat 1%nat) as [X1 _]; try lia.
  split; [exact X0|]. split; [exact X1|exact V0].
Qed.
