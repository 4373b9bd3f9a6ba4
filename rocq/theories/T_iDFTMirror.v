(** Conjugate lines give the signal read backwards (C203).  Model: M_DFT.v.  Vocabulary: S_DFT.v. *)
From Coq Require Import Reals List Arith ZArith Bool Lia Lra Psatz.
From Verif Require Import Base Sums Stats StatsFacts M_DFT S_Jac S_DFT S_Order P_Jac P_Trig P_DFT P_iDFT
  P_Deriv P_AmpPhase P_APTime P_Deconv T_DFT T_AmpPhase T_APDelay T_APMirror T_Conj.
Import ListNotations.
Open Scope R_scope.

Lemma mirror_idft N h n i : Nat.Even N -> (2 <= N)%nat -> h = (N / 2 + 1)%nat -> (n < N)%nat -> (i < 2 * h)%nat ->
  idft_coeff N (backwards N n) i = csign h i * idft_coeff N n i.
Proof.
  intros [p Hp] HN Hh Hn.
  assert (HN2 : (N / 2)%nat = p) by (rewrite Hp, Nat.mul_comm; apply Nat.div_mul; lia).
  assert (HNR : INR N <> 0) by (apply not_0_INR; lia).
  pose proof (Nat.div_mod (N - n) N ltac:(lia)) as DM. fold (backwards N n) in DM. set (q := ((N - n) / N)%nat) in *.
  assert (Q : (q <= 1)%nat) by (apply Nat.lt_succ_r, Nat.div_lt_upper_bound; lia).
  assert (DR : INR n + INR (backwards N n) = INR N * INR (1 - q)).
  { rewrite <- mult_INR, <- plus_INR. f_equal. destruct q as [|[|q']]; simpl; lia. }
  set (r := (1 - q)%nat) in *.
  assert (Mid : forall k, cos (INR k * beta_dft N (backwards N n)) = cos (INR k * beta_dft N n) /\
                          sin (INR k * beta_dft N (backwards N n)) = - sin (INR k * beta_dft N n)).
  { intros k. rewrite <- (cos_neg (INR k * beta_dft N n)), <- (sin_neg (INR k * beta_dft N n)).
    destruct (cs_turn (INR k * beta_dft N (backwards N n)) (- (INR k * beta_dft N n)) (k * r)) as [-> ->]; auto.
    unfold beta_dft. rewrite mult_INR.
    replace (INR (backwards N n)) with (INR N * INR r - INR n) by lra. field. exact HNR. }
  assert (Last : forall n, PI * INR n = INR p * beta_dft N n).
  { intros m. unfold beta_dft. assert (E : INR N = 2 * INR p) by (rewrite Hp, mult_INR; reflexivity). rewrite E in *. field.
    intro Z. apply HNR. rewrite Z. ring. }
  revert i. apply halves. intros k Hk. rewrite csign_lo, csign_hi by assumption.
  unfold idft_coeff, idft_Cc, idft_Cs. cbv zeta. cbn [mget]. rewrite <- Hh, HN2.
  destruct (Nat.ltb_spec k h); [|lia]. rewrite hi_false. replace (h + k - h)%nat with k by lia.
  rewrite !Last. destruct (Mid k) as [-> ->]. destruct (Mid p) as [-> ->].
  destruct ((1 <=? k)%nat && (k <? p)%nat)%bool; [|destruct (k =? h - 1)%nat]; unfold Rdiv; split; ring.
Qed.

(** ** C203 *)
Theorem C203_reversed : forall (F F' : vec) UF UF' N h,
  Nat.Even N -> (2 <= N)%nat -> h = (N / 2 + 1)%nat -> alen F = (2 * h)%nat -> alen F' = (2 * h)%nat ->
  fun_fits (2 * h) UF -> symm (2 * h) (fun_U UF) -> fun_fits (2 * h) UF' ->
  conj_lines h F F' -> conj_cov h (fun_U UF) (fun_U UF') ->
  exists x V c x' V' c', GUM_iDFT F UF None None None = Ok (x, V, c) /\ GUM_iDFT F' UF' None None None = Ok (x', V', c') /\
    alen x = N /\ alen x' = N /\
    forall n m, (n < N)%nat -> (m < N)%nat ->
      x' (backwards N n) = x n /\ V' (backwards N n) (backwards N m) = V n m.
Proof.
  intros F F' UF UF' N h He HN Hh HF HF' Hf Hs Hf' CF CU.
  assert (H2 : (N + 2 = 2 * h)%nat).
  { destruct He as [p Hp]. assert ((N / 2)%nat = p) by (rewrite Hp, Nat.mul_comm; apply Nat.div_mul; lia). lia. }
  pose proof (conj_symm h _ _ CU Hs) as Hs'.
  destruct (GUM_iDFT_run F UF None N N) as (x & V & c & E & Lx & _ & _ & Hx & HV & _); rewrite ?H2; auto; [reflexivity|].
  destruct (GUM_iDFT_run F' UF' None N N) as (x' & V' & c' & E' & Lx' & _ & _ & Hx' & HV' & _); rewrite ?H2; auto; [reflexivity|].
  rewrite H2 in HV, HV'.
  assert (Q : forall i, csign h i * csign h i = 1) by (intros i; unfold csign; destruct (i <? h)%nat; ring).
  assert (Sg : forall s t u w v, s * s = 1 -> t * t = 1 -> s * u * (s * t * w) * (t * v) = u * w * v).
  { intros s t u w v H1 H3. replace (s * u * (s * t * w) * (t * v)) with ((s * s) * (t * t) * (u * w * v)) by ring. rewrite H1, H3. ring. }
  exists x, V, c, x', V', c'. repeat (split; [assumption|]). intros n m Hn Hm.
  assert (Hl : (backwards N n < N)%nat) by (apply Nat.mod_upper_bound; lia). split.
  - rewrite Hx, Hx' by auto. rewrite !idft_map_linear by (auto; lia). rewrite <- Hh. apply rsum_ext. intros i Hi.
    rewrite (mirror_idft N h), CF by assumption.
    replace (csign h i * idft_coeff N n i * (csign h i * F i)) with ((csign h i * csign h i) * (idft_coeff N n i * F i)) by ring.
    rewrite Q. ring.
  - rewrite HV, HV'. unfold sandwich, idft_cross. cbv zeta. rewrite <- ?Hh.
    f_equal; [|f_equal]; apply rsum_ext; intros a Ha; apply rsum_ext; intros b Hb;
      rewrite !(mirror_idft N h), CU by (assumption || lia); apply Sg; apply Q.
Qed.

(** Four samples: lines 0, 1 + i, 0 and 0, 1 - i, 0. *)
Example C203_example : exists x V c x' V' c',
  GUM_iDFT (of_list [0; 1; 0; 0; 1; 0]) (FuVec (of_list [1; 1; 1; 0; 2; 0])) None None None = Ok (x, V, c) /\
  GUM_iDFT (of_list [0; 1; 0; 0; -1; 0]) (FuVec (of_list [1; 1; 1; 0; 2; 0])) None None None = Ok (x', V', c') /\
  x' 0%nat = x 0%nat /\ x' 3%nat = x 1%nat /\ x' 1%nat = x 3%nat /\ V' 3%nat 3%nat = V 1%nat 1%nat.
Proof.
  destruct (C203_reversed (of_list [0; 1; 0; 0; 1; 0]) (of_list [0; 1; 0; 0; -1; 0]) (FuVec (of_list [1; 1; 1; 0; 2; 0]))
    (FuVec (of_list [1; 1; 1; 0; 2; 0])) 4 3) as (x & V & c & x' & V' & c' & E & E' & _ & _ & G); auto; try reflexivity; try lia.
  { exists 2%nat; reflexivity. }
  { apply (diag_symm 6 (of_list [1; 1; 1; 0; 2; 0])). }
  { intros [|[|[|[|[|[|i]]]]]] Hi; try lia; unfold csign; cbn; ring. }
  { intros i j Hi Hj. cbn [fun_U]. destruct (Nat.eqb_spec i j); [subst j|ring].
    unfold csign. destruct (i <? 3)%nat; ring. }
  exists x, V, c, x', V', c'. split; [exact E|]. split; [exact E'|].
  destruct (G 0%nat 0%nat) as [X0 _]; try lia. destruct (G 1%nat 1%nat) as [X1 V1]; try lia. destruct (G 3%nat 3%nat) as [X3 _]; try lia.
  split; [exact X0|]. split; [exact X1|]. split; [exact X3|exact V1].
Qed.
