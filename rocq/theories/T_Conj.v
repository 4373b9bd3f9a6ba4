(** Products and quotients of spectra of signals read backwards (C202).  Model: M_DFT.v.  Vocabulary: S_DFT.v. *)
From Coq Require Import Reals List Arith ZArith Bool Lia Lra Psatz.
From Verif Require Import Base Sums Stats StatsFacts M_DFT S_Jac S_DFT S_Order P_Jac P_Trig P_DFT P_iDFT
  P_Deriv P_AmpPhase P_APTime P_Deconv T_DFT T_AmpPhase.
Import ListNotations.
Open Scope R_scope.

(** Complex conjugation of h lines (real parts, then imaginary parts) and of their covariances. *)
Definition csign (h i : nat) : R := if (i <? h)%nat then 1 else -1.
Definition conj_lines (h : nat) (F F' : nat -> R) : Prop :=
  forall i, (i < 2 * h)%nat -> F' i = csign h i * F i.
Definition conj_cov (h : nat) (U U' : nat -> nat -> R) : Prop :=
  forall i j, (i < 2 * h)%nat -> (j < 2 * h)%nat -> U' i j = csign h i * csign h j * U i j.

Lemma csign_lo h k : (k < h)%nat -> csign h k = 1.
Proof. intros H. unfold csign. destruct (Nat.ltb_spec k h); [reflexivity|lia]. Qed.
Lemma csign_hi h k : csign h (h + k) = -1.
Proof. unfold csign. destruct (Nat.ltb_spec (h + k) h); [lia|reflexivity]. Qed.
Lemma conj_lo h F F' k : conj_lines h F F' -> (k < h)%nat -> F' k = F k.
Proof. intros C H. rewrite C, csign_lo by lia. ring. Qed.
Lemma conj_hi h F F' k : conj_lines h F F' -> (k < h)%nat -> F' (h + k)%nat = - F (h + k)%nat.
Proof. intros C H. rewrite C, csign_hi by lia. ring. Qed.

Lemma conj_S4 h al be al' be' U U' i j : (i < 2 * h)%nat -> (j < 2 * h)%nat -> conj_cov h U U' ->
  (forall k, (k < 2 * h)%nat -> al' k = csign h k * al k /\ be' k = - csign h k * be k) ->
  S4 h al' be' U' i j = csign h i * csign h j * S4 h al be U i j.
Proof.
  intros Hi Hj CU K. rewrite !S4_term by assumption. unfold term4.
  pose proof (base_lt h i Hi). pose proof (base_lt h j Hj).
  destruct (K i Hi) as [-> ->]. destruct (K j Hj) as [-> ->].
  rewrite !CU by lia. rewrite !csign_hi, !(csign_lo h (base h _)) by assumption. ring.
Qed.
Lemma conj_symm h U U' : conj_cov h U U' -> symm (2 * h) U -> symm (2 * h) U'.
Proof. intros C S i j Hi Hj. rewrite !C, (S i j) by assumption. ring. Qed.

(** The two halves of an index range. *)
Lemma halves h (Q : nat -> Prop) : (forall k, (k < h)%nat -> Q k /\ Q (h + k)%nat) -> forall i, (i < 2 * h)%nat -> Q i.
Proof.
  intros H i Hi. destruct (Nat.lt_ge_cases i h); [now apply H|].
  replace i with (h + (i - h))%nat by lia. apply H. lia.
Qed.

(** ** C202 *)
Theorem C202_multiply : forall (Y F Y' F' : vec) UY UF UY' UF' h,
  alen Y = (2 * h)%nat -> alen F = (2 * h)%nat -> alen Y' = (2 * h)%nat -> alen F' = (2 * h)%nat ->
  mrows UY = (2 * h)%nat -> mcols UY = (2 * h)%nat -> mrows UY' = (2 * h)%nat -> mcols UY' = (2 * h)%nat ->
  symm (2 * h) (fun i j => UY i j) -> opt_full (2 * h) UF -> opt_full (2 * h) UF' -> symm (2 * h) (opt_U UF) ->
  conj_lines h Y Y' -> conj_lines h F F' -> conj_cov h (fun i j => UY i j) (fun i j => UY' i j) -> conj_cov h (opt_U UF) (opt_U UF') ->
  exists X U X' U', DFT_multiply Y F (SuMat UY) UF = Ok (X, U) /\ DFT_multiply Y' F' (SuMat UY') UF' = Ok (X', U') /\
    alen X = (2 * h)%nat /\ alen X' = (2 * h)%nat /\
    conj_lines h X X' /\ conj_cov h (fun i j => U i j) (fun i j => U' i j).
Proof.
  intros Y F Y' F' UY UF UY' UF' h LY LF LY' LF' R1 C1 R2 C2 S1 O O' S2 CY CF CUY CUF.
  destruct (DFT_multiply_run Y F UY UF h) as (X & U & E & LX & _ & _ & HX & HU); auto.
  destruct (DFT_multiply_run Y' F' UY' UF' h) as (X' & U' & E' & LX' & _ & _ & HX' & HU'); auto.
  { exact (conj_symm h _ _ CUY S1). } { exact (conj_symm h _ _ CUF S2). }
  assert (K : forall G G' : vec, conj_lines h G G' -> forall k, (k < 2 * h)%nat ->
     mul_al h G' k = csign h k * mul_al h G k /\ mul_be h G' k = - csign h k * mul_be h G k).
  { intros G G' CG. apply halves. intros k Hk. unfold mul_al, mul_be.
    destruct (Nat.ltb_spec k h); [|lia]. rewrite hi_false. replace (h + k - h)%nat with k by lia.
    rewrite csign_lo, csign_hi by assumption.
    rewrite (conj_lo h G G' k), (conj_hi h G G' k) by assumption. repeat split; ring. }
  exists X, U, X', U'. repeat (split; [assumption|]). split.
  - unfold conj_lines. apply halves. intros k Hk. rewrite !HX, !HX' by lia. unfold cmul_map.
    destruct (Nat.ltb_spec k h); [|lia]. rewrite hi_false. replace (h + k - h)%nat with k by lia.
    rewrite csign_lo, csign_hi by assumption.
    rewrite (conj_lo h Y Y' k), (conj_hi h Y Y' k), (conj_lo h F F' k), (conj_hi h F F' k) by assumption. split; ring.
  - intros i j Hi Hj. rewrite HU, HU' by assumption.
    rewrite (conj_S4 h (mul_al h F) (mul_be h F) (mul_al h F') (mul_be h F') _ _ i j Hi Hj CUY (K F F' CF)).
    rewrite (conj_S4 h (mul_al h Y) (mul_be h Y) (mul_al h Y') (mul_be h Y') _ _ i j Hi Hj CUF (K Y Y' CY)). ring.
Qed.

Theorem C202_deconv : forall (H Y H' Y' : vec) UH UY UH' UY' h,
  alen H = (2 * h)%nat -> alen Y = (2 * h)%nat -> alen H' = (2 * h)%nat -> alen Y' = (2 * h)%nat ->
  not_dia UH -> not_dia UH' -> ap_fits (2 * h) UH -> ap_fits (2 * h) UY -> ap_fits (2 * h) UH' -> ap_fits (2 * h) UY' ->
  symm (2 * h) (ap_U UH) -> symm (2 * h) (ap_U UY) ->
  (forall k, (k < h)%nat -> H k ^ 2 + H (h + k)%nat ^ 2 <> 0) ->
  conj_lines h H H' -> conj_lines h Y Y' -> conj_cov h (ap_U UH) (ap_U UH') -> conj_cov h (ap_U UY) (ap_U UY') ->
  exists X UX X' UX', DFT_deconv H Y UH UY = Ok (X, UX) /\ DFT_deconv H' Y' UH' UY' = Ok (X', UX') /\
    alen X = (2 * h)%nat /\ alen X' = (2 * h)%nat /\
    conj_lines h X X' /\ conj_cov h (fun i j => UX i j) (fun i j => UX' i j).
Proof.
  intros H Y H' Y' UH UY UH' UY' h LH LY LH' LY' D D' FH FY FH' FY' SH SY Hnz CH CY CUH CUY.
  destruct (DFT_deconv_run H Y UH UY h) as (X & U & E & LX & _ & _ & HX & HU); auto.
  destruct (DFT_deconv_run H' Y' UH' UY' h) as (X' & U' & E' & LX' & _ & _ & HX' & HU'); auto.
  { exact (conj_symm h _ _ CUH SH). } { exact (conj_symm h _ _ CUY SY). }
  assert (N : forall k, (k < h)%nat -> nrm h H' k = nrm h H k).
  { intros k Hk. unfold nrm. rewrite (conj_lo h H H' k), (conj_hi h H H' k) by assumption. ring. }
  assert (K1 : forall k, (k < 2 * h)%nat -> dy_al h H' k = csign h k * dy_al h H k /\ dy_be h H' k = - csign h k * dy_be h H k).
  { apply halves. intros k Hk. unfold dy_al, dy_be, base. cbv zeta.
    destruct (Nat.ltb_spec k h); [|lia]. rewrite hi_false. replace (h + k - h)%nat with k by lia.
    rewrite csign_lo, csign_hi, N by assumption.
    rewrite (conj_lo h H H' k), (conj_hi h H H' k) by assumption. unfold Rdiv. repeat split; ring. }
  assert (K2 : forall k, (k < 2 * h)%nat -> dh_al h Y' H' k = csign h k * dh_al h Y H k /\
                                            dh_be_code h Y' H' k = - csign h k * dh_be_code h Y H k).
  { apply halves. intros k Hk. unfold dh_al, dh_be_code, base. cbv zeta.
    destruct (Nat.ltb_spec k h); [|lia]. rewrite hi_false. replace (h + k - h)%nat with k by lia.
    rewrite csign_lo, csign_hi, N by assumption.
    rewrite (conj_lo h H H' k), (conj_hi h H H' k), (conj_lo h Y Y' k), (conj_hi h Y Y' k) by assumption.
    unfold Rdiv. repeat split; ring. }
  exists X, U, X', U'. repeat (split; [assumption|]). split.
  - unfold conj_lines. apply halves. intros k Hk. rewrite !HX, !HX' by lia. unfold cdiv_map.
    destruct (Nat.ltb_spec k h); [|lia]. rewrite hi_false. replace (h + k - h)%nat with k by lia.
    rewrite csign_lo, csign_hi by assumption.
    rewrite (conj_lo h Y Y' k), (conj_hi h Y Y' k), (conj_lo h H H' k), (conj_hi h H H' k) by assumption.
    specialize (Hnz k Hk). split; field; nra.
  - intros i j Hi Hj. rewrite HU, HU' by assumption.
    rewrite (conj_S4 h (dy_al h H) (dy_be h H) (dy_al h H') (dy_be h H') _ _ i j Hi Hj CUY K1).
    rewrite (conj_S4 h (dh_al h Y H) (dh_be_code h Y H) (dh_al h Y' H') (dh_be_code h Y' H') _ _ i j Hi Hj CUH K2). ring.
Qed.

(** (1 + 2i)(3 + 4i) = -5 + 10i and (1 - 2i)(3 - 4i) = -5 - 10i. *)
Example C202_example : exists X U X' U',
  DFT_multiply (of_list [1; 2]) (of_list [3; 4]) (SuMat (of_rows [[1; 1]; [1; 2]])) None = Ok (X, U) /\
  DFT_multiply (of_list [1; -2]) (of_list [3; -4]) (SuMat (of_rows [[1; -1]; [-1; 2]])) None = Ok (X', U') /\
  X' 0%nat = X 0%nat /\ X' 1%nat = - X 1%nat /\ U' 0%nat 1%nat = - U 0%nat 1%nat /\ U' 1%nat 1%nat = U 1%nat 1%nat.
Proof.
  destruct (C202_multiply (of_list [1; 2]) (of_list [3; 4]) (of_list [1; -2]) (of_list [3; -4])
     (of_rows [[1; 1]; [1; 2]]) None (of_rows [[1; -1]; [-1; 2]]) None 1) as (X & U & X' & U' & E & E' & _ & _ & C & D); auto; try reflexivity; try exact I.
  { intros [|[|i]] [|[|j]] Hi Hj; try lia; reflexivity. }
  { intros i j _ _; reflexivity. }
  { intros [|[|i]] Hi; try lia; unfold csign; cbn; ring. }
  { intros [|[|i]] Hi; try lia; unfold csign; cbn; ring. }
  { intros [|[|i]] [|[|j]] Hi Hj; try lia; unfold csign; cbn; ring. }
  { intros i j _ _. cbn. ring. }
  exists X, U, X', U'. split; [exact E|]. split; [exact E'|].
  rewrite (C 0%nat), (C 1%nat) by lia. pose proof (D 0%nat 1%nat) as D1. pose proof (D 1%nat 1%nat) as D2. cbn beta in D1, D2.
  rewrite D1, D2 by lia. unfold csign. cbn [Nat.ltb Nat.leb]. repeat split; ring.
Qed.
(** (1 + 2i) / (3 + 4i) and (1 - 2i) / (3 - 4i), with uncertain response. *)
Example C202_deconv_example : exists X U X' U',
  DFT_deconv (of_list [3; 4]) (of_list [1; 2]) (ApVec (of_list [1; 2])) (ApVec (of_list [0; 1])) = Ok (X, U) /\
  DFT_deconv (of_list [3; -4]) (of_list [1; -2]) (ApVec (of_list [1; 2])) (ApVec (of_list [0; 1])) = Ok (X', U') /\
  X' 0%nat = X 0%nat /\ X' 1%nat = - X 1%nat /\ U' 0%nat 1%nat = - U 0%nat 1%nat /\ U' 1%nat 1%nat = U 1%nat 1%nat.
Proof.
  destruct (C202_deconv (of_list [3; 4]) (of_list [1; 2]) (of_list [3; -4]) (of_list [1; -2])
     (ApVec (of_list [1; 2])) (ApVec (of_list [0; 1])) (ApVec (of_list [1; 2])) (ApVec (of_list [0; 1])) 1)
     as (X & U & X' & U' & E & E' & _ & _ & C & D); auto; try reflexivity; try exact I.
  { apply (diag_symm 2 (of_list [1; 2])). } { apply (diag_symm 2 (of_list [0; 1])). }
  { intros [|k] Hk; try lia; cbn; lra. }
  { intros [|[|i]] Hi; try lia; unfold csign; cbn; ring. }
  { intros [|[|i]] Hi; try lia; unfold csign; cbn; ring. }
  { intros [|[|i]] [|[|j]] Hi Hj; try lia; unfold csign; cbn; ring. }
  { intros [|[|i]] [|[|j]] Hi Hj; try lia; unfold csign; cbn; ring. }
  exists X, U, X', U'. split; [exact E|]. split; [exact E'|].
  rewrite (C 0%nat), (C 1%nat) by lia. pose proof (D 0%nat 1%nat) as D1. pose proof (D 1%nat 1%nat) as D2. cbn beta in D1, D2.
  rewrite D1, D2 by lia. unfold csign. cbn [Nat.ltb Nat.leb]. repeat split; ring.
Qed.
