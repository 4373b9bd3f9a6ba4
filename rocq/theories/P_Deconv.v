(** Lemmas for DFT_deconv and DFT_multiply. *)
From Coq Require Import Reals List Arith Lia Lra Psatz Bool ZArith.
From Verif Require Import Base Sums Stats StatsFacts M_DFT S_Jac S_DFT P_Jac P_Trig P_DFT P_iDFT P_Deriv P_AmpPhase.
Open Scope R_scope.

Lemma term4_linewise h U a b k c d l : linewise h U -> (k < h)%nat -> (l < h)%nat -> k <> l ->
  term4 h U a b k c d l = 0.
Proof.
  intros Hl Hk Hl' Hne. unfold term4.
  rewrite !Hl; try lia; [ring|..]; rewrite ?base_hi; rewrite ?base_lo by assumption; assumption.
Qed.

Lemma term4_dia h d a b k a' b' : dia_half d = h -> (k < h)%nat -> symm (2 * h) (dia_toarray d) ->
  term4 h (dia_toarray d) a b k a' b' k =
  a * dia_main d k * a' + a * dia_up d k * b' + b * dia_up d k * a' + b * dia_main d (h + k)%nat * b'.
Proof.
  intros Hd Hk Hs. unfold term4. destruct (dia_vals h d k Hd Hk) as [E1 [E2 [E3 E4]]].
  rewrite (Hs (h + k)%nat k) by lia. now rewrite E1, E2, E4.
Qed.

Lemma matprod_ok M (V W : vec) h :
  ap_fits (2 * h) M -> symm (2 * h) (ap_U M) -> alen V = (2 * h)%nat -> alen W = (2 * h)%nat ->
  exists S, matprod M V W = Ok S /\ mrows S = h /\ mcols S = h /\
    forall k l, (k < h)%nat -> (l < h)%nat ->
      S k l = term4 h (ap_U M) (V k) (V (h + k)%nat) k (W l) (W (h + l)%nat) l.
Proof.
  intros Hf Hs HV HW. destruct M as [v|m|d]; unfold matprod.
  - cbn [ap_fits] in Hf. rewrite Hf, HV, HW, !Nat.eqb_refl. simpl andb. simpl negb. cbv iota zeta.
    rewrite half_2h. eexists. split; [reflexivity|]. cbn [diagm mrows mcols alen mget aget]. split; [reflexivity|]. split; [reflexivity|].
    intros k l Hk Hl. change (ap_U (ApVec v)) with (fun i j => if (i =? j)%nat then v i else 0).
    destruct (Nat.eqb_spec k l) as [->|Hne].
    + rewrite (term4_diag h v) by assumption. ring.
    + symmetry. apply term4_linewise; auto. apply diag_linewise.
  - destruct Hf as [H1 H2]. rewrite H1, H2, HV, HW, !Nat.eqb_refl. simpl andb. simpl negb. cbv iota zeta.
    rewrite half_2h.
    destruct (sum4_blocks' h (slice V 0 h) (slice V h (2 * h)) (slice W 0 h) (slice W h (2 * h)) m (ap_U (ApMat m)))
      as [S [ES [SR [SC SV]]]]; auto; try (simpl; lia).
    exists S. split; [exact ES|]. split; [exact SR|]. split; [exact SC|]. exact SV.
  - cbn [ap_fits] in Hf. rewrite Hf, HV, HW, !Nat.eqb_refl. simpl andb. simpl negb. cbv iota zeta.
    assert (Hd : dia_half d = h) by lia.
    rewrite half_2h. eexists. split; [reflexivity|]. cbn [diagm mrows mcols alen mget aget]. split; [reflexivity|]. split; [reflexivity|].
    intros k l Hk Hl. change (ap_U (ApDia d)) with (fun i j => dia_toarray d i j).
    destruct (Nat.eqb_spec k l) as [->|Hne].
    + rewrite (term4_dia h d) by auto. ring.
    + symmetry. apply term4_linewise; auto. exact (dia_linewise h d Hd).
Qed.

(** ** Coefficients of the quotient Y/H *)
Definition nrm (h : nat) (H : nat -> R) (k : nat) : R := H k * H k + H (h + k)%nat * H (h + k)%nat.
(* with respect to Y *)
Definition dy_al (h : nat) (H : nat -> R) (i : nat) : R :=
  let k := base h i in if (i <? h)%nat then H k / nrm h H k else - H (h + k)%nat / nrm h H k.
Definition dy_be (h : nat) (H : nat -> R) (i : nat) : R :=
  let k := base h i in if (i <? h)%nat then H (h + k)%nat / nrm h H k else H k / nrm h H k.
(* with respect to H *)
Definition dh_al (h : nat) (Y H : nat -> R) (i : nat) : R :=
  let k := base h i in let rY := Y k in let iY := Y (h + k)%nat in let rH := H k in let iH := H (h + k)%nat in
  if (i <? h)%nat then (- rY * rH ^ 2 + rY * iH ^ 2 - 2 * iY * iH * rH) / nrm h H k ^ 2
  else (- iY * rH ^ 2 + iY * iH ^ 2 + 2 * rY * iH * rH) / nrm h H k ^ 2.
Definition dh_be (h : nat) (Y H : nat -> R) (i : nat) : R :=
  let k := base h i in let rY := Y k in let iY := Y (h + k)%nat in let rH := H k in let iH := H (h + k)%nat in
  if (i <? h)%nat then (iY * rH ^ 2 - iY * iH ^ 2 - 2 * rY * rH * iH) / nrm h H k ^ 2
  else (- rY * rH ^ 2 + rY * iH ^ 2 - 2 * iY * rH * iH) / nrm h H k ^ 2.
(* as coded (line 1007) *)
Definition dh_be_code (h : nat) (Y H : nat -> R) (i : nat) : R :=
  let k := base h i in let rY := Y k in let iY := Y (h + k)%nat in let rH := H k in let iH := H (h + k)%nat in
  if (i <? h)%nat then (iY * rH ^ 2 - iH * iH ^ 2 - 2 * rY * rH * iH) / nrm h H k ^ 2
  else (- rY * rH ^ 2 + rY * iH ^ 2 - 2 * iY * rH * iH) / nrm h H k ^ 2.

Lemma hi_false h k : (h + k <? h)%nat = false.
Proof. apply Nat.ltb_ge; lia. Qed.

Lemma stack_two h al be al' be' U V (R1 R2 R3 : mat) :
  mrows R1 = h -> mcols R1 = h -> mrows R2 = h -> mcols R2 = h -> mrows R3 = h -> mcols R3 = h ->
  symm (2 * h) U -> symm (2 * h) V ->
  (forall k l, (k < h)%nat -> (l < h)%nat -> R1 k l = term4 h U (al k) (be k) k (al l) (be l) l
      + term4 h V (al' k) (be' k) k (al' l) (be' l) l) ->
  (forall k l, (k < h)%nat -> (l < h)%nat -> R2 k l = term4 h U (al k) (be k) k (al (h + l)%nat) (be (h + l)%nat) l
      + term4 h V (al' k) (be' k) k (al' (h + l)%nat) (be' (h + l)%nat) l) ->
  (forall k l, (k < h)%nat -> (l < h)%nat -> R3 k l =
      term4 h U (al (h + k)%nat) (be (h + k)%nat) k (al (h + l)%nat) (be (h + l)%nat) l
      + term4 h V (al' (h + k)%nat) (be' (h + k)%nat) k (al' (h + l)%nat) (be' (h + l)%nat) l) ->
  exists M, stack4 R1 R2 (transp R2) R3 = Ok M /\ mrows M = (2 * h)%nat /\ mcols M = (2 * h)%nat /\
    forall i j, (i < 2 * h)%nat -> (j < 2 * h)%nat -> M i j = S4 h al be U i j + S4 h al' be' V i j.
Proof.
  intros r1 c1 r2 c2 r3 c3 HU HV E11 E12 E22.
  destruct (stack4_ok R1 R2 (transp R2) R3 h h) as [M [EM [MR [MC MV]]]]; simpl; auto; try congruence.
  exists M. split; [exact EM|]. simpl in MR. split; [lia|]. split; [lia|].
  intros i j Hi Hj. rewrite MV.
  assert (Hb : forall i, (i < 2 * h)%nat -> (h <= i)%nat -> exists k, i = (h + k)%nat /\ (k < h)%nat).
  { intros a Ha Hh. exists (a - h)%nat. lia. }
  destruct (Nat.ltb_spec i h) as [Li|Li], (Nat.ltb_spec j h) as [Lj|Lj].
  - rewrite !S4_term, !base_lo by lia. now apply E11.
  - destruct (Hb j Hj Lj) as [l [-> Hl]]. replace (h + l - h)%nat with l by lia.
    rewrite !S4_term, base_lo, base_hi by lia. now apply E12.
  - destruct (Hb i Hi Li) as [k [-> Hk]]. replace (h + k - h)%nat with k by lia.
    rewrite (S4_symm h al be), (S4_symm h al' be') by assumption.
    rewrite !S4_term, base_lo, base_hi by lia. simpl. now apply E12.
  - destruct (Hb j Hj Lj) as [l [-> Hl]]. destruct (Hb i Hi Li) as [k [-> Hk]].
    replace (h + l - h)%nat with l by lia. replace (h + k - h)%nat with k by lia.
    rewrite !S4_term, !base_hi by lia. now apply E22.
Qed.

Definition not_dia (u : apunc) : Prop := match u with ApDia _ => False | _ => True end.

Lemma DFT_deconv_run (H Y : vec) UH UY h :
  alen H = (2 * h)%nat -> alen Y = (2 * h)%nat -> not_dia UH ->
  ap_fits (2 * h) UH -> ap_fits (2 * h) UY -> symm (2 * h) (ap_U UH) -> symm (2 * h) (ap_U UY) ->
  exists X UX, DFT_deconv H Y UH UY = Ok (X, UX) /\ alen X = (2 * h)%nat /\
    mrows UX = (2 * h)%nat /\ mcols UX = (2 * h)%nat /\
    (forall i, (i < 2 * h)%nat -> X i = cdiv_map h Y H i) /\
    (forall i j, (i < 2 * h)%nat -> (j < 2 * h)%nat ->
       UX i j = S4 h (dy_al h H) (dy_be h H) (ap_U UY) i j
              + S4 h (dh_al h Y H) (dh_be_code h Y H) (ap_U UH) i j).
Proof.
  intros LH LY Hnd FH FY SH SY. unfold DFT_deconv. rewrite LH, LY, Nat.eqb_refl. simpl negb at 1. cbv iota.
  assert (EH : forall (r : res (vec * mat)), match UH with ApDia _ => Err TypeError | _ => r end = r)
    by (destruct UH; simpl in Hnd; tauto). rewrite EH. clear EH.
  assert (Hlen : ap_len UH = (2 * h)%nat) by (destruct UH; simpl in *; tauto). rewrite Hlen.
  replace (Nat.odd (2 * h)) with false by (symmetry; rewrite <- Nat.negb_even; apply negb_false_iff, Nat.even_spec; exists h; reflexivity).
  assert (Hchk : forall u, ap_fits (2 * h) u -> match u with
                   | ApVec v => (alen v =? 2 * h)%nat
                   | ApMat m => (mrows m =? 2 * h)%nat && (mcols m =? 2 * h)%nat
                   | ApDia d => (2 * dia_half d =? 2 * h)%nat
                   end = true).
  { intros [v|m|d] Hu; cbn [ap_fits] in Hu.
    - rewrite Hu. apply Nat.eqb_refl.
    - destruct Hu as [-> ->]. rewrite Nat.eqb_refl. reflexivity.
    - rewrite Hu. apply Nat.eqb_refl. }
  rewrite (Hchk UY FY), (Hchk UH FH). simpl negb. cbv iota zeta. rewrite half_2h.
  set (norm := mkArr h (fun k => slice H 0 h k ^ 2 + slice H h (2 * h) k ^ 2)).
  assert (En : forall k, norm k = nrm h H k) by (intros; unfold norm, nrm; simpl; ring).
  match goal with |- context [matprod UY ?A ?A] => set (RY := A) end.
  match goal with |- context [matprod UY RY ?A] => match A with RY => fail 1 | _ => set (IY := A) end end.
  match goal with |- context [matprod UH ?A ?A] => set (RH := A) end.
  match goal with |- context [matprod UH RH ?A] => match A with RH => fail 1 | _ => set (IH := A) end end.
  assert (catlo : forall (u v : vec) k, alen u = h -> (k < h)%nat -> cat u v k = u k).
  { intros u v k Hu Hk. unfold cat. simpl. rewrite Hu. apply Nat.ltb_lt in Hk. now rewrite Hk. }
  assert (cathi : forall (u v : vec) k, alen u = h -> cat u v (h + k)%nat = v k).
  { intros u v k Hu. unfold cat. simpl. rewrite Hu, hi_false. f_equal. lia. }
  assert (lo : forall k, (k < h)%nat -> (k <? h)%nat = true) by (intros; now apply Nat.ltb_lt).
  assert (RY1 : forall k, (k < h)%nat -> RY k = dy_al h H k /\ RY (h + k)%nat = dy_be h H k /\
                 IY k = dy_al h H (h + k) /\ IY (h + k)%nat = dy_be h H (h + k) /\
                 RH k = dh_al h Y H k /\ RH (h + k)%nat = dh_be_code h Y H k /\
                 IH k = dh_al h Y H (h + k) /\ IH (h + k)%nat = dh_be_code h Y H (h + k)).
  { intros k Hk. unfold RY, IY, RH, IH. rewrite !cathi, !catlo by (assumption || reflexivity).
    unfold dy_al, dy_be, dh_al, dh_be_code. cbv zeta. rewrite base_hi, base_lo, lo, hi_false by assumption.
    rewrite <- !En. repeat split; reflexivity. }
  destruct (matprod_ok UY RY RY h) as [a [Ea [aR [aC aV]]]]; auto; try (simpl; lia).
  destruct (matprod_ok UH RH RH h) as [a' [Ea' [aR' [aC' aV']]]]; auto; try (simpl; lia).
  destruct (matprod_ok UY RY IY h) as [b [Eb [bR [bC bV]]]]; auto; try (simpl; lia).
  destruct (matprod_ok UH RH IH h) as [b' [Eb' [bR' [bC' bV']]]]; auto; try (simpl; lia).
  destruct (matprod_ok UY IY IY h) as [c [Ec [cR [cC cV]]]]; auto; try (simpl; lia).
  destruct (matprod_ok UH IH IH h) as [c' [Ec' [cR' [cC' cV']]]]; auto; try (simpl; lia).
  rewrite Ea, Ea', Eb, Eb', Ec, Ec'. cbv beta iota zeta delta [bind].
  destruct (add2_ok a a') as [X1 [E1 [R1 [C1 V1]]]]; try congruence. rewrite E1.
  destruct (add2_ok b b') as [X2 [E2 [R2 [C2 V2]]]]; try congruence. rewrite E2.
  destruct (add2_ok c c') as [X3 [E3 [R3 [C3 V3]]]]; try congruence. rewrite E3.
  destruct (stack_two h (dy_al h H) (dy_be h H) (dh_al h Y H) (dh_be_code h Y H) (ap_U UY) (ap_U UH) X1 X2 X3)
    as [M [EM [MR [MC MV]]]]; try congruence; auto.
  { intros k l Hk Hl. destruct (RY1 k Hk) as [<- [<- [_ [_ [<- [<- _]]]]]].
    destruct (RY1 l Hl) as [<- [<- [_ [_ [<- [<- _]]]]]]. rewrite V1, aV, aV' by assumption. reflexivity. }
  { intros k l Hk Hl. destruct (RY1 k Hk) as [<- [<- [_ [_ [<- [<- _]]]]]].
    destruct (RY1 l Hl) as [_ [_ [<- [<- [_ [_ [<- <-]]]]]]]. rewrite V2, bV, bV' by assumption. reflexivity. }
  { intros k l Hk Hl. destruct (RY1 k Hk) as [_ [_ [<- [<- [_ [_ [<- <-]]]]]]].
    destruct (RY1 l Hl) as [_ [_ [<- [<- [_ [_ [<- <-]]]]]]]. rewrite V3, cV, cV' by assumption. reflexivity. }
  rewrite EM. eexists. eexists. split; [reflexivity|]. split; [simpl; lia|]. split; [exact MR|]. split; [exact MC|].
  split; [|exact MV].
  intros i Hi. unfold cdiv_map. destruct (Nat.ltb_spec i h) as [Hlt|Hge].
  - rewrite catlo by (assumption || reflexivity). simpl. rewrite !Rmult_1_r. reflexivity.
  - replace i with (h + (i - h))%nat at 1 by lia. rewrite cathi by reflexivity. simpl.
    replace (h + (i - h))%nat with i by lia. rewrite !Rmult_1_r. reflexivity.
Qed.

Lemma cdiv_jac_Y h (Y H : nat -> R) : (forall k, (k < h)%nat -> nrm h H k <> 0) ->
  is_jac (2 * h) (2 * h) (fun s => cdiv_map h s H) Y (Kl h (dy_al h H) (dy_be h H)).
Proof.
  intros Hn.
  set (g := fun i x y => let k := base h i in if (i <? h)%nat
     then (x * H k + y * H (h + k)%nat) / nrm h H k else (y * H k - x * H (h + k)%nat) / nrm h H k).
  apply (is_jac_ext _ _ (fun s i => g i (s (base h i)) (s (h + base h i)%nat))).
  - intros z i Hi. unfold g, cdiv_map, nrm. cbv zeta. unfold base. destruct (Nat.ltb_spec i h); [reflexivity|].
    now replace (h + (i - h))%nat with i by lia.
  - apply (linewise_jac h g). intros i Hi. pose proof (Hn _ (base_lt h i Hi)) as Hnz.
    unfold g, dy_al, dy_be. cbv zeta. destruct (Nat.ltb_spec i h); split;
      (eapply dl_eq; [dl|]; cbv beta; try assumption; field; assumption).
Qed.

Lemma cdiv_jac_H h (Y H : nat -> R) : (forall k, (k < h)%nat -> nrm h H k <> 0) ->
  is_jac (2 * h) (2 * h) (fun s => cdiv_map h Y s) H (Kl h (dh_al h Y H) (dh_be h Y H)).
Proof.
  intros Hn.
  set (g := fun i x y => let k := base h i in if (i <? h)%nat
     then (Y k * x + Y (h + k)%nat * y) / (x * x + y * y) else (Y (h + k)%nat * x - Y k * y) / (x * x + y * y)).
  apply (is_jac_ext _ _ (fun s i => g i (s (base h i)) (s (h + base h i)%nat))).
  - intros z i Hi. unfold g, cdiv_map. cbv zeta. unfold base. destruct (Nat.ltb_spec i h); [reflexivity|].
    now replace (h + (i - h))%nat with i by lia.
  - apply (linewise_jac h g). intros i Hi. pose proof (Hn _ (base_lt h i Hi)) as Hnz. unfold nrm in Hnz.
    unfold g, dh_al, dh_be, nrm. cbv zeta. destruct (Nat.ltb_spec i h); split;
      (eapply dl_eq; [dl|]; cbv beta; try assumption; field; assumption).
Qed.

Lemma cdiv_cmul h (Y H : nat -> R) i : (i < 2 * h)%nat -> (forall k, (k < h)%nat -> nrm h H k <> 0) ->
  forall Z, (forall i, (i < 2 * h)%nat -> Z i = cmul_map h Y H i) -> cdiv_map h Z H i = Y i.
Proof.
  intros Hi Hn Z HZ. unfold cdiv_map.
  destruct (Nat.ltb_spec i h) as [Hlt|Hge].
  - rewrite !HZ by lia. unfold cmul_map. rewrite hi_false. replace (i <? h)%nat with true by (symmetry; now apply Nat.ltb_lt).
    replace (h + i - h)%nat with i by lia. specialize (Hn i Hlt). unfold nrm in Hn. field. exact Hn.
  - assert (exists k, i = (h + k)%nat /\ (k < h)%nat) as [k [-> Hk]] by (exists (i - h)%nat; lia).
    replace (h + k - h)%nat with k by lia. rewrite !HZ by lia. unfold cmul_map. rewrite hi_false.
    replace (k <? h)%nat with true by (symmetry; now apply Nat.ltb_lt).
    replace (h + k - h)%nat with k by lia. specialize (Hn k Hk). unfold nrm in Hn. field. exact Hn.
Qed.

Lemma cdiv_is_quot h (Y H X : nat -> R) : (forall k, (k < h)%nat -> nrm h H k <> 0) ->
  (forall i, (i < 2 * h)%nat -> X i = cdiv_map h Y H i) -> is_quot h Y H X.
Proof.
  intros Hn HX i Hi. unfold cmul_map.
  destruct (Nat.ltb_spec i h) as [Hlt|Hge].
  - rewrite !HX by lia. unfold cdiv_map. rewrite hi_false. replace (i <? h)%nat with true by (symmetry; now apply Nat.ltb_lt).
    replace (h + i - h)%nat with i by lia. specialize (Hn i Hlt). unfold nrm in Hn. field. exact Hn.
  - assert (exists k, i = (h + k)%nat /\ (k < h)%nat) as [k [-> Hk]] by (exists (i - h)%nat; lia).
    replace (h + k - h)%nat with k by lia. rewrite !HX by lia. unfold cdiv_map. rewrite hi_false.
    replace (k <? h)%nat with true by (symmetry; now apply Nat.ltb_lt).
    replace (h + k - h)%nat with k by lia. specialize (Hn k Hk). unfold nrm in Hn. field. exact Hn.
Qed.

(** ** DFT_multiply *)
Definition mul_al (h : nat) (F : nat -> R) (i : nat) : R := F i.
Definition mul_be (h : nat) (F : nat -> R) (i : nat) : R :=
  if (i <? h)%nat then - F (h + i)%nat else F (i - h)%nat.

Lemma cmul_jac_l h (Y F : nat -> R) :
  is_jac (2 * h) (2 * h) (fun s => cmul_map h s F) Y (Kl h (mul_al h F) (mul_be h F)).
Proof.
  set (g := fun i x y => let k := base h i in if (i <? h)%nat
     then x * F k - y * F (h + k)%nat else x * F (h + k)%nat + y * F k).
  apply (is_jac_ext _ _ (fun s i => g i (s (base h i)) (s (h + base h i)%nat))).
  - intros z i Hi. unfold g, cmul_map. cbv zeta. unfold base. destruct (Nat.ltb_spec i h); [reflexivity|].
    now replace (h + (i - h))%nat with i by lia.
  - apply (linewise_jac h g). intros i Hi. unfold g, mul_al, mul_be, base. cbv zeta.
    destruct (Nat.ltb_spec i h); split;
      (eapply dl_eq; [dl|]; cbv beta; try ring). replace (h + (i - h))%nat with i by lia. ring.
Qed.
Lemma cmul_comm h Y F i : cmul_map h Y F i = cmul_map h F Y i.
Proof. unfold cmul_map. destruct (i <? h)%nat; ring. Qed.
Lemma cmul_jac_r h (Y F : nat -> R) :
  is_jac (2 * h) (2 * h) (fun s => cmul_map h Y s) F (Kl h (mul_al h Y) (mul_be h Y)).
Proof.
  apply (is_jac_ext _ _ (fun s => cmul_map h s Y)); [intros; apply cmul_comm | apply cmul_jac_l].
Qed.

Lemma neg_ok (m : mat) : mrows (scale2 (-1) m) = mrows m /\ mcols (scale2 (-1) m) = mcols m /\
  forall i j, scale2 (-1) m i j = - m i j.
Proof. unfold scale2. simpl. repeat split. intros; ring. Qed.

Lemma calcU_mat_ok (A : vec) M h :
  alen A = (2 * h)%nat -> mrows M = (2 * h)%nat -> mcols M = (2 * h)%nat -> symm (2 * h) (fun i j => M i j) ->
  exists rr ri ii, calcU A (SuMat M) = Ok (B2 rr, B2 ri, B2 ii) /\
   mrows rr = h /\ mcols rr = h /\ mrows ri = h /\ mcols ri = h /\ mrows ii = h /\ mcols ii = h /\
   forall k l, (k < h)%nat -> (l < h)%nat ->
     let U := fun i j => M i j in let al := mul_al h A in let be := mul_be h A in
     rr k l = term4 h U (al k) (be k) k (al l) (be l) l /\
     ri k l = term4 h U (al k) (be k) k (al (h + l)%nat) (be (h + l)%nat) l /\
     ii k l = term4 h U (al (h + k)%nat) (be (h + k)%nat) k (al (h + l)%nat) (be (h + l)%nat) l.
Proof.
  intros LA HM1 HM2 Hs. unfold calcU. rewrite LA, half_2h. cbv zeta.
  destruct (blk_ok M h HM1 HM2) as [E1 [E2 E3]]. rewrite E1, E2, E3. unfold transp. cbn [mrows mcols mget].
  rewrite !prod3_ok by (simpl; lia). cbv beta iota delta [bind]. cbn [mrows mcols mget].
  match goal with |- context [sum4 (Ok ?A) (Ok ?B) (Ok ?C) (Ok ?D)] =>
    destruct (sum4_ok A B C D h h) as [S [ES [SR [SC SV]]]]; try reflexivity end.
  rewrite ES.
  match goal with |- context [sum4 (Ok ?A) (Ok ?B) (Ok ?C) (Ok ?D)] =>
    destruct (sum4_ok A B C D h h) as [S2 [ES2 [SR2 [SC2 SV2]]]]; try reflexivity end.
  rewrite ES2.
  match goal with |- context [sum4 (Ok ?A) (Ok ?B) (Ok ?C) (Ok ?D)] =>
    destruct (sum4_ok A B C D h h) as [S3 [ES3 [SR3 [SC3 SV3]]]]; try reflexivity end.
  rewrite ES3. exists S, S2, S3. split; [reflexivity|]. repeat (split; [assumption|]).
  intros k l Hk Hl. unfold mul_al, mul_be, term4. rewrite !hi_false.
  replace (k <? h)%nat with true by (symmetry; now apply Nat.ltb_lt).
  replace (l <? h)%nat with true by (symmetry; now apply Nat.ltb_lt).
  replace (h + k - h)%nat with k by lia. replace (h + l - h)%nat with l by lia.
  rewrite SV, SV2, SV3. unfold scale2. simpl. rewrite (Hs l (h + k)%nat) by lia.
  repeat split; ring.
Qed.

Lemma S4_zero h al be i j : S4 h al be (fun _ _ => 0) i j = 0.
Proof. unfold S4, sandwich. apply rsum_zero; intros. apply rsum_zero; intros. ring. Qed.

Lemma mul_est_even (Y F : vec) h : alen Y = (2 * h)%nat -> alen F = (2 * h)%nat ->
  mul_est Y F = Ok (cat (mkArr h (fun k => slice Y 0 h k * slice F 0 h k - slice Y h (2 * h) k * slice F h (2 * h) k))
         (mkArr h (fun k => slice Y 0 h k * slice F h (2 * h) k + slice Y h (2 * h) k * slice F 0 h k))).
Proof. intros LY LF. unfold mul_est. rewrite LY, LF, half_2h, Nat.eqb_refl. reflexivity. Qed.

(** UF: None or a full matrix *)
Lemma DFT_multiply_run (Y F : vec) UY UF h :
  alen Y = (2 * h)%nat -> alen F = (2 * h)%nat ->
  mrows UY = (2 * h)%nat -> mcols UY = (2 * h)%nat -> symm (2 * h) (fun i j => UY i j) ->
  opt_full (2 * h) UF -> symm (2 * h) (opt_U UF) ->
  exists YF U, DFT_multiply Y F (SuMat UY) UF = Ok (YF, U) /\ alen YF = (2 * h)%nat /\
    mrows U = (2 * h)%nat /\ mcols U = (2 * h)%nat /\
    (forall i, (i < 2 * h)%nat -> YF i = cmul_map h Y F i) /\
    (forall i j, (i < 2 * h)%nat -> (j < 2 * h)%nat ->
       U i j = S4 h (mul_al h F) (mul_be h F) (fun a b => UY a b) i j
             + S4 h (mul_al h Y) (mul_be h Y) (opt_U UF) i j).
Proof.
  intros LY LF R1 C1 S1 HF S2. unfold DFT_multiply. rewrite LY, LF, Nat.eqb_refl. simpl negb. cbv iota.
  rewrite (mul_est_even Y F h LY LF). cbn [bind].
  assert (catlo : forall (u v : vec) k, alen u = h -> (k < h)%nat -> cat u v k = u k).
  { intros u v k Hu Hk. unfold cat. simpl. rewrite Hu. apply Nat.ltb_lt in Hk. now rewrite Hk. }
  assert (cathi : forall (u v : vec) k, alen u = h -> cat u v (h + k)%nat = v k).
  { intros u v k Hu. unfold cat. simpl. rewrite Hu, hi_false. f_equal. lia. }
  assert (EYF : forall i, (i < 2 * h)%nat ->
     cat (mkArr h (fun k => slice Y 0 h k * slice F 0 h k - slice Y h (2 * h) k * slice F h (2 * h) k))
         (mkArr h (fun k => slice Y 0 h k * slice F h (2 * h) k + slice Y h (2 * h) k * slice F 0 h k)) i
     = cmul_map h Y F i).
  { intros i Hi. unfold cmul_map. destruct (Nat.ltb_spec i h) as [Hlt|Hge].
    - rewrite catlo by (assumption || reflexivity). reflexivity.
    - replace i with (h + (i - h))%nat at 1 by lia. rewrite cathi by reflexivity. simpl.
      now replace (h + (i - h))%nat with i by lia. }
  destruct (calcU_mat_ok F UY h LF R1 C1 S1) as [rr [ri [ii [E [ra [ca [rb [cb [rc [cc V]]]]]]]]]].
  destruct UF as [[u|v|m]|]; simpl in HF; try contradiction.
  - destruct HF as [HF1 HF2].
    destruct (calcU_mat_ok Y m h LY HF1 HF2 S2) as [rr' [ri' [ii' [E' [ra' [ca' [rb' [cb' [rc' [cc' V']]]]]]]]]].
    rewrite E, E'. cbv beta iota delta [bind]. unfold blk_add. cbv beta iota delta [bind].
    destruct (add2_ok rr rr') as [X1 [E1 [r1 [c1 V1]]]]; try congruence. rewrite E1.
    destruct (add2_ok ri ri') as [X2 [E2 [r2 [c2 V2]]]]; try congruence. rewrite E2.
    destruct (add2_ok ii ii') as [X3 [E3 [r3 [c3 V3]]]]; try congruence. rewrite E3.
    unfold blk_stack.
    destruct (stack_two h (mul_al h F) (mul_be h F) (mul_al h Y) (mul_be h Y) (fun i j => UY i j) (fun i j => m i j) X1 X2 X3)
      as [M [EM [MR [MC MV]]]]; try congruence; auto.
    { intros k l Hk Hl. destruct (V k l Hk Hl) as [<- _]. destruct (V' k l Hk Hl) as [<- _]. apply V1. }
    { intros k l Hk Hl. destruct (V k l Hk Hl) as [_ [<- _]]. destruct (V' k l Hk Hl) as [_ [<- _]]. apply V2. }
    { intros k l Hk Hl. destruct (V k l Hk Hl) as [_ [_ <-]]. destruct (V' k l Hk Hl) as [_ [_ <-]]. apply V3. }
    rewrite EM. eexists. eexists. split; [reflexivity|]. split; [simpl; lia|].
    split; [exact MR|]. split; [exact MC|]. split; [exact EYF | exact MV].
  - rewrite E. cbv beta iota delta [bind]. unfold blk_stack.
    destruct (dense_blocks h (mul_al h F) (mul_be h F) (fun i j => UY i j) rr ri ii)
      as [M [EM [MR [MC MV]]]]; try congruence; auto.
    { intros k l Hk Hl. now destruct (V k l Hk Hl) as [<- _]. }
    { intros k l Hk Hl. now destruct (V k l Hk Hl) as [_ [<- _]]. }
    { intros k l Hk Hl. now destruct (V k l Hk Hl) as [_ [_ <-]]. }
    rewrite EM. eexists. eexists. split; [reflexivity|]. split; [simpl; lia|].
    split; [exact MR|]. split; [exact MC|]. split; [exact EYF|].
    intros i j Hi Hj. change (opt_U None) with (fun _ _ : nat => 0). rewrite S4_zero, Rplus_0_r. now apply MV.
Qed.
