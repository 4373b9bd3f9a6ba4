(** Lemmas on the IIR fits. *)
From Coq Require Import Reals List Arith ZArith Lra Lia Permutation Sorted FunctionalExtensionality.
From Verif Require Import Base Sums Cplx M_DFT M_Filter M_FilterStuff M_MC M_Fit S_Poly S_Fit P_Poly P_FStuff P_LinAlg P_Fit.
Import ListNotations.
Open Scope R_scope.

Lemma csum_app n m g : csum (n + m) g = cadd (csum n g) (csum m (fun i => g (n + i)%nat)).
Proof. apply C_eq; unfold csum; cbn [fst snd cadd]; apply rsum_app. Qed.
Lemma csum_opp n g : csum n (fun i => copp (g i)) = copp (csum n g).
Proof. apply C_eq; cbn; apply rsum_opp. Qed.

(** ** The fit minimises the equation error *)

(** Residual of the equation D ab = -Htau. *)
Lemma iir_lin Hv f Fs tau Na Nb inv (b a : vec) (ab : nat -> R) i :
  alen b = S Nb -> alen a = S Na -> a 0%nat = 1 ->
  (forall j, (j < Na)%nat -> ab j = a (S j)) -> (forall j, (j < S Nb)%nat -> ab (Na + j)%nat = b j) ->
  csub (lin (Na + S Nb) ab (iir_D Hv f Fs tau Na inv i)) (copp (iir_htau Hv f Fs tau inv i)) =
  csub (cmul (iir_htau Hv f Fs tau inv i) (freq_resp a (radf f Fs i))) (freq_resp b (radf f Fs i)).
Proof.
  intros Lb La A0 Ea Eb.
  rewrite <- (lin_freq a f Fs i (S Na) La), <- (lin_freq b f Fs i (S Nb) Lb).
  unfold lin. set (h := iir_htau Hv f Fs tau inv i).
  rewrite csum_app, (csum_S_l Na).
  assert (E1 : csum Na (fun j => cscal (ab j) (iir_D Hv f Fs tau Na inv i j)) =
               cmul h (csum Na (fun j => cscal (a (S j)) (Eexp f Fs i (S j))))).
  { rewrite <- csum_mul_l. apply csum_ext. intros j Hj. rewrite Ea by auto. unfold iir_D.
    assert (Q : (j <? Na)%nat = true) by (apply Nat.ltb_lt; auto). rewrite Q. fold h.
    apply C_eq; unfold cscal, cmul; cbn [fst snd]; ring. }
  assert (E2 : csum (S Nb) (fun j => cscal (ab (Na + j)%nat) (iir_D Hv f Fs tau Na inv i (Na + j))) =
               copp (csum (S Nb) (fun j => cscal (b j) (Eexp f Fs i j)))).
  { rewrite <- csum_opp. apply csum_ext. intros j Hj. rewrite Eb by auto. unfold iir_D.
    assert (Q : (Na + j <? Na)%nat = false) by (apply Nat.ltb_ge; lia). rewrite Q.
    replace (Na + j - Na)%nat with j by lia.
    apply C_eq; unfold cscal, copp; cbn [fst snd]; ring. }
  rewrite E1, E2, A0.
  assert (E0 : Eexp f Fs i 0 = C1).
  { unfold Eexp. change (INR 0) with 0. rewrite Rmult_0_r, Ropp_0. unfold cis. rewrite cos_0, sin_0. reflexivity. }
  rewrite E0. apply C_eq; unfold csub, cadd, cmul, copp, cscal, C1; cbn [fst snd]; ring.
Qed.

Lemma gram_entry m p (D : nat -> nat -> C) (v : nat -> C) j : (j < p)%nat ->
  rsum m (fun i => Re (cmul (cconj (D i j)) (v i))) =
  rsum (m + m) (fun r => stack2 m p D r j * stack1 m v r).
Proof.
  intros Hj. rewrite rsum_app, <- rsum_plus. apply rsum_ext. intros i Hi. cbn [stack2 mget stack1 aget].
  assert (Q : (i <? m)%nat = true) by (apply Nat.ltb_lt; auto).
  assert (Q' : (m + i <? m)%nat = false) by (apply Nat.ltb_ge; lia). rewrite Q, Q'.
  replace (m + i - m)%nat with i by lia. unfold Re, Im, cmul, cconj. cbn [fst snd]. ring.
Qed.

Lemma iir_htau_target (H : arr C) f Fs tau inv t : iir_target inv H f Fs tau t ->
  forall i, (i < alen f)%nat -> iir_htau H f Fs tau inv i = t i.
Proof.
  intros T i Hi. specialize (T i Hi). unfold iir_htau. change (2 * PI * f i / Fs) with (radf f Fs i).
  destruct inv; [|rewrite T; apply cmul_comm].
  assert (K : cis (- (radf f Fs i * tau)) <> C0).
  { intros E. pose proof (sin2_cos2 (- (radf f Fs i * tau))) as K. unfold Rsqr in K. apply (f_equal cnorm2) in E.
    unfold cnorm2, cis, C0 in E. cbn [fst snd] in E. lra. }
  assert (Hn : H i <> C0) by (intros E; rewrite E, cmul_0_l in T; auto).
  rewrite <- T, (cmul_comm (H i)), <- cmul_assoc, cmul_inv_r by auto. apply cmul_1_r.
Qed.

Lemma fit_least lstsq (H : arr C) tau f Fs Na Nb inv t : exact_lstsq lstsq ->
  iir_target inv H f Fs tau t ->
  iir_fits f Fs t Nb Na (fst (fitIIR lstsq H tau f Fs Na Nb inv)) (snd (fitIIR lstsq H tau f Fs Na Nb inv)).
Proof.
  intros X T. unfold fitIIR.
  set (p := (Na + S Nb)%nat). set (D := iir_D H f Fs tau Na inv).
  set (T1 := mkMat p p _). set (T2 := mkArr p _). set (ab := lstsq T1 T2).
  pose proof (X T1 T2 eq_refl) as LS. fold ab in LS.
  assert (Lab : alen ab = p) by (destruct LS as [L _]; exact L).
  assert (LX : least_squares (stack2 (alen f) p D) (stack1 (alen f) (fun i => copp (iir_htau H f Fs tau inv i))) ab).
  { apply (gram_least _ _ ab p (alen f + alen f) T1 T2); auto.
    - intros j l Hj Hl. cbn [T1 mget]. rewrite (gram_entry _ p) by auto. apply rsum_ext. intros r Hr. f_equal.
    - intros j Hj. cbn [T2 aget]. rewrite (gram_entry _ p) by auto. auto. }
  cbn [fst snd]. split; [cbn [slice alen]; lia|]. split; [reflexivity|]. split; [reflexivity|].
  intros b' a' Lb' La' A0'. destruct LX as [_ Min].
  specialize (Min (fun j => if (j <? Na)%nat then a' (S j) else b' (j - Na)%nat)).
  cbn [mrows stack2] in Min. fold (stack2 (alen f) p D) in Min. rewrite !sqdist_stack in Min.
  assert (Q : forall (b a : vec) (c : nat -> R), alen b = S Nb -> alen a = S Na -> a 0%nat = 1 ->
     (forall j, (j < Na)%nat -> c j = a (S j)) -> (forall j, (j < S Nb)%nat -> c (Na + j)%nat = b j) ->
     rsum (alen f) (fun i => cnorm2 (csub (lin p c (D i)) (copp (iir_htau H f Fs tau inv i)))) = iir_misfit f Fs t b a).
  { intros b a c Lb La A0 Ea Eb. apply rsum_ext. intros i Hi. unfold D, p.
    rewrite (iir_lin H f Fs tau Na Nb inv b a c i) by auto.
    rewrite (iir_htau_target H f Fs tau inv t T i Hi). auto. }
  rewrite (Q (slice ab Na (alen ab)) (mkArr (S Na) (fun i => match i with O => 1 | S j => ab j end)) ab) in Min; auto.
  - rewrite (Q b' a') in Min; auto.
    + intros j Hj. assert (Z : (j <? Na)%nat = true) by (apply Nat.ltb_lt; auto). rewrite Z. auto.
    + intros j Hj. assert (Z : (Na + j <? Na)%nat = false) by (apply Nat.ltb_ge; lia). rewrite Z. f_equal. lia.
  - cbn [slice alen]. lia.
Qed.

Lemma fit_unique f Fs t Nb Na (b a h g : vec) : iir_fits f Fs t Nb Na b a -> iir_determines f Fs t Nb Na ->
  alen h = S Nb -> alen g = S Na -> g 0%nat = 1 ->
  (forall i, (i < alen f)%nat -> cmul (t i) (freq_resp g (radf f Fs i)) = freq_resp h (radf f Fs i)) ->
  veq b h /\ veq a g.
Proof.
  intros [Lb [La [A0 Min]]] D Lh Lg G0 E. specialize (Min h g Lh Lg G0).
  assert (Z : iir_misfit f Fs t h g = 0).
  { apply rsum_zero. intros i Hi. rewrite E by auto. rewrite csub_diag. unfold cnorm2, C0. cbn. ring. }
  rewrite Z in Min.
  assert (E0 : iir_misfit f Fs t b a = 0).
  { apply Rle_antisym; auto. apply rsum_nonneg. intros. apply cnorm2_nonneg. }
  assert (Sub : forall L (x y : vec) w, alen x = L -> alen y = L ->
     freq_resp (mkArr L (fun j => x j - y j)) w = csub (freq_resp x w) (freq_resp y w)).
  { intros L x y w Lx Ly. unfold freq_resp. cbn [alen aget]. rewrite Lx, Ly.
    apply C_eq; unfold csub; cbn [fst snd]; rewrite ?csum_fst, ?csum_snd, <- rsum_minus; apply rsum_ext; intros; cbn; ring. }
  destruct (D (mkArr (S Nb) (fun j => b j - h j)) (mkArr (S Na) (fun j => a j - g j))) as [Db Da]; auto.
  - cbn [aget]. lra.
  - intros i Hi. rewrite !Sub by auto.
    assert (K : cnorm2 (csub (cmul (t i) (freq_resp a (radf f Fs i))) (freq_resp b (radf f Fs i))) = 0).
    { apply (rsum_nonneg_zero (alen f) (fun i => cnorm2 (csub (cmul (t i) (freq_resp a (radf f Fs i))) (freq_resp b (radf f Fs i))))); auto.
      intros. apply cnorm2_nonneg. }
    apply cnorm2_zero in K. apply csub_eq_0 in K. rewrite <- K, <- E by auto.
    apply C_eq; unfold csub, cmul; cbn [fst snd]; ring.
  - split; (split; [congruence|]); intros j Hj.
    + specialize (Db j ltac:(lia)). cbn [aget] in Db. lra.
    + specialize (Da j ltac:(lia)). cbn [aget] in Da. lra.
Qed.

(** ** Median, ceiling, truncation *)
Lemma insert_perm x l : Permutation (x :: l) (insert_sorted x l).
Proof.
  induction l as [|y l IH]; cbn [insert_sorted]; [auto|]. destruct (Rle_dec x y); auto.
  apply perm_trans with (y :: x :: l); [constructor|]. auto.
Qed.
Lemma sort_perm l : Permutation l (sort_list l).
Proof.
  induction l as [|x l IH]; cbn [sort_list fold_right]; auto.
  apply perm_trans with (x :: sort_list l); [auto|]. apply insert_perm.
Qed.
Lemma insert_hd x y l : HdRel Rle y l -> y <= x -> HdRel Rle y (insert_sorted x l).
Proof.
  intros H Hx. destruct l as [|z l]; cbn [insert_sorted]; [constructor; auto|].
  destruct (Rle_dec x z); constructor; auto. inversion H; auto.
Qed.
Lemma insert_sorted_ok x l : Sorted Rle l -> Sorted Rle (insert_sorted x l).
Proof.
  induction l as [|y l IH]; cbn [insert_sorted]; intros H; [auto|].
  destruct (Rle_dec x y) as [L|L]; [constructor; auto|].
  inversion H; subst. constructor; auto. apply insert_hd; auto. lra.
Qed.
Lemma sort_sorted l : Sorted Rle (sort_list l).
Proof. induction l; cbn [sort_list fold_right]; auto. apply insert_sorted_ok; auto. Qed.

Lemma median_ok v : is_median v (median v).
Proof.
  exists (sort_list (map v (seq 0 (alen v)))). split; [apply sort_perm|]. split; [apply sort_sorted|].
  unfold median. cbn zeta. destruct (Nat.even (alen v)) eqn:E.
  - apply Nat.even_spec in E. destruct E as [k E]. rewrite E.
    destruct k as [|k]; [reflexivity|].
    replace ((2 * S k) / 2 - 1)%nat with k by (rewrite Nat.mul_comm, Nat.div_mul; lia).
    replace ((2 * S k - 1) / 2)%nat with k; [reflexivity|].
    replace (2 * S k - 1)%nat with (1 + k * 2)%nat by lia. rewrite Nat.div_add by lia. reflexivity.
  - assert (O : Nat.odd (alen v) = true) by (unfold Nat.odd; rewrite E; auto).
    apply Nat.odd_spec in O. destruct O as [k O]. rewrite O.
    replace ((2 * k + 1 - 1) / 2)%nat with k by (replace (2 * k + 1 - 1)%nat with (k * 2)%nat by lia; rewrite Nat.div_mul; lia).
    replace ((2 * k + 1) / 2)%nat with k; [field|].
    replace (2 * k + 1)%nat with (1 + k * 2)%nat by lia. rewrite Nat.div_add by lia. reflexivity.
Qed.
Lemma ceil_ok x : is_ceil x (np_ceil x).
Proof.
  unfold np_ceil. split; [exists (- Int_part (- x))%Z; rewrite opp_IZR; auto|].
  destruct (base_Int_part (- x)) as [A B]. lra.
Qed.
Lemma trunc_ok x : is_trunc x (Rtrunc x).
Proof.
  unfold Rtrunc. destruct (Rle_dec 0 x) as [P|P].
  - destruct (base_Int_part x) as [A B].
    assert (I : 0 <= IZR (Int_part x)).
    { apply (IZR_le 0). assert (-1 < IZR (Int_part x)) by lra. apply (lt_IZR (-1)) in H. lia. }
    split; [eexists; reflexivity|]. split; [apply Rmult_le_pos; auto|].
    rewrite !Rabs_pos_eq by auto. lra.
  - destruct (base_Int_part (- x)) as [A B].
    assert (I : 0 <= IZR (Int_part (- x))).
    { apply (IZR_le 0). assert (-1 < IZR (Int_part (- x))) by lra. apply (lt_IZR (-1)) in H. lia. }
    split; [exists (- Int_part (- x))%Z; rewrite opp_IZR; auto|].
    split. { replace (x * - IZR (Int_part (- x))) with ((- x) * IZR (Int_part (- x))) by ring. apply Rmult_le_pos; lra. }
    rewrite (Rabs_left x), Rabs_Ropp, Rabs_pos_eq by lra. lra.
Qed.
Lemma trunc_int z : Rtrunc (IZR z) = IZR z.
Proof.
  destruct (trunc_ok (IZR z)) as [[y E] [S B]]. rewrite E in *. f_equal.
  rewrite <- !abs_IZR in B. rewrite <- mult_IZR in S. apply (le_IZR 0) in S.
  destruct B as [B1 B2]. apply le_IZR in B1. rewrite <- plus_IZR in B2. apply lt_IZR in B2. nia.
Qed.

(** ** The loop *)
Lemma outside_root roots a : has_outside_root roots a = true ->
  exists z, In z (roots a) /\ 1 < cabs z.
Proof.
  unfold has_outside_root. intros E. apply existsb_exists in E. destruct E as [z [I L]].
  exists z. split; auto. apply rltb_true in L. auto.
Qed.
Lemma no_outside_root roots a : has_outside_root roots a = false ->
  forall z, In z (roots a) -> cabs z <= 1.
Proof.
  unfold has_outside_root. intros E z I. destruct (Rle_dec (cabs z) 1) as [|N]; auto. exfalso.
  assert (K : existsb (fun z => rltb 1 (cabs z)) (roots a) = true).
  { apply existsb_exists. exists z. split; auto. apply rltb_true. lra. }
  congruence.
Qed.

Section Loop.
  Variable (fit : R -> vec * vec) (roots : vec -> list C) (Fs : R).
  Definition passes_to (t t' : R) : Prop :=
    has_outside_root roots (snd (fit t)) = true /\
    next_tau (fst (fit t)) (snd (fit t)) (mapped roots (snd (fit t))) Fs t = Ok t'.
  Hypothesis next_ok : forall t, exists t',
    next_tau (fst (fit t)) (snd (fit t)) (mapped roots (snd (fit t))) Fs t = Ok t'.
  Lemma loop_trace maxiter : forall fuel run tau astab,
    (maxiter - run <= fuel)%nat -> (run <= maxiter)%nat ->
    (has_outside_root roots (snd (fit tau)) = true -> astab = mapped roots (snd (fit tau))) ->
    exists n taus, (n <= maxiter - run)%nat /\ taus 0%nat = tau /\
      (forall k, (k < n)%nat -> passes_to (taus k) (taus (S k))) /\
      iir_loop fit roots Fs maxiter fuel run (negb (has_outside_root roots (snd (fit tau)))) tau
        (fst (fit tau)) (snd (fit tau)) astab
      = Some (Ok (fst (fit (taus n)), snd (fit (taus n)), taus n)) /\
      ((n < maxiter - run)%nat -> has_outside_root roots (snd (fit (taus n))) = false).
  Proof.
    induction fuel as [|fuel IH]; intros run tau astab Hf Hr Ha.
    - assert (Q : (run <? maxiter)%nat = false) by (apply Nat.ltb_ge; lia).
      exists 0%nat, (fun _ => tau). split; [lia|]. split; auto. split; [lia|].
      cbn [iir_loop]. rewrite Q, Bool.andb_false_r. split; auto. lia.
    - destruct (has_outside_root roots (snd (fit tau))) eqn:E.
      + destruct (run <? maxiter)%nat eqn:Q.
        * apply Nat.ltb_lt in Q. destruct (next_ok tau) as [t' Ht'].
          destruct (IH (S run) t' (if has_outside_root roots (snd (fit t')) then mapped roots (snd (fit t')) else astab))
            as [n [taus [Hn [T0 [Hp [EL St]]]]]]; [lia|lia| |].
          { intros Z. rewrite Z. auto. }
          exists (S n), (fun k => match k with O => tau | S j => taus j end).
          split; [lia|]. split; auto. split; [|split].
          -- intros [|k] Hk; [rewrite T0; split; auto|apply Hp; lia].
          -- cbn [iir_loop negb andb]. assert (Q' : (run <? maxiter)%nat = true) by (apply Nat.ltb_lt; auto). rewrite Q'.
             rewrite (Ha eq_refl) in EL |- *. rewrite Ht'. destruct (fit t') as [b' a'] eqn:Ef. cbn [fst snd] in EL.
             destruct (has_outside_root roots a'); cbn [negb] in EL; exact EL.
          -- intros Hl. apply St. lia.
        * exists 0%nat, (fun _ => tau). split; [lia|]. split; auto. split; [lia|].
          cbn [iir_loop]. rewrite Q, Bool.andb_false_r. split; auto. apply Nat.ltb_ge in Q. lia.
      + exists 0%nat, (fun _ => tau). split; [lia|]. split; auto. split; [lia|].
        cbn [iir_loop negb andb]. split; auto.
  Qed.
End Loop.

Lemma grpdelay_total (b a : vec) Fs : (0 < alen b)%nat -> (0 < alen a)%nat -> exists g, grpdelay b a Fs 512 = Ok g.
Proof.
  intros Hb Ha. unfold grpdelay, convolve_full. cbn [reversed_arr alen].
  destruct (alen b =? 0)%nat eqn:Q; [apply Nat.eqb_eq in Q; lia|].
  destruct (alen a =? 0)%nat eqn:Q'; [apply Nat.eqb_eq in Q'; lia|]. cbn [orb bind]. eexists. reflexivity.
Qed.
Lemma next_total roots (b a : vec) Fs t : (0 < alen b)%nat -> (0 < alen a)%nat ->
  exists t', next_tau b a (mapped roots a) Fs t = Ok t'.
Proof.
  intros Hb Ha. unfold next_tau.
  destruct (grpdelay_total b a Fs Hb Ha) as [g1 ->].
  destruct (grpdelay_total b (mapped roots a) Fs Hb) as [g2 ->]; [|eexists; reflexivity].
  unfold mapped, mapinside. cbn [alen np_poly]. lia.
Qed.

Lemma loop_fuel fit roots Fs maxiter : forall fuel fuel' run stable tau b a astab,
  (maxiter - run <= fuel)%nat -> (maxiter - run <= fuel')%nat ->
  iir_loop fit roots Fs maxiter fuel run stable tau b a astab =
  iir_loop fit roots Fs maxiter fuel' run stable tau b a astab /\
  iir_loop fit roots Fs maxiter fuel run stable tau b a astab <> None.
Proof.
  induction fuel as [|fuel IH]; intros fuel' run stable tau b a astab H H'.
  - assert (Q : (run <? maxiter)%nat = false) by (apply Nat.ltb_ge; lia).
    destruct fuel'; cbn [iir_loop]; rewrite Q, Bool.andb_false_r; split; auto; discriminate.
  - destruct fuel' as [|fuel'].
    + assert (Q : (run <? maxiter)%nat = false) by (apply Nat.ltb_ge; lia).
      cbn [iir_loop]; rewrite Q, Bool.andb_false_r; split; auto; discriminate.
    + cbn [iir_loop]. destruct (negb stable && (run <? maxiter)%nat)%bool; [|split; auto; discriminate].
      destruct (next_tau b a astab Fs tau) as [t'|e]; [|split; auto; discriminate].
      destruct (fit t') as [b' a']. destruct (has_outside_root roots a'); apply IH; lia.
Qed.

(** The fit depends on the responses at the given frequencies only. *)
Lemma fit_ext lstsq (H H' : arr C) tau f Fs Na Nb inv :
  (forall i, (i < alen f)%nat -> H i = H' i) ->
  fitIIR lstsq H tau f Fs Na Nb inv = fitIIR lstsq H' tau f Fs Na Nb inv.
Proof.
  intros E. unfold fitIIR.
  assert (Eh : forall i, (i < alen f)%nat -> iir_htau H f Fs tau inv i = iir_htau H' f Fs tau inv i).
  { intros i Hi. unfold iir_htau. rewrite E by auto. auto. }
  assert (ED : forall i j, (i < alen f)%nat -> iir_D H f Fs tau Na inv i j = iir_D H' f Fs tau Na inv i j).
  { intros i j Hi. unfold iir_D. rewrite Eh by auto. auto. }
  assert (T1 : mkMat (Na + S Nb) (Na + S Nb) (fun j l => rsum (alen f) (fun i => Re (cmul (cconj (iir_D H f Fs tau Na inv i j)) (iir_D H f Fs tau Na inv i l))))
             = mkMat (Na + S Nb) (Na + S Nb) (fun j l => rsum (alen f) (fun i => Re (cmul (cconj (iir_D H' f Fs tau Na inv i j)) (iir_D H' f Fs tau Na inv i l))))).
  { f_equal. apply functional_extensionality. intros j. apply functional_extensionality. intros l.
    apply rsum_ext. intros i Hi. rewrite !ED by auto. auto. }
  assert (T2 : mkArr (Na + S Nb) (fun j => rsum (alen f) (fun i => Re (cmul (cconj (iir_D H f Fs tau Na inv i j)) (copp (iir_htau H f Fs tau inv i)))))
             = mkArr (Na + S Nb) (fun j => rsum (alen f) (fun i => Re (cmul (cconj (iir_D H' f Fs tau Na inv i j)) (copp (iir_htau H' f Fs tau inv i)))))).
  { f_equal. apply functional_extensionality. intros j.
    apply rsum_ext. intros i Hi. rewrite ED, Eh by auto. auto. }
  rewrite T1, T2. reflexivity.
Qed.
Lemma invLSIIR_ext lstsq roots fuel (H H' : arr C) Nb Na f Fs tau jf :
  alen H = alen f -> alen H' = alen f -> (forall i, (i < alen f)%nat -> H i = H' i) ->
  invLSIIR lstsq roots fuel H Nb Na f Fs tau jf = invLSIIR lstsq roots fuel H' Nb Na f Fs tau jf.
Proof.
  intros L L' E. unfold invLSIIR, iir_values. rewrite L, L', Nat.eqb_refl.
  assert (EF : forall t, fitIIR lstsq H t f Fs Na Nb true = fitIIR lstsq H' t f Fs Na Nb true) by (intros; apply fit_ext; auto).
  assert (EF' : (fun t => fitIIR lstsq H t f Fs Na Nb true) = (fun t => fitIIR lstsq H' t f Fs Na Nb true)) by (apply functional_extensionality; auto).
  unfold iir_stabilise. rewrite EF, EF'. reflexivity.
Qed.
