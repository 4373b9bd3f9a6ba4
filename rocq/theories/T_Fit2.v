(** Truncated singular value decomposition in invLSFIR_unc (C112). *)
From Coq Require Import Reals List Arith ZArith Bool Lia Lra.
From Verif Require Import Base Sums Cplx M_DFT M_FilterStuff M_MC M_Fit S_Poly S_Fit S_MC
  P_Poly P_FStuff P_MC P_LinAlg P_Fit P_Fit2 T_Fit.
Import ListNotations.
Open Scope R_scope.

Section Trunc.
  Variables (X u : mat) (s : vec) (v : mat) (tol : R).
  Hypothesis Hs : is_svd X u s v.
  Let st := trunc_s (Some tol) s.
  (** The design matrix without the dropped part *)
  Let Xt := mkMat (mrows X) (mcols X) (fun i j => rsum (alen s) (fun k => u i k * st k * v k j)).

  Lemma st_val k : st k = if Rlt_dec (s k) tol then 0 else s k.
  Proof. reflexivity. Qed.
  Lemma trunc_is_svd : is_svd Xt u st v.
  Proof.
    destruct Hs as (A & B & D & E & P & F & Ou & Ov).
    split; [exact A|]. split; [exact B|]. split; [exact D|]. split; [exact E|]. split.
    { intros k Hk. rewrite st_val. destruct (Rlt_dec (s k) tol); [lra|apply P; exact Hk]. }
    split; [intros i j Hi Hj; reflexivity|]. split; [exact Ou|exact Ov].
  Qed.
  Lemma trunc_mv (c : nat -> R) :
    (forall k, (k < alen s)%nat -> s k < tol -> rsum (mcols X) (fun j => v k j * c j) = 0) ->
    forall i, (i < mrows X)%nat -> mv X c i = mv Xt c i.
  Proof.
    intros Hc i Hi. destruct Hs as (_ & _ & _ & _ & _ & F & _ & _).
    assert (G : forall (q : nat -> R) (Y : mat), mcols Y = mcols X ->
       (forall j, (j < mcols X)%nat -> Y i j = rsum (alen s) (fun k => u i k * q k * v k j)) ->
       mv Y c i = rsum (alen s) (fun k => u i k * q k * rsum (mcols X) (fun j => v k j * c j))).
    { intros q Y EY HY. unfold mv. rewrite EY.
      rewrite (rsum_ext (mcols X) _ (fun j => rsum (alen s) (fun k => u i k * q k * (v k j * c j)))).
      - rewrite rsum_swap. apply rsum_ext. intros k Hk. rewrite rsum_scal. reflexivity.
      - intros j Hj. rewrite HY by exact Hj. rewrite <- rsum_scal_r. apply rsum_ext. intros; ring. }
    rewrite (G (aget s) X), (G (aget st) Xt); try reflexivity.
    - apply rsum_ext. intros k Hk. rewrite st_val. destruct (Rlt_dec (s k) tol) as [L|L]; [|reflexivity].
      rewrite (Hc k Hk L). ring.
    - intros j Hj. symmetry. apply F; auto.
  Qed.
  Lemma pinv_proj (q : vec) (y : nat -> R) k : alen q = alen s -> (k < alen s)%nat ->
    rsum (mcols X) (fun j => v k j * rsum (mcols (svd_pinv u q v)) (fun i => svd_pinv u q v j i * y i))
    = stsinv (q k) * q k * rsum (mrows u) (fun i => u i k * y i).
  Proof.
    intros Lq Hk. destruct Hs as (A & _ & _ & _ & _ & _ & _ & Ov).
    rewrite (rsum_ext (mcols X) _ (fun j => rsum (alen s) (fun l => v k j * v l j *
      (stsinv (q l) * q l * rsum (mrows u) (fun i => u i l * y i))))).
    - rewrite rsum_swap.
      rewrite (rsum_ext (alen s) _ (fun l => kron k l * (stsinv (q l) * q l * rsum (mrows u) (fun i => u i l * y i)))).
      + apply (rsum_kron (alen s) k (fun l => stsinv (q l) * q l * rsum (mrows u) (fun i => u i l * y i))). exact Hk.
      + intros l Hl. rewrite rsum_scal_r, Ov by auto. reflexivity.
    - intros j Hj. cbn [svd_pinv mcols mget]. rewrite Lq.
      rewrite (rsum_ext (mrows u) _ (fun i => rsum (alen s) (fun l => v l j * stsinv (q l) * q l * u i l * y i)))
        by (intros; rewrite rsum_scal_r; reflexivity).
      rewrite rsum_swap, <- rsum_scal. apply rsum_ext. intros l Hl. rewrite <- !rsum_scal. apply rsum_ext. intros; ring.
  Qed.
  Lemma st_zero k : s k < tol -> st k = 0.
  Proof. intros L. rewrite st_val. destruct (Rlt_dec (s k) tol); [reflexivity|contradiction]. Qed.
  Lemma pinv_orth (y : nat -> R) k : (k < alen s)%nat -> s k < tol ->
    rsum (mcols X) (fun j => v k j * rsum (mcols (svd_pinv u st v)) (fun i => svd_pinv u st v j i * y i)) = 0.
  Proof. intros Hk L. rewrite (pinv_proj st) by auto. rewrite (st_zero k L). ring. Qed.
  Lemma pinv_cols k i : (k < alen s)%nat -> s k < tol ->
    rsum (mcols X) (fun j => v k j * svd_pinv u st v j i) = 0.
  Proof.
    intros Hk L. destruct Hs as (_ & _ & _ & _ & _ & _ & _ & Ov). cbn [svd_pinv mget].
    change (alen st) with (alen s).
    rewrite (rsum_ext (mcols X) _ (fun j => rsum (alen s) (fun l => v k j * v l j * (stsinv (st l) * st l * u i l)))).
    - rewrite rsum_swap. rewrite (rsum_ext (alen s) _ (fun l => kron k l * (stsinv (st l) * st l * u i l))).
      + rewrite (rsum_kron (alen s) k (fun l => stsinv (st l) * st l * u i l)) by exact Hk. rewrite (st_zero k L). ring.
      + intros l Hl. rewrite rsum_scal_r, Ov by auto. reflexivity.
    - intros j Hj. rewrite <- rsum_scal. apply rsum_ext. intros; ring.
  Qed.

  Variable y : nat -> R.
  Let b i := rsum (mcols (svd_pinv u st v)) (fun j => svd_pinv u st v i j * y j).
  Lemma trunc_min (c : nat -> R) :
    (forall k, (k < alen s)%nat -> s k < tol -> rsum (mcols X) (fun j => v k j * c j) = 0) ->
    sqdist (mrows X) (mv X c) y = sqdist (mrows X) (mv X b) y + sqdist (mrows X) (mv Xt c) (mv Xt b).
  Proof.
    intros Hc. pose proof (normal_expand Xt y b c (svd_normal Xt u st v trunc_is_svd y)) as E.
    change (mrows Xt) with (mrows X) in E. transitivity (sqdist (mrows X) (mv Xt c) y).
    { unfold sqdist. apply rsum_ext. intros i Hi. rewrite (trunc_mv c Hc i Hi). reflexivity. }
    rewrite E. f_equal. unfold sqdist. apply rsum_ext. intros i Hi. rewrite (trunc_mv b); [reflexivity| |exact Hi].
    intros k Hk L. apply pinv_orth; assumption.
  Qed.
  Lemma trunc_min2 (c : nat -> R) :
    (forall k, (k < alen s)%nat -> s k < tol -> rsum (mcols X) (fun j => v k j * c j) = 0) ->
    sqdist (mrows X) (mv X b) y <= sqdist (mrows X) (mv X c) y /\
    (sqdist (mrows X) (mv X c) y = sqdist (mrows X) (mv X b) y ->
     rsum (mcols X) (fun j => b j * b j) <= rsum (mcols X) (fun j => c j * c j)).
  Proof.
    intros Hc.
    pose proof (trunc_min c Hc) as E.
    pose proof (sqdist_nonneg (mrows X) (mv Xt c) (mv Xt b)) as P.
    split; [lra|].
    intros Eq.
    assert (Z : sqdist (mrows X) (mv Xt c) (mv Xt b) = 0) by lra.
    pose proof (sqdist_zero _ _ _ Z) as Zi.
    destruct trunc_is_svd as (_ & _ & _ & _ & Ps & F & Ou & Ov). cbn [Xt mrows mcols] in F, Ou, Ov.
    change (alen st) with (alen s) in *.
    (* st_k v_k.(c-b) = 0 *)
    assert (K : forall k, (k < alen s)%nat -> st k * rsum (mcols X) (fun j => v k j * (c j - b j)) = 0).
    { intros k Hk.
      assert (Q : forall e : nat -> R, rsum (mrows X) (fun i => u i k * mv Xt e i) = st k * rsum (mcols X) (fun j => v k j * e j)).
      { intros e. rewrite (rsum_ext (mrows X) _ (fun i => rsum (alen s) (fun l => u i k * u i l * (st l * rsum (mcols X) (fun j => v l j * e j))))).
        - rewrite rsum_swap. rewrite (rsum_ext (alen s) _ (fun l => kron k l * (st l * rsum (mcols X) (fun j => v l j * e j)))).
          + apply (rsum_kron (alen s) k (fun l => st l * rsum (mcols X) (fun j => v l j * e j))). exact Hk.
          + intros l Hl. rewrite rsum_scal_r, Ou by auto. reflexivity.
        - intros i Hi. unfold mv. cbn [Xt mcols mget].
          rewrite (rsum_ext (mcols X) _ (fun j => rsum (alen s) (fun l => u i l * st l * (v l j * e j)))).
          + rewrite rsum_swap, <- rsum_scal. apply rsum_ext. intros l Hl. rewrite rsum_scal. ring.
          + intros j Hj. rewrite <- rsum_scal_r. apply rsum_ext. intros; ring. }
      rewrite (rsum_ext (mcols X) _ (fun j => v k j * c j - v k j * b j)) by (intros; ring).
      rewrite rsum_minus, Rmult_minus_distr_l, <- !Q, <- rsum_minus. apply rsum_zero. intros i Hi.
      rewrite Zi by exact Hi. ring. }
    assert (O : rsum (mcols X) (fun j => b j * (c j - b j)) = 0).
    { rewrite (rsum_ext (mcols X) _ (fun j => rsum (alen s) (fun k =>
        (stsinv (st k) * rsum (mrows X) (fun i => u i k * y i)) * (st k * (v k j * (c j - b j)))))).
      - rewrite rsum_swap. apply rsum_zero. intros k Hk. rewrite rsum_scal, rsum_scal, (K k Hk). ring.
      - intros j Hj. unfold b at 1. rewrite (pinv_row Xt u st v trunc_is_svd y j). cbn [Xt mrows].
        change (alen st) with (alen s). rewrite <- rsum_scal_r. apply rsum_ext. intros; ring. }
    assert (N : rsum (mcols X) (fun j => c j * c j) =
      rsum (mcols X) (fun j => b j * b j) + 2 * rsum (mcols X) (fun j => b j * (c j - b j))
      + rsum (mcols X) (fun j => (c j - b j) * (c j - b j))).
    { rewrite <- rsum_scal, <- !rsum_plus. apply rsum_ext. intros; ring. }
    assert (0 <= rsum (mcols X) (fun j => (c j - b j) * (c j - b j))) by (apply rsum_nonneg; intros; apply Rle_0_sqr).
    lra.
  Qed.
End Trunc.

(** Directions of the coefficient space with a singular value below tol are dropped: the
    result is orthogonal to them and has no uncertainty in them, it is a least squares fit
    among all coefficients orthogonal to them, and of these fits the shortest one. *)
Theorem C112_truncated mvn svd (H : arr C) UH N tau f Fs runs (Hc t : nat -> C) tol :
  response_form H UH f Hc -> svd_for svd f Fs (S N) ->
  (forall i, (i < alen f)%nat -> cmul (Hc i) (t i) = cis (- (radf f Fs i * tau))) ->
  exists X u s v b Ub, fir_design_matrix f Fs (S N) X /\ svd X = (u, s, v) /\ is_svd X u s v /\
    invLSFIR_unc mvn svd H UH N tau f Fs None (Some tol) runs = Ok (b, Ub) /\ alen b = S N /\
    let dropped := fun k => (k < alen s)%nat /\ s k < tol in
    let along := fun k (c : nat -> R) => rsum (S N) (fun j => v k j * c j) in
    (forall k, dropped k -> along k b = 0 /\ forall j, (j < S N)%nat -> along k (fun i => Ub i j) = 0) /\
    forall c : vec, alen c = S N -> (forall k, dropped k -> along k c = 0) ->
      fir_misfit f Fs t b <= fir_misfit f Fs t c /\
      (fir_misfit f Fs t c = fir_misfit f Fs t b ->
       rsum (S N) (fun j => b j * b j) <= rsum (S N) (fun j => c j * c j)).
Proof.
  intros RF SV Ht.
  set (X := mkMat (alen f + alen f) (S N) (fun r n => 1 * stack2 (alen f) (S N) (Eexp f Fs) r n)).
  pose proof (SV _ (design_ok f Fs N)) as Sv. fold X in Sv. destruct (svd X) as [[u s] v] eqn:ES. cbn [fst snd] in Sv.
  exists X, u, s, v.
  assert (Shape : exists b Ub, invLSFIR_unc mvn svd H UH N tau f Fs None (Some tol) runs = Ok (b, Ub) /\
    alen b = mcols v /\
    (forall i, b i = rsum (mcols (svd_pinv u (trunc_s (Some tol) s) v)) (fun j => svd_pinv u (trunc_s (Some tol) s) v i j *
       stack1 (alen f) (fun i => cinv (cmul (if (alen H =? alen f)%nat then H i else (fst (H i), fst (H (alen f + i)%nat)))
                           (cis (2 * PI * f i / Fs * tau)))) j)) /\
    exists W, forall i j, Ub i j = mdot (mdot (svd_pinv u (trunc_s (Some tol) s) v) W) (transp (svd_pinv u (trunc_s (Some tol) s) v)) i j).
  { destruct RF as [Er [Ec [Pos F]]]. unfold invLSFIR_unc.
    destruct F as [[LH F]|[LH F]].
    - assert (Q : (alen H =? mrows UH)%nat = false) by (apply Nat.eqb_neq; lia). rewrite Q. cbn [negb].
      unfold draw_mvn. cbn [alen stack1]. rewrite Er, Ec, LH, !Nat.eqb_refl. cbn [andb bind negb].
      change (mkMat (mrows (stack2 (alen f) (S N) (Eexp f Fs))) (mcols (stack2 (alen f) (S N) (Eexp f Fs)))
         (fun r n => 1 * stack2 (alen f) (S N) (Eexp f Fs) r n)) with X.
      rewrite ES. eexists _, _. split; [reflexivity|]. split; [reflexivity|]. split; [intros i; reflexivity|].
      eexists. reflexivity.
    - assert (Q : (alen H =? mrows UH)%nat = true) by (apply Nat.eqb_eq; lia). rewrite Q. cbn [negb].
      unfold draw_mvn. cbn [alen]. rewrite Er, Ec, LH, !Nat.eqb_refl. cbn [andb bind negb].
      change (mkMat (mrows (stack2 (alen f) (S N) (Eexp f Fs))) (mcols (stack2 (alen f) (S N) (Eexp f Fs)))
         (fun r n => 1 * stack2 (alen f) (S N) (Eexp f Fs) r n)) with X.
      rewrite ES. assert (Q2 : (alen f + alen f =? alen f)%nat = false) by (apply Nat.eqb_neq; lia). rewrite Q2.
      eexists _, _. split; [reflexivity|]. split; [reflexivity|]. split; [intros i; reflexivity|].
      eexists. reflexivity. }
  destruct Shape as (b & Ub & E & Lb & Hb & W & HU).
  exists b, Ub. split; [apply design_ok|]. split; [exact ES|]. split; [exact Sv|]. split; [exact E|].
  assert (Lb' : alen b = S N) by (rewrite Lb; destruct Sv as (_ & _ & _ & Q & _); rewrite Q; reflexivity).
  split; [exact Lb'|]. cbv zeta.
  set (y := stack1 (alen f) t).
  set (bb := fun i => rsum (mcols (svd_pinv u (trunc_s (Some tol) s) v)) (fun j => svd_pinv u (trunc_s (Some tol) s) v i j * y j)).
  assert (Eb : forall i, b i = bb i).
  { intros i. rewrite Hb. apply rsum_ext. intros r Hr. f_equal. cbn [mcols svd_pinv] in Hr.
    destruct Sv as [Q _]. rewrite Q in Hr. cbn [X mrows] in Hr.
    assert (TT : forall i, (i < alen f)%nat -> cinv (cmul (if (alen H =? alen f)%nat then H i
        else (fst (H i), fst (H (alen f + i)%nat))) (cis (2 * PI * f i / Fs * tau))) = t i).
    { intros q Hq. apply target_unique. rewrite <- (Ht q Hq : _ = cis (- (2 * PI * f q / Fs * tau))). f_equal.
      destruct RF as [_ [_ [Pos [[L F]|[L F]]]]]; rewrite F by auto; rewrite L.
      - rewrite Nat.eqb_refl. auto.
      - assert (Z : (alen f + alen f =? alen f)%nat = false) by (apply Nat.eqb_neq; lia). rewrite Z. auto. }
    unfold y. cbn [stack1 aget]. destruct (r <? alen f)%nat eqn:Z.
    - apply Nat.ltb_lt in Z. unfold Re. rewrite TT by auto. auto.
    - apply Nat.ltb_ge in Z. unfold Im. rewrite TT by lia. auto. }
  assert (Mf : forall d : vec, alen d = S N -> sqdist (mrows X) (mv X d) y = fir_misfit f Fs t d).
  { intros d Ld. unfold X. cbn [mrows].
    transitivity (sqdist (alen f + alen f) (mv (stack2 (alen f) (S N) (Eexp f Fs)) d) y).
    - apply rsum_ext. intros i Hi. do 2 f_equal. unfold mv. cbn [mcols mget stack2]. apply rsum_ext. intros. ring.
    - unfold y. rewrite sqdist_stack. apply rsum_ext. intros i Hi. rewrite lin_freq by auto. auto. }
  assert (Mb : sqdist (mrows X) (mv X bb) y = fir_misfit f Fs t b).
  { rewrite <- (Mf b Lb'). unfold sqdist. apply rsum_ext. intros i Hi. do 2 f_equal. apply mv_ext. intros k Hk.
    symmetry. apply Eb. }
  split.
  - intros k [Hk L]. split.
    + rewrite <- (pinv_orth X u s v tol Sv y k Hk L). apply rsum_ext. intros j Hj. rewrite Eb. reflexivity.
    + intros j Hj. rewrite (rsum_ext (S N) _ (fun i => rsum (mcols W) (fun q => rsum (mcols (svd_pinv u (trunc_s (Some tol) s) v))
         (fun p => (v k i * svd_pinv u (trunc_s (Some tol) s) v i p) * W p q) * svd_pinv u (trunc_s (Some tol) s) v j q))).
      * rewrite rsum_swap. apply rsum_zero. intros q Hq. rewrite rsum_scal_r, rsum_swap.
        rewrite rsum_zero; [ring|]. intros p Hp. rewrite rsum_scal_r.
        replace (rsum (S N) _) with 0; [ring|]. symmetry. exact (pinv_cols X u s v tol Sv k p Hk L).
      * intros i Hi. rewrite HU. unfold mdot. cbn [mget mcols transp]. rewrite <- rsum_scal. apply rsum_ext. intros q Hq.
        rewrite <- Rmult_assoc, <- rsum_scal. f_equal. apply rsum_ext. intros; ring.
  - intros c Lc Hcc.
    destruct (trunc_min2 X u s v tol Sv y c) as [M1 M2].
    { intros k Hk L. apply Hcc. split; assumption. }
    fold bb in M1, M2. rewrite Mb in M1, M2. rewrite Mf in M1, M2 by exact Lc.
    split; [exact M1|]. intros Eq. specialize (M2 Eq).
    rewrite (rsum_ext (S N) (fun j => b j * b j) (fun j => bb j * bb j)) by (intros; rewrite !Eb; reflexivity). exact M2.
Qed.
Print Assumptions C112_truncated.

(** One frequency, f = 0, two coefficients: the design has the rows (1, 1) and (0, 0) and
    the singular values sqrt 2 and 0. *)
Definition svd_dc (_ : mat) : mat * vec * mat :=
  (of_rows [[1; 0]; [0; 1]], of_list [sqrt 2; 0], of_rows [[/ sqrt 2; / sqrt 2]; [/ sqrt 2; - / sqrt 2]]).
Lemma sqrt2_facts : 1 < sqrt 2 < 2 /\ sqrt 2 * sqrt 2 = 2.
Proof.
  split; [|apply sqrt_sqrt; lra]. split.
  - rewrite <- sqrt_1. apply sqrt_lt_1; lra.
  - rewrite <- (sqrt_square 2) at 2 by lra. apply sqrt_lt_1; lra.
Qed.
Lemma svd_dc_ok : svd_for svd_dc (of_list [0]) 1 2.
Proof.
  destruct sqrt2_facts as [[S1 _] S2]. set (q := sqrt 2) in *.
  assert (I2 : / q * / q = 1 / 2) by (rewrite <- Rinv_mult, S2; lra).
  intros X [Er [Ec E]]. cbn [alen of_list length] in *. cbn [svd_dc fst snd]. fold q.
  assert (E0 : X 0%nat 0%nat = 1 /\ X 1%nat 0%nat = 0 /\ X 0%nat 1%nat = 1 /\ X 1%nat 1%nat = 0).
  { destruct (E 0%nat 0%nat ltac:(lia) ltac:(lia)) as [A B]. destruct (E 0%nat 1%nat ltac:(lia) ltac:(lia)) as [A' B'].
    assert (Z : radf (of_list [0]) 1 0 = 0) by (unfold radf; cbn; field). rewrite Z, !Rmult_0_l, ?cos_0, ?sin_0 in *.
    cbn in B, B'. repeat split; lra. }
  destruct E0 as [A [B [A' B']]]. unfold is_svd. rewrite Er, Ec. cbn [alen of_list length mrows mcols of_rows hd Nat.add].
  repeat (split; [reflexivity|]). split.
  { intros k Hk. destruct k as [|[|k]]; cbn; [lra|lra|lia]. }
  assert (Two : forall i, (i < 2)%nat -> i = 0%nat \/ i = 1%nat) by lia.
  assert (Q : q * / q = 1) by (apply Rinv_r; lra).
  repeat split; intros i j Hi Hj; destruct (Two i Hi) as [-> | ->], (Two j Hj) as [-> | ->];
    cbn; rewrite ?A, ?B, ?A', ?B'; unfold kron; cbn; lra.
Qed.
(** tol = 1 keeps sqrt 2: of all filters with gain 1 the shortest, (1/2, 1/2). *)
Example C112_ex mvn : exists b Ub,
  invLSFIR_unc mvn svd_dc (mkArr 1 (fun _ => (1, 0))) (zeros2 2 2) 1 0 (of_list [0]) 1 None (Some 1) 2 = Ok (b, Ub)
  /\ veq b (of_list [1 / 2; 1 / 2]).
Proof.
  destruct sqrt2_facts as [[S1 S1'] S2].
  destruct (C112_truncated mvn svd_dc (mkArr 1 (fun _ => (1, 0))) (zeros2 2 2) 1 0 (of_list [0]) 1 2
    (fun _ => (1, 0)) (fun _ => (1, 0)) 1) as (X & u & s & v & b & Ub & _ & ES & _ & E & Lb & D & M).
  - do 2 (split; [reflexivity|]). split; [cbn; lia|]. left. auto.
  - apply svd_dc_ok.
  - intros i Hi. rewrite Rmult_0_r, Ropp_0. unfold cis. rewrite cos_0, sin_0. unfold cmul. cbn. f_equal; ring.
  - injection ES as <- <- <-. exists b, Ub. split; [exact E|]. split; [exact Lb|].
    destruct (D 1%nat) as [D1 _]; [split; cbn; [lia|lra]|]. cbn in D1.
    assert (Eq : b 0%nat = b 1%nat).
    { assert (P : 0 < / sqrt 2) by (apply Rinv_0_lt_compat; lra).
      apply (Rmult_eq_reg_l (/ sqrt 2)); lra. }
    destruct (M (of_list [1 / 2; 1 / 2]) eq_refl) as [M1 _].
    { intros k [Hk L]. cbn in Hk. destruct k as [|[|k]]; cbn in L |- *; [lra|lra|lia]. }
    assert (F : forall c : vec, alen c = 2%nat -> fir_misfit (of_list [0]) 1 (fun _ => (1, 0)) c = (c 0%nat + c 1%nat - 1) ^ 2).
    { intros c Lc. unfold fir_misfit. cbn [alen of_list length rsum].
      assert (Z : radf (of_list [0]) 1 0 = 0) by (unfold radf; cbn; field). rewrite Z.
      assert (G : freq_resp c 0 = (c 0%nat + c 1%nat, 0)).
      { unfold freq_resp. rewrite Lc. apply C_eq; cbn -[cos sin]; rewrite !Rmult_0_l, Ropp_0, ?cos_0, ?sin_0; ring. }
      rewrite G. unfold csub, cnorm2. cbn. ring. }
    rewrite !F in M1 by (exact Lb || reflexivity). cbn [of_list aget nth] in M1.
    assert (Sum : b 0%nat + b 1%nat - 1 = 0) by nra.
    intros [|[|i]] Hi; cbn in Hi |- *; [lra|lra|lia].
Qed.
(** tol = 2 drops everything. *)
Example C112_all_dropped_ex mvn : exists b Ub,
  invLSFIR_unc mvn svd_dc (mkArr 1 (fun _ => (1, 0))) (zeros2 2 2) 1 0 (of_list [0]) 1 None (Some 2) 2 = Ok (b, Ub)
  /\ veq b (of_list [0; 0]).
Proof.
  destruct sqrt2_facts as [[S1 S1'] S2].
  destruct (C112_truncated mvn svd_dc (mkArr 1 (fun _ => (1, 0))) (zeros2 2 2) 1 0 (of_list [0]) 1 2
    (fun _ => (1, 0)) (fun _ => (1, 0)) 2) as (X & u & s & v & b & Ub & _ & ES & _ & E & Lb & D & M).
  - do 2 (split; [reflexivity|]). split; [cbn; lia|]. left. auto.
  - apply svd_dc_ok.
  - intros i Hi. rewrite Rmult_0_r, Ropp_0. unfold cis. rewrite cos_0, sin_0. unfold cmul. cbn. f_equal; ring.
  - injection ES as <- <- <-. exists b, Ub. split; [exact E|]. split; [exact Lb|].
    destruct (D 0%nat) as [D0 _]; [split; cbn; [lia|lra]|]. destruct (D 1%nat) as [D1 _]; [split; cbn; [lia|lra]|]. cbn in D0, D1.
    assert (P : 0 < / sqrt 2) by (apply Rinv_0_lt_compat; lra).
    assert (A1 : b 0%nat + b 1%nat = 0) by (apply (Rmult_eq_reg_l (/ sqrt 2)); lra).
    assert (A2 : b 0%nat - b 1%nat = 0) by (apply (Rmult_eq_reg_l (/ sqrt 2)); lra).
    intros [|[|i]] Hi; cbn in Hi |- *; [lra|lra|lia].
Qed.
