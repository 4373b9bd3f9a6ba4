(** Lemmas on fit_som. *)
From Coq Require Import Reals String List Arith Lra Lia.
From Verif Require Import Base Sums Cplx M_DFT M_FilterStuff M_MC M_Fit S_Poly S_Fit S_MC P_Poly P_MC P_LinAlg P_Fit P_Fit2.
Import ListNotations.
Local Notation length := Datatypes.length.
Open Scope R_scope.

(** ** Diagonal weighting *)
Definition dia (m : nat) (v : nat -> R) : mat := diagm (mkArr m v).
Lemma mv_dia m v c i : (i < m)%nat -> mv (dia m v) c i = v i * c i.
Proof.
  intros Hi. unfold mv. cbn [dia diagm mcols mget alen aget]. rewrite (rsum_single m i); auto.
  - rewrite Nat.eqb_refl. auto.
  - intros j Hj N. assert (Q : (i =? j)%nat = false) by (apply Nat.eqb_neq; auto). rewrite Q. ring.
Qed.
Lemma dia_regular m v : (forall i, (i < m)%nat -> 0 < v i) -> regular (dia m v).
Proof.
  intros P. split; [reflexivity|]. intros c Z j Hj. cbn [dia diagm mrows mcols alen] in *.
  specialize (Z j Hj). rewrite mv_dia in Z by auto. specialize (P j Hj).
  apply Rmult_integral in Z. destruct Z; [lra|auto].
Qed.
Section Diag.
  Variable (solve : mat -> vec -> res vec).
  Hypothesis S : exact_solve solve.
  Variable (m : nat) (v : nat -> R).
  Hypothesis P : forall i, (i < m)%nat -> 0 < v i.

  Lemma dia_solve (y : vec) : alen y = m ->
    exists x, solve (dia m v) y = Ok x /\ alen x = m /\ forall i, (i < m)%nat -> x i = y i / v i.
  Proof.
    intros L. destruct (S (dia m v) y (dia_regular m v P)) as [x [E [Lx X]]]; [auto|].
    exists x. split; auto. split; auto. intros i Hi. rewrite <- X by lia. rewrite mv_dia by auto.
    specialize (P i Hi). field. lra.
  Qed.
  Lemma dia_cols (B : mat) : mrows B = m -> forall n,
    exists l, solve_cols solve (dia m v) B n = Ok l /\ length l = n /\
      forall j i, (j < n)%nat -> (i < m)%nat -> nth j l (mkArr 0 (fun _ => 0)) i = B i j / v i.
  Proof.
    intros R0. induction n as [|n [l [E [Ll Hl]]]]; cbn [solve_cols].
    - exists []. split; auto. split; auto. lia.
    - rewrite E. cbn [bind]. destruct (dia_solve (mkArr (mrows B) (fun i => B i n))) as [x [Ex [Lx Hx]]]; [auto|].
      rewrite Ex. cbn [bind]. exists (l ++ [x])%list. split; auto. split; [rewrite app_length; cbn; lia|].
      intros j i Hj Hi. destruct (Nat.eq_dec j n) as [->|Nj].
      + rewrite app_nth2, Ll, Nat.sub_diag by lia. cbn [nth]. rewrite Hx by auto. auto.
      + rewrite app_nth1 by lia. apply Hl; lia.
  Qed.
  Lemma dia_mat (B : mat) : mrows B = m ->
    exists A, solve_mat solve (dia m v) B = Ok A /\ mrows A = m /\ mcols A = mcols B /\
      forall i j, (i < m)%nat -> (j < mcols B)%nat -> A i j = B i j / v i.
  Proof.
    intros R0. destruct (dia_cols B R0 (mcols B)) as [l [E [Ll Hl]]]. unfold solve_mat. rewrite E. cbn [bind].
    eexists. split; [reflexivity|]. split; [reflexivity|]. split; [reflexivity|]. intros i j Hi Hj. cbn [mget]. auto.
  Qed.

  (** ** Weighted normal equations *)
  Variable (X : mat).
  Hypothesis R0 : mrows X = m.
  Definition gram (j l : nat) : R := rsum m (fun r => X r j * (X r l / v r)).
  Lemma gram_sym j l : gram j l = gram l j.
  Proof. apply rsum_ext. intros. unfold Rdiv. ring. Qed.
  Lemma dia_normal : exists G, som_normal solve (dia m v) X = Ok G /\ mrows G = mcols X /\ mcols G = mcols X /\
    forall j l, (j < mcols X)%nat -> (l < mcols X)%nat -> G j l = gram j l.
  Proof.
    destruct (dia_mat X R0) as [A [E [RA [CA HA]]]]. unfold som_normal. rewrite E. cbn [bind].
    eexists. split; [reflexivity|]. cbn [mdot transp mrows mcols mget]. rewrite CA, R0. split; auto. split; auto.
    intros j l Hj Hl. apply rsum_ext. intros r Hr. rewrite HA by auto. auto.
  Qed.
  Lemma gram_mv G c j : mcols G = mcols X -> (forall j l, (j < mcols X)%nat -> (l < mcols X)%nat -> G j l = gram j l) ->
    (j < mcols X)%nat -> mv G c j = rsum m (fun r => X r j * (mv X c r / v r)).
  Proof.
    intros CG HG Hj. unfold mv at 1. rewrite CG.
    rewrite (rsum_ext (mcols X) _ (fun l => rsum m (fun r => X r j * (X r l / v r) * c l))).
    - rewrite rsum_swap. apply rsum_ext. intros r Hr. unfold mv, Rdiv.
      rewrite <- (rsum_scal_r (mcols X)), <- rsum_scal. apply rsum_ext. intros. ring.
    - intros l Hl. rewrite HG by auto. unfold gram. rewrite <- rsum_scal_r. auto.
  Qed.
  Hypothesis I : indep_cols X.
  Lemma gram_regular G : mrows G = mcols X -> mcols G = mcols X ->
    (forall j l, (j < mcols X)%nat -> (l < mcols X)%nat -> G j l = gram j l) -> regular G.
  Proof.
    intros RG CG HG. split; [congruence|]. intros c Z j Hj. apply (I c); [|lia]. intros r Hr.
    assert (Q : rsum (mcols X) (fun j => mv G c j * c j) = rsum m (fun r => (mv X c r) ^ 2 / v r)).
    { rewrite (rsum_ext (mcols X) _ (fun j => rsum m (fun r => X r j * (mv X c r / v r) * c j))).
      - rewrite rsum_swap. apply rsum_ext. intros r' Hr'. 
        transitivity (rsum (mcols X) (fun j => X r' j * c j) * (mv X c r' / v r')).
        + rewrite <- rsum_scal_r. apply rsum_ext. intros. ring.
        + change (rsum (mcols X) (fun j => X r' j * c j)) with (mv X c r'). unfold Rdiv. ring.
      - intros l Hl. rewrite (gram_mv G c l CG HG Hl), <- rsum_scal_r. auto. }
    rewrite rsum_zero in Q by (intros l Hl; rewrite Z by lia; ring).
    assert (K : mv X c r ^ 2 / v r = 0).
    { apply (rsum_nonneg_zero m (fun r => mv X c r ^ 2 / v r)); auto; [|lia].
      intros s Hs. specialize (P s Hs). apply Rmult_le_pos; [apply pow2_ge_0|]. left. apply Rinv_0_lt_compat. auto. }
    specialize (P r ltac:(lia)).
    assert (K2 : mv X c r ^ 2 = 0). { transitivity (mv X c r ^ 2 / v r * v r); [field; lra|rewrite K; ring]. }
    nra.
  Qed.

  (** mu solves the weighted normal equations for y. *)
  Definition wnormal (y mu : nat -> R) : Prop :=
    forall j, (j < mcols X)%nat -> rsum m (fun r => X r j * ((mv X mu r - y r) / v r)) = 0.
  Lemma dia_gls (y : vec) : alen y = m ->
    exists mu, som_gls solve (dia m v) X y = Ok mu /\ alen mu = mcols X /\ wnormal y mu.
  Proof.
    intros L. destruct dia_normal as [G [EG [RG [CG HG]]]]. destruct (dia_solve y L) as [x [Ex [Lx Hx]]].
    unfold som_gls. rewrite EG. cbn [bind]. rewrite Ex. cbn [bind].
    destruct (S G (mdotv (transp X) x) (gram_regular G RG CG HG)) as [mu [Em [Lm Hm]]]; [cbn; auto|].
    exists mu. split; auto. split; [congruence|]. intros j Hj.
    specialize (Hm j Hj). rewrite (gram_mv G mu j CG HG Hj) in Hm. cbn [mdotv transp aget mcols mget] in Hm. rewrite R0 in Hm.
    rewrite (rsum_ext m _ (fun r => X r j * (mv X mu r / v r) - X r j * x r)).
    - rewrite rsum_minus. lra.
    - intros r Hr. rewrite Hx by auto. unfold Rdiv. ring.
  Qed.
  Lemma wnormal_unique (y mu mu' : nat -> R) : wnormal y mu -> wnormal y mu' ->
    forall j, (j < mcols X)%nat -> mu j = mu' j.
  Proof.
    intros N N' j Hj.
    set (G := mkMat (mcols X) (mcols X) gram).
    destruct (gram_regular G eq_refl eq_refl (fun _ _ _ _ => eq_refl)) as [_ IG].
    assert (K : mu j - mu' j = 0); [|lra].
    apply (IG (fun j => mu j - mu' j)); auto. intros l Hl. rewrite (gram_mv G _ l eq_refl (fun _ _ _ _ => eq_refl) Hl).
    specialize (N l Hl). specialize (N' l Hl).
    rewrite (rsum_ext m _ (fun r => X r l * ((mv X mu r - y r) / v r) - X r l * ((mv X mu' r - y r) / v r))).
    - rewrite rsum_minus. lra.
    - intros r Hr. rewrite mv_sub. unfold Rdiv. ring.
  Qed.
  Lemma wnormal_exact (y : nat -> R) (h : nat -> R) : (forall r, (r < m)%nat -> y r = mv X h r) -> wnormal y h.
  Proof. intros E j Hj. apply rsum_zero. intros r Hr. rewrite E by auto. unfold Rdiv. ring. Qed.

  (** ** Covariance of the auxiliary parameters *)
  Variable (inv : mat -> res mat).
  Hypothesis V : exact_inv inv.
  Lemma dia_cov {A} (d : A -> vec) (ls : list A) (U : mat) :
    mrows U = m -> mcols U = m -> (forall r s, (r < m)%nat -> (s < m)%nat ->
      U r s = sample_cov (fun k => d k r) (fun k => d k s) ls) ->
    exists G iG WU WX, som_normal solve (dia m v) X = Ok G /\ inv G = Ok iG /\
      solve_mat solve (dia m v) U = Ok WU /\ solve_mat solve (dia m v) X = Ok WX /\
      mrows iG = mcols X /\ mcols iG = mcols X /\
      exists fits : A -> nat -> R, (forall k, wnormal (d k) (fits k)) /\
        forall p q, (p < mcols X)%nat -> (q < mcols X)%nat ->
          mdot (mdot iG (mdot (mdot (transp X) WU) WX)) iG p q =
          sample_cov (fun k => fits k p) (fun k => fits k q) ls.
  Proof.
    intros RU CU HU. destruct dia_normal as [G [EG [RG [CG HG]]]].
    destruct (V G (gram_regular G RG CG HG)) as [iG [Ei [Ri [Ci Hi]]]].
    destruct (dia_mat U RU) as [WU [EU [RWU [CWU HWU]]]]. destruct (dia_mat X R0) as [WX [EX [RWX [CWX HWX]]]].
    exists G, iG, WU, WX. do 4 (split; auto). split; [congruence|]. split; [congruence|].
    set (n := mcols X) in *.
    assert (Hg : forall i j, (i < n)%nat -> (j < n)%nat -> rsum n (fun k => gram i k * iG k j) = kron i j).
    { intros i j Hii Hjj. rewrite <- (rsum_ext n (fun k => G i k * iG k j)); [|intros k Hk; rewrite HG by auto; auto].
      rewrite CG in Hi. apply Hi; congruence. }
    (* iG is symmetric *)
    assert (Sy : forall i j, (i < n)%nat -> (j < n)%nat -> iG i j = iG j i).
    { intros i j Hii Hjj.
      transitivity (rsum n (fun k => iG k i * rsum n (fun l => gram k l * iG l j))).
      - rewrite (rsum_ext n _ (fun k => rsum n (fun l => gram l k * iG k i * iG l j))).
        + rewrite rsum_swap. rewrite (rsum_ext n _ (fun l => kron i l * iG l j)).
          * rewrite (rsum_kron n i (fun l => iG l j)) by auto. auto.
          * intros l Hl. rewrite rsum_scal_r. rewrite Hg by auto. unfold kron. rewrite Nat.eqb_sym. auto.
        + intros k Hk. rewrite <- rsum_scal. apply rsum_ext. intros l Hl. rewrite (gram_sym k l). ring.
      - rewrite (rsum_ext n _ (fun k => kron j k * iG k i)).
        + rewrite (rsum_kron n j (fun k => iG k i)) by auto. auto.
        + intros k Hk. rewrite Hg by auto. unfold kron. rewrite Nat.eqb_sym. ring. }
    set (K := fun p r => rsum n (fun j => iG p j * (X r j / v r))).
    exists (fun k p => rsum m (fun r => K p r * d k r)). split.
    - intros k j Hj.
      assert (Q : rsum m (fun r => X r j * (mv X (fun p => rsum m (fun s => K p s * d k s)) r / v r)) = rsum m (fun r => X r j * (d k r / v r))).
      { rewrite <- (gram_mv G _ j CG HG Hj). unfold mv. rewrite CG.
        rewrite (rsum_ext n _ (fun l => rsum m (fun s => gram j l * K l s * d k s))).
        - rewrite rsum_swap. apply rsum_ext. intros s Hs. rewrite rsum_scal_r.
          unfold K. rewrite (rsum_ext n _ (fun l => rsum n (fun i => gram j l * iG l i * (X s i / v s)))).
          + rewrite rsum_swap. rewrite (rsum_ext n _ (fun i => kron j i * (X s i / v s))).
            * rewrite (rsum_kron n j (fun i => X s i / v s)) by auto. unfold Rdiv. ring.
            * intros i Hii. rewrite rsum_scal_r, Hg by auto. auto.
          + intros l Hl. rewrite <- rsum_scal. apply rsum_ext. intros; ring.
        - intros l Hl. rewrite HG by auto. rewrite <- rsum_scal. apply rsum_ext. intros; ring. }
      rewrite (rsum_ext m _ (fun r => X r j * (mv X (fun p => rsum m (fun s => K p s * d k s)) r / v r) - X r j * (d k r / v r))).
      + rewrite rsum_minus, Q. ring.
      + intros r Hr. unfold Rdiv. ring.
    - intros p q Hp Hq.
      rewrite (sample_cov_lin m m (K p) (K q) (fun r k => d k r) (fun r k => d k r)).
      cbn [mdot transp mget mcols mrows]. rewrite R0, Ci, RG, CWX, CWU, CU. fold n.
      transitivity (rsum n (fun b => rsum n (fun a => iG p a * rsum m (fun s => rsum m (fun r => X r a * (U r s / v r)) * (X s b / v s))) * iG b q)).
      { apply rsum_ext. intros b Hb. f_equal. apply rsum_ext. intros a Ha. f_equal. apply rsum_ext. intros s Hs.
        rewrite HWX by auto. f_equal. apply rsum_ext. intros r Hr. rewrite HWU by (auto; lia). auto. }
      transitivity (rsum m (fun r => rsum m (fun s => K p r * U r s * K q s))).
      2:{ apply rsum_ext. intros r Hr. apply rsum_ext. intros s Hs. rewrite HU by auto. auto. }
      transitivity (rsum n (fun b => rsum n (fun a => rsum m (fun s => rsum m (fun r => iG p a * (X r a / v r) * U r s * ((X s b / v s) * iG b q)))))).
      { apply rsum_ext. intros b Hb. rewrite <- rsum_scal_r. apply rsum_ext. intros a Ha. rewrite <- rsum_scal, <- rsum_scal_r. apply rsum_ext. intros s Hs.
        rewrite <- rsum_scal_r, <- rsum_scal, <- rsum_scal_r. apply rsum_ext. intros r Hr. unfold Rdiv. ring. }
      transitivity (rsum m (fun s => rsum m (fun r => K p r * U r s * K q s))); [|apply rsum_swap].
      transitivity (rsum n (fun b => rsum m (fun s => rsum m (fun r => rsum n (fun a => iG p a * (X r a / v r) * U r s * ((X s b / v s) * iG b q)))))).
      { apply rsum_ext. intros b Hb. rewrite rsum_swap. apply rsum_ext. intros s Hs. apply rsum_swap. }
      rewrite rsum_swap. apply rsum_ext. intros s Hs. rewrite rsum_swap. apply rsum_ext. intros r Hr.
      transitivity (rsum n (fun b => K p r * U r s * ((X s b / v s) * iG b q))).
      { apply rsum_ext. intros b Hb. rewrite rsum_scal_r. f_equal. unfold K. rewrite <- rsum_scal_r. auto. }
      rewrite rsum_scal. f_equal. unfold K. apply rsum_ext. intros b Hb. rewrite (Sy q b) by auto. ring.
  Qed.
End Diag.
