(** Lemmas: singular values, sample moments of linear images. *)
From Coq Require Import Reals List Arith Lra Lia.
From Verif Require Import Base Sums Cplx M_DFT M_FilterStuff M_MC M_Fit S_Poly S_Fit S_MC P_MC P_LinAlg P_Fit.
Import ListNotations.
Open Scope R_scope.

Lemma rsum_kron n k f : (k < n)%nat -> rsum n (fun l => kron k l * f l) = f k.
Proof.
  intros H. rewrite (rsum_single n k); auto.
  - unfold kron. rewrite Nat.eqb_refl. ring.
  - intros i Hi Hn. unfold kron. assert (Q : (k =? i)%nat = false) by (apply Nat.eqb_neq; auto). rewrite Q. ring.
Qed.

Section Svd.
  Variables (X u : mat) (s : vec) (v : mat).
  Hypothesis Hs : is_svd X u s v.
  Let K := alen s.
  Let d k := stsinv (s k) * s k.

  Lemma s_d k : (k < K)%nat -> s k * (s k * d k - 1) = 0.
  Proof.
    intros Hk. destruct Hs as [_ [_ [_ [_ [P _]]]]]. specialize (P k Hk). unfold d, stsinv.
    destruct (Rlt_dec 0 (s k)) as [L|L].
    - field. lra.
    - assert (s k = 0) by lra. rewrite H. ring.
  Qed.
  Lemma pinv_row (y : nat -> R) i : rsum (mcols (svd_pinv u s v)) (fun j => svd_pinv u s v i j * y j)
     = rsum K (fun k => v k i * (d k * rsum (mrows X) (fun j => u j k * y j))).
  Proof.
    destruct Hs as [Eu [_ _]]. cbn [svd_pinv mcols mget]. rewrite Eu.
    rewrite (rsum_ext (mrows X) _ (fun j => rsum K (fun k => v k i * stsinv (s k) * s k * u j k * y j)))
      by (intros; rewrite rsum_scal_r; auto).
    rewrite rsum_swap. apply rsum_ext. intros k Hk. rewrite <- !rsum_scal. apply rsum_ext. intros j Hj.
    unfold d. ring.
  Qed.
  Lemma svd_normal (y : nat -> R) : normal_eq X y
     (fun i => rsum (mcols (svd_pinv u s v)) (fun j => svd_pinv u s v i j * y j)).
  Proof.
    destruct Hs as [Eu [Ec [Ev [Evc [P [D [Ou Ov]]]]]]].
    set (g := fun k => rsum (mrows X) (fun j => u j k * y j)).
    set (c := fun i => rsum (mcols (svd_pinv u s v)) (fun j => svd_pinv u s v i j * y j)).
    assert (Ec' : forall i, c i = rsum K (fun k => v k i * (d k * g k))) by (intros; apply pinv_row).
    assert (Vc : forall k, (k < K)%nat -> rsum (mcols X) (fun j => v k j * c j) = d k * g k).
    { intros k Hk. rewrite (rsum_ext (mcols X) _ (fun j => rsum K (fun l => v k j * v l j * (d l * g l)))).
      - rewrite rsum_swap. rewrite (rsum_ext K _ (fun l => kron k l * (d l * g l))).
        + apply (rsum_kron K k (fun l => d l * g l)). auto.
        + intros l Hl. rewrite rsum_scal_r, Ov by auto. auto.
      - intros j Hj. rewrite Ec', <- rsum_scal. apply rsum_ext; intros; ring. }
    assert (Xc : forall i, (i < mrows X)%nat -> mv X c i = rsum K (fun k => u i k * (s k * (d k * g k)))).
    { intros i Hi. unfold mv. rewrite (rsum_ext (mcols X) _ (fun j => rsum K (fun k => u i k * s k * (v k j * c j)))).
      - rewrite rsum_swap. apply rsum_ext. intros k Hk. rewrite rsum_scal, Vc by auto. ring.
      - intros j Hj. rewrite <- D, <- rsum_scal_r by auto. apply rsum_ext; intros; ring. }
    intros j Hj.
    rewrite (rsum_ext (mrows X) _ (fun i => rsum K (fun k => v k j * s k * (u i k * (mv X c i - y i))))).
    2:{ intros i Hi. rewrite <- D, <- rsum_scal_r by auto. apply rsum_ext; intros; ring. }
    rewrite rsum_swap. apply rsum_zero. intros k Hk. rewrite rsum_scal.
    rewrite (rsum_ext (mrows X) _ (fun i => u i k * mv X c i - u i k * y i)) by (intros; ring).
    rewrite rsum_minus. fold (g k).
    assert (Q : rsum (mrows X) (fun i => u i k * mv X c i) = s k * (d k * g k)).
    { rewrite (rsum_ext (mrows X) _ (fun i => rsum K (fun l => u i k * u i l * (s l * (d l * g l))))).
      - rewrite rsum_swap. rewrite (rsum_ext K _ (fun l => kron k l * (s l * (d l * g l)))).
        + apply (rsum_kron K k (fun l => s l * (d l * g l))). auto.
        + intros l Hl. rewrite rsum_scal_r, Ou by auto. auto.
      - intros i Hi. rewrite Xc, <- rsum_scal by auto. apply rsum_ext; intros; ring. }
    rewrite Q. pose proof (s_d k Hk).
    replace (v k j * s k * (s k * (d k * g k) - g k)) with (v k j * g k * (s k * (s k * d k - 1))) by ring.
    rewrite H. ring.
  Qed.
End Svd.

Lemma normal_unique A (y c c' : nat -> R) : indep_cols A -> normal_eq A y c -> normal_eq A y c' ->
  forall j, (j < mcols A)%nat -> c j = c' j.
Proof.
  intros I N N' j Hj.
  assert (E : sqdist (mrows A) (mv A c') (mv A c) = 0).
  { pose proof (normal_expand A y c c' N). pose proof (normal_expand A y c' c N').
    pose proof (sqdist_nonneg (mrows A) (mv A c') (mv A c)). pose proof (sqdist_nonneg (mrows A) (mv A c) (mv A c')). lra. }
  pose proof (sqdist_zero _ _ _ E) as Z.
  assert (c j - c' j = 0); [|lra]. apply (I (fun j => c j - c' j)); auto.
  intros i Hi. rewrite mv_sub, Z by auto. ring.
Qed.

(** ** Sample moments *)
Lemma rows_mean_avg {A} (g : A -> vec) n (l : list A) i :
  rows_mean n (map g l) i = avg (fun a => g a i) l.
Proof. cbn [rows_mean aget]. unfold avg. rewrite map_length, map_map, tot_lsum. auto. Qed.
Lemma rows_cov_sample {A} (g : A -> vec) n (l : list A) i j : (1 <= length l)%nat ->
  rows_cov n (map g l) i j = sample_cov (fun a => g a i) (fun a => g a j) l.
Proof.
  intros H. cbn [rows_cov mget]. unfold sample_cov, scatter. rewrite map_length, minus_INR, map_map, tot_lsum by lia.
  change (INR 1) with 1. f_equal. apply tot_ext. intros a Ha. rewrite !rows_mean_avg. auto.
Qed.
Lemma avg_ext {A} (f g : A -> R) l : (forall a, In a l -> f a = g a) -> avg f l = avg g l.
Proof. intros H. unfold avg. rewrite (tot_ext f g) by auto. auto. Qed.
Lemma sample_cov_ext {A} (f f' g g' : A -> R) l : (forall a, In a l -> f a = f' a) ->
  (forall a, In a l -> g a = g' a) -> sample_cov f g l = sample_cov f' g' l.
Proof.
  intros Hf Hg. unfold sample_cov, scatter. f_equal. apply tot_ext. intros a Ha.
  rewrite (avg_ext f f'), (avg_ext g g'), Hf, Hg by auto. auto.
Qed.
Lemma tot_rsum {A} n (f : nat -> A -> R) l :
  tot (map (fun a => rsum n (fun p => f p a)) l) = rsum n (fun p => tot (map (f p) l)).
Proof.
  induction l as [|a l IH]; cbn [map tot]; [rewrite rsum_zero; auto|].
  rewrite IH, rsum_plus. auto.
Qed.
Lemma tot_scal {A} c (f : A -> R) l : tot (map (fun a => c * f a) l) = c * tot (map f l).
Proof. induction l; cbn [map tot]; [ring|]. rewrite IHl. ring. Qed.
Lemma avg_lin {A} n (c : nat -> R) (f : nat -> A -> R) l :
  avg (fun a => rsum n (fun p => c p * f p a)) l = rsum n (fun p => c p * avg (f p) l).
Proof.
  unfold avg. rewrite (tot_rsum n (fun p a => c p * f p a)).
  unfold Rdiv. rewrite <- rsum_scal_r. apply rsum_ext. intros p Hp. rewrite tot_scal. ring.
Qed.
Lemma sample_cov_lin {A} n m (c e : nat -> R) (f g : nat -> A -> R) l :
  sample_cov (fun a => rsum n (fun p => c p * f p a)) (fun a => rsum m (fun q => e q * g q a)) l =
  rsum n (fun p => rsum m (fun q => c p * sample_cov (f p) (g q) l * e q)).
Proof.
  unfold sample_cov, scatter. rewrite !avg_lin.
  rewrite (tot_ext _ (fun a => rsum n (fun p => rsum m (fun q => c p * e q * ((f p a - avg (f p) l) * (g q a - avg (g q) l)))))).
  - rewrite (tot_rsum n (fun p a => rsum m (fun q => c p * e q * ((f p a - avg (f p) l) * (g q a - avg (g q) l))))).
    unfold Rdiv. rewrite <- rsum_scal_r. apply rsum_ext. intros p Hp.
    rewrite (tot_rsum m (fun q a => c p * e q * ((f p a - avg (f p) l) * (g q a - avg (g q) l)))).
    rewrite <- rsum_scal_r. apply rsum_ext. intros q Hq. rewrite tot_scal. ring.
  - intros a Ha. rewrite <- !rsum_minus.
    rewrite (rsum_ext n _ (fun p => c p * (f p a - avg (f p) l))) by (intros; ring).
    rewrite (rsum_ext m (fun q => e q * g q a - e q * avg (g q) l) (fun q => e q * (g q a - avg (g q) l))) by (intros; ring).
    rewrite <- rsum_scal_r. apply rsum_ext. intros p Hp. rewrite <- rsum_scal. apply rsum_ext; intros; ring.
Qed.
Lemma avg_const {A} c (l : list A) : (1 <= length l)%nat -> avg (fun _ => c) l = c.
Proof.
  intros H. unfold avg. rewrite tot_const. field. apply not_0_INR. lia.
Qed.
Lemma sample_cov_const {A} c (g : A -> R) (l : list A) : (1 <= length l)%nat ->
  sample_cov (fun _ => c) g l = 0.
Proof.
  intros H. unfold sample_cov, scatter. rewrite avg_const by auto.
  rewrite (tot_ext _ (fun _ => 0)) by (intros; ring). rewrite tot_const. unfold Rdiv. ring.
Qed.
