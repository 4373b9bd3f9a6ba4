(** Laws of finite-support distributions. *)
From Coq Require Import Reals List Arith Lia Lra Psatz Classical.
From Verif Require Import Base Sums Stats.
Import ListNotations.
Open Scope R_scope.

Section Expectation.
  Context {A : Type}.
  Implicit Types (d : dist A) (f g : A -> R).

  Lemma Ex_ext d f g : (forall a, f a = g a) -> Ex d f = Ex d g.
  Proof. intros H. induction d as [|[p a] d IH]; simpl; [reflexivity|]. now rewrite H, IH. Qed.

  Lemma Ex_app d d' f : Ex (d ++ d') f = Ex d f + Ex d' f.
  Proof. induction d as [|[p a] d IH]; simpl; [lra|]. rewrite IH. lra. Qed.

  Lemma Ex_plus d f g : Ex d (fun a => f a + g a) = Ex d f + Ex d g.
  Proof. induction d as [|[p a] d IH]; simpl; [lra|]. rewrite IH. lra. Qed.

  Lemma Ex_minus d f g : Ex d (fun a => f a - g a) = Ex d f - Ex d g.
  Proof. induction d as [|[p a] d IH]; simpl; [lra|]. rewrite IH. lra. Qed.

  Lemma Ex_scal d c f : Ex d (fun a => c * f a) = c * Ex d f.
  Proof. induction d as [|[p a] d IH]; simpl; [lra|]. rewrite IH. lra. Qed.

  Lemma Ex_zero d : Ex d (fun _ => 0) = 0.
  Proof. induction d as [|[p a] d IH]; simpl; [reflexivity|]. rewrite IH. lra. Qed.

  Lemma Ex_scal_r d c f : Ex d (fun a => f a * c) = Ex d f * c.
  Proof. induction d as [|[p a] d IH]; simpl; [lra|]. rewrite IH. lra. Qed.

  Lemma Ex_const d c : is_prob d -> Ex d (fun _ => c) = c.
  Proof.
    intros [_ H]. rewrite (Ex_ext d _ (fun _ => c * 1)) by (intros; ring).
    rewrite Ex_scal, H. ring.
  Qed.

  Lemma Ex_rsum d n (f : nat -> A -> R) :
    Ex d (fun a => rsum n (fun i => f i a)) = rsum n (fun i => Ex d (f i)).
  Proof.
    induction n as [|n IH]; simpl.
    - induction d as [|[p a] d IHd]; simpl; [reflexivity|]. rewrite IHd. lra.
    - rewrite Ex_plus, IH. reflexivity.
  Qed.

  Lemma Ex_nonneg d f : (forall p a, In (p, a) d -> 0 <= p) -> (forall a, 0 <= f a) ->
    0 <= Ex d f.
  Proof.
    intros Hp Hf. induction d as [|[p a] d IH]; simpl; [lra|].
    assert (0 <= p) by (apply (Hp p a); left; reflexivity).
    assert (0 <= Ex d f) by (apply IH; intros; apply (Hp p0 a0); right; assumption).
    specialize (Hf a). nra.
  Qed.

  Lemma Cov_alt d f g : is_prob d -> Cov d f g = Ex d (fun a => f a * g a) - Ex d f * Ex d g.
  Proof.
    intros Hp. unfold Cov.
    set (mf := Ex d f). set (mg := Ex d g).
    rewrite (Ex_ext d _ (fun a => (f a * g a - mg * f a) - (mf * g a - mf * mg))) by (intros; lra).
    rewrite !Ex_minus, (Ex_const d (mf * mg)), !Ex_scal by assumption.
    fold mf mg. lra.
  Qed.

  Lemma Cov_ext d f g f' g' : (forall a, f a = f' a) -> (forall a, g a = g' a) ->
    Cov d f g = Cov d f' g'.
  Proof.
    intros Hf Hg. unfold Cov. rewrite (Ex_ext d f f'), (Ex_ext d g g') by assumption.
    apply Ex_ext. intros a. now rewrite Hf, Hg.
  Qed.

  Lemma Cov_sym d f g : Cov d f g = Cov d g f.
  Proof. unfold Cov. apply Ex_ext. intros. ring. Qed.

  Lemma Cov_rsum_l d n (c : nat -> R) (f : nat -> A -> R) g :
    Cov d (fun a => rsum n (fun i => c i * f i a)) g = rsum n (fun i => c i * Cov d (f i) g).
  Proof.
    unfold Cov. rewrite Ex_rsum.
    rewrite (Ex_ext d _ (fun a => rsum n (fun i => c i * ((f i a - Ex d (f i)) * (g a - Ex d g))))).
    - rewrite Ex_rsum. apply rsum_ext. intros. apply Ex_scal.
    - intros a. rewrite <- rsum_minus, <- rsum_scal_r. apply rsum_ext. intros.
      rewrite Ex_scal. ring.
  Qed.

  (** Covariance of linear combinations. *)
  Lemma Cov_linear d n m (c e : nat -> R) (f g : nat -> A -> R) :
    Cov d (fun a => rsum n (fun i => c i * f i a)) (fun a => rsum m (fun j => e j * g j a))
    = rsum n (fun i => rsum m (fun j => c i * Cov d (f i) (g j) * e j)).
  Proof.
    rewrite Cov_rsum_l. apply rsum_ext. intros i Hi.
    rewrite Cov_sym, Cov_rsum_l, <- rsum_scal. apply rsum_ext. intros j Hj.
    rewrite (Cov_sym d (g j)). ring.
  Qed.
End Expectation.

(** Linear image of a random vector: mean and covariance. *)
Lemma linear_mean n d mu (c : nat -> R) :
  has_mean n d mu ->
  Ex d (fun s => rsum n (fun i => c i * s i)) = rsum n (fun i => c i * mu i).
Proof.
  intros H. rewrite Ex_rsum. apply rsum_ext. intros i Hi. rewrite Ex_scal, H by assumption.
  reflexivity.
Qed.

Lemma linear_cov n d U (c e : nat -> R) :
  has_cov n d U ->
  Cov d (fun s => rsum n (fun i => c i * s i)) (fun s => rsum n (fun j => e j * s j))
  = rsum n (fun i => rsum n (fun j => c i * U i j * e j)).
Proof.
  intros H. rewrite (Cov_linear d n n c e (fun i s => s i) (fun j s => s j)).
  apply rsum_ext; intros i Hi. apply rsum_ext; intros j Hj. now rewrite H.
Qed.

Section Independence.
  Context {A B : Type}.
  Lemma Ex_indep (d1 : dist A) (d2 : dist B) (h : A * B -> R) :
    Ex (indep d1 d2) h = Ex d1 (fun a => Ex d2 (fun b => h (a, b))).
  Proof.
    unfold indep. induction d1 as [|[p a] d1 IH]; simpl; [reflexivity|].
    rewrite <- IH.
    assert (Happ : forall (l l' : dist (A * B)), Ex (l ++ l') h = Ex l h + Ex l' h).
    { induction l as [|[q c] l IHl]; simpl; intros; [lra|]. rewrite IHl. lra. }
    rewrite Happ. f_equal. clear.
    induction d2 as [|[q b] d2 IH]; simpl; [lra|]. rewrite IH. simpl. lra.
  Qed.

  Lemma Ex_indep_mult (d1 : dist A) (d2 : dist B) f g :
    Ex (indep d1 d2) (fun ab => f (fst ab) * g (snd ab)) = Ex d1 f * Ex d2 g.
  Proof.
    rewrite Ex_indep. rewrite <- Ex_scal_r. apply Ex_ext. intros a. simpl. apply Ex_scal.
  Qed.

  Lemma indep_prob (d1 : dist A) (d2 : dist B) :
    is_prob d1 -> is_prob d2 -> is_prob (indep d1 d2).
  Proof.
    intros [H1 E1] [H2 E2]. split.
    - intros p [a b] Hin. unfold indep in Hin. apply in_flat_map in Hin.
      destruct Hin as [[p1 a1] [Hin1 Hin2]]. apply in_map_iff in Hin2.
      destruct Hin2 as [[p2 b2] [Heq Hin2]]. simpl in Heq. inversion Heq; subst.
      apply Rmult_le_pos; [eapply H1|eapply H2]; eassumption.
    - rewrite Ex_indep, E2. exact E1.
  Qed.
End Independence.

(** Mean and covariance of a bilinear image of two independent random vectors.  The last
    term is the exact second order contribution. *)
Section Bilinear.
  Variables (n m : nat) (d1 d2 : dist (nat -> R)) (x th : nat -> R)
            (Ux Ut : nat -> nat -> R).
  Hypotheses (P1 : is_prob d1) (P2 : is_prob d2)
    (M1 : has_mean n d1 x) (M2 : has_mean m d2 th)
    (C1 : has_cov n d1 Ux) (C2 : has_cov m d2 Ut).

  Lemma second_moment1 i j : (i < n)%nat -> (j < n)%nat ->
    Ex d1 (fun s => s i * s j) = Ux i j + x i * x j.
  Proof.
    intros Hi Hj. rewrite <- C1, Cov_alt by assumption. rewrite !M1 by assumption. lra.
  Qed.
  Lemma second_moment2 i j : (i < m)%nat -> (j < m)%nat ->
    Ex d2 (fun s => s i * s j) = Ut i j + th i * th j.
  Proof.
    intros Hi Hj. rewrite <- C2, Cov_alt by assumption. rewrite !M2 by assumption. lra.
  Qed.

  (** outcome of sum_k th_k * s_{p k} *)
  Definition lin_comb (p : nat -> nat) (ab : (nat -> R) * (nat -> R)) : R :=
    rsum m (fun k => snd ab k * fst ab (p k)).

  Lemma bilinear_mean p : (forall k, (k < m)%nat -> (p k < n)%nat) ->
    Ex (indep d1 d2) (lin_comb p) = rsum m (fun k => th k * x (p k)).
  Proof.
    intros Hp. unfold lin_comb. rewrite Ex_rsum. apply rsum_ext. intros k Hk.
    rewrite (Ex_ext _ _ (fun ab => (fun a => a (p k)) (fst ab) * (fun b => b k) (snd ab)))
      by (intros; ring).
    rewrite (Ex_indep_mult d1 d2 (fun a => a (p k)) (fun b => b k)).
    rewrite M1, M2 by auto. ring.
  Qed.

  Lemma bilinear_cov p q :
    (forall k, (k < m)%nat -> (p k < n)%nat) -> (forall k, (k < m)%nat -> (q k < n)%nat) ->
    Cov (indep d1 d2) (lin_comb p) (lin_comb q) =
    rsum m (fun a => rsum m (fun b =>
      th a * th b * Ux (p a) (q b) + Ut a b * (x (p a) * x (q b)) + Ut a b * Ux (p a) (q b))).
  Proof.
    intros Hp Hq. rewrite Cov_alt by (apply indep_prob; assumption).
    rewrite !bilinear_mean by assumption.
    unfold lin_comb.
    rewrite (Ex_ext _ _ (fun ab => rsum m (fun a => rsum m (fun b =>
        (snd ab a * fst ab (p a)) * (snd ab b * fst ab (q b)))))) by (intros; apply rsum_mult).
    rewrite Ex_rsum, rsum_mult, <- rsum_minus. apply rsum_ext. intros a Ha.
    rewrite Ex_rsum, <- rsum_minus. apply rsum_ext. intros b Hb.
    rewrite (Ex_ext _ _ (fun ab => (fun s => s (p a) * s (q b)) (fst ab)
                                * (fun t => t a * t b) (snd ab))) by (intros; simpl; ring).
    rewrite (Ex_indep_mult d1 d2 (fun s => s (p a) * s (q b)) (fun t => t a * t b)).
    rewrite second_moment1, second_moment2 by auto. ring.
  Qed.
End Bilinear.

(** A covariance matrix of any random vector is symmetric positive semi-definite. *)
Lemma cov_psd {A} n (d : dist A) (f : nat -> A -> R) (U : nat -> nat -> R) :
  is_prob d ->
  (forall i j, (i < n)%nat -> (j < n)%nat -> Cov d (f i) (f j) = U i j) ->
  psd n U.
Proof.
  intros Hp H. split.
  - intros i j Hi Hj. rewrite <- !H by assumption. apply Cov_sym.
  - intros v. unfold quad.
    rewrite (rsum_ext n _ (fun i => rsum n (fun j => v i * Cov d (f i) (f j) * v j)))
      by (intros i Hi; apply rsum_ext; intros j Hj; now rewrite H).
    rewrite <- Cov_linear. unfold Cov. apply Ex_nonneg; [apply Hp|].
    intros a. apply Rle_0_sqr.
Qed.

(** ** Every symmetric positive semi-definite matrix is a covariance matrix. *)
Lemma psd_restrict n U : psd (S n) U -> psd n U.
Proof.
  intros [Hs Hq]. split.
  - intros i j Hi Hj. apply Hs; lia.
  - intros v. specialize (Hq (fun i => if (i <? n)%nat then v i else 0)).
    unfold quad in *. simpl in Hq. rewrite Nat.ltb_irrefl in Hq.
    rewrite (rsum_zero n (fun j => 0 * _ * _)) in Hq by (intros; ring).
    rewrite (rsum_ext n _ (fun i => rsum n (fun j => v i * U i j * v j))) in Hq; [lra|].
    intros i Hi. apply Nat.ltb_lt in Hi. rewrite Hi. rewrite Rmult_0_r, Rplus_0_r.
    apply rsum_ext. intros j Hj. apply Nat.ltb_lt in Hj. now rewrite Hj.
Qed.

Lemma psd_ext n U V : (forall i j, (i < n)%nat -> (j < n)%nat -> U i j = V i j) ->
  psd n U -> psd n V.
Proof.
  intros H [Hs Hq]. split.
  - intros i j Hi Hj. rewrite <- !H by assumption. auto.
  - intros v. specialize (Hq v). unfold quad in *.
    erewrite rsum_ext; [exact Hq|]. intros i Hi. apply rsum_ext. intros j Hj. now rewrite H.
Qed.

(** Quadratic form of a two-point vector. *)
Lemma quad_last n U v c : symm (S n) U ->
  quad (S n) U (fun i => if (i <? n)%nat then v i else c) =
  quad n U v + 2 * c * rsum n (fun i => U i n * v i) + c * c * U n n.
Proof.
  intros Hs. unfold quad. simpl. rewrite Nat.ltb_irrefl.
  rewrite (rsum_ext n (fun i => rsum n _ + _)
             (fun i => rsum n (fun j => v i * U i j * v j) + c * (U i n * v i))).
  2:{ intros i Hi. pose proof Hi as Hi'. apply Nat.ltb_lt in Hi'. rewrite Hi'. f_equal; [|ring].
      apply rsum_ext. intros j Hj. apply Nat.ltb_lt in Hj. now rewrite Hj. }
  rewrite rsum_plus, rsum_scal.
  rewrite (rsum_ext n (fun j => c * U n j * _) (fun j => c * (U j n * v j))).
  2:{ intros j Hj. pose proof Hj as Hj'. apply Nat.ltb_lt in Hj'. rewrite Hj'.
      rewrite (Hs n j) by lia. ring. }
  rewrite rsum_scal. ring.
Qed.

Lemma quad_unit n U k c (Hk : (k < n)%nat) :
  quad n U (fun i => if (i =? k)%nat then c else 0) = c * U k k * c.
Proof.
  unfold quad. rewrite (rsum_single n k); auto.
  - rewrite (rsum_single n k); auto.
    + rewrite Nat.eqb_refl. reflexivity.
    + intros j _ Hj. apply Nat.eqb_neq in Hj. rewrite Hj. ring.
  - intros i _ Hi. apply Nat.eqb_neq in Hi. rewrite Hi. apply rsum_zero. intros; ring.
Qed.

Lemma psd_diag n U k : psd n U -> (k < n)%nat -> 0 <= U k k.
Proof.
  intros [_ Hq] Hk. specialize (Hq (fun i => if (i =? k)%nat then 1 else 0)).
  rewrite quad_unit in Hq by assumption. lra.
Qed.

Lemma rsum_unit n k c f (Hk : (k < n)%nat) :
  rsum n (fun i => f i * (if (i =? k)%nat then c else 0)) = f k * c.
Proof.
  rewrite (rsum_single n k); auto.
  - now rewrite Nat.eqb_refl.
  - intros i _ Hi. apply Nat.eqb_neq in Hi. rewrite Hi. ring.
Qed.

(** Gram representation U = sum_k g_k g_k^T. *)
Lemma psd_gram n : forall U, psd n U ->
  exists m (g : nat -> nat -> R),
    forall i j, (i < n)%nat -> (j < n)%nat -> U i j = rsum m (fun k => g k i * g k j).
Proof.
  induction n as [|n IH]; intros U HU.
  { exists 0%nat, (fun _ _ => 0). intros; lia. }
  destruct HU as [Hs Hq].
  assert (Hlast := fun v c => quad_last n U v c Hs).
  assert (Hd : 0 <= U n n) by (apply (psd_diag (S n)); [split; assumption | lia]).
  destruct (Req_dec (U n n) 0) as [Hz|Hnz].
  - (* last row vanishes *)
    assert (Hcol : forall i, (i < n)%nat -> U i n = 0).
    { intros i Hi. destruct (Req_dec (U i n) 0) as [|Hne]; [assumption|exfalso].
      pose proof (Hq (fun k => if (k <? n)%nat then (if (k =? i)%nat then 1 else 0)
                               else - (U i i + 1) / (2 * U i n))) as Hv.
      rewrite Hlast in Hv. rewrite quad_unit in Hv by assumption.
      rewrite (rsum_unit n i 1) in Hv by assumption. rewrite Hz in Hv.
      replace (1 * U i i * 1 + 2 * (- (U i i + 1) / (2 * U i n)) * (U i n * 1)
               + - (U i i + 1) / (2 * U i n) * (- (U i i + 1) / (2 * U i n)) * 0)
        with (-1) in Hv by (field; assumption). lra. }
    destruct (IH U (psd_restrict n U (conj Hs Hq))) as [m [g Hg]].
    exists m, (fun k i => if (i <? n)%nat then g k i else 0).
    intros i j Hi Hj.
    destruct (Nat.ltb_spec i n) as [Hi'|Hi'], (Nat.ltb_spec j n) as [Hj'|Hj'].
    + now apply Hg.
    + replace j with n by lia. rewrite Hcol by assumption. symmetry. apply rsum_zero. intros; ring.
    + replace i with n by lia. rewrite Hs by lia. rewrite Hcol by assumption.
      symmetry. apply rsum_zero. intros; ring.
    + replace i with n by lia. replace j with n by lia. rewrite Hz. symmetry.
      apply rsum_zero. intros; ring.
  - (* eliminate the last index *)
    assert (Hpos : 0 < U n n) by lra.
    set (V := fun i j => U i j - U i n * U j n / U n n).
    assert (HV : psd n V).
    { split.
      - intros i j Hi Hj. unfold V. rewrite (Hs i j) by lia. lra.
      - intros v. set (c := - rsum n (fun i => U i n * v i) / U n n).
        specialize (Hq (fun k => if (k <? n)%nat then v k else c)). rewrite Hlast in Hq.
        replace (quad n V v) with
          (quad n U v - rsum n (fun i => U i n * v i) * rsum n (fun i => U i n * v i) / U n n).
        + unfold c in Hq.
          set (S1 := rsum n (fun i => U i n * v i)) in *.
          replace (quad n U v + 2 * (- S1 / U n n) * S1 + - S1 / U n n * (- S1 / U n n) * U n n)
            with (quad n U v - S1 * S1 / U n n) in Hq by (field; assumption).
          exact Hq.
        + unfold quad, Rdiv. rewrite rsum_mult, <- rsum_scal_r, <- rsum_minus.
          apply rsum_ext. intros i Hi. rewrite <- rsum_scal_r, <- rsum_minus.
          apply rsum_ext. intros j Hj. unfold V. field. assumption. }
    destruct (IH V HV) as [m [g Hg]].
    assert (Hsq : sqrt (U n n) * sqrt (U n n) = U n n) by (apply sqrt_sqrt; lra).
    assert (Hsp : 0 < sqrt (U n n)) by (apply sqrt_lt_R0; assumption).
    exists (S m), (fun k i => if (k <? m)%nat then (if (i <? n)%nat then g k i else 0)
                              else U i n / sqrt (U n n)).
    intros i j Hi Hj. simpl. rewrite Nat.ltb_irrefl.
    rewrite (rsum_ext m _ (fun k => (if (i <? n)%nat then g k i else 0)
                                    * (if (j <? n)%nat then g k j else 0)))
      by (intros k Hk; apply Nat.ltb_lt in Hk; now rewrite Hk).
    replace (U i n / sqrt (U n n) * (U j n / sqrt (U n n))) with (U i n * U j n / U n n).
    2:{ rewrite <- Hsq at 1. field. lra. }
    destruct (Nat.ltb_spec i n) as [Hi'|Hi'], (Nat.ltb_spec j n) as [Hj'|Hj'].
    + rewrite <- Hg by assumption. unfold V. lra.
    + replace j with n by lia. rewrite rsum_zero by (intros; ring). field. assumption.
    + replace i with n by lia. rewrite rsum_zero by (intros; ring). rewrite (Hs n j) by lia.
      field. assumption.
    + replace i with n by lia. replace j with n by lia.
      rewrite rsum_zero by (intros; ring). field. assumption.
Qed.

(** Any mean and any symmetric positive semi-definite matrix are realised by a
    finite-support distribution. *)
Lemma Ex_list_map_seq {A} m (w : R) (out : nat -> A) (f : A -> R) :
  Ex (map (fun k => (w, out k)) (seq 0 m)) f = rsum m (fun k => w * f (out k)).
Proof.
  induction m as [|m IH]; [reflexivity|].
  rewrite seq_S, map_app. simpl.
  assert (Happ : forall (l l' : dist A), Ex (l ++ l') f = Ex l f + Ex l' f).
  { induction l as [|[q c] l IHl]; simpl; intros; [lra|]. rewrite IHl. lra. }
  rewrite Happ, IH. simpl. lra.
Qed.

Theorem psd_realised n (mu : nat -> R) (U : nat -> nat -> R) :
  psd n U -> exists d : dist (nat -> R), is_prob d /\ has_mean n d mu /\ has_cov n d U.
Proof.
  intros HU. destruct (psd_gram n U HU) as [m [g Hg]].
  (* outcomes mu +- sqrt(S m) * g_k, k = 0..m (g_m = 0), each of weight 1/(2(m+1)) *)
  set (w := / (2 * INR (S m))).
  set (r := sqrt (INR (S m))).
  set (gg := fun k i => if (k <? m)%nat then g k i else 0).
  set (dp := map (fun k => (w, fun i => mu i + r * gg k i)) (seq 0 (S m))).
  set (dm := map (fun k => (w, fun i => mu i - r * gg k i)) (seq 0 (S m))).
  assert (HN : 0 < INR (S m)) by (apply lt_0_INR; lia).
  assert (Hr : r * r = INR (S m)) by (apply sqrt_sqrt; lra).
  assert (Happ : forall f : (nat -> R) -> R, Ex (dp ++ dm) f = Ex dp f + Ex dm f).
  { intros f. apply Ex_app. }
  assert (HE : forall f, Ex (dp ++ dm) f =
             rsum (S m) (fun k => w * (f (fun i => mu i + r * gg k i) + f (fun i => mu i - r * gg k i)))).
  { intros f. rewrite Happ. unfold dp, dm.
    rewrite !(Ex_list_map_seq (S m) w). rewrite <- rsum_plus. apply rsum_ext. intros; ring. }
  assert (Hw : INR (S m) * w = / 2) by (unfold w; field; lra).
  assert (Hmean : forall i, Ex (dp ++ dm) (fun s => s i) = mu i).
  { intros i. rewrite HE. rewrite (rsum_ext _ _ (fun _ => w * (2 * mu i))) by (intros; ring).
    rewrite rsum_const. rewrite <- Rmult_assoc, Hw. field. }
  assert (HP : is_prob (dp ++ dm)).
  { split.
    - intros p a Hin. apply in_app_or in Hin. 
      assert (0 <= w) by (unfold w; left; apply Rinv_0_lt_compat; lra).
      unfold dp, dm in Hin.
      destruct Hin as [Hin|Hin]; apply in_map_iff in Hin; destruct Hin as [k [Heq _]];
        inversion Heq; subst; assumption.
    - rewrite HE. rewrite (rsum_ext _ _ (fun _ => w * 2)) by (intros; ring).
      rewrite rsum_const. rewrite <- Rmult_assoc, Hw. field. }
  exists (dp ++ dm). split; [exact HP|]. split.
  - intros i Hi. apply Hmean.
  - intros i j Hi Hj. unfold Cov. rewrite !Hmean. rewrite HE.
    rewrite (rsum_ext _ _ (fun k => w * 2 * (INR (S m)) * (gg k i * gg k j))).
    2:{ intros k Hk. rewrite <- Hr. ring. }
    rewrite rsum_scal.
    replace (w * 2 * INR (S m)) with 1 by lra.
    rewrite Rmult_1_l. simpl. unfold gg at 3 4. rewrite Nat.ltb_irrefl.
    rewrite Hg by assumption. rewrite Rmult_0_l, Rplus_0_r. apply rsum_ext.
    intros k Hk. unfold gg. apply Nat.ltb_lt in Hk. now rewrite Hk.
Qed.
