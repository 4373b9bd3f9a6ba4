(** Lemmas about convolve_unc. *)
From Coq Require Import Reals List Arith ZArith Bool Lia Lra Psatz String.
From Verif Require Import Base Sums Stats StatsFacts M_Filter S_Filter S_Conv P_Filter P_Filter2.
Import ListNotations.
Open Scope R_scope.

(** ** Signals extended through a partial index map *)
Definition extsig (g : nat -> option nat) (s : nat -> R) (i : nat) : R :=
  match g i with Some a => s a | None => 0 end.
Definition extcov (g : nat -> option nat) (U : nat -> nat -> R) (i j : nat) : R :=
  match g i, g j with Some a, Some b => U a b | _, _ => 0 end.
Definition shiftg (p : nat) (g : nat -> option nat) (i : nat) : option nat :=
  if (i <? p)%nat then None else g (i - p)%nat.

Definition map_dist {A B} (h : A -> B) (d : dist A) : dist B :=
  map (fun q => (fst q, h (snd q))) d.

Lemma Ex_map {A B} (h : A -> B) (d : dist A) (f : B -> R) :
  Ex (map_dist h d) f = Ex d (fun a => f (h a)).
Proof. induction d as [|[p a] d IH]; simpl; [reflexivity|]. now rewrite IH. Qed.

Lemma Cov_map {A B} (h : A -> B) (d : dist A) (f g : B -> R) :
  Cov (map_dist h d) f g = Cov d (fun a => f (h a)) (fun a => g (h a)).
Proof. unfold Cov. now rewrite !Ex_map. Qed.

Lemma is_prob_map {A B} (h : A -> B) (d : dist A) : is_prob d ->
  is_prob (map_dist h d).
Proof.
  intros [H1 H2]. split.
  - intros p b Hin. apply in_map_iff in Hin. destruct Hin as [[q a] [He Hin]]. simpl in He.
    inversion He; subst. now apply H1 with a.
  - rewrite Ex_map. exact H2.
Qed.

Lemma indep_map_l {A A' B} (h : A -> A') (d1 : dist A) (d2 : dist B) :
  indep (map_dist h d1) d2 = map_dist (fun o => (h (fst o), snd o)) (indep d1 d2).
Proof.
  unfold indep, map_dist. induction d1 as [|[p a] d1 IH]; simpl; [reflexivity|].
  rewrite map_app, IH. f_equal. rewrite map_map. reflexivity.
Qed.

Lemma ext_mean n M g d x : (forall i a, (i < M)%nat -> g i = Some a -> (a < n)%nat) ->
  has_mean n d x -> has_mean M (map_dist (extsig g) d) (extsig g x).
Proof.
  intros Hg Hm i Hi. rewrite Ex_map. unfold extsig. specialize (Hg i).
  destruct (g i) as [a|]; [now apply Hm, Hg|]. apply Ex_zero.
Qed.

Lemma Cov_zero_l {A} (d : dist A) g : Cov d (fun _ => 0) g = 0.
Proof.
  unfold Cov. rewrite (Ex_ext _ _ (fun _ => 0)); [apply Ex_zero|]. intros. rewrite Ex_zero. ring.
Qed.
Lemma Cov_zero_r {A} (d : dist A) f : Cov d f (fun _ => 0) = 0.
Proof. rewrite Cov_sym. apply Cov_zero_l. Qed.

Lemma ext_cov_dist n M g d U : (forall i a, (i < M)%nat -> g i = Some a -> (a < n)%nat) ->
  has_cov n d U -> has_cov M (map_dist (extsig g) d) (extcov g U).
Proof.
  intros Hg Hm i j Hi Hj. rewrite Cov_map. unfold extsig, extcov.
  pose proof (Hg i) as Gi. pose proof (Hg j) as Gj.
  destruct (g i) as [a|], (g j) as [b|]; auto using Cov_zero_l, Cov_zero_r.
Qed.

(** covariance of the extended signal convolved with the kernel *)
Definition ext_conv_cov (N : nat) (g : nat -> option nat) (x1 : nat -> R) (U1 : nat -> nat -> R)
  (x2 : nat -> R) (U2 : nat -> nat -> R) (i j : nat) : R :=
  rsum N (fun a => rsum N (fun b =>
    x2 a * x2 b * extcov g U1 (i + (N - 1) - a)%nat (j + (N - 1) - b)%nat
    + U2 a b * (extsig g x1 (i + (N - 1) - a)%nat * extsig g x1 (j + (N - 1) - b)%nat)
    + U2 b a * extcov g U1 (i + (N - 1) - a)%nat (j + (N - 1) - b)%nat)).

(** _fir_filter with "zero" history on a padded signal *)
Lemma fir_zero_ext (xp x1 x2 : vec) (Up : option mat) U1 U2 g np N :
  alen xp = np -> alen x2 = N -> (1 <= np)%nat -> (2 <= N)%nat ->
  (forall i, (i < np)%nat -> xp i = extsig g x1 i) ->
  shape_ok np Up ->
  (forall i j, (i < np)%nat -> (j < np)%nat -> cov_or_zero Up i j = extcov g U1 i j) ->
  opt_square N U2 ->
  exists y U, fir_filter xp x2 Up (opt_unc U2) "zero" = Ok (y, U) /\
    alen y = np /\ mrows U = np /\ mcols U = np /\
    (forall i, (i < np)%nat -> y i = fir_outcome N x2 (extsig (shiftg (N - 1) g) x1) i) /\
    (forall i j, (i < np)%nat -> (j < np)%nat ->
       U i j = ext_conv_cov N (shiftg (N - 1) g) x1 U1 x2 (opt_cov U2) i j).
Proof.
  intros Hxp H2 Hn HN Hx Hs HU H2s.
  destruct (fir_filter_closed xp x2 Up (opt_unc U2) "zero" 0 np N) as [y [U [Hok [L1 [L2 [L3 [E F]]]]]]]; auto.
  { destruct U2; exact H2s. }
  exists y, U. repeat (split; [assumption|]).
  assert (Hc : forall k, (k < np + (N - 1))%nat -> continued (N - 1) 0 xp k = extsig (shiftg (N - 1) g) x1 k).
  { intros k Hk. unfold continued, extsig, shiftg. destruct (Nat.ltb_spec k (N - 1)); [reflexivity|].
    rewrite Hx by lia. reflexivity. }
  split.
  - intros i Hi. rewrite E by assumption. unfold fir_outcome. apply rsum_ext. intros a Ha.
    rewrite Hc by lia. reflexivity.
  - intros i j Hi Hj. rewrite F by assumption. unfold ext_conv_cov.
    apply rsum_ext. intros a Ha. apply rsum_ext. intros b Hb. rewrite !Hc by lia.
    assert (Hu : forall a b, unc_or_zero (opt_unc U2) a b = opt_cov U2 a b).
    { intros. destruct U2; reflexivity. }
    rewrite !Hu.
    assert (He : ext_cov "zero" np (N - 1) (cov_or_zero Up) (i + (N - 1) - a) (j + (N - 1) - b)
               = extcov (shiftg (N - 1) g) U1 (i + (N - 1) - a) (j + (N - 1) - b)).
    { unfold ext_cov, extcov, shiftg. simpl.
      destruct (Nat.leb_spec (N - 1) (i + (N - 1) - a)), (Nat.ltb_spec (i + (N - 1) - a) (N - 1)); try lia;
      destruct (Nat.leb_spec (N - 1) (j + (N - 1) - b)), (Nat.ltb_spec (j + (N - 1) - b) (N - 1)); try lia; simpl.
      - rewrite HU by lia. reflexivity.
      - destruct (g (i + (N - 1) - a - (N - 1))%nat); reflexivity.
      - reflexivity.
      - reflexivity. }
    rewrite He. reflexivity.
Qed.

Lemma ext_conv_exact n1 N M g (x1 x2 : nat -> R) U1 U2 (d1 d2 : dist (nat -> R)) i j :
  (forall k a, (k < M + (N - 1))%nat -> g k = Some a -> (a < n1)%nat) ->
  (i < M)%nat -> (j < M)%nat -> (1 <= N)%nat ->
  is_prob d1 -> is_prob d2 -> has_mean n1 d1 x1 -> has_cov n1 d1 U1 ->
  has_mean N d2 x2 -> has_cov N d2 U2 ->
  Ex (indep d1 d2) (fun o => fir_outcome N (snd o) (extsig g (fst o)) i) = fir_outcome N x2 (extsig g x1) i /\
  Cov (indep d1 d2) (fun o => fir_outcome N (snd o) (extsig g (fst o)) i)
                    (fun o => fir_outcome N (snd o) (extsig g (fst o)) j)
  = ext_conv_cov N g x1 U1 x2 U2 i j.
Proof.
  intros Hg Hi Hj HN P1 P2 M1 C1 M2 C2.
  set (d1' := map_dist (extsig g) d1).
  assert (P1' : is_prob d1') by now apply is_prob_map.
  assert (M1' : has_mean (M + (N - 1)) d1' (extsig g x1)) by (apply (ext_mean n1); auto).
  assert (C1' : has_cov (M + (N - 1)) d1' (extcov g U1)) by (apply (ext_cov_dist n1); auto).
  assert (HE : forall f, Ex (indep d1 d2) (fun o => f (extsig g (fst o), snd o)) = Ex (indep d1' d2) f).
  { intros f. unfold d1'. rewrite indep_map_l. rewrite Ex_map. reflexivity. }
  split.
  - etransitivity; [exact (HE (fun o => fir_outcome N (snd o) (fst o) i))|].
    apply (fir_mean_exact M N x2 (extsig g x1)); auto.
  - transitivity (Cov (indep d1' d2) (fun o => fir_outcome N (snd o) (fst o) i)
                    (fun o => fir_outcome N (snd o) (fst o) j)).
    { unfold d1'. rewrite indep_map_l. rewrite Cov_map. reflexivity. }
    pose proof (bilinear_cov (M + (N - 1)) N d1' d2 (extsig g x1) x2 (extcov g U1) U2 P1' P2 M1' M2 C1' C2
     (fun k => (i + (N - 1) - k)%nat) (fun k => (j + (N - 1) - k)%nat)) as H.
    unfold lin_comb in H. unfold fir_outcome. rewrite H by (intros; lia).
    unfold ext_conv_cov. apply rsum_ext. intros a Ha. apply rsum_ext. intros b Hb.
    replace (U2 b a) with (U2 a b); [reflexivity|].
    rewrite <- !C2 by assumption. apply Cov_sym.
Qed.

(** ** numpy modes *)
Definition zp (n : nat) (i : nat) : option nat := if (i <? n)%nat then Some i else None.

Lemma full_conv_alt n1 n2 x1 x2 k :
  full_conv n1 n2 x1 x2 k =
  rsum n2 (fun j => x2 j * (if (j <=? k)%nat && (k - j <? n1)%nat then x1 (k - j)%nat else 0)).
Proof.
  unfold full_conv. rewrite rsum_swap. apply rsum_ext. intros j Hj.
  destruct (Nat.leb_spec j k); simpl.
  - destruct (Nat.ltb_spec (k - j) n1); simpl.
    + rewrite (rsum_single n1 (k - j)); auto.
      * destruct (Nat.eqb_spec (k - j + j) k); [ring|lia].
      * intros i Hi Hne. destruct (Nat.eqb_spec (i + j) k); [lia|reflexivity].
    + rewrite rsum_zero; [ring|]. intros i Hi. destruct (Nat.eqb_spec (i + j) k); [lia|reflexivity].
  - rewrite rsum_zero; [ring|]. intros i Hi. destruct (Nat.eqb_spec (i + j) k); [lia|reflexivity].
Qed.

Lemma full_conv_comm n1 n2 x1 x2 k : full_conv n1 n2 x1 x2 k = full_conv n2 n1 x2 x1 k.
Proof.
  unfold full_conv. rewrite rsum_swap. apply rsum_ext; intros j Hj. apply rsum_ext; intros i Hi.
  rewrite (Nat.add_comm i j). destruct (_ =? _)%nat; ring.
Qed.

Lemma zp_outcome n N (s t : nat -> R) i : (1 <= N)%nat ->
  fir_outcome N t (extsig (shiftg (N - 1) (zp n)) s) i = full_conv n N s t i.
Proof.
  intros HN. rewrite full_conv_alt. unfold fir_outcome. apply rsum_ext. intros j Hj. f_equal.
  unfold extsig, shiftg, zp. destruct (Nat.ltb_spec (i + (N - 1) - j) (N - 1)).
  - destruct (Nat.leb_spec j i); [lia|]. reflexivity.
  - destruct (Nat.leb_spec j i); [|lia]. simpl.
    replace (i + (N - 1) - j - (N - 1))%nat with (i - j)%nat by lia.
    destruct (i - j <? n)%nat; reflexivity.
Qed.

Lemma zp_in n N k a : shiftg (N - 1) (zp n) k = Some a -> (a < n)%nat.
Proof.
  unfold shiftg, zp. destruct (k <? N - 1)%nat; [discriminate|].
  destruct (Nat.ltb_spec (k - (N - 1)) n); intros H'; inversion H'; subst; assumption.
Qed.

(** after the swap: n2 <= n1 *)
Definition np_closed (n1 n2 : nat) (x1 : nat -> R) U1 (x2 : nat -> R) U2 :=
  ext_conv_cov n2 (shiftg (n2 - 1) (zp n1)) x1 U1 x2 U2.

Lemma np_conv_noswap x1 U1 x2 U2 mode n1 n2 :
  alen x1 = n1 -> alen x2 = n2 -> (2 <= n2)%nat -> (n2 <= n1)%nat ->
  opt_square n1 U1 -> opt_square n2 U2 -> numpy_mode mode ->
  exists y U, convolve_unc x1 U1 x2 U2 mode = Ok (y, U) /\
    alen y = np_conv_len mode n1 n2 /\ mrows U = np_conv_len mode n1 n2 /\ mcols U = np_conv_len mode n1 n2 /\
    forall i j, (i < np_conv_len mode n1 n2)%nat -> (j < np_conv_len mode n1 n2)%nat ->
      y i = np_conv mode n1 n2 x1 x2 i /\
      U i j = np_closed n1 n2 x1 (opt_cov U1) x2 (opt_cov U2)
                (i + np_conv_start mode n1 n2) (j + np_conv_start mode n1 n2).
Proof.
  intros H1 H2 Hn Hle S1 S2 Hm. unfold convolve_unc.
  assert (Hsw : (alen x1 <? alen x2)%nat = false) by (apply Nat.ltb_ge; lia). rewrite Hsw. simpl andb. cbv iota.
  assert (Hpad : forall k,
    exists y U, fir_filter (zpad_end x1 k) x2 (option_map (fun U => zpad_end2 U k) U1) (opt_unc U2) "zero" = Ok (y, U) /\
    alen y = (n1 + k)%nat /\ mrows U = (n1 + k)%nat /\ mcols U = (n1 + k)%nat /\
    (forall i, (i < n1 + k)%nat -> y i = fir_outcome n2 x2 (extsig (shiftg (n2 - 1) (zp n1)) x1) i) /\
    (forall i j, (i < n1 + k)%nat -> (j < n1 + k)%nat ->
       U i j = np_closed n1 n2 x1 (opt_cov U1) x2 (opt_cov U2) i j)).
  { intros k. apply fir_zero_ext; auto; try lia.
    - simpl. now rewrite H1.
    - intros i Hi. simpl. rewrite H1. unfold extsig, zp. destruct (i <? n1)%nat; reflexivity.
    - destruct U1 as [m|]; simpl in *; [|exact I]. destruct S1 as [Sr Sc]. rewrite Sr, Sc. auto.
    - intros i j Hi Hj. destruct U1 as [m|]; simpl in *.
      + destruct S1 as [Sr Sc]. rewrite Sr, Sc. unfold extcov, zp.
        destruct (i <? n1)%nat, (j <? n1)%nat; reflexivity.
      + unfold extcov, zp. destruct (i <? n1)%nat, (j <? n1)%nat; reflexivity. }
  destruct Hm as [-> | [-> | ->]]; simpl String.eqb; cbv iota; unfold np_conv, np_conv_len, np_conv_start; simpl String.eqb; cbv iota.
  - destruct (Hpad (alen x2 - 1)%nat) as [y [U [Hok [L1 [L2 [L3 [E F]]]]]]].
    rewrite Hok. simpl bind. exists y, U. split; [reflexivity|].
    split; [lia|]. split; [lia|]. split; [lia|]. intros i j Hi Hj. rewrite !Nat.add_0_r. split.
    + rewrite E by lia. apply zp_outcome. lia.
    + apply F; lia.
  - destruct (fir_zero_ext x1 x1 x2 U1 (opt_cov U1) U2 (zp n1) n1 n2) as [y [U [Hok [L1 [L2 [L3 [E F]]]]]]]; auto; try lia.
    + intros i Hi. unfold extsig, zp. apply Nat.ltb_lt in Hi. rewrite Hi. reflexivity.
    + intros i j Hi Hj. unfold extcov, zp. apply Nat.ltb_lt in Hi, Hj. rewrite Hi, Hj.
      destruct U1; reflexivity.
    + rewrite Hok. simpl bind. eexists; eexists. split; [reflexivity|]. simpl. rewrite H2, L1, L2, L3.
      rewrite (Nat.max_l n1 n2), (Nat.min_r n1 n2) by lia.
      split; [lia|]. split; [lia|]. split; [lia|]. intros i j Hi Hj. split.
      * rewrite E by lia. rewrite (Nat.add_comm i). apply zp_outcome. lia.
      * rewrite F by lia. unfold np_closed. f_equal; lia.
  - rewrite H2, (Nat.max_l n1 n2), (Nat.min_r n1 n2) by lia.
    set (q := ((n2 - 1) / 2)%nat) in *. clearbody q.
    destruct (Hpad q) as [y [U [Hok [L1 [L2 [L3 [E F]]]]]]].
    rewrite Hok. simpl bind. eexists; eexists. split; [reflexivity|].
    unfold slice, slice2; cbn [alen aget mrows mcols mget].
    rewrite L1, L2, L3.
    split; [lia|]. split; [lia|]. split; [lia|]. intros i j Hi Hj. split.
    + rewrite E by lia. rewrite (Nat.add_comm i). apply zp_outcome. lia.
    + rewrite F by lia. unfold np_closed. f_equal; lia.
Qed.

Lemma np_conv_comm mode n1 n2 x1 x2 k : np_conv mode n1 n2 x1 x2 k = np_conv mode n2 n1 x2 x1 k.
Proof.
  unfold np_conv, np_conv_start. rewrite (Nat.min_comm n1 n2). apply full_conv_comm.
Qed.
Lemma np_conv_len_comm mode n1 n2 : np_conv_len mode n1 n2 = np_conv_len mode n2 n1.
Proof. unfold np_conv_len. rewrite (Nat.max_comm n1 n2), (Nat.min_comm n1 n2), (Nat.add_comm n1 n2). reflexivity. Qed.
Lemma np_conv_start_comm mode n1 n2 : np_conv_start mode n1 n2 = np_conv_start mode n2 n1.
Proof. unfold np_conv_start. rewrite (Nat.min_comm n1 n2). reflexivity. Qed.

Lemma numpy_mode_swap mode : numpy_mode mode -> is_numpy_mode mode = true.
Proof. intros [-> | [-> | ->]]; reflexivity. Qed.

Lemma convolve_swap x1 U1 x2 U2 mode : (alen x1 < alen x2)%nat -> numpy_mode mode ->
  convolve_unc x1 U1 x2 U2 mode = convolve_unc x2 U2 x1 U1 mode.
Proof.
  intros Hl Hm. unfold convolve_unc. rewrite (numpy_mode_swap mode Hm).
  assert (E1 : (alen x1 <? alen x2)%nat = true) by (apply Nat.ltb_lt; lia).
  assert (E2 : (alen x2 <? alen x1)%nat = false) by (apply Nat.ltb_ge; lia).
  rewrite E1, E2. simpl. reflexivity.
Qed.

(** exactness for numpy modes without swap *)
Lemma Ex_pair_swap {A B} (d1 : dist A) (d2 : dist B) (h : A * B -> R) :
  Ex (indep d1 d2) h = Ex (indep d2 d1) (fun o => h (snd o, fst o)).
Proof.
  rewrite !Ex_indep. simpl. induction d1 as [|[p a] d1 IH]; simpl.
  - symmetry. apply Ex_zero.
  - rewrite IH, Ex_plus, Ex_scal. reflexivity.
Qed.
Lemma Cov_pair_swap {A B} (d1 : dist A) (d2 : dist B) (f g : A * B -> R) :
  Cov (indep d1 d2) f g = Cov (indep d2 d1) (fun o => f (snd o, fst o)) (fun o => g (snd o, fst o)).
Proof. unfold Cov. rewrite !(Ex_pair_swap d1 d2). reflexivity. Qed.

Lemma np_exact_noswap n1 n2 mode (x1 x2 : nat -> R) U1 U2 (d1 d2 : dist (nat -> R)) i j :
  (1 <= n2)%nat -> is_prob d1 -> is_prob d2 -> has_mean n1 d1 x1 -> has_cov n1 d1 U1 ->
  has_mean n2 d2 x2 -> has_cov n2 d2 U2 ->
  Ex (indep d1 d2) (fun o => np_conv mode n1 n2 (fst o) (snd o) i) = np_conv mode n1 n2 x1 x2 i /\
  Cov (indep d1 d2) (fun o => np_conv mode n1 n2 (fst o) (snd o) i)
                    (fun o => np_conv mode n1 n2 (fst o) (snd o) j)
  = np_closed n1 n2 x1 U1 x2 U2 (i + np_conv_start mode n1 n2) (j + np_conv_start mode n1 n2).
Proof.
  intros HN P1 P2 M1 C1 M2 C2. unfold np_conv.
  set (k := (i + np_conv_start mode n1 n2)%nat). set (l := (j + np_conv_start mode n1 n2)%nat).
  destruct (ext_conv_exact n1 n2 (S (k + l)) (shiftg (n2 - 1) (zp n1)) x1 x2 U1 U2 d1 d2 k l) as [H1 H2]; auto; try lia.
  { intros. eapply zp_in; eauto. }
  split.
  - rewrite (Ex_ext _ _ (fun o => fir_outcome n2 (snd o) (extsig (shiftg (n2 - 1) (zp n1)) (fst o)) k)).
    + rewrite H1. apply zp_outcome. lia.
    + intros. symmetry. apply zp_outcome. lia.
  - unfold np_closed. rewrite <- H2. unfold Cov.
    assert (HE : forall i, Ex (indep d1 d2) (fun o => full_conv n1 n2 (fst o) (snd o) i) =
       Ex (indep d1 d2) (fun o => fir_outcome n2 (snd o) (extsig (shiftg (n2 - 1) (zp n1)) (fst o)) i)).
    { intros. apply Ex_ext. intros. symmetry. apply zp_outcome. lia. }
    rewrite !HE. apply Ex_ext. intros o. rewrite !zp_outcome by lia. reflexivity.
Qed.

Lemma convolve_np_exact x1 U1 x2 U2 mode n1 n2 :
  alen x1 = n1 -> alen x2 = n2 -> (2 <= n1)%nat -> (2 <= n2)%nat ->
  opt_square n1 U1 -> opt_square n2 U2 -> numpy_mode mode ->
  exists y U, convolve_unc x1 U1 x2 U2 mode = Ok (y, U) /\
    alen y = np_conv_len mode n1 n2 /\ mrows U = np_conv_len mode n1 n2 /\ mcols U = np_conv_len mode n1 n2 /\
    forall i j, (i < np_conv_len mode n1 n2)%nat -> (j < np_conv_len mode n1 n2)%nat ->
      y i = np_conv mode n1 n2 x1 x2 i /\
      forall d1 d2 : dist (nat -> R),
      is_prob d1 -> is_prob d2 -> has_mean n1 d1 x1 -> has_cov n1 d1 (opt_cov U1) ->
      has_mean n2 d2 x2 -> has_cov n2 d2 (opt_cov U2) ->
      y i = Ex (indep d1 d2) (fun o => np_conv mode n1 n2 (fst o) (snd o) i) /\
      U i j = Cov (indep d1 d2) (fun o => np_conv mode n1 n2 (fst o) (snd o) i)
                                (fun o => np_conv mode n1 n2 (fst o) (snd o) j).
Proof.
  intros H1 H2 Hn1 Hn2 S1 S2 Hm.
  destruct (Nat.lt_ge_cases n1 n2) as [Hlt|Hge].
  - rewrite convolve_swap by (auto; lia).
    destruct (np_conv_noswap x2 U2 x1 U1 mode n2 n1) as [y [U [Hok [L1 [L2 [L3 E]]]]]]; auto; try lia.
    rewrite (np_conv_len_comm mode n1 n2).
    exists y, U. repeat (split; [assumption|]). intros i j Hi Hj. destruct (E i j Hi Hj) as [E1 E2].
    split; [rewrite E1; apply np_conv_comm|].
    intros d1 d2 P1 P2 M1 C1 M2 C2.
    destruct (np_exact_noswap n2 n1 mode x2 x1 (opt_cov U2) (opt_cov U1) d2 d1 i j) as [X1 X2]; auto; try lia.
    rewrite (Ex_pair_swap d1 d2), (Cov_pair_swap d1 d2). simpl. rewrite E1, E2, <- X1, <- X2.
    split.
    + apply Ex_ext. intros o. apply np_conv_comm.
    + assert (HE : forall i, Ex (indep d2 d1) (fun o => np_conv mode n2 n1 (fst o) (snd o) i) =
         Ex (indep d2 d1) (fun o => np_conv mode n1 n2 (snd o) (fst o) i)).
      { intros. apply Ex_ext. intros o. apply np_conv_comm. }
      unfold Cov. rewrite !HE. apply Ex_ext. intros o. now rewrite !(np_conv_comm mode n2 n1).
  - destruct (np_conv_noswap x1 U1 x2 U2 mode n1 n2) as [y [U [Hok [L1 [L2 [L3 E]]]]]]; auto; try lia.
    exists y, U. repeat (split; [assumption|]). intros i j Hi Hj. destruct (E i j Hi Hj) as [E1 E2].
    split; [assumption|].
    intros d1 d2 P1 P2 M1 C1 M2 C2.
    destruct (np_exact_noswap n1 n2 mode x1 x2 (opt_cov U1) (opt_cov U2) d1 d2 i j) as [X1 X2]; auto; try lia.
    rewrite E1, E2. auto.
Qed.

(** ** commutation *)
Lemma conv_reindex n1 n2 k (f : nat -> nat -> R) :
  rsum n2 (fun a => if (a <=? k)%nat && (k - a <? n1)%nat then f (k - a)%nat a else 0) =
  rsum n1 (fun i => if (i <=? k)%nat && (k - i <? n2)%nat then f i (k - i)%nat else 0).
Proof.
  transitivity (rsum n2 (fun a => rsum n1 (fun i => if (i + a =? k)%nat then f i a else 0))).
  - apply rsum_ext. intros a Ha. destruct (Nat.leb_spec a k); simpl.
    + destruct (Nat.ltb_spec (k - a) n1).
      * rewrite (rsum_single n1 (k - a)); auto.
        -- destruct (Nat.eqb_spec (k - a + a) k); [reflexivity|lia].
        -- intros i Hi Hne. destruct (Nat.eqb_spec (i + a) k); [lia|reflexivity].
      * rewrite rsum_zero; [ring|]. intros i Hi. destruct (Nat.eqb_spec (i + a) k); [lia|reflexivity].
    + rewrite rsum_zero; [ring|]. intros i Hi. destruct (Nat.eqb_spec (i + a) k); [lia|reflexivity].
  - rewrite rsum_swap. apply rsum_ext. intros i Hi. destruct (Nat.leb_spec i k); simpl.
    + destruct (Nat.ltb_spec (k - i) n2).
      * rewrite (rsum_single n2 (k - i)); auto.
        -- destruct (Nat.eqb_spec (i + (k - i)) k); [reflexivity|lia].
        -- intros a Ha Hne. destruct (Nat.eqb_spec (i + a) k); [lia|reflexivity].
      * rewrite rsum_zero; [ring|]. intros a Ha. destruct (Nat.eqb_spec (i + a) k); [lia|reflexivity].
    + rewrite rsum_zero; [ring|]. intros a Ha. destruct (Nat.eqb_spec (i + a) k); [lia|reflexivity].
Qed.

Definition inwin (n k a : nat) : bool := (a <=? k)%nat && (k - a <? n)%nat.

Lemma np_closed_win n1 n2 x1 U1 x2 U2 k l : (1 <= n2)%nat ->
  np_closed n1 n2 x1 U1 x2 U2 k l =
  rsum n2 (fun a => if inwin n1 k a then
     rsum n2 (fun b => if inwin n1 l b then
        x2 a * x2 b * U1 (k - a)%nat (l - b)%nat + U2 a b * (x1 (k - a)%nat * x1 (l - b)%nat)
        + U2 b a * U1 (k - a)%nat (l - b)%nat else 0) else 0).
Proof.
  intros HN. unfold np_closed, ext_conv_cov. apply rsum_ext. intros a Ha.
  assert (Hg : forall k a, (a < n2)%nat -> shiftg (n2 - 1) (zp n1) (k + (n2 - 1) - a) =
              if inwin n1 k a then Some (k - a)%nat else None).
  { intros k' a' Ha'. unfold shiftg, zp, inwin.
    destruct (Nat.ltb_spec (k' + (n2 - 1) - a') (n2 - 1)), (Nat.leb_spec a' k'); try lia; simpl; [reflexivity|].
    replace (k' + (n2 - 1) - a' - (n2 - 1))%nat with (k' - a')%nat by lia. reflexivity. }
  destruct (inwin n1 k a) eqn:E1.
  - apply rsum_ext. intros b Hb. unfold extcov, extsig. rewrite !Hg, E1 by assumption.
    destruct (inwin n1 l b); [reflexivity|ring].
  - apply rsum_zero. intros b Hb. unfold extcov, extsig. rewrite !Hg, E1 by assumption. ring.
Qed.

Lemma np_closed_comm n1 n2 x1 U1 x2 U2 k l : (1 <= n1)%nat -> (1 <= n2)%nat ->
  symm n1 U1 -> symm n2 U2 ->
  np_closed n1 n2 x1 U1 x2 U2 k l = np_closed n2 n1 x2 U2 x1 U1 k l.
Proof.
  intros HN1 HN2 S1 S2. rewrite !np_closed_win by assumption.
  set (F := fun i a j b => x2 a * x2 b * U1 i j + U2 a b * (x1 i * x1 j) + U2 b a * U1 i j).
  etransitivity.
  { exact (conv_reindex n1 n2 k (fun i a => rsum n2 (fun b => if inwin n1 l b then F i a (l - b)%nat b else 0))). }
  apply rsum_ext. intros i Hi. fold (inwin n2 k i). destruct (inwin n2 k i) eqn:E; [|reflexivity].
  etransitivity.
  { exact (conv_reindex n1 n2 l (fun j b => F i (k - i)%nat j b)). }
  apply rsum_ext. intros j Hj. fold (inwin n2 l j). destruct (inwin n2 l j) eqn:E2; [|reflexivity].
  unfold F. unfold inwin in E, E2. apply andb_prop in E, E2.
  destruct E as [Ea Eb], E2 as [Ec Ed]. apply Nat.ltb_lt in Eb, Ed.
  rewrite (S1 j i) by assumption. rewrite (S2 (l - j)%nat (k - i)%nat) by assumption. ring.
Qed.

Lemma convolve_comm x1 U1 x2 U2 mode n1 n2 :
  alen x1 = n1 -> alen x2 = n2 -> (2 <= n1)%nat -> (2 <= n2)%nat ->
  opt_square n1 U1 -> opt_square n2 U2 -> numpy_mode mode ->
  symm n1 (opt_cov U1) -> symm n2 (opt_cov U2) ->
  exists y U y' U', convolve_unc x1 U1 x2 U2 mode = Ok (y, U) /\
     convolve_unc x2 U2 x1 U1 mode = Ok (y', U') /\ veq y y' /\ meq U U'.
Proof.
  intros H1 H2 Hn1 Hn2 S1 S2 Hm Y1 Y2.
  destruct (Nat.lt_trichotomy n1 n2) as [Hlt|[Heq|Hgt]].
  - rewrite convolve_swap by (auto; lia).
    destruct (np_conv_noswap x2 U2 x1 U1 mode n2 n1) as [y [U [Hok _]]]; auto; try lia.
    exists y, U, y, U. unfold veq, meq. auto 6.
  - rewrite <- Heq in *.
    destruct (np_conv_noswap x1 U1 x2 U2 mode n1 n1) as [y [U [Hok [L1 [L2 [L3 E]]]]]]; auto; try lia.
    destruct (np_conv_noswap x2 U2 x1 U1 mode n1 n1) as [y' [U' [Hok' [L1' [L2' [L3' E']]]]]]; auto; try lia.
    exists y, U, y', U'. split; [assumption|]. split; [assumption|]. split.
    + split; [congruence|]. rewrite L1. intros i Hi.
      destruct (E i i Hi Hi) as [E1 _]. destruct (E' i i Hi Hi) as [E1' _]. rewrite E1, E1'. apply np_conv_comm.
    + split; [congruence|]. split; [congruence|]. rewrite L2, L3. intros i j Hi Hj.
      destruct (E i j Hi Hj) as [_ E1]. destruct (E' i j Hi Hj) as [_ E1']. rewrite E1, E1'.
      apply np_closed_comm; auto; lia.
  - rewrite (convolve_swap x2 U2 x1 U1) by (auto; lia).
    destruct (np_conv_noswap x1 U1 x2 U2 mode n1 n2) as [y [U [Hok _]]]; auto; try lia.
    exists y, U, y, U. unfold veq, meq. auto 6.
Qed.

(** ** ndimage modes *)
Lemma pad_idx_lt mode n k i : (1 <= n)%nat -> (pad_idx mode n k i < n)%nat.
Proof.
  intros Hn. unfold pad_idx. destruct (_ =? _)%string; [|destruct (_ =? _)%string].
  - unfold pad_edge_idx. destruct (i <? k)%nat; [lia|]. destruct (Nat.ltb_spec (i - k) n); lia.
  - unfold pad_sym_idx.
    pose proof (Z.mod_pos_bound (Z.of_nat i - Z.of_nat k) (2 * Z.of_nat n)).
    destruct (Nat.ltb_spec (Z.to_nat ((Z.of_nat i - Z.of_nat k) mod (2 * Z.of_nat n))) n); lia.
  - unfold pad_refl_idx. destruct (Nat.eqb_spec n 1); [lia|].
    pose proof (Z.mod_pos_bound (Z.of_nat i - Z.of_nat k) (2 * Z.of_nat n - 2)).
    destruct (Nat.ltb_spec (Z.to_nat ((Z.of_nat i - Z.of_nat k) mod (2 * Z.of_nat n - 2))) n); lia.
Qed.

Lemma periodic (e : Z -> nat) p z q : (forall z, e (z + p)%Z = e z) -> e (z + p * q)%Z = e z.
Proof.
  intros H. revert q. apply Z.peano_ind.
  - f_equal. lia.
  - intros q IH. replace (z + p * Z.succ q)%Z with ((z + p * q) + p)%Z by lia. rewrite H. apply IH.
  - intros q IH. rewrite <- IH. replace (z + p * q)%Z with ((z + p * Z.pred q) + p)%Z by lia. now rewrite H.
Qed.

Lemma periodic_mod (e : Z -> nat) p z : (p <> 0)%Z -> (forall z, e (z + p)%Z = e z) -> e z = e (z mod p)%Z.
Proof.
  intros Hp H. rewrite <- (periodic e p (z mod p) (z / p) H). f_equal.
  pose proof (Z.div_mod z p Hp). lia.
Qed.

Lemma pad_idx_cont mode n k i e : (1 <= n)%nat -> ndimage_mode mode -> is_continuation mode n e ->
  pad_idx mode n k i = e (Z.of_nat i - Z.of_nat k)%Z.
Proof.
  intros Hn Hm [H0 [Hnear [Hrefl Hmir]]].
  destruct Hm as [-> | [-> | ->]].
  - destruct (Hnear eq_refl) as [Ha Hb]. change (pad_idx "nearest" n k i) with (pad_edge_idx n k i). unfold pad_edge_idx.
    destruct (Nat.ltb_spec i k); [rewrite Ha; [reflexivity|lia]|].
    destruct (Nat.ltb_spec (i - k) n).
    + replace (Z.of_nat i - Z.of_nat k)%Z with (Z.of_nat (i - k)) by lia. now rewrite H0.
    + rewrite Hb by lia. reflexivity.
  - destruct (Hrefl eq_refl) as [Ha Hb]. change (pad_idx "reflect" n k i) with (pad_sym_idx n k i). unfold pad_sym_idx.
    assert (Hp : forall z, e (z + 2 * Z.of_nat n)%Z = e z).
    { intros z. rewrite <- (Ha z). rewrite <- (Hb (-1 - z)%Z). f_equal. lia. }
    set (z := (Z.of_nat i - Z.of_nat k)%Z).
    pose proof (Z.mod_pos_bound z (2 * Z.of_nat n) ltac:(lia)) as Hmb.
    rewrite (periodic_mod e (2 * Z.of_nat n) z) by (auto; lia).
    set (m := (z mod (2 * Z.of_nat n))%Z) in *.
    destruct (Nat.ltb_spec (Z.to_nat m) n).
    + replace m with (Z.of_nat (Z.to_nat m)) at 2 by lia. now rewrite H0.
    + rewrite <- (Hb m). replace (2 * Z.of_nat n - 1 - m)%Z with (Z.of_nat (2 * n - 1 - Z.to_nat m)) by lia.
      rewrite H0 by lia. reflexivity.
  - destruct (Hmir eq_refl) as [Hone [Ha Hb]]. change (pad_idx "mirror" n k i) with (pad_refl_idx n k i). unfold pad_refl_idx.
    destruct (Nat.eqb_spec n 1) as [E|E]; [now rewrite (Hone E)|].
    assert (Hp : forall z, e (z + (2 * Z.of_nat n - 2))%Z = e z).
    { intros z. rewrite <- (Ha z). rewrite <- (Hb (- z)%Z). f_equal. lia. }
    set (z := (Z.of_nat i - Z.of_nat k)%Z).
    pose proof (Z.mod_pos_bound z (2 * Z.of_nat n - 2) ltac:(lia)) as Hmb.
    rewrite (periodic_mod e (2 * Z.of_nat n - 2) z) by (auto; lia).
    set (m := (z mod (2 * Z.of_nat n - 2))%Z) in *.
    destruct (Nat.ltb_spec (Z.to_nat m) n).
    + replace m with (Z.of_nat (Z.to_nat m)) at 2 by lia. now rewrite H0.
    + rewrite <- (Hb m). replace (2 * Z.of_nat n - 2 - m)%Z with (Z.of_nat (2 * n - 2 - Z.to_nat m)) by lia.
      rewrite H0 by lia. reflexivity.
Qed.

Definition ndg (mode : string) (n k : nat) (i : nat) : option nat :=
  if (i <? k + n + k)%nat then Some (pad_idx mode n k i) else None.

Lemma nd_outcome mode n1 N e (s t : nat -> R) i : (1 <= n1)%nat -> (1 <= N)%nat -> (i < n1)%nat ->
  ndimage_mode mode -> is_continuation mode n1 e ->
  fir_outcome N t (extsig (shiftg (N - 1) (ndg mode n1 ((N + 1) / 2))) s) (N + i) = nd_conv e N s t i.
Proof.
  intros Hn HN Hi Hm He. unfold fir_outcome, nd_conv. apply rsum_ext. intros j Hj. f_equal.
  unfold extsig, shiftg, ndg.
  assert (Hd : ((N + 1) / 2 + N / 2 = N)%nat).
  { pose proof (Nat.div_mod N 2 ltac:(lia)). pose proof (Nat.div_mod (N + 1) 2 ltac:(lia)).
    pose proof (Nat.mod_upper_bound N 2 ltac:(lia)). pose proof (Nat.mod_upper_bound (N + 1) 2 ltac:(lia)). lia. }
  assert (Hd2 : (N / 2 <= (N + 1) / 2)%nat) by (apply Nat.div_le_mono; lia).
  destruct (Nat.ltb_spec (N + i + (N - 1) - j) (N - 1)); [lia|].
  destruct (Nat.ltb_spec (N + i + (N - 1) - j - (N - 1)) ((N + 1) / 2 + n1 + (N + 1) / 2)); [|lia].
  rewrite (pad_idx_cont mode n1 _ _ e) by assumption. f_equal. f_equal. lia.
Qed.

Lemma convolve_nd_closed x1 U1 x2 U2 mode n1 n2 :
  alen x1 = n1 -> alen x2 = n2 -> (1 <= n1)%nat -> (2 <= n2)%nat ->
  opt_square n1 U1 -> opt_square n2 U2 -> ndimage_mode mode ->
  exists y U, convolve_unc x1 U1 x2 U2 mode = Ok (y, U) /\
    alen y = n1 /\ mrows U = n1 /\ mcols U = n1 /\
    forall i j, (i < n1)%nat -> (j < n1)%nat ->
      y i = fir_outcome n2 x2 (extsig (shiftg (n2 - 1) (ndg mode n1 ((n2 + 1) / 2))) x1) (n2 + i) /\
      U i j = ext_conv_cov n2 (shiftg (n2 - 1) (ndg mode n1 ((n2 + 1) / 2))) x1 (opt_cov U1) x2 (opt_cov U2)
                (n2 + i) (n2 + j).
Proof.
  intros H1 H2 Hn1 Hn2 S1 S2 Hm. unfold convolve_unc.
  assert (Hnm : is_numpy_mode mode = false) by (destruct Hm as [-> | [-> | ->]]; reflexivity).
  rewrite Hnm, andb_false_r.
  set (p := ((n2 + 1) / 2)%nat).
  assert (Hp : (n2 <= 2 * p)%nat).
  { unfold p. pose proof (Nat.div_mod (n2 + 1) 2 ltac:(lia)).
    pose proof (Nat.mod_upper_bound (n2 + 1) 2 ltac:(lia)). lia. }
  assert (Hpad : exists y U, fir_filter (pad_by (pad_idx mode) x1 p) x2
        (option_map (fun U => pad2_by (pad_idx mode) U p) U1) (opt_unc U2) "zero" = Ok (y, U) /\
    alen y = (p + n1 + p)%nat /\ mrows U = (p + n1 + p)%nat /\ mcols U = (p + n1 + p)%nat /\
    (forall i, (i < p + n1 + p)%nat -> y i = fir_outcome n2 x2 (extsig (shiftg (n2 - 1) (ndg mode n1 p)) x1) i) /\
    (forall i j, (i < p + n1 + p)%nat -> (j < p + n1 + p)%nat ->
       U i j = ext_conv_cov n2 (shiftg (n2 - 1) (ndg mode n1 p)) x1 (opt_cov U1) x2 (opt_cov U2) i j)).
  { apply fir_zero_ext; auto; try lia.
    - simpl. now rewrite H1.
    - intros i Hi. simpl. rewrite H1. unfold extsig, ndg. apply Nat.ltb_lt in Hi. now rewrite Hi.
    - destruct U1 as [m|]; simpl in *; [|exact I]. destruct S1 as [Sr Sc]. rewrite Sr, Sc. auto.
    - intros i j Hi Hj. unfold extcov, ndg. apply Nat.ltb_lt in Hi, Hj. rewrite Hi, Hj.
      destruct U1 as [m|]; simpl in *; [|reflexivity].
      destruct S1 as [Sr Sc]. rewrite Sr, Sc. reflexivity. }
  destruct Hpad as [y [U [Hok [L1 [L2 [L3 [E F]]]]]]].
  assert (Hgo : (do r <- fir_filter (pad_by (pad_idx mode) x1 p) x2
        (option_map (fun U => pad2_by (pad_idx mode) U p) U1) (opt_unc U2) "zero" ;;
        (let '(y, Uy) := r in Ok (slice y n2 (n2 + n1), slice2 Uy n2 (n2 + n1))))
        = Ok (slice y n2 (n2 + n1), slice2 U n2 (n2 + n1))).
  { rewrite Hok. reflexivity. }
  exists (slice y n2 (n2 + n1)), (slice2 U n2 (n2 + n1)).
  split.
  { rewrite H1, H2. fold p. destruct Hm as [-> | [-> | ->]]; exact Hgo. }
  unfold slice, slice2; cbn [alen aget mrows mcols mget]. rewrite L1, L2, L3.
  rewrite !Nat.min_l by lia. split; [lia|]. split; [lia|]. split; [lia|].
  intros i j Hi Hj. split; [apply E; lia | apply F; lia].
Qed.

Lemma nd_in mode n k N i a : (1 <= n)%nat -> shiftg (N - 1) (ndg mode n k) i = Some a -> (a < n)%nat.
Proof.
  intros Hn. unfold shiftg, ndg. destruct (i <? N - 1)%nat; [discriminate|].
  destruct (_ <? _)%nat; [|discriminate]. intros H. inversion H; subst. now apply pad_idx_lt.
Qed.

Lemma convolve_nd_exact x1 U1 x2 U2 mode n1 n2 e :
  alen x1 = n1 -> alen x2 = n2 -> (1 <= n1)%nat -> (2 <= n2)%nat ->
  opt_square n1 U1 -> opt_square n2 U2 -> ndimage_mode mode -> is_continuation mode n1 e ->
  exists y U, convolve_unc x1 U1 x2 U2 mode = Ok (y, U) /\
    alen y = n1 /\ mrows U = n1 /\ mcols U = n1 /\
    forall i j, (i < n1)%nat -> (j < n1)%nat ->
      y i = nd_conv e n2 x1 x2 i /\
      forall d1 d2 : dist (nat -> R),
      is_prob d1 -> is_prob d2 -> has_mean n1 d1 x1 -> has_cov n1 d1 (opt_cov U1) ->
      has_mean n2 d2 x2 -> has_cov n2 d2 (opt_cov U2) ->
      y i = Ex (indep d1 d2) (fun o => nd_conv e n2 (fst o) (snd o) i) /\
      U i j = Cov (indep d1 d2) (fun o => nd_conv e n2 (fst o) (snd o) i)
                                (fun o => nd_conv e n2 (fst o) (snd o) j).
Proof.
  intros H1 H2 Hn1 Hn2 S1 S2 Hm He.
  destruct (convolve_nd_closed x1 U1 x2 U2 mode n1 n2) as [y [U [Hok [L1 [L2 [L3 E]]]]]]; auto.
  exists y, U. repeat (split; [assumption|]). intros i j Hi Hj. destruct (E i j Hi Hj) as [E1 E2].
  split; [rewrite E1; apply (nd_outcome mode n1); auto; lia|].
  intros d1 d2 P1 P2 M1 C1 M2 C2.
  destruct (ext_conv_exact n1 n2 (n2 + n1) (shiftg (n2 - 1) (ndg mode n1 ((n2 + 1) / 2))) x1 x2 (opt_cov U1) (opt_cov U2) d1 d2
     (n2 + i) (n2 + j)) as [X1 X2]; auto; try lia.
  { intros. eapply nd_in; eauto. }
  rewrite E1, E2, <- X1, <- X2.
  assert (HE : forall o i, (i < n1)%nat -> fir_outcome n2 (snd o) (extsig (shiftg (n2 - 1) (ndg mode n1 ((n2 + 1) / 2))) (fst o)) (n2 + i)
             = nd_conv e n2 (fst o) (snd o) i).
  { intros. apply (nd_outcome mode n1); auto; lia. }
  split.
  - apply Ex_ext. intros. now apply HE.
  - assert (HE2 : forall i, (i < n1)%nat -> Ex (indep d1 d2) (fun o => fir_outcome n2 (snd o) (extsig (shiftg (n2 - 1) (ndg mode n1 ((n2 + 1) / 2))) (fst o)) (n2 + i)) =
       Ex (indep d1 d2) (fun o => nd_conv e n2 (fst o) (snd o) i)).
    { intros. apply Ex_ext. intros. now apply HE. }
    unfold Cov. rewrite !HE2 by assumption. apply Ex_ext. intros. rewrite !HE by assumption. reflexivity.
Qed.

(** ** p.s.d. *)
Lemma convolve_np_psd x1 U1 x2 U2 mode n1 n2 :
  alen x1 = n1 -> alen x2 = n2 -> (2 <= n1)%nat -> (2 <= n2)%nat ->
  opt_square n1 U1 -> opt_square n2 U2 -> numpy_mode mode ->
  psd n1 (opt_cov U1) -> psd n2 (opt_cov U2) ->
  exists y U, convolve_unc x1 U1 x2 U2 mode = Ok (y, U) /\ mrows U = mcols U /\ psd (mrows U) U.
Proof.
  intros H1 H2 Hn1 Hn2 S1 S2 Hm Q1 Q2.
  destruct (convolve_np_exact x1 U1 x2 U2 mode n1 n2) as [y [U [Hok [L1 [L2 [L3 E]]]]]]; auto.
  exists y, U. split; [assumption|]. split; [congruence|].
  destruct (psd_realised _ x1 _ Q1) as [d1 [P1 [M1 C1]]].
  destruct (psd_realised _ x2 _ Q2) as [d2 [P2 [M2 C2]]].
  apply (cov_psd _ (indep d1 d2) (fun i o => np_conv mode n1 n2 (fst o) (snd o) i)).
  - now apply indep_prob.
  - rewrite L2. intros i j Hi Hj. destruct (E i j Hi Hj) as [_ E2].
    symmetry. now apply E2.
Qed.

Lemma continuation_exists mode n : (1 <= n)%nat -> ndimage_mode mode ->
  exists e, is_continuation mode n e.
Proof.
  intros Hn Hm. destruct Hm as [-> | [-> | ->]].
  - exists (fun z => Nat.min (n - 1) (Z.to_nat z)). split; [intros; lia|].
    split; [|split; intros; discriminate]. intros _. split; intros; lia.
  - exists (fun z => let m := Z.to_nat (z mod (2 * Z.of_nat n)) in if (m <? n)%nat then m else (2 * n - 1 - m)%nat).
    split; [|split; [intros; discriminate|split; [|intros; discriminate]]].
    + intros i Hi. cbv zeta. rewrite Z.mod_small by lia. rewrite Nat2Z.id. apply Nat.ltb_lt in Hi. now rewrite Hi.
    + intros _.
      assert (Hsym : forall z, (let m := Z.to_nat ((-1 - z) mod (2 * Z.of_nat n)) in if (m <? n)%nat then m else (2 * n - 1 - m)%nat) =
        (let m := Z.to_nat (z mod (2 * Z.of_nat n)) in if (m <? n)%nat then m else (2 * n - 1 - m)%nat)).
      { intros z. cbv zeta.
        assert (Hmod : ((-1 - z) mod (2 * Z.of_nat n) = 2 * Z.of_nat n - 1 - z mod (2 * Z.of_nat n))%Z).
        { symmetry. apply Z.mod_unique with (q := (- 1 - z / (2 * Z.of_nat n))%Z).
          - left. pose proof (Z.mod_pos_bound z (2 * Z.of_nat n) ltac:(lia)). lia.
          - pose proof (Z.div_mod z (2 * Z.of_nat n) ltac:(lia)). lia. }
        rewrite Hmod. pose proof (Z.mod_pos_bound z (2 * Z.of_nat n) ltac:(lia)).
        set (m := (z mod (2 * Z.of_nat n))%Z) in *.
        destruct (Nat.ltb_spec (Z.to_nat (2 * Z.of_nat n - 1 - m)) n), (Nat.ltb_spec (Z.to_nat m) n); lia. }
      split; [exact Hsym|]. intros z. rewrite <- (Hsym z). cbv zeta.
      replace ((2 * Z.of_nat n - 1 - z) mod (2 * Z.of_nat n))%Z with ((-1 - z) mod (2 * Z.of_nat n))%Z; [reflexivity|].
      replace (2 * Z.of_nat n - 1 - z)%Z with (-1 - z + 1 * (2 * Z.of_nat n))%Z by lia.
      now rewrite Z.mod_add by lia.
  - destruct (Nat.eq_dec n 1) as [->|Hn1].
    { exists (fun _ => 0%nat). split; [intros; lia|]. split; [intros; discriminate|].
      split; [intros; discriminate|]. auto. }
    exists (fun z => let m := Z.to_nat (z mod (2 * Z.of_nat n - 2)) in if (m <? n)%nat then m else (2 * n - 2 - m)%nat).
    split; [|split; [intros; discriminate|split; [intros; discriminate|]]].
    + intros i Hi. cbv zeta. rewrite Z.mod_small by lia. rewrite Nat2Z.id. apply Nat.ltb_lt in Hi. now rewrite Hi.
    + intros _. split; [lia|].
      assert (Hsym : forall z, (let m := Z.to_nat ((- z) mod (2 * Z.of_nat n - 2)) in if (m <? n)%nat then m else (2 * n - 2 - m)%nat) =
        (let m := Z.to_nat (z mod (2 * Z.of_nat n - 2)) in if (m <? n)%nat then m else (2 * n - 2 - m)%nat)).
      { intros z. cbv zeta.
        destruct (Z.eq_dec (z mod (2 * Z.of_nat n - 2)) 0) as [E0|E0].
        - rewrite (Z.mod_opp_l_z z (2 * Z.of_nat n - 2)) by lia. rewrite E0. reflexivity.
        - rewrite (Z.mod_opp_l_nz z (2 * Z.of_nat n - 2)) by lia.
          pose proof (Z.mod_pos_bound z (2 * Z.of_nat n - 2) ltac:(lia)).
          set (m := (z mod (2 * Z.of_nat n - 2))%Z) in *.
          destruct (Nat.ltb_spec (Z.to_nat (2 * Z.of_nat n - 2 - m)) n), (Nat.ltb_spec (Z.to_nat m) n); lia. }
      split; [exact Hsym|]. intros z. rewrite <- (Hsym z). cbv zeta.
      replace ((2 * Z.of_nat n - 2 - z) mod (2 * Z.of_nat n - 2))%Z with ((- z) mod (2 * Z.of_nat n - 2))%Z; [reflexivity|].
      replace (2 * Z.of_nat n - 2 - z)%Z with (- z + 1 * (2 * Z.of_nat n - 2))%Z by lia.
      now rewrite Z.mod_add by lia.
Qed.

Lemma convolve_nd_psd x1 U1 x2 U2 mode n1 n2 :
  alen x1 = n1 -> alen x2 = n2 -> (1 <= n1)%nat -> (2 <= n2)%nat ->
  opt_square n1 U1 -> opt_square n2 U2 -> ndimage_mode mode ->
  psd n1 (opt_cov U1) -> psd n2 (opt_cov U2) ->
  exists y U, convolve_unc x1 U1 x2 U2 mode = Ok (y, U) /\ mrows U = mcols U /\ psd (mrows U) U.
Proof.
  intros H1 H2 Hn1 Hn2 S1 S2 Hm Q1 Q2.
  destruct (continuation_exists mode n1 Hn1 Hm) as [e He].
  destruct (convolve_nd_exact x1 U1 x2 U2 mode n1 n2 e) as [y [U [Hok [L1 [L2 [L3 E]]]]]]; auto.
  exists y, U. split; [assumption|]. split; [congruence|].
  destruct (psd_realised _ x1 _ Q1) as [d1 [P1 [M1 C1]]].
  destruct (psd_realised _ x2 _ Q2) as [d2 [P2 [M2 C2]]].
  apply (cov_psd _ (indep d1 d2) (fun i o => nd_conv e n2 (fst o) (snd o) i)).
  - now apply indep_prob.
  - rewrite L2. intros i j Hi Hj. destruct (E i j Hi Hj) as [_ E2].
    symmetry. now apply E2.
Qed.

(** ** modes and errors *)
Lemma convolve_bad_mode x1 U1 x2 U2 mode : ~ numpy_mode mode -> ~ ndimage_mode mode ->
  convolve_unc x1 U1 x2 U2 mode = Err ValueError.
Proof.
  intros Hnp Hnd. unfold numpy_mode, ndimage_mode in *. unfold convolve_unc, is_numpy_mode.
  assert (E : forall s, (s = "full" \/ s = "valid" \/ s = "same" \/ s = "nearest" \/ s = "reflect" \/ s = "mirror")%string ->
     (mode =? s)%string = false).
  { intros s Hs. apply String.eqb_neq. intros ->. intuition. }
  rewrite (E "valid"%string), (E "full"%string), (E "same"%string), (E "nearest"%string), (E "reflect"%string), (E "mirror"%string) by intuition.
  rewrite andb_false_r. reflexivity.
Qed.

Lemma convolve_short_kernel x1 U1 x2 U2 mode : (1 <= alen x1)%nat -> alen x2 = 1%nat ->
  (numpy_mode mode \/ ndimage_mode mode) -> convolve_unc x1 U1 x2 U2 mode = Err ValueError.
Proof.
  intros H1 H2 Hm. unfold convolve_unc.
  assert (E : (alen x1 <? alen x2)%nat = false) by (apply Nat.ltb_ge; lia). rewrite E. simpl andb.
  assert (Hz : forall x Ux Ut, fir_filter x x2 Ux Ut "zero" = Err ValueError).
  { intros. unfold fir_filter, history_value, lfilter_zi1. simpl. rewrite H2. reflexivity. }
  destruct Hm as [[-> | [-> | ->]]|[-> | [-> | ->]]]; simpl String.eqb; cbv iota; rewrite Hz; reflexivity.
Qed.

(** ** shift_uncertainty *)
Lemma roll_idx_lt n s i : (1 <= n)%nat -> (roll_idx n s i < n)%nat.
Proof.
  intros Hn. unfold roll_idx. pose proof (Z.mod_pos_bound (Z.of_nat i - s) (Z.of_nat n) ltac:(lia)). lia.
Qed.
Lemma roll_idx_shifted n s i : (i < n)%nat ->
  roll_idx n s (Z.to_nat ((Z.of_nat i + s) mod Z.of_nat n)) = i.
Proof.
  intros Hi. unfold roll_idx.
  pose proof (Z.mod_pos_bound (Z.of_nat i + s) (Z.of_nat n) ltac:(lia)).
  rewrite Z2Nat.id by lia. rewrite Zminus_mod_idemp_l.
  replace (Z.of_nat i + s - s)%Z with (Z.of_nat i) by lia. rewrite Z.mod_small by lia. apply Nat2Z.id.
Qed.
Lemma roll_idx_add n s t i : (1 <= n)%nat -> roll_idx n s (roll_idx n t i) = roll_idx n (s + t) i.
Proof.
  intros Hn. unfold roll_idx.
  pose proof (Z.mod_pos_bound (Z.of_nat i - t) (Z.of_nat n) ltac:(lia)).
  rewrite Z2Nat.id by lia. rewrite Zminus_mod_idemp_l. do 2 f_equal. lia.
Qed.
Lemma roll_idx_0 n i : (i < n)%nat -> roll_idx n 0 i = i.
Proof. intros Hi. unfold roll_idx. rewrite Z.sub_0_r, Z.mod_small by lia. apply Nat2Z.id. Qed.
