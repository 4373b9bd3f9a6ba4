(** Stability of scaled filters and of filters in series; mapping poles inside twice (C183).
    Model: M_FilterStuff.v.  Vocabulary: S_Poly.v. *)
From Coq Require Import Reals String List Arith ZArith Lia Lra Psatz Permutation Bool.
From Verif Require Import Base Sums Cplx S_Poly S_MC S_DFT M_DFT M_FilterStuff P_Poly P_Deriv P_AmpPhase P_FStuff P_FStuff2 T_FilterStuff.
Import ListNotations.
Local Notation length := Datatypes.length.
Open Scope R_scope.

Lemma existsb_same {A} (f : A -> bool) l l' : (forall z, In z l <-> In z l') -> existsb f l = existsb f l'.
Proof.
  intros H. apply eq_true_iff_eq. rewrite !existsb_exists. split; intros [z [I E]]; exists z; (split; [now apply H|exact E]).
Qed.
(** ** C183 *)
(** The polynomial g a. *)
Definition times_gain (g : R) (a : vec) : vec := mkArr (alen a) (fun i => g * a i).
Lemma ceval_gain g a z : ceval (real_poly (times_gain g a)) z = cscal g (ceval (real_poly a) z).
Proof.
  unfold ceval, real_poly, times_gain. cbn [alen aget]. rewrite cscal_mul, <- csum_mul_l. apply csum_ext. intros i _. cfield.
Qed.
(** Neither the numerator nor a gain matters. *)
Theorem C183_gain : forall roots b b' a g ty, g <> 0 -> exact_roots a (roots a) ->
  exact_roots (times_gain g a) (roots (times_gain g a)) ->
  isstable roots b' (times_gain g a) ty = isstable roots b a ty.
Proof.
  intros roots b b' a g ty Hg H H'. unfold isstable.
  assert (S : forall z, In z (roots (times_gain g a)) <-> In z (roots a)).
  { intros z. rewrite <- (exact_roots_root _ _ z H), <- (exact_roots_root _ _ z H'), ceval_gain, cscal_mul. split.
    - intros E. apply cmul_eq_0 in E. destruct E as [E|E]; [|exact E]. apply (f_equal fst) in E. cbn in E. contradiction.
    - intros ->. apply cmul_0_r. }
  destruct (String.eqb ty "digital"); [|destruct (String.eqb ty "analog")]; [do 2 f_equal|do 2 f_equal|reflexivity]; now apply existsb_same.
Qed.

Lemma cpow_split z m n : cpow z (m + n) = cmul (cpow z m) (cpow z n).
Proof. induction m as [|m IH]; cbn [Nat.add cpow]; [now rewrite cmul_1_l|]. now rewrite IH, cmul_assoc. Qed.
Lemma ceval_conv a b c z : convolve_full a b = Ok c -> ceval (real_poly c) z = cmul (ceval (real_poly a) z) (ceval (real_poly b) z).
Proof.
  unfold convolve_full. destruct (Nat.eqb_spec (alen a) 0); [discriminate|]. destruct (Nat.eqb_spec (alen b) 0); [discriminate|]. cbn [orb].
  intros E. injection E as <-. unfold ceval, real_poly. cbn [alen aget].
  set (N := (alen a + alen b - 1)%nat).
  assert (T : csum (alen a) (fun i => csum (alen b) (fun j => cmul (RtoC (a i * vpad b j)) (cpow z (N - 1 - (i + j))))) =
    csum N (fun k => cmul (RtoC (rsum (alen a) (fun i => if (i <=? k)%nat then a i * vpad b (k - i)%nat else 0))) (cpow z (N - 1 - k)))).
  { assert (G : forall f : C -> R, (forall x w, f (cmul (RtoC x) w) = x * f w) ->
       rsum (alen a) (fun i => rsum (alen b) (fun j => f (cmul (RtoC (a i * vpad b j)) (cpow z (N - 1 - (i + j)))))) =
       rsum N (fun k => f (cmul (RtoC (rsum (alen a) (fun i => if (i <=? k)%nat then a i * vpad b (k - i)%nat else 0))) (cpow z (N - 1 - k))))).
    { intros f Hf. unfold N at 2. rewrite (rsum_ext (alen a + alen b - 1) _
        (fun k => rsum (alen a) (fun i => if (i <=? k)%nat then a i * vpad b (k - i)%nat * f (cpow z (N - 1 - (i + (k - i)))) else 0))).
      - rewrite (rsum_conv (alen a) (alen b) (fun i j => a i * vpad b j * f (cpow z (N - 1 - (i + j))))); [|lia|lia|].
        + apply rsum_ext. intros i Hi. apply rsum_ext. intros j Hj. apply Hf.
        + intros i j Hj. unfold vpad. apply Nat.ltb_ge in Hj. rewrite Hj. ring.
      - intros k Hk. rewrite Hf, Rmult_comm, <- rsum_scal. apply rsum_ext. intros i Hi.
        destruct (Nat.leb_spec i k); [|ring]. replace (i + (k - i))%nat with k by lia. ring. }
    unfold csum. cbn [fst snd]. f_equal.
    - apply (G (fun w => fst w)). intros x w. destruct w. cbn. ring.
    - apply (G (fun w => snd w)). intros x w. destruct w. cbn. ring. }
  rewrite <- T, <- csum_mul_r. apply csum_ext. intros i Hi. rewrite <- csum_mul_l. apply csum_ext. intros j Hj.
  unfold vpad. replace (j <? alen b)%nat with true by (symmetry; now apply Nat.ltb_lt).
  replace (N - 1 - (i + j))%nat with ((alen a - 1 - i) + (alen b - 1 - j))%nat by (unfold N; lia).
  rewrite cpow_split. cfield.
Qed.
(** Two filters in series are stable if and only if each of them is. *)
Theorem C183_series : forall roots b b1 b2 a1 a2 a, convolve_full a1 a2 = Ok a ->
  exact_roots a1 (roots a1) -> exact_roots a2 (roots a2) -> exact_roots a (roots a) ->
  exists s1 s2, isstable roots b1 a1 "digital" = Ok s1 /\ isstable roots b2 a2 "digital" = Ok s2 /\
    isstable roots b a "digital" = Ok (s1 && s2).
Proof.
  intros roots b b1 b2 a1 a2 a E H1 H2 H. unfold isstable. cbn [String.eqb Ascii.eqb Bool.eqb].
  do 2 eexists. split; [reflexivity|]. split; [reflexivity|]. f_equal. rewrite <- negb_orb, <- existsb_app. f_equal.
  apply existsb_same. intros z. rewrite in_app_iff, <- (exact_roots_root _ _ z H), <- (exact_roots_root _ _ z H1), <- (exact_roots_root _ _ z H2).
  rewrite (ceval_conv _ _ _ z E). split.
  - apply cmul_eq_0.
  - intros [-> | ->]; [apply cmul_0_l|apply cmul_0_r].
Qed.

(** The coefficients mapinside returns, as the reals they are (C63_real). *)
Definition real_coefs (p : arr C) : vec := mkArr (alen p) (fun i => Re (p i)).
Lemma mapped_exact roots a : exact_roots a (roots a) ->
  exact_roots (real_coefs (mapinside roots a)) (map map_root (roots a)).
Proof.
  intros H. exists 1. split; [lra|]. intros z. rewrite cscal_mul, cmul_1_l. rewrite <- ceval_poly.
  unfold ceval, real_poly, real_coefs. cbn [alen aget]. apply csum_ext. intros i _. f_equal.
  pose proof (C63_real roots a i H) as R. unfold mapinside in *. unfold Re, Im in *. destruct (np_poly (map map_root (roots a)) i). cbn in R |- *. now rewrite R.
Qed.
Theorem C183_mapinside_stable : forall roots b a, exact_roots a (roots a) ->
  exact_roots (real_coefs (mapinside roots a)) (roots (real_coefs (mapinside roots a))) ->
  isstable roots b (real_coefs (mapinside roots a)) "digital" = Ok true.
Proof.
  intros roots b a H H'. destruct (C61_digital roots b _ H') as [s [E I]]. rewrite E. f_equal. apply I.
  intros z Hz. apply (exact_roots_root _ _ z (mapped_exact roots a H)) in Hz. apply in_map_iff in Hz. destruct Hz as [u [<- _]].
  apply (mirrored_inside u), map_root_mirrored.
Qed.
(** A polynomial whose zeros lie in the closed unit disc is only divided by its leading coefficient. *)
Lemma map_root_id z : cabs z <= 1 -> map_root z = z.
Proof. intros H. unfold map_root. rewrite (proj2 (rltb_false 1 (cabs z))) by lra. reflexivity. Qed.
Theorem C183_mapinside_of_stable : forall roots b a, exact_roots a (roots a) -> (0 < alen a)%nat -> a 0%nat <> 0 ->
  isstable roots b a "digital" = Ok true ->
  alen (mapinside roots a) = alen a /\ forall i, (i < alen a)%nat -> mapinside roots a i = RtoC (a i / a 0%nat).
Proof.
  intros roots b a H Ha A0 St. destruct (C61_digital roots b _ H) as [s [E I]]. rewrite E in St. injection St as ->.
  pose proof (proj1 I eq_refl) as In1.
  assert (M : map map_root (roots a) = roots a).
  { rewrite <- (map_id (roots a)) at 2. apply map_ext_in. intros z Hz. apply map_root_id, In1. now apply (exact_roots_root a _ z H). }
  destruct (exact_roots_coef a _ H) as [lead [k [Hl [Lk [Z C]]]]].
  assert (k = 0)%nat as -> by (destruct k; [reflexivity|]; exfalso; apply A0, Z; lia).
  unfold mapinside. rewrite M. split; [cbn [np_poly alen]; lia|]. intros i Hi.
  change (np_poly (roots a) i) with (pc (roots a) i).
  pose proof (C 0%nat) as C0'. pose proof (C i) as Ci. cbn [Nat.add] in C0', Ci. unfold vpad in C0', Ci.
  rewrite (proj2 (Nat.ltb_lt _ _) Ha) in C0'. rewrite (proj2 (Nat.ltb_lt _ _) Hi) in Ci. rewrite pc_0 in C0'.
  apply (f_equal fst) in C0'. cbn in C0'. replace (lead * 1) with lead in C0' by ring. rewrite C0'.
  destruct (pc (roots a) i) as [x y]. unfold RtoC, cscal in *. cbn in Ci. injection Ci as Cx Cy. rewrite Cx. f_equal; [now field|].
  assert (G : lead * y = 0) by (now rewrite Cy). apply Rmult_integral in G. tauto.
Qed.
(** Mapping the poles inside a second time changes nothing. *)
Theorem C183_mapinside_twice : forall roots a, exact_roots a (roots a) ->
  let p := mapinside roots a in
  exact_roots (real_coefs p) (roots (real_coefs p)) ->
  alen (mapinside roots (real_coefs p)) = alen p /\
  forall i, (i < alen p)%nat -> mapinside roots (real_coefs p) i = p i.
Proof.
  intros roots a H p H'.
  assert (P0 : p 0%nat = C1) by apply pc_0.
  assert (R0 : real_coefs p 0%nat = 1) by (cbn [real_coefs aget]; now rewrite P0).
  assert (Lp : (0 < alen p)%nat) by (unfold p, mapinside; cbn [np_poly alen]; lia).
  destruct (C183_mapinside_of_stable roots (of_list [1]) (real_coefs p) H' Lp) as [L V];
    [rewrite R0; lra|now apply C183_mapinside_stable|].
  split; [exact L|]. intros i Hi. rewrite V, R0 by exact Hi. cbn [real_coefs aget].
  pose proof (C63_real roots a i H) as R. fold p in R. unfold Re, Im in *. destruct (p i) as [x y]. cbn in R |- *. rewrite R. unfold RtoC. f_equal. field.
Qed.

(** Roots of polynomials of the first degree. *)
Definition roots1 (a : vec) : list C := [RtoC (- a 1%nat / a 0%nat)].
Lemma roots1_exact a : alen a = 2%nat -> a 0%nat <> 0 -> exact_roots a (roots1 a).
Proof.
  intros L A0. exists (a 0%nat). split; [exact A0|]. intros z. unfold ceval, real_poly, roots1, lin_prod. cbn [alen aget]. rewrite L.
  unfold csum. cbn [Nat.sub rsum fst snd cpow fold_right map]. destruct z as [x y]. unfold cscal, cmul, csub, RtoC, C1, Re, Im. cbn. f_equal; now field.
Qed.
Example C183_gain_example : let a := of_list [1; -2] in
  exact_roots a (roots1 a) /\ exact_roots (times_gain 3 a) (roots1 (times_gain 3 a)) /\
  isstable roots1 (of_list [1]) a "digital" = Ok false /\ isstable roots1 (of_list [1; 1]) (times_gain 3 a) "digital" = Ok false.
Proof.
  intros a. assert (H : exact_roots a (roots1 a)) by (apply roots1_exact; [reflexivity|cbn; lra]).
  assert (H' : exact_roots (times_gain 3 a) (roots1 (times_gain 3 a))) by (apply roots1_exact; [reflexivity|cbn; lra]).
  assert (E : isstable roots1 (of_list [1]) a "digital" = Ok false).
  { unfold isstable, roots1. cbn [String.eqb Ascii.eqb Bool.eqb existsb orb negb]. rewrite (proj2 (rltb_true 1 _)); [reflexivity|].
    rewrite cabs_real, Rabs_right; cbn; lra. }
  repeat split; [exact H|exact H'|exact E|]. rewrite (C183_gain roots1 (of_list [1]) (of_list [1; 1]) a 3 "digital"); auto; lra.
Qed.
(** (z - 1/2)(z - 2) = z^2 - 5/2 z + 1 *)
Definition roots12 (a : vec) : list C := if (alen a =? 2)%nat then roots1 a else [RtoC 2; RtoC (1 / 2)].
Example C183_series_example : exists a, convolve_full (of_list [1; - (1/2)]) (of_list [1; -2]) = Ok a /\
  exact_roots (of_list [1; - (1/2)]) (roots12 (of_list [1; - (1/2)])) /\ exact_roots (of_list [1; -2]) (roots12 (of_list [1; -2])) /\
  exact_roots a (roots12 a) /\ a 1%nat = - (5/2) /\ isstable roots12 (of_list [1]) a "digital" = Ok false.
Proof.
  eexists. split; [reflexivity|]. split; [apply roots1_exact; [reflexivity|cbn; lra]|]. split; [apply roots1_exact; [reflexivity|cbn; lra]|].
  split; [|split].
  - exists 1. split; [lra|]. intros [x y]. unfold ceval, real_poly, roots12, lin_prod, csum. cbn. unfold cscal, cmul, csub, RtoC, C1, Re, Im. cbn. f_equal; field.
  - cbn. field.
  - unfold isstable, roots12. cbn [String.eqb Ascii.eqb Bool.eqb existsb orb negb alen Nat.eqb Nat.add Nat.sub of_list Datatypes.length].
    rewrite (proj2 (rltb_true 1 _)); [reflexivity|]. rewrite cabs_real, Rabs_right; lra.
Qed.
(** 1 - 2/z becomes 1 - (1/2)/z, and stays so. *)
Example C183_mapinside_example : let a := of_list [1; -2] in let p := real_coefs (mapinside roots1 a) in
  exact_roots a (roots1 a) /\ exact_roots p (roots1 p) /\ p 1%nat = - (1/2) /\ mapinside roots1 p 1%nat = RtoC (- (1/2)).
Proof.
  intros a p. assert (H : exact_roots a (roots1 a)) by (apply roots1_exact; [reflexivity|cbn; lra]).
  assert (H' : exact_roots p (roots1 p)) by (apply roots1_exact; [reflexivity|cbn; lra]).
  assert (M : map_root (RtoC (- a 1%nat / a 0%nat)) = RtoC (1 / 2)).
  { unfold map_root. rewrite (proj2 (rltb_true 1 _)); [|rewrite cabs_real, Rabs_right; cbn; lra].
    unfold cinv, cconj, cnorm2, RtoC. cbn. apply C_eq; cbn; field. }
  assert (E : mapinside roots1 a 1%nat = RtoC (- (1/2))).
  { unfold mapinside, roots1. cbn [map]. rewrite M. unfold np_poly, RtoC. cbn. apply C_eq; cbn; field. }
  repeat split; [exact H|exact H'| |].
  - unfold p, real_coefs. cbn [aget]. rewrite E. reflexivity.
  - rewrite <- E. apply (C183_mapinside_twice roots1 a H H'). cbn. lia.
Qed.
Print Assumptions C183_gain.
Print Assumptions C183_series.
Print Assumptions C183_mapinside_stable.
Print Assumptions C183_mapinside_of_stable.
Print Assumptions C183_mapinside_twice.
