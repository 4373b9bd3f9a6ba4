(** What the argument shift of FIRuncFilter does to the uncertainties (C05).  Model: M_Filter.v. *)
From Coq Require Import Reals String List Arith ZArith Lia Lra Psatz Bool.
From Verif Require Import Base Sums M_Filter S_Filter S_Conv Stats P_Filter P_Filter2 P_Filter3 T_Filter.
Import ListNotations.
Open Scope R_scope.

(** Position (i', j') is the one 2 s places after (i, j) when an r x c matrix is read row by row, cyclically. *)
Definition places_after (r c : nat) (s : Z) (i j i' j' : nat) : Prop :=
  (i' < r)%nat /\ (j' < c)%nat /\
  (Z.of_nat i' * Z.of_nat c + Z.of_nat j' = (Z.of_nat i * Z.of_nat c + Z.of_nat j + s) mod (Z.of_nat r * Z.of_nat c))%Z.

Lemma roll_flat_places U s i j i' j' : places_after (mrows U) (mcols U) s i j i' j' -> roll_flat U (- s) i j = U i' j'.
Proof.
  intros (Hi & Hj & E). unfold roll_flat. cbn [mget]. cbv zeta.
  assert (F : roll_idx (mrows U * mcols U) (- s) (i * mcols U + j) = (i' * mcols U + j')%nat).
  { unfold roll_idx. rewrite Nat2Z.inj_mul, Nat2Z.inj_add, Nat2Z.inj_mul.
    replace (Z.of_nat i * Z.of_nat (mcols U) + Z.of_nat j - - s)%Z with (Z.of_nat i * Z.of_nat (mcols U) + Z.of_nat j + s)%Z by ring.
    rewrite <- E. lia. }
  rewrite F. f_equal.
  - rewrite Nat.div_add_l by lia. rewrite Nat.div_small by auto. lia.
  - rewrite Nat.add_comm, Nat.mod_add by lia. now apply Nat.mod_small.
Qed.
Lemma places_same r c i j i' j' : (i < r)%nat -> (j < c)%nat -> places_after r c 0 i j i' j' -> i' = i /\ j' = j.
Proof.
  intros Hi Hj (Hi' & Hj' & E).
  assert (B : (i * c + j < r * c)%nat) by (assert ((S i) * c <= r * c)%nat by (apply Nat.mul_le_mono_r; lia); lia).
  rewrite <- !Nat2Z.inj_mul, <- !Nat2Z.inj_add, Z.add_0_r in E. rewrite Z.mod_small in E by lia. apply Nat2Z.inj in E.
  split.
  - apply (f_equal (fun q => q / c)%nat) in E. rewrite !Nat.div_add_l, !Nat.div_small in E by lia. lia.
  - apply (f_equal (fun q => q mod c)%nat) in E. rewrite !(Nat.add_comm (_ * c)), !Nat.mod_add, !Nat.mod_small in E by lia. exact E.
Qed.

(** General path, full covariance: entry (i, j) is the entry 2 s places later, row by row, of the covariance without shift. *)
Theorem C05_covariance_partial : forall ydt tdt y sn theta Ut s blow kind x U x0 U0,
  FIRuncFilter ydt tdt y sn theta Ut s blow kind true = Ok (x, FullU U) ->
  FIRuncFilter ydt tdt y sn theta Ut 0 blow kind true = Ok (x0, FullU U0) ->
  mrows U = mrows U0 /\ mcols U = mcols U0 /\
  forall i j i' j', (i < mrows U)%nat -> (j < mcols U)%nat -> places_after (mrows U) (mcols U) (2 * s) i j i' j' -> U i j = U0 i' j'.
Proof.
  intros ydt tdt y sn theta Ut s blow kind x U x0 U0. unfold FIRuncFilter. cbn [fast_path negb andb].
  destruct (noise_cov (alen y) sn kind) as [Uy|]; cbn [bind]; [|intros E; discriminate E].
  set (R1 := match blow with Some _ => _ | None => _ end). destruct R1 as [[x1 U1]|]; cbn [bind]; [|intros E; discriminate E].
  rewrite Z.eqb_refl. intros E E0.
  assert (U0 = U1) by congruence. assert (EU : U = if (s =? 0)%Z then U1 else roll_flat U1 (- s + - s)) by congruence.
  subst U0. clear E E0. destruct (Z.eqb_spec s 0) as [->|N]; subst U.
  - split; [reflexivity|]. split; [reflexivity|]. intros i j i' j' Hi Hj P. change (2 * 0)%Z with 0%Z in P.
    destruct (places_same _ _ _ _ _ _ Hi Hj P) as [-> ->]. reflexivity.
  - split; [reflexivity|]. split; [reflexivity|]. intros i j i' j' Hi Hj P.
    replace (- s + - s)%Z with (- (2 * s))%Z by ring. now apply roll_flat_places.
Qed.
(** General path, point-wise: the uncertainty of sample i is taken from the entry 2 s places after (i, i) of the covariance without shift. *)
Theorem C05_pointwise_partial : forall ydt tdt y sn theta Ut s blow kind x u x0 U0,
  fast_path sn Ut blow kind false = false ->
  FIRuncFilter ydt tdt y sn theta Ut s blow kind false = Ok (x, PointU u) ->
  FIRuncFilter ydt tdt y sn theta Ut 0 blow kind true = Ok (x0, FullU U0) ->
  alen u = mrows U0 /\
  forall i i' j', (i < mrows U0)%nat -> (i < mcols U0)%nat -> places_after (mrows U0) (mcols U0) (2 * s) i i i' j' ->
    u i = sqrt (Rabs (U0 i' j')).
Proof.
  intros ydt tdt y sn theta Ut s blow kind x u x0 U0 Hf. unfold FIRuncFilter. rewrite Hf. cbn [fast_path negb andb].
  destruct (noise_cov (alen y) sn kind) as [Uy|]; cbn [bind]; [|intros E; discriminate E].
  set (R1 := match blow with Some _ => _ | None => _ end). destruct R1 as [[x1 U1]|]; cbn [bind]; [|intros E; discriminate E].
  rewrite Z.eqb_refl. intros E E0. assert (U0 = U1) by congruence. subst U1.
  assert (EU : u = vmap (fun v => sqrt (Rabs v)) (diag_of (if (s =? 0)%Z then U0 else roll_flat U0 (- s + - s)))) by congruence.
  clear E E0. subst u. destruct (Z.eqb_spec s 0) as [->|N].
  - split; [reflexivity|]. intros i i' j' Hi Hj P. change (2 * 0)%Z with 0%Z in P.
    destruct (places_same _ _ _ _ _ _ Hi Hj P) as [-> ->]. reflexivity.
  - split; [reflexivity|]. intros i i' j' Hi Hj P. unfold vmap, diag_of. cbn [aget].
    replace (- s + - s)%Z with (- (2 * s))%Z by ring. f_equal. f_equal. now apply roll_flat_places.
Qed.
(** Efficient path: the shift has no effect at all. *)
Theorem C05_efficient_partial : forall ydt tdt y sn theta Ut s blow kind full,
  fast_path sn Ut blow kind full = true ->
  FIRuncFilter ydt tdt y sn theta Ut s blow kind full = FIRuncFilter ydt tdt y sn theta Ut 0 blow kind full.
Proof. intros ydt tdt y sn theta Ut s blow kind full Hf. unfold FIRuncFilter. rewrite Hf. reflexivity. Qed.

(** Two samples, shift 1: entry (0, 0) comes from (1, 0), entry (0, 1) from (1, 1). *)
Example C05_places_ex : places_after 2 2 (2 * 1) 0 0 1 0 /\ places_after 2 2 (2 * 1) 0 1 1 1 /\
  exists x U x0 U0, FIRuncFilter DFloat DFloat ex_y (NsFloat 1) ex_th ex_Ut 1 None "diag" true = Ok (x, FullU U) /\
    FIRuncFilter DFloat DFloat ex_y (NsFloat 1) ex_th ex_Ut 0 None "diag" true = Ok (x0, FullU U0).
Proof.
  split; [|split].
  - split; [lia|]. split; [lia|]. reflexivity.
  - split; [lia|]. split; [lia|]. reflexivity.
  - destruct C05_example as (x & U & E).
    assert (E' := E). unfold FIRuncFilter in E' |- *. cbn [fast_path negb andb] in E' |- *.
    destruct (noise_cov (alen ex_y) (NsFloat 1) "diag") as [M|]; [|discriminate E']. cbn [bind] in E' |- *.
    destruct (fir_filter ex_y ex_th (Some M) ex_Ut "constant") as [[x1 U1]|]; [|discriminate E']. cbn [bind] in E' |- *.
    exists x, U. eexists. eexists. split; [exact E'|]. reflexivity.
Qed.
Example C05_fast_ex : fast_path (NsFloat 1) UtNone None "diag" false = true /\ fast_path (NsMat (diagm ex_y)) UtNone None "diag" false = false.
Proof. split; reflexivity. Qed.
Print Assumptions C05_covariance_partial.
Print Assumptions C05_pointwise_partial.
Print Assumptions C05_efficient_partial.
