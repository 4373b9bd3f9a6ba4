(** Element types, storage of sparse matrices, integer time axes, autocorrelation, padding
    modes: theorems C120-C123 and C18_modes.  Model: M_Typed.v (and M_DFT.v, M_Noise.v). *)
From Coq Require Import Reals List Arith ZArith Bool Lia Lra Psatz String Permutation Sorted.
From Verif Require Import Base Sums Stats M_Interp M_Filter M_DFT M_Noise M_Typed S_Conv S_Noise
  P_Conv P_DFT P_AmpPhase P_Typed P_FitIIR.
Import ListNotations.
Open Scope R_scope.

(** ** C120 (false): an integer covariance matrix gives the result of the same matrix of
    floats.  [integer_matrix]: what an array of dtype int can hold. *)
Definition integer_matrix (M : mat) : Prop := forall i j, exists z : Z, M i j = IZR z.
Definition unit2 : mat := of_rows [[1; 0]; [0; 1]].
Lemma unit2_integer : integer_matrix unit2.
Proof.
  intros i j. unfold unit2, of_rows; simpl.
  destruct i as [|[|[|i]]], j as [|[|[|j]]]; simpl;
    first [now exists 1%Z | now exists 0%Z].
Qed.
Lemma unit2_entry i j : unit2 i j = if (i =? j)%nat && (i <? 2)%nat then 1 else 0.
Proof. unfold unit2, of_rows; simpl. destruct i as [|[|[|i]]], j as [|[|[|j]]]; simpl; try reflexivity; now rewrite ?andb_false_r. Qed.

(** For a matrix of floats the typed model is the model of M_DFT.v. *)
Theorem C120_float_partial : forall (A P F Y x w : vec) (M : mat) N ks,
  AmpPhase2DFT A P (ApMat M) ks
    = (do (F', U) <- AmpPhase2DFT_dt DFloat A P M ;; Ok (F', UDense U)) /\
  DFT2AmpPhase F (FuMat M) ks
    = (do (A', P', U) <- DFT2AmpPhase_dt DFloat F M ;; Ok (A', P', UDense U)) /\
  DFT_multiply Y F (SuMat M) None = DFT_multiply_dt DFloat Y F M /\
  GUM_DFT x (SuMat M) N (Some w) None None false None = GUM_DFT_window_dt DFloat x M N w.
Proof.
  intros A P F Y x w M N ks. split; [|split; [|split]].
  - unfold AmpPhase2DFT, AmpPhase2DFT_dt. destruct (negb (alen A =? alen P)%nat); [reflexivity|].
    destruct (negb _); [reflexivity|]. cbv zeta. change (prod3_dt DFloat) with prod3.
    repeat (match goal with |- context [bind ?m _] => destruct m; simpl; [|reflexivity] end). reflexivity.
  - unfold DFT2AmpPhase, DFT2AmpPhase_dt. cbv zeta. destruct (negb _);
      [change (prod3_dt DFloat) with prod3; destruct (ap_odd prod3 F M) as [[[? ?] ?]|]; reflexivity|]. change (prod3_dt DFloat) with prod3.
    repeat (match goal with |- context [bind ?m _] => destruct m; simpl; [|reflexivity] end). reflexivity.
  - unfold DFT_multiply, DFT_multiply_dt. destruct (negb (alen Y =? alen F)%nat) eqn:E; [reflexivity|].
    apply negb_false_iff, Nat.eqb_eq in E. unfold calcU. rewrite <- E. cbv zeta.
    change (prod3_dt DFloat) with prod3.
    repeat (match goal with |- context [bind ?m _] => destruct m; simpl; [|reflexivity] end). reflexivity.
  - unfold GUM_DFT_window_dt. unfold GUM_DFT at 1. unfold apply_window, apply_window_dt.
    destruct (negb (alen x =? alen w)%nat); [reflexivity|]. destruct (negb _); [reflexivity|].
    change (prod3_dt DFloat w M w) with (prod3 w M w).
    destruct (prod3 w M w); reflexivity.
Qed.

(** Phase pi/6, unit covariance matrix: variance 0 instead of 1. *)
Lemma cos_pi6_small : Rabs (cos (PI / 6)) < 1.
Proof.
  rewrite cos_PI6. assert (H : sqrt 3 * sqrt 3 = 3) by (apply sqrt_sqrt; lra).
  pose proof (sqrt_pos 3). apply Rabs_def1; nra.
Qed.
Lemma sin_pi6_small : Rabs (sin (PI / 6)) < 1.
Proof. rewrite sin_PI6. rewrite Rabs_right; lra. Qed.

Definition v0 : vec := of_list [].
Theorem C120_real_imag_refuted : exists A P M F U F' U',
  integer_matrix M /\ alen A = 1%nat /\ alen P = 1%nat /\
  AmpPhase2DFT_dt DInt A P M = Ok (F, U) /\ AmpPhase2DFT A P (ApMat M) false = Ok (F', UDense U') /\
  U 0%nat 0%nat = 0 /\ U' 0%nat 0%nat = 1.
Proof.
  exists (of_list [1]), (of_list [PI / 6]), unit2.
  destruct (AmpPhase2DFT_dt_run DInt (of_list [1]) (of_list [PI / 6]) unit2 1) as [F [U [E [_ [_ V]]]]]; try reflexivity.
  destruct (AmpPhase2DFT_dt_run DFloat (of_list [1]) (of_list [PI / 6]) unit2 1) as [F' [U' [E' [_ [_ V']]]]]; try reflexivity.
  exists F, U, F', U'. split; [apply unit2_integer|]. split; [reflexivity|]. split; [reflexivity|].
  split; [exact E|]. split; [|split].
  - rewrite (proj1 (C120_float_partial _ _ v0 v0 v0 v0 unit2 None false)), E'. reflexivity.
  - rewrite V. unfold stk4, q4. rewrite !unit2_entry. cbn [Nat.ltb Nat.leb Nat.eqb andb Nat.add of_list aget nth].
    pose proof cos_pi6_small as Hc. pose proof sin_pi6_small as Hs.
    rewrite !T3_zero; [lra| | | |]; rewrite ?Rmult_0_l, ?Rabs_R0, ?Rmult_1_l; try lra.
    apply Rabs_def2 in Hs. apply Rabs_def1; lra.
  - rewrite V'. unfold stk4, q4. rewrite !unit2_entry. cbn [Nat.ltb Nat.leb Nat.eqb andb Nat.add of_list aget nth].
    rewrite !T3_float. pose proof (sin2_cos2 (PI / 6)) as H. unfold Rsqr in H. lra.
Qed.

Lemma amp345 : sqrt (3 ^ 2 + 4 ^ 2) = 5.
Proof. replace (3 ^ 2 + 4 ^ 2) with (5 * 5) by lra. apply sqrt_square. lra. Qed.
Theorem C120_amp_phase_refuted : exists F M A P U A' P' U',
  integer_matrix M /\ alen F = 2%nat /\
  DFT2AmpPhase_dt DInt F M = Ok (A, P, U) /\ DFT2AmpPhase F (FuMat M) false = Ok (A', P', UDense U') /\
  U 0%nat 0%nat = 0 /\ U' 0%nat 0%nat = 1.
Proof.
  exists (of_list [3; 4]), unit2.
  destruct (DFT2AmpPhase_dt_run DInt (of_list [3; 4]) unit2 1) as [A [P [U [E [_ [_ V]]]]]]; try reflexivity.
  destruct (DFT2AmpPhase_dt_run DFloat (of_list [3; 4]) unit2 1) as [A' [P' [U' [E' [_ [_ V']]]]]]; try reflexivity.
  exists A, P, U, A', P', U'. split; [apply unit2_integer|]. split; [reflexivity|].
  split; [exact E|]. split; [|split].
  - rewrite (proj1 (proj2 (C120_float_partial v0 v0 _ v0 v0 v0 unit2 None false))), E'. reflexivity.
  - rewrite V. unfold stk4, q4. rewrite !unit2_entry.
    cbn [Nat.ltb Nat.leb Nat.eqb andb Nat.add of_list aget nth]. rewrite amp345.
    rewrite !T3_zero; [lra| | | |]; rewrite ?Rmult_0_l, ?Rabs_R0, ?Rmult_1_l; try lra; rewrite Rabs_right; lra.
  - rewrite V'. unfold stk4, q4. rewrite !unit2_entry.
    cbn [Nat.ltb Nat.leb Nat.eqb andb Nat.add of_list aget nth]. rewrite amp345, !T3_float. lra.
Qed.

Theorem C120_multiply_refuted : exists Y F M V U V' U',
  integer_matrix M /\ alen Y = 2%nat /\ alen F = 2%nat /\
  DFT_multiply_dt DInt Y F M = Ok (V, U) /\ DFT_multiply Y F (SuMat M) None = Ok (V', U') /\
  U 0%nat 0%nat = 0 /\ U' 0%nat 0%nat = 1 / 4.
Proof.
  exists (of_list [1; 1]), (of_list [1 / 2; 0]), unit2.
  destruct (DFT_multiply_dt_run DInt (of_list [1; 1]) (of_list [1 / 2; 0]) unit2 1) as [V [U [E [_ [_ W]]]]]; try reflexivity.
  destruct (DFT_multiply_dt_run DFloat (of_list [1; 1]) (of_list [1 / 2; 0]) unit2 1) as [V' [U' [E' [_ [_ W']]]]]; try reflexivity.
  exists V, U, V', U'. split; [apply unit2_integer|]. split; [reflexivity|]. split; [reflexivity|].
  split; [exact E|]. split; [|split].
  - rewrite (proj1 (proj2 (proj2 (C120_float_partial v0 v0 _ _ v0 v0 unit2 None false)))). exact E'.
  - rewrite W. unfold stk4, m4. rewrite !unit2_entry. cbn [Nat.ltb Nat.leb Nat.eqb andb Nat.add of_list aget nth].
    rewrite !T3_zero; [lra| | | |]; rewrite ?Rmult_0_l, ?Rabs_R0, ?Rmult_1_l, ?Rabs_R0; try lra; rewrite Rabs_right; lra.
  - rewrite W'. unfold stk4, m4. rewrite !unit2_entry. cbn [Nat.ltb Nat.leb Nat.eqb andb Nat.add of_list aget nth].
    rewrite !T3_float. lra.
Qed.

(** Variance of the first DFT value (the sum) of two samples. *)
Lemma gum_dft_two (x : vec) (U : mat) : alen x = 2%nat -> mrows U = 2%nat -> mcols U = 2%nat ->
  exists o V, GUM_DFT x (SuMat U) None None None None false None = Ok o /\ dft_U o = FuMat V /\
    V 0%nat 0%nat = U 0%nat 0%nat + U 0%nat 1%nat + U 1%nat 0%nat + U 1%nat 1%nat.
Proof.
  intros Hx HR HC. unfold GUM_DFT. cbn [bind]. unfold rfft. rewrite Hx. cbn [Nat.eqb bind alen seq].
  unfold dot. cbn [mcols mrows transp Nat.div fst snd Nat.divmod Nat.add List.length seq Nat.sub].
  rewrite ?HR, ?HC, ?Hx. cbn [Nat.eqb bind mrows mcols Nat.sub]. rewrite ?HR, ?HC, ?Nat.eqb_refl.
  cbn [bind mcols mrows]. unfold stack4. cbn [mrows mcols transp Nat.eqb Nat.add andb bind].
  eexists; eexists. split; [reflexivity|]. split; [reflexivity|].
  cbn [mget Nat.ltb Nat.leb rsum nth transp Nat.sub]. unfold Cxkc. rewrite !Rmult_0_l, cos_0. ring.
Qed.
Theorem C120_window_refuted : exists x w M o V o' V',
  integer_matrix M /\ alen x = 2%nat /\ alen w = 2%nat /\
  GUM_DFT_window_dt DInt x M None w = Ok o /\ dft_U o = FuMat V /\
  GUM_DFT x (SuMat M) None (Some w) None None false None = Ok o' /\ dft_U o' = FuMat V' /\
  V 0%nat 0%nat = 0 /\ V' 0%nat 0%nat = 1 / 2.
Proof.
  set (x := of_list [1; 1]). set (w := of_list [1 / 2; 1 / 2]). exists x, w, unit2.
  destruct (apply_window_dt_run DInt x w unit2 2) as [W [E [R [C S]]]]; try reflexivity.
  destruct (apply_window_dt_run DFloat x w unit2 2) as [W' [E' [R' [C' S']]]]; try reflexivity.
  destruct (gum_dft_two (vmul x w) W) as [o [V [G [HV V0]]]]; try assumption; try reflexivity.
  destruct (gum_dft_two (vmul x w) W') as [o' [V' [G' [HV' V0']]]]; try assumption; try reflexivity.
  exists o, V, o', V'. split; [apply unit2_integer|]. split; [reflexivity|]. split; [reflexivity|].
  split; [unfold GUM_DFT_window_dt; rewrite E; exact G|]. split; [exact HV|]. split.
  { rewrite (proj2 (proj2 (proj2 (C120_float_partial v0 v0 v0 v0 x w unit2 None false)))).
    unfold GUM_DFT_window_dt. rewrite E'. exact G'. }
  split; [exact HV'|]. rewrite V0, V0', !S, !S', !unit2_entry. cbn [Nat.ltb Nat.leb Nat.eqb andb w of_list aget nth].
  split; [|rewrite !T3_float; lra].
  rewrite !T3_zero; try lra; rewrite ?Rmult_0_l, ?Rabs_R0, ?Rmult_1_l; try lra; rewrite Rabs_right; lra.
Qed.

(** Exact if the sensitivities are integers as well: an integer filter in DFT_multiply, an
    integer (e.g. rectangular) window. *)
Theorem C120_integers_partial : forall (Y F x w : vec) (M : mat) h n,
  integer_matrix M -> alen Y = (2 * h)%nat -> alen F = (2 * h)%nat ->
  (alen x = n -> alen w = n -> mrows M = n -> mcols M = n ->
   (forall k, (k < n)%nat -> exists z : Z, w k = IZR z) ->
   exists x' U U', apply_window_dt DInt x M w = Ok (x', SuMat U) /\
     apply_window x (SuMat M) w = Ok (x', SuMat U') /\ meq U U') /\
  (mrows M = (2 * h)%nat -> mcols M = (2 * h)%nat ->
   (forall k, (k < 2 * h)%nat -> exists z : Z, F k = IZR z) ->
   exists V U U', DFT_multiply_dt DInt Y F M = Ok (V, U) /\
     DFT_multiply Y F (SuMat M) None = Ok (V, U') /\ meq U U').
Proof.
  intros Y F x w M h n HM HY HF. split.
  - intros Hx Hw HR HC HI.
    destruct (apply_window_dt_run DInt x w M n) as [U [E [R [C S]]]]; auto.
    destruct (apply_window_dt_run DFloat x w M n) as [U' [E' [R' [C' S']]]]; auto.
    exists (vmul x w), U, U'. split; [exact E|]. split; [exact E'|].
    split; [congruence|]. split; [congruence|]. rewrite R, C. intros i j Hi Hj.
    rewrite S, S', T3_float. apply T3_int; [now apply HI|apply HM|now apply HI].
  - intros HR HC HI.
    destruct (DFT_multiply_dt_run DInt Y F M h) as [V [U [E [R [C S]]]]]; auto.
    destruct (DFT_multiply_dt_run DFloat Y F M h) as [V' [U' [E' [R' [C' S']]]]]; auto.
    assert (EV : V' = V).
    { revert E E'. unfold DFT_multiply_dt. rewrite HY, HF, Nat.eqb_refl. simpl negb. cbv iota zeta.
      repeat (match goal with |- bind ?m _ = _ -> _ => destruct m; simpl; [|discriminate] end).
      intros Q. injection Q as <- <-.
      repeat (match goal with |- bind ?m _ = _ -> _ => destruct m; simpl; [|discriminate] end).
      intros Q. injection Q as <- <-. reflexivity. }
    subst V'. exists V, U, U'. split; [exact E|]. split.
    { rewrite (proj1 (proj2 (proj2 (C120_float_partial v0 v0 _ _ v0 v0 M None false)))). exact E'. }
    split; [congruence|]. split; [congruence|]. rewrite R, C. intros i j Hi Hj. rewrite S, S'.
    assert (Hr : forall k, (k < h)%nat -> exists z : Z, F k = IZR z) by (intros; apply HI; lia).
    assert (Hi' : forall k, (k < h)%nat -> exists z : Z, F (h + k)%nat = IZR z) by (intros; apply HI; lia).
    unfold stk4.
    destruct (Nat.ltb_spec i h), (Nat.ltb_spec j h); unfold m4;
      rewrite !T3_float, !T3_int; try reflexivity; try (apply HM); try (apply Hr; lia); try (apply Hi'; lia).
Qed.

Lemma Rabs_le_between x y : Rabs x <= y -> - y <= x <= y.
Proof. intros H. pose proof (Rle_abs x). pose proof (Rle_abs (- x)). rewrite Rabs_Ropp in *. lra. Qed.
(** How far off: at most 6 + 2 a for amplitudes bounded by a, whatever the covariance. *)
Theorem C120_error_partial : forall (A P : vec) (M : mat) h a,
  alen A = h -> alen P = h -> mrows M = (2 * h)%nat -> mcols M = (2 * h)%nat ->
  (forall k, (k < h)%nat -> Rabs (A k) <= a) ->
  exists F U F' U', AmpPhase2DFT_dt DInt A P M = Ok (F, U) /\
    AmpPhase2DFT A P (ApMat M) false = Ok (F', UDense U') /\
    forall i j, (i < 2 * h)%nat -> (j < 2 * h)%nat -> Rabs (U i j - U' i j) <= 6 + 2 * a.
Proof.
  intros A P M h a HA HP HR HC Ha.
  destruct (AmpPhase2DFT_dt_run DInt A P M h) as [F [U [E [_ [_ V]]]]]; auto.
  destruct (AmpPhase2DFT_dt_run DFloat A P M h) as [F' [U' [E' [_ [_ V']]]]]; auto.
  exists F, U, F', U'. split; [exact E|]. split.
  { rewrite (proj1 (C120_float_partial A P v0 v0 v0 v0 M None false)), E'. reflexivity. }
  intros i j Hi Hj. rewrite V, V'.
  assert (Hq : forall f g c d k l, Rabs (f k) <= 1 -> Rabs (g k) <= a ->
    Rabs (q4 DInt h M f g c d k l - q4 DFloat h M f g c d k l) <= 6 + 2 * a).
  { intros f g c d k l Hf Hg. unfold q4. rewrite !T3_float.
    pose proof (T3_close DInt (f k) (M k l) (c l)). pose proof (T3_close DInt (g k) (M l (h + k)%nat) (c l)).
    pose proof (T3_close DInt (f k) (M k (h + l)%nat) (d l)). pose proof (T3_close DInt (g k) (M (h + k)%nat (h + l)%nat) (d l)).
    repeat match goal with H : Rabs (T3 _ ?u ?v ?z - _) <= _ |- _ =>
      let t := fresh "t" in let b := fresh "b" in
      set (t := T3 DInt u v z) in *; set (b := u * (v * z)) in * end.
    apply Rabs_le_between in H, H0, H1, H2. apply Rabs_le. lra. }
  assert (Hc : forall t, Rabs (cos t) <= 1) by (intros; apply Rabs_le; pose proof (COS_bound t); lra).
  assert (Hs : forall t, Rabs (sin t) <= 1) by (intros; apply Rabs_le; pose proof (SIN_bound t); lra).
  assert (Hap : forall k t, (k < h)%nat -> Rabs t <= 1 -> Rabs (A k * t) <= a).
  { intros k t Hk Ht. rewrite Rabs_mult. pose proof (Ha k Hk). pose proof (Rabs_pos (A k)). pose proof (Rabs_pos t). nra. }
  assert (Han : forall k t, (k < h)%nat -> Rabs t <= 1 -> Rabs (- A k * t) <= a).
  { intros k t Hk Ht. replace (- A k * t) with (- (A k * t)) by ring. rewrite Rabs_Ropp. now apply Hap. }
  unfold stk4. destruct (Nat.ltb_spec i h), (Nat.ltb_spec j h); apply Hq; auto;
    first [apply Hap | apply Han]; auto; lia.
Qed.
Example C120_example : exists F U, AmpPhase2DFT_dt DInt (of_list [1]) (of_list [0]) unit2 = Ok (F, U) /\
  U 0%nat 0%nat = 1 /\ U 1%nat 1%nat = 1.
Proof.
  destruct (AmpPhase2DFT_dt_run DInt (of_list [1]) (of_list [0]) unit2 1) as [F [U [E [_ [_ V]]]]]; try reflexivity.
  exists F, U. split; [exact E|].
  assert (H0 : forall x y z, y * z = 0 -> T3 DInt x y z = 0).
  { intros x y z H. apply T3_zero. rewrite H, Rabs_R0. lra. }
  assert (H1 : T3 DInt 1 1 1 = 1).
  { rewrite T3_int; [ring| | |]; now exists 1%Z. }
  split; rewrite V; unfold stk4, q4; rewrite !unit2_entry;
    cbn [Nat.ltb Nat.leb Nat.eqb andb Nat.add Nat.sub of_list aget nth]; rewrite cos_0, sin_0, ?Rmult_1_l.
  - rewrite H1, !H0 by ring. ring.
  - rewrite H1, !H0 by ring. ring.
Qed.
Print Assumptions C120_float_partial.
Print Assumptions C120_real_imag_refuted.
Print Assumptions C120_amp_phase_refuted.
Print Assumptions C120_multiply_refuted.
Print Assumptions C120_window_refuted.
Print Assumptions C120_integers_partial.
Print Assumptions C120_error_partial.

(** ** C121 (false): a covariance matrix may be given as scipy dia_matrix.
    The functions take the first stored diagonal for the main diagonal and the second for
    the covariances between amplitude and phase. *)
(** Uncorrelated amplitudes and phases as scipy.sparse.diags(variances): IndexError. *)
Theorem C121_main_diagonal_refuted : exists A P v ks F U x V,
  meq (gdia_toarray (sp_diags1 v)) (diagm v) /\
  AmpPhase2DFT A P (ApVec v) ks = Ok (F, U) /\ AmpPhase2DFT_gdia A P (sp_diags1 v) ks = Err IndexError /\
  AmpPhase2Time A P (ApVec v) = Ok (x, V) /\ AmpPhase2Time_gdia A P (sp_diags1 v) = Err IndexError.
Proof.
  exists (of_list [1; 2]), (of_list [0; 0]), (of_list [1; 2; 3; 4]), false.
  eexists; eexists; eexists; eexists. split.
  { split; [reflexivity|]. split; [reflexivity|]. intros i j Hi Hj. unfold gdia_toarray, diagm. cbn [mget sp_diags1 gd_diags fold_right fst snd].
    destruct (Z.eqb_spec (Z.of_nat j - Z.of_nat i) 0), (Nat.eqb_spec i j); try lia; [|ring].
    subst j. unfold vpad. cbn [sp_diags1 gd_n gdia_toarray mrows] in Hi. destruct (Nat.ltb_spec i (alen (of_list [1; 2; 3; 4]))); [ring|lia]. }
  split; [reflexivity|]. split; [reflexivity|]. split; reflexivity.
Qed.
(** It always does. *)
Theorem C121_main_diagonal_fails_partial : forall A P v ks,
  (forall r, AmpPhase2DFT_gdia A P (sp_diags1 v) ks <> Ok r) /\ (forall r, AmpPhase2Time_gdia A P (sp_diags1 v) <> Ok r).
Proof.
  intros A P v ks. split; intros r.
  - unfold AmpPhase2DFT_gdia. destruct (negb _); [discriminate|]. destruct (negb _); discriminate.
  - unfold AmpPhase2Time_gdia. destruct (AmpPhase2Time _ _ _); discriminate.
Qed.

(** scipy.sparse.dia_matrix(matrix) stores the diagonals by increasing offset: the
    covariances are taken for the variances (variance 1/4 instead of 1/2). *)
Definition s_m : vec := of_list [1; 1; 1; 1].
Definition s_u : vec := of_list [1 / 2; 1 / 2].
Definition a2 : vec := of_list [1; 1].
Definition p2 : vec := of_list [0; 0].
Lemma apt_two : apt_Cc 2 a2 p2 0%nat 0%nat = 1 /\ apt_Cc 2 a2 p2 0%nat 1%nat = 1 /\
  apt_Cs 2 a2 p2 0%nat 0%nat = 0 /\ apt_Cs 2 a2 p2 0%nat 1%nat = 0.
Proof.
  unfold apt_Cc, apt_Cs, a2, p2; simpl. rewrite Rmult_0_r, Rplus_0_r, cos_0, sin_0. repeat split; ring.
Qed.
Lemma apt_dia_two fm fu : exists x V,
  AmpPhase2Time a2 p2 (ApDia (mkDia 2 (mkArr 4 fm) (mkArr 4 fu) (mkArr 4 fu))) = Ok (x, V) /\
  V 0%nat 0%nat = (fm 0%nat + fm 1%nat) / 4.
Proof.
  destruct apt_two as [H1 [H2 [H3 H4]]].
  unfold AmpPhase2Time. cbn -[apt_Cc apt_Cs irfft]. unfold irfft. cbn -[apt_Cc apt_Cs irfft_val].
  eexists; eexists. split; [reflexivity|]. cbn -[apt_Cc apt_Cs]. unfold bidx.
  change (mrows (apt_Cc 2 a2 p2)) with 2%nat. change (mcols (apt_Cc 2 a2 p2)) with 2%nat.
  change (mrows (apt_Cs 2 a2 p2)) with 2%nat. change (mcols (apt_Cs 2 a2 p2)) with 2%nat.
  cbn -[apt_Cc apt_Cs]. rewrite ?H1, ?H2, ?H3, ?H4. lra.
Qed.
Lemma apt_mat_two f : exists x V, AmpPhase2Time a2 p2 (ApMat (mkMat 4 4 f)) = Ok (x, V) /\
  V 0%nat 0%nat = (f 0%nat 0%nat + f 0%nat 1%nat + f 1%nat 0%nat + f 1%nat 1%nat) / 4.
Proof.
  destruct apt_two as [H1 [H2 [H3 H4]]].
  unfold AmpPhase2Time. cbn -[apt_Cc apt_Cs irfft]. unfold irfft. cbn -[apt_Cc apt_Cs irfft_val].
  eexists; eexists. split; [reflexivity|]. cbn -[apt_Cc apt_Cs]. unfold bidx.
  change (mrows (apt_Cc 2 a2 p2)) with 2%nat. change (mcols (apt_Cc 2 a2 p2)) with 2%nat.
  change (mrows (apt_Cs 2 a2 p2)) with 2%nat. change (mcols (apt_Cs 2 a2 p2)) with 2%nat.
  cbn -[apt_Cc apt_Cs]. rewrite ?H1, ?H2, ?H3, ?H4. lra.
Qed.
Theorem C121_sorted_refuted : exists A P m u x V x' V',
  let g := sp_sorted 2 m u u in
  alen A = 2%nat /\ alen P = 2%nat /\ alen m = 4%nat /\ alen u = 2%nat /\
  AmpPhase2Time_gdia A P g = Ok (x, V) /\ AmpPhase2Time A P (ApMat (gdia_toarray g)) = Ok (x', V') /\
  V 0%nat 0%nat = 1 / 4 /\ V' 0%nat 0%nat = 1 / 2.
Proof.
  exists a2, p2, s_m, s_u.
  destruct (apt_dia_two (lo_row 2 s_u) (fun i => s_m i)) as [x [V [E HV]]].
  destruct (apt_mat_two (gdia_toarray (sp_sorted 2 s_m s_u s_u))) as [x' [V' [E' HV']]].
  exists x, V, x', V'. cbv zeta. do 4 (split; [reflexivity|]). split; [exact E|]. split; [exact E'|].
  rewrite HV, HV'. unfold gdia_toarray, vpad, lo_row, up_row, s_m, s_u; simpl; lra.
Qed.
(** AmpPhase2DFT refuses the same matrix, which it accepts as an array. *)
Theorem C121_sorted_dft_refuted : exists A P m u F U,
  let g := sp_sorted 2 m u u in
  alen A = 2%nat /\ alen P = 2%nat /\ alen m = 4%nat /\ alen u = 2%nat /\
  AmpPhase2DFT A P (ApMat (gdia_toarray g)) false = Ok (F, U) /\ AmpPhase2DFT_gdia A P g false = Err ValueError.
Proof.
  exists (of_list [1; 1]), (of_list [0; 0]), s_m, s_u.
  destruct (AmpPhase2DFT_dt_run DFloat (of_list [1; 1]) (of_list [0; 0]) (gdia_toarray (sp_sorted 2 s_m s_u s_u)) 2)
    as [F [U [E _]]]; try reflexivity.
  exists F, (UDense U). cbv zeta. do 4 (split; [reflexivity|]). split; [|reflexivity].
  rewrite (proj1 (C120_float_partial _ _ v0 v0 v0 v0 _ None false)), E. reflexivity.
Qed.

(** What does hold: stored in the order main, upper, lower (the order in which the library
    itself builds such matrices) the diagonals are read as meant. *)
Theorem C121_own_order_partial : forall (A P m u l : vec) n ks,
  alen m = (2 * n)%nat -> alen u = n -> alen l = n -> (1 <= n)%nat -> alen A = n ->
  exists D, meq (gdia_toarray (sp_diags3 n m u l)) (dia_toarray (mkDia n m u l)) /\
    dia_half D = n /\ veq (dia_main D) m /\ veq (dia_up D) u /\
    AmpPhase2DFT_gdia A P (sp_diags3 n m u l) ks = AmpPhase2DFT A P (ApDia D) ks /\
    AmpPhase2Time_gdia A P (sp_diags3 n m u l)
      = (do _ <- AmpPhase2Time A P (ApVec (mkArr (2 * n) (fun _ => 0))) ;; AmpPhase2Time A P (ApDia D)).
Proof.
  intros A P m u l n ks Hm Hu Hl Hn HA.
  set (up := pyslice (up_row n u) (Z.of_nat n) (Z.of_nat (2 * n) + Z.of_nat n)).
  assert (Lup : alen up = n).
  { unfold up, pyslice, pybound. cbn [alen up_row].
    replace (Z.of_nat n <? 0)%Z with false by (symmetry; apply Z.ltb_ge; lia).
    replace (Z.of_nat (2 * n) + Z.of_nat n <? 0)%Z with false by (symmetry; apply Z.ltb_ge; lia). lia. }
  assert (Vup : forall i, (i < n)%nat -> up i = u i).
  { intros i Hi. unfold up, pyslice, pybound. cbn [alen aget up_row].
    replace (Z.of_nat n <? 0)%Z with false by (symmetry; apply Z.ltb_ge; lia).
    replace (Nat.min (Z.to_nat (Z.of_nat n)) (2 * n) + i)%nat with (n + i)%nat by lia.
    destruct (Nat.ltb_spec (n + i) n); [lia|]. f_equal. lia. }
  exists (mkDia n m up up). split; [|split; [reflexivity|split; [|split; [|split]]]].
  - split; [reflexivity|]. split; [reflexivity|]. intros i j Hi Hj.
    cbn [gdia_toarray mrows mcols sp_diags3 gd_n] in Hi, Hj.
    cbn [gdia_toarray dia_toarray mget sp_diags3 gd_diags fold_right fst snd dia_half dia_main dia_up dia_lo].
    unfold vpad, up_row, lo_row. cbn [alen aget]. rewrite Hm.
    destruct (Nat.ltb_spec j (2 * n)); [|lia].
    destruct (Z.eqb_spec (Z.of_nat j - Z.of_nat i) 0), (Z.eqb_spec (Z.of_nat j - Z.of_nat i) (Z.of_nat n)),
      (Z.eqb_spec (Z.of_nat j - Z.of_nat i) (- Z.of_nat n)), (Nat.eqb_spec i j), (Nat.eqb_spec j (i + n)),
      (Nat.eqb_spec i (j + n)); try lia; try ring.
    + subst j. ring.
    + destruct (Nat.ltb_spec j n); [lia|]. replace (j - n)%nat with i by lia. ring.
    + destruct (Nat.ltb_spec j n); [ring|lia].
  - split; reflexivity.
  - split; [cbn [dia_up]; congruence|]. cbn [dia_up]. rewrite Lup. exact Vup.
  - unfold AmpPhase2DFT_gdia. cbn [sp_diags3 gd_n gdia_read gd_diags]. fold up. rewrite HA, Nat.eqb_refl. cbn [bind].
    rewrite Lup, Hm, !Nat.eqb_refl. cbn [negb andb].
    destruct (negb (n =? alen P)%nat) eqn:E; [|reflexivity].
    unfold AmpPhase2DFT. rewrite HA, E. reflexivity.
  - unfold AmpPhase2Time_gdia. cbn [sp_diags3 gd_n gdia_read gd_diags]. fold up. cbn [bind].
    replace (2 * n / 2)%nat with n; [reflexivity|]. symmetry. apply half_2h.
Qed.
(** Stored by increasing offset the matrix is the same, but it is never accepted. *)
Theorem C121_sorted_partial : forall (A P m u l : vec) n ks,
  alen m = (2 * n)%nat -> alen u = n -> alen l = n -> (1 <= n)%nat -> alen A = n ->
  meq (gdia_toarray (sp_sorted n m u l)) (dia_toarray (mkDia n m u l)) /\
  meq (gdia_toarray (sp_sorted n m u l)) (gdia_toarray (sp_diags3 n m u l)) /\
  AmpPhase2DFT_gdia A P (sp_sorted n m u l) ks = Err ValueError.
Proof.
  intros A P m u l n ks Hm Hu Hl Hn HA. split; [|split].
  - split; [reflexivity|]. split; [reflexivity|]. intros i j Hi Hj.
    cbn [gdia_toarray mrows mcols sp_sorted gd_n] in Hi, Hj.
    cbn [gdia_toarray dia_toarray mget sp_sorted gd_diags fold_right fst snd dia_half dia_main dia_up dia_lo].
    unfold vpad, up_row, lo_row. cbn [alen aget]. rewrite Hm.
    destruct (Nat.ltb_spec j (2 * n)); [|lia].
    destruct (Z.eqb_spec (Z.of_nat j - Z.of_nat i) 0), (Z.eqb_spec (Z.of_nat j - Z.of_nat i) (Z.of_nat n)),
      (Z.eqb_spec (Z.of_nat j - Z.of_nat i) (- Z.of_nat n)), (Nat.eqb_spec i j), (Nat.eqb_spec j (i + n)),
      (Nat.eqb_spec i (j + n)); try lia; try ring.
    + subst j. ring.
    + destruct (Nat.ltb_spec j n); [lia|]. replace (j - n)%nat with i by lia. ring.
    + destruct (Nat.ltb_spec j n); [ring|lia].
  - split; [reflexivity|]. split; [reflexivity|]. intros i j _ _.
    cbn [gdia_toarray mget sp_sorted sp_diags3 gd_diags fold_right fst snd]. ring.
  - unfold AmpPhase2DFT_gdia. cbn [sp_sorted gd_n gdia_read gd_diags]. rewrite HA, Nat.eqb_refl. cbn [negb].
    destruct (negb _); [reflexivity|]. cbn [bind]. unfold pyslice, pybound. cbn [alen lo_row]. rewrite Hm.
    replace (Z.of_nat (2 * n) + 0 <? 0)%Z with false by (symmetry; apply Z.ltb_ge; lia).
    change (0 <? 0)%Z with false. cbn iota.
    replace (Nat.min (Z.to_nat (Z.of_nat (2 * n) + 0)) (2 * n) - Nat.min (Z.to_nat 0) (2 * n) =? n)%nat with false
      by (symmetry; apply Nat.eqb_neq; lia).
    rewrite andb_false_r. reflexivity.
Qed.
Example C121_sorted_example : gdia_toarray (sp_sorted 3 (of_list [1; 2; 3; 4; 5; 6]) (of_list [7; 8; 9]) (of_list [7; 8; 9])) 1%nat 4%nat = 8.
Proof. cbn. ring. Qed.
Print Assumptions C121_sorted_partial.
Example C121_example : exists F U, AmpPhase2DFT_gdia (of_list [1; 2]) (of_list [0; 0])
  (sp_diags3 2 (of_list [1; 2; 3; 4]) s_u s_u) true = Ok (F, U).
Proof. eexists; eexists; reflexivity. Qed.
Print Assumptions C121_main_diagonal_refuted.
Print Assumptions C121_main_diagonal_fails_partial.
Print Assumptions C121_sorted_refuted.
Print Assumptions C121_sorted_dft_refuted.
Print Assumptions C121_own_order_partial.

(** A sparse matrix of another size is rejected like the array is. *)
Theorem C121_sizes_partial : forall (A P : vec) g ks, alen A <> alen P \/ gd_n g <> (2 * alen A)%nat ->
  AmpPhase2DFT_gdia A P g ks = Err ValueError /\ AmpPhase2DFT A P (ApMat (gdia_toarray g)) ks = Err ValueError.
Proof.
  intros A P g ks H. unfold AmpPhase2DFT_gdia, AmpPhase2DFT.
  destruct (Nat.eqb_spec (alen A) (alen P)) as [E|E]; [|split; reflexivity]. destruct H as [H|H]; [contradiction|].
  cbv zeta. cbn [negb gdia_toarray mrows mcols]. apply Nat.eqb_neq in H. rewrite H. split; reflexivity.
Qed.
Example C121_sizes_example :
  AmpPhase2DFT_gdia (of_list [1; 2]) (of_list [0; 0]) (sp_diags1 (of_list [1; 2; 3])) false = Err ValueError.
Proof. apply C121_sizes_partial. right. cbn. lia. Qed.
Print Assumptions C121_sizes_partial.

(** ** C122 (false): integer time instants (e.g. np.arange(n)) are accepted by the test
    signals. *)
Theorem C122_integer_time_refuted : exists time height amps freqs z x y,
  (forall i, (i < alen time)%nat -> exists k : Z, time i = IZR k) /\
  squarepulse time height 4 0 z = Ok x /\ squarepulse_dt DInt time height 4 0 z = Err TypeError /\
  multi_sine_dt DFloat time amps freqs 0 z = Ok y /\ multi_sine_dt DInt time amps freqs 0 z = Err TypeError.
Proof.
  exists (of_list [0; 1; 2; 3]), 1, [1], [1], (of_list [0; 0; 0; 0]). eexists; eexists.
  split.
  { intros i Hi. exists (Z.of_nat i). simpl in Hi. rewrite <- INR_IZR_INZ.
    destruct i as [|[|[|[|i]]]]; try lia; simpl; lra. }
  unfold squarepulse_dt. split.
  - unfold squarepulse. cbn [alen of_list List.length Nat.eqb]. cbn [square_loop].
    unfold rect. simpl. destruct (rltb 0 0) eqn:E; [|reflexivity].
    unfold rltb in E. destruct (Rlt_dec 0 0); [lra|discriminate].
  - split; [reflexivity|]. split; reflexivity.
Qed.
(** The integer array is the only difference; without pulses and noise it is returned as
    integer zeros. *)
Theorem C122_kinds_partial : forall time height np noise z amps freqs,
  squarepulse_dt DFloat time height np noise z = squarepulse time height np noise z /\
  multi_sine_dt DFloat time amps freqs noise z = Ok (multi_sine time amps freqs noise z) /\
  ((1 <= alen time)%nat -> (1 <= np)%nat -> squarepulse_dt DInt time height np noise z = Err TypeError) /\
  ((1 <= alen time)%nat -> noise <= 0 -> exists x, squarepulse_dt DInt time height 0 noise z = Ok x /\
     alen x = alen time /\ forall i, x i = 0) /\
  ((1 <= alen time)%nat -> 0 < noise -> squarepulse_dt DInt time height np noise z = Err TypeError) /\
  (alen time = 0%nat -> squarepulse_dt DInt time height np noise z = Err IndexError) /\
  multi_sine_dt DInt time amps freqs noise z = Err TypeError.
Proof.
  intros time height np noise z amps freqs. split; [reflexivity|]. split; [reflexivity|]. split; [|split; [|split; [|split]]].
  - intros H1 H2. unfold squarepulse_dt. destruct (Nat.eqb_spec (alen time) 0); [lia|].
    destruct np; [lia|reflexivity].
  - intros H1 H2. unfold squarepulse_dt. destruct (Nat.eqb_spec (alen time) 0); [lia|].
    unfold rltb. destruct (Rlt_dec 0 noise); [lra|]. eexists. split; [reflexivity|]. split; reflexivity.
  - intros H1 H2. unfold squarepulse_dt. destruct (Nat.eqb_spec (alen time) 0); [lia|].
    destruct np; [|reflexivity]. unfold rltb. destruct (Rlt_dec 0 noise); [reflexivity|lra].
  - intros H. unfold squarepulse_dt. rewrite H. reflexivity.
  - reflexivity.
Qed.
Example C122_example : squarepulse_dt DInt (of_list [0; 1]) 1 1 0 (of_list [0; 0]) = Err TypeError.
Proof. reflexivity. Qed.
Print Assumptions C122_integer_time_refuted.
Print Assumptions C122_kinds_partial.

(** ** C123: corr_noise.calc_autocorr *)
(** r is the sample correlation coefficient of the n pairs (x i, y i), none of the two
    samples being constant. *)
Definition dev (n : nat) (x : nat -> R) (i : nat) : R := x i - rsum n x / INR n.
Definition ssq (n : nat) (x : nat -> R) : R := rsum n (fun i => dev n x i ^ 2).
Definition is_sample_corr (n : nat) (x y : nat -> R) (r : R) : Prop :=
  0 < ssq n x /\ 0 < ssq n y /\
  r * (sqrt (ssq n x) * sqrt (ssq n y)) = rsum n (fun i => dev n x i * dev n y i).

Lemma cauchy n (a b : nat -> R) :
  rsum n (fun i => a i * b i) ^ 2 <= rsum n (fun i => a i ^ 2) * rsum n (fun i => b i ^ 2).
Proof.
  set (A := rsum n (fun i => a i ^ 2)). set (B := rsum n (fun i => b i ^ 2)).
  set (D := rsum n (fun i => a i * b i)).
  assert (HA : 0 <= A) by (apply rsum_nonneg; intros; nra).
  assert (HB : 0 <= B) by (apply rsum_nonneg; intros; nra).
  assert (Q : forall s t, 0 <= s * s * A - 2 * s * t * D + t * t * B).
  { intros s t. replace (s * s * A - 2 * s * t * D + t * t * B) with (rsum n (fun i => (s * a i - t * b i) ^ 2)).
    - apply rsum_nonneg. intros. apply pow2_ge_0.
    - unfold A, B, D. rewrite <- !rsum_scal, <- rsum_minus, <- rsum_plus. apply rsum_ext. intros. ring. }
  destruct (Req_dec B 0) as [E|E].
  - destruct (Req_dec D 0) as [->|HD]; [rewrite E; lra|].
    pose proof (Q 1 ((A + 1) / (2 * D))) as Q1. rewrite E in Q1.
    replace (1 * 1 * A - 2 * 1 * ((A + 1) / (2 * D)) * D + (A + 1) / (2 * D) * ((A + 1) / (2 * D)) * 0)
      with (-1) in Q1 by (field; lra). lra.
  - pose proof (Q B D). assert (0 < B) by lra. apply (Rmult_le_reg_l B); [assumption|]. nra.
Qed.
Lemma clip_id v : -1 <= v <= 1 -> np_clip1 v = v.
Proof. intros H. unfold np_clip1. rewrite Rmin_right, Rmax_right by lra. reflexivity. Qed.

Lemma np_cov_ssq n x : (2 <= n)%nat -> np_cov n x x = ssq n x / (INR n - 1).
Proof. intros _. unfold np_cov, ssq, dev, np_mean. f_equal. apply rsum_ext. intros. ring. Qed.
Lemma corrcoef_spec n x y : (2 <= n)%nat -> 0 < ssq n x -> 0 < ssq n y ->
  exists r, np_corrcoef n x y = Some r /\ -1 <= r <= 1 /\ is_sample_corr n x y r.
Proof.
  intros Hn Hx Hy. assert (Hn1 : 0 < INR n - 1) by (apply (le_INR 2) in Hn; simpl in Hn; lra).
  unfold np_corrcoef. destruct (Nat.ltb_spec n 2); [lia|]. rewrite !np_cov_ssq by assumption.
  set (c := INR n - 1) in *. assert (Hc : 0 < / c) by now apply Rinv_0_lt_compat.
  destruct (Req_EM_T (ssq n x / c) 0) as [E|_]; [unfold Rdiv in E; nra|].
  destruct (Req_EM_T (ssq n y / c) 0) as [E|_]; [unfold Rdiv in E; nra|].
  set (D := rsum n (fun i => dev n x i * dev n y i)).
  assert (Hq : np_cov n x y / sqrt (ssq n x / c) / sqrt (ssq n y / c)
               = D / (sqrt (ssq n x) * sqrt (ssq n y))).
  { change (np_cov n x y) with (D / c). rewrite !sqrt_div_alt by assumption.
    assert (0 < sqrt c) by now apply sqrt_lt_R0. assert (0 < sqrt (ssq n x)) by now apply sqrt_lt_R0.
    assert (0 < sqrt (ssq n y)) by now apply sqrt_lt_R0.
    rewrite <- (sqrt_sqrt c) at 1 by lra. field. repeat split; lra. }
  rewrite Hq. assert (Hp : 0 < sqrt (ssq n x)) by now apply sqrt_lt_R0.
  assert (Hr : 0 < sqrt (ssq n y)) by now apply sqrt_lt_R0.
  set (r := D / (sqrt (ssq n x) * sqrt (ssq n y))).
  assert (Hrv : r * (sqrt (ssq n x) * sqrt (ssq n y)) = D) by (unfold r; field; lra).
  assert (Hb : -1 <= r <= 1).
  { pose proof (cauchy n (dev n x) (dev n y)) as HC. fold D in HC. change (rsum n (fun i => dev n x i ^ 2)) with (ssq n x) in HC.
    change (rsum n (fun i => dev n y i ^ 2)) with (ssq n y) in HC.
    rewrite <- Hrv in HC. rewrite Rpow_mult_distr in HC.
    replace ((sqrt (ssq n x) * sqrt (ssq n y)) ^ 2) with (ssq n x * ssq n y) in HC.
    2:{ rewrite Rpow_mult_distr. simpl. rewrite !Rmult_1_r, !sqrt_sqrt by lra. reflexivity. }
    assert (0 < ssq n x * ssq n y) by nra. assert (r ^ 2 <= 1) by nra. split; nra. }
  exists r. rewrite clip_id by assumption. split; [reflexivity|]. split; [assumption|]. repeat split; assumption.
Qed.
Lemma corrcoef_none n x y : (n < 2)%nat \/ ssq n x = 0 \/ ssq n y = 0 -> np_corrcoef n x y = None.
Proof.
  intros H. unfold np_corrcoef. destruct (Nat.ltb_spec n 2); [reflexivity|].
  rewrite !np_cov_ssq by assumption.
  destruct (Req_EM_T (ssq n x / (INR n - 1)) 0) as [E|E]; [reflexivity|].
  destruct (Req_EM_T (ssq n y / (INR n - 1)) 0) as [E'|E']; [reflexivity|].
  destruct H as [H|[H|H]]; [lia| |]; rewrite H in *; unfold Rdiv in *; rewrite Rmult_0_l in *; lra.
Qed.

Theorem C123_autocorr : forall (x : vec) lag,
  exists r, calc_autocorr (Some x) lag = Ok r /\ List.length r = Nat.max lag 1 /\ nth 0 r None = Some 1 /\
  forall i, (1 <= i < lag)%nat ->
    let n := (alen x - i)%nat in let y := fun k => x (i + k)%nat in
    (* at least two pairs and no constant part: the sample correlation of the shifted noise *)
    ((2 <= n)%nat -> 0 < ssq n x -> 0 < ssq n y ->
       exists c, nth i r None = Some c /\ -1 <= c <= 1 /\ is_sample_corr n x y c) /\
    (* otherwise nan *)
    ((n < 2)%nat \/ ssq n x = 0 \/ ssq n y = 0 -> nth i r None = None).
Proof.
  intros x lag. eexists. split; [reflexivity|]. split.
  { cbn [List.length]. rewrite map_length, seq_length. lia. }
  split; [reflexivity|]. intros i Hi n y. destruct i as [|i]; [lia|]. cbn [nth].
  set (f := fun i => np_corrcoef (alen x - i) x (fun k => x (i + k)%nat)).
  assert (E : nth i (map f (seq 1 (lag - 1))) None = f (S i)).
  { rewrite (nth_indep _ None (f 0%nat)) by (rewrite map_length, seq_length; lia).
    rewrite map_nth, seq_nth by lia. reflexivity. }
  rewrite E. unfold f. fold n y. split.
  - intros H1 H2 H3. now apply corrcoef_spec.
  - intros H. now apply corrcoef_none.
Qed.
(** A noise sequence of period p has autocorrelation 1 at lag p. *)
Theorem C123_periodic : forall (x : vec) lag p,
  (1 <= p < lag)%nat -> (p + 2 <= alen x)%nat -> (forall k, (p + k < alen x)%nat -> x (p + k)%nat = x k) ->
  0 < ssq (alen x - p) x ->
  exists r, calc_autocorr (Some x) lag = Ok r /\ nth p r None = Some 1.
Proof.
  intros x lag p Hp Hn Hper Hs. destruct (C123_autocorr x lag) as [r [E [_ [_ H]]]].
  exists r. split; [exact E|]. destruct (H p Hp) as [H1 _]. set (n := (alen x - p)%nat) in *.
  assert (Hy : forall k, (k < n)%nat -> x (p + k)%nat = x k) by (intros; apply Hper; lia).
  assert (Hsum : rsum n (fun k => x (p + k)%nat) = rsum n x) by (apply rsum_ext; assumption).
  assert (Hd : forall k, (k < n)%nat -> dev n (fun k => x (p + k)%nat) k = dev n x k).
  { intros k Hk. unfold dev. rewrite Hsum, Hy by assumption. reflexivity. }
  assert (Hss : ssq n (fun k => x (p + k)%nat) = ssq n x).
  { unfold ssq. apply rsum_ext. intros k Hk. now rewrite Hd. }
  destruct H1 as [c [Ec [_ [_ [_ Hc]]]]]; [lia|assumption|rewrite Hss; assumption|].
  rewrite Ec. f_equal. rewrite Hss, sqrt_sqrt in Hc by lra.
  assert (Hc' : c * ssq n x = ssq n x).
  { rewrite Hc. unfold ssq. apply rsum_ext. intros k Hk. rewrite Hd by assumption. ring. }
  nra.
Qed.
Theorem C123_no_noise : forall lag,
  ((2 <= lag)%nat -> calc_autocorr None lag = Err AttributeError) /\
  ((lag < 2)%nat -> calc_autocorr None lag = Ok [Some 1]).
Proof.
  intros lag. unfold calc_autocorr. split; intros H; destruct (Nat.leb_spec 2 lag); try lia; reflexivity.
Qed.
Definition alt4 : vec := of_list [1; -1; 1; -1].
Lemma alt4_ssq : ssq 2 alt4 = 2.
Proof. unfold ssq, dev; simpl. lra. Qed.
Example C123_example : exists r, calc_autocorr (Some alt4) 3 = Ok r /\ nth 2 r None = Some 1.
Proof.
  apply (C123_periodic alt4 3 2); [lia|simpl; lia| |].
  - intros k Hk. simpl in Hk. destruct k as [|[|k]]; [reflexivity|reflexivity|lia].
  - change (alen alt4 - 2)%nat with 2%nat. rewrite alt4_ssq. lra.
Qed.
Example C123_example_nan : exists r, calc_autocorr (Some alt4) 5 = Ok r /\ nth 3 r None = None.
Proof.
  destruct (C123_autocorr alt4 5) as [r [E [_ [_ H]]]]. exists r. split; [exact E|].
  apply (H 3%nat); [lia|]. left. simpl. lia.
Qed.
Print Assumptions C123_autocorr.
Print Assumptions C123_periodic.
Print Assumptions C123_no_noise.

(** ** C18: trimOrPad with its argument mode *)
Open Scope string_scope.
(** Names of numpy.pad for the continuations of S_Conv.v. *)
Definition pad_name (npmode ndmode : string) : Prop :=
  (npmode = "edge" /\ ndmode = "nearest") \/ (npmode = "symmetric" /\ ndmode = "reflect") \/
  (npmode = "reflect" /\ ndmode = "mirror").
Theorem C18_modes : forall (junk : nat -> R) (a : vec) L,
  (trimOrPad_mode junk a L "constant" = Ok (trimOrPad a L)) /\
  (forall mode nd e, pad_name mode nd -> (1 <= alen a)%nat -> is_continuation nd (alen a) e ->
     exists r, trimOrPad_mode junk a L mode = Ok r /\ alen r = L /\
       forall i, (i < L)%nat -> r i = a (e (Z.of_nat i))) /\
  ((1 <= alen a)%nat -> exists r, trimOrPad_mode junk a L "wrap" = Ok r /\ alen r = L /\
     (forall i, (i < L)%nat -> (i < alen a)%nat -> r i = a i) /\
     (forall i, (i + alen a < L)%nat -> r (i + alen a)%nat = r i)) /\
  (* whatever the mode, an array that is long enough is cut *)
  (forall mode, (L <= alen a)%nat -> exists r, trimOrPad_mode junk a L mode = Ok r /\ alen r = L /\
     forall i, (i < L)%nat -> r i = a i).
Proof.
  intros junk a L. split; [|split; [|split]].
  - unfold trimOrPad_mode, trimOrPad. destruct (alen a <? L)%nat; reflexivity.
  - intros mode nd e Hm Ha He. assert (Hc : forall i, (i < alen a)%nat -> e (Z.of_nat i) = i) by apply He.
    unfold trimOrPad_mode. destruct (Nat.ltb_spec (alen a) L).
    + assert (K : forall f, (forall i, f i = e (Z.of_nat i)) ->
        exists r, (if (alen a =? 0)%nat then Err ValueError else
          Ok (mkArr (alen a + (L - alen a)) (fun i => if (i <? alen a)%nat then a i else a (f i)))) = Ok r /\
          alen r = L /\ forall i, (i < L)%nat -> r i = a (e (Z.of_nat i))).
      { intros f Hf. destruct (Nat.eqb_spec (alen a) 0); [lia|]. eexists. split; [reflexivity|].
        cbn [alen aget]. split; [lia|]. intros i Hi. destruct (Nat.ltb_spec i (alen a)); [now rewrite Hc|now rewrite Hf]. }
      destruct Hm as [[-> ->]|[[-> ->]|[-> ->]]]; unfold np_pad_right; simpl String.eqb; cbv iota; apply K; intros i.
      * change (pad_edge_idx (alen a) 0 i) with (pad_idx "nearest" (alen a) 0 i).
        rewrite (pad_idx_cont "nearest" (alen a) 0 i e); [f_equal; lia|auto|now left|auto].
      * change (pad_sym_idx (alen a) 0 i) with (pad_idx "reflect" (alen a) 0 i).
        rewrite (pad_idx_cont "reflect" (alen a) 0 i e); [f_equal; lia|auto|right; now left|auto].
      * change (pad_refl_idx (alen a) 0 i) with (pad_idx "mirror" (alen a) 0 i).
        rewrite (pad_idx_cont "mirror" (alen a) 0 i e); [f_equal; lia|auto|right; now right|auto].
    + eexists. split; [reflexivity|]. unfold slice. cbn [alen aget]. split; [lia|].
      intros i Hi. rewrite Hc by lia. reflexivity.
  - intros Ha. unfold trimOrPad_mode. destruct (Nat.ltb_spec (alen a) L).
    + unfold np_pad_right. simpl String.eqb. cbv iota. destruct (Nat.eqb_spec (alen a) 0); [lia|].
      eexists. split; [reflexivity|]. cbn [alen aget]. split; [lia|]. split.
      * intros i _ Hi. destruct (Nat.ltb_spec i (alen a)); [reflexivity|lia].
      * intros i Hi. destruct (Nat.ltb_spec (i + alen a) (alen a)); [lia|].
        replace ((i + alen a) mod alen a)%nat with (i mod alen a)%nat.
        2:{ replace (i + alen a)%nat with (i + 1 * alen a)%nat by lia. now rewrite Nat.mod_add. }
        destruct (Nat.ltb_spec i (alen a)); [|reflexivity]. now rewrite Nat.mod_small.
    + eexists. split; [reflexivity|]. unfold slice. cbn [alen aget]. split; [lia|]. split; [reflexivity|intros; lia].
  - intros mode H. unfold trimOrPad_mode. destruct (Nat.ltb_spec (alen a) L); [lia|].
    eexists. split; [reflexivity|]. unfold slice. cbn [alen aget]. split; [lia|reflexivity].
Qed.
(** The names numpy.pad knows. *)
Definition np_pad_names : list string :=
  ["constant"; "edge"; "wrap"; "reflect"; "symmetric"; "linear_ramp"; "maximum"; "mean"; "median"; "minimum"; "empty"].
Theorem C18_mode_errors : forall (junk : nat -> R) (a : vec) L mode, (alen a < L)%nat ->
  (~ In mode np_pad_names -> trimOrPad_mode junk a L mode = Err ValueError) /\
  (alen a = 0%nat -> In mode np_pad_names -> mode <> "constant" -> mode <> "empty" -> trimOrPad_mode junk a L mode = Err ValueError).
Proof.
  intros junk a L mode H. unfold trimOrPad_mode. destruct (Nat.ltb_spec (alen a) L); [|lia].
  assert (K : forall m l, In m l -> ~ In mode l -> String.eqb mode m = false).
  { intros m l Hi Hn. apply String.eqb_neq. intros ->. contradiction. }
  split.
  - intros Hn. unfold np_pad_right. cbn [existsb].
    rewrite !(K _ np_pad_names) by (try assumption; simpl; tauto). reflexivity.
  - intros E Hi Hc He. unfold np_pad_right. rewrite E.
    repeat (destruct Hi as [<-|Hi]; [solve [reflexivity | contradiction Hc; reflexivity | contradiction He; reflexivity]|]).
    destruct Hi.
Qed.
Example C18_mode_errors_example (junk : nat -> R) : ~ In "zeros" np_pad_names /\
  trimOrPad_mode junk (of_list [1%R]) 2 "zeros" = Err ValueError.
Proof. split; [intros H; repeat (destruct H as [H|H]; [discriminate|]); contradiction | reflexivity]. Qed.
Example C18_modes_example (junk : nat -> R) : exists r s t, trimOrPad_mode junk (of_list [1%R; 2%R; 3%R]) 5 "reflect" = Ok r /\ r 3%nat = 2%R /\ r 4%nat = 1%R /\
  trimOrPad_mode junk (of_list [1%R; 2%R; 3%R]) 5 "edge" = Ok s /\ s 4%nat = 3%R /\
  trimOrPad_mode junk (of_list [1%R; 2%R; 3%R]) 5 "wrap" = Ok t /\ t 4%nat = 2%R.
Proof. do 3 eexists. split; [reflexivity|]. split; [reflexivity|]. split; [reflexivity|]. split; [reflexivity|].
  split; [reflexivity|]. split; reflexivity. Qed.
Lemma fold_Rmax x l : (forall y, In y (x :: l) -> (y <= fold_right Rmax x l)%R) /\ (fold_right Rmax x l = x \/ In (fold_right Rmax x l) l).
Proof.
  induction l as [|z l [IH1 IH2]]; cbn [fold_right].
  - split; [intros y [<-|[]]; lra|auto].
  - split.
    + intros y [<-|[<-|Hy]]; [|apply Rmax_l|]; (eapply Rle_trans; [|apply Rmax_r]); apply IH1; simpl; auto.
    + unfold Rmax. destruct Rle_dec; [|right; left; reflexivity]. destruct IH2 as [E|E]; [left; exact E|right; right; exact E].
Qed.
Lemma fold_Rmin x l : (forall y, In y (x :: l) -> (fold_right Rmin x l <= y)%R) /\ (fold_right Rmin x l = x \/ In (fold_right Rmin x l) l).
Proof.
  induction l as [|z l [IH1 IH2]]; cbn [fold_right].
  - split; [intros y [<-|[]]; lra|auto].
  - split.
    + intros y [<-|[<-|Hy]]; [|apply Rmin_l|]; (eapply Rle_trans; [apply Rmin_r|]); apply IH1; simpl; auto.
    + unfold Rmin. destruct Rle_dec; [right; left; reflexivity|]. destruct IH2 as [E|E]; [left; exact E|right; right; exact E].
Qed.
(** The modes that use a property of the whole array: a ramp from the last value down to 0,
    the largest, smallest, average and middle value.  "empty" promises nothing about the new
    entries.  The entries of the array are always kept. *)
Theorem C18_statistics_modes : forall (junk : nat -> R) (a : vec) L, (1 <= alen a < L)%nat ->
  let n := alen a in
  (forall mode, In mode np_pad_names -> exists r, trimOrPad_mode junk a L mode = Ok r /\ alen r = L /\
     forall i, (i < n)%nat -> r i = a i) /\
  (exists r, trimOrPad_mode junk a L "linear_ramp" = Ok r /\ r (L - 1)%nat = 0%R /\
     forall i, (n - 1 <= i)%nat -> (i + 1 < L)%nat -> (r (i + 1)%nat - r i = - a (n - 1)%nat / INR (L - n))%R) /\
  (exists r c, trimOrPad_mode junk a L "maximum" = Ok r /\ (forall i, (n <= i < L)%nat -> r i = c) /\
     (forall i, (i < n)%nat -> (a i <= c)%R) /\ exists i, (i < n)%nat /\ c = a i) /\
  (exists r c, trimOrPad_mode junk a L "minimum" = Ok r /\ (forall i, (n <= i < L)%nat -> r i = c) /\
     (forall i, (i < n)%nat -> (c <= a i)%R) /\ exists i, (i < n)%nat /\ c = a i) /\
  (exists r c, trimOrPad_mode junk a L "mean" = Ok r /\ (forall i, (n <= i < L)%nat -> r i = c) /\
     (rsum n (fun i => a i - c) = 0)%R) /\
  (exists r c, trimOrPad_mode junk a L "median" = Ok r /\ (forall i, (n <= i < L)%nat -> r i = c) /\
     exists s, Permutation s (map a (seq 0 n)) /\ StronglySorted Rle s /\
       (c = (nth ((n - 1) / 2) s 0 + nth (n / 2) s 0) / 2)%R).
Proof.
  intros junk a L H n.
  assert (Hn : (n =? 0)%nat = false) by (apply Nat.eqb_neq; unfold n; lia).
  assert (EL : (n + (L - n) = L)%nat) by (unfold n; lia).
  assert (F : forall f : nat -> R, exists r,
    (if (n =? 0)%nat then Err ValueError else Ok (mkArr (n + (L - n)) (fun i => if (i <? n)%nat then a i else f i))) = Ok r /\
    alen r = L /\ (forall i, (i < n)%nat -> r i = a i) /\ forall i, (n <= i)%nat -> r i = f i).
  { intros f. rewrite Hn. eexists. split; [reflexivity|]. cbn [alen aget]. split; [exact EL|]. split.
    - intros i Hi. destruct (Nat.ltb_spec i n); [reflexivity|lia].
    - intros i Hi. destruct (Nat.ltb_spec i n); [lia|reflexivity]. }
  assert (T : forall mode, trimOrPad_mode junk a L mode = np_pad_right junk mode a (L - n)).
  { intros mode. unfold trimOrPad_mode. fold n. destruct (Nat.ltb_spec n L); [reflexivity|unfold n in *; lia]. }
  split; [|split; [|split; [|split; [|split]]]].
  - intros mode Hm. rewrite T. unfold np_pad_right. fold n.
    assert (G : forall f : nat -> R, exists r,
      (if (n =? 0)%nat then Err ValueError else Ok (mkArr (n + (L - n)) (fun i => if (i <? n)%nat then a i else f i))) = Ok r /\
      alen r = L /\ forall i, (i < n)%nat -> r i = a i).
    { intros f. destruct (F f) as (r & E & L1 & K & _). exists r. auto. }
    assert (G' : forall f : nat -> R, exists r,
      Ok (mkArr (n + (L - n)) (fun i => if (i <? n)%nat then a i else f i)) = Ok r /\
      alen r = L /\ forall i, (i < n)%nat -> r i = a i).
    { intros f. specialize (G f). rewrite Hn in G. exact G. }
    repeat (destruct Hm as [<-|Hm]; [simpl String.eqb; cbv iota zeta beta; solve [apply G|apply G']|]). destruct Hm.
  - rewrite T. unfold np_pad_right. fold n. simpl String.eqb. cbv iota zeta beta.
    destruct (F (fun i => INR (n + (L - n) - 1 - i) * (a (n - 1)%nat / INR (L - n)))%R) as (r & E & L1 & K & N).
    exists r. split; [exact E|].
    assert (Z : (INR (L - n) <> 0)%R) by (apply not_0_INR; unfold n in *; lia).
    rewrite EL in N. split.
    + rewrite N by (unfold n in *; lia). replace (L - 1 - (L - 1))%nat with 0%nat by lia. cbn [INR]. ring.
    + intros i Hi Hl. destruct (Nat.eq_dec i (n - 1)) as [->|Ne].
      * rewrite (N (n - 1 + 1)%nat), (K (n - 1)%nat) by (unfold n in *; lia).
        replace (L - 1 - (n - 1 + 1))%nat with (L - n - 1)%nat by (unfold n in *; lia).
        rewrite minus_INR by (unfold n in *; lia). cbn [INR]. field. exact Z.
      * rewrite (N (i + 1)%nat), (N i) by lia.
        replace (L - 1 - i)%nat with (S (L - 1 - (i + 1))) by lia. rewrite S_INR. field. exact Z.
  - rewrite T. unfold np_pad_right. fold n. simpl String.eqb. cbv iota zeta beta.
    destruct (F (fun _ => np_max a)) as (r & E & L1 & K & N). exists r, (np_max a). split; [exact E|].
    split; [intros; apply N; lia|]. unfold np_max. fold n. destruct (fold_Rmax (a 0%nat) (map a (seq 0 n))) as [U W]. split.
    + intros i Hi. apply U. right. apply in_map. apply in_seq. lia.
    + destruct W as [W|W]; [exists 0%nat; split; [unfold n; lia|exact W]|].
      apply in_map_iff in W. destruct W as (i & Ei & Hi). apply in_seq in Hi. exists i. split; [lia|auto].
  - rewrite T. unfold np_pad_right. fold n. simpl String.eqb. cbv iota zeta beta.
    destruct (F (fun _ => np_min a)) as (r & E & L1 & K & N). exists r, (np_min a). split; [exact E|].
    split; [intros; apply N; lia|]. unfold np_min. fold n. destruct (fold_Rmin (a 0%nat) (map a (seq 0 n))) as [U W]. split.
    + intros i Hi. apply U. right. apply in_map. apply in_seq. lia.
    + destruct W as [W|W]; [exists 0%nat; split; [unfold n; lia|exact W]|].
      apply in_map_iff in W. destruct W as (i & Ei & Hi). apply in_seq in Hi. exists i. split; [lia|auto].
  - rewrite T. unfold np_pad_right. fold n. simpl String.eqb. cbv iota zeta beta.
    destruct (F (fun _ => rsum n a / INR n)%R) as (r & E & L1 & K & N). exists r, (rsum n a / INR n)%R. split; [exact E|].
    split; [intros; apply N; lia|]. rewrite rsum_minus, rsum_const. field. apply not_0_INR. unfold n. lia.
  - rewrite T. unfold np_pad_right. fold n. simpl String.eqb. cbv iota zeta beta.
    destruct (F (fun _ => M_Fit.median a)) as (r & E & L1 & K & N). exists r, (M_Fit.median a). split; [exact E|].
    split; [intros; apply N; lia|]. exists (M_Fit.sort_list (map a (seq 0 n))).
    split; [apply Permutation_sym, sort_perm|].
    split; [apply Sorted_StronglySorted; [intros x y z; apply Rle_trans|apply sort_sorted]|].
    unfold M_Fit.median. fold n. set (s := M_Fit.sort_list _).
    destruct (Nat.even n) eqn:Ev.
    + apply Nat.even_spec in Ev. destruct Ev as [m Em].
      assert (Q1 : (n / 2 = m)%nat) by (rewrite Em, Nat.mul_comm; apply Nat.div_mul; lia).
      assert (Q2 : ((n - 1) / 2 = m - 1)%nat).
      { symmetry. apply Nat.div_unique with (r := 1%nat); unfold n in *; lia. }
      rewrite Q1, Q2. reflexivity.
    + assert (Od : Nat.odd n = true) by (unfold Nat.odd; rewrite Ev; reflexivity).
      apply Nat.odd_spec in Od. destruct Od as [m Em].
      assert (Q1 : (n / 2 = m)%nat) by (symmetry; apply Nat.div_unique with (r := 1%nat); lia).
      assert (Q2 : ((n - 1) / 2 = m)%nat) by (symmetry; apply Nat.div_unique with (r := 0%nat); lia).
      rewrite Q1, Q2. lra.
Qed.
Example C18_statistics_example (junk : nat -> R) : exists r s t,
  trimOrPad_mode junk (of_list [1%R; 2%R; 6%R]) 5 "linear_ramp" = Ok r /\ r 3%nat = 3%R /\ r 4%nat = 0%R /\
  trimOrPad_mode junk (of_list [1%R; 2%R; 6%R]) 5 "mean" = Ok s /\ s 4%nat = 3%R /\
  trimOrPad_mode junk (of_list [1%R; 2%R; 6%R]) 5 "median" = Ok t /\ t 4%nat = 2%R.
Proof.
  do 3 eexists. split; [reflexivity|]. split; [cbn; lra|]. split; [cbn; lra|]. split; [reflexivity|].
  split; [cbn; lra|]. split; [reflexivity|]. cbn. repeat (destruct Rle_dec; cbn; try lra).
Qed.
Print Assumptions C18_statistics_modes.
Print Assumptions C18_modes.
Print Assumptions C18_mode_errors.
