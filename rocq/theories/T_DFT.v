(** GUM_DFT, GUM_iDFT, GUM_DFTfreq: theorems C22-C28, C83-C86.
    Model: M_DFT.v.  Vocabulary: Stats.v, S_DFT.v. *)
From Coq Require Import Reals List Arith ZArith Bool Lia Lra Psatz Sorted.
From Verif Require Import Base Sums Stats StatsFacts M_DFT S_Jac S_DFT P_Jac P_Trig P_DFT P_iDFT.
Import ListNotations.
Open Scope R_scope.

(** Follow the successful branch of a computation. *)
Ltac inv_ok E :=
  repeat match type of E with
  | match ?e with Ok _ => _ | Err _ => _ end = Ok _ => destruct e; [|discriminate E]
  | match ?p with (_, _) => _ end = Ok _ => destruct p
  end.

(** ** Concrete data: the DFT of length 2 *)
Lemma dft2 (s : nat -> R) :
  dft_map 2 2 2 s 0 = s 0%nat + s 1%nat /\ dft_map 2 2 2 s 1 = s 0%nat - s 1%nat /\
  dft_map 2 2 2 s 2 = 0 /\ dft_map 2 2 2 s 3 = 0.
Proof.
  unfold dft_map, dft_coeff. simpl.
  replace (2 * PI * 0 * 0 / (1 + 1)) with 0 by lra.
  replace (2 * PI * 0 * 1 / (1 + 1)) with 0 by lra.
  replace (2 * PI * 1 * 0 / (1 + 1)) with 0 by lra.
  replace (2 * PI * 1 * 1 / (1 + 1)) with PI by lra.
  rewrite cos_0, sin_0, cos_PI, sin_PI. repeat split; ring.
Qed.
(** (1,2) with independent errors +-1 *)
Definition ex_x : vec := of_list [1; 2].
Definition ex_d : dist (nat -> R) :=
  map (fun l => (/4, fun i => nth i l 0)) [[2;3]; [2;1]; [0;3]; [0;1]].
Lemma ex_d_mean : has_mean 2 ex_d ex_x.
Proof. intros i Hi. destruct i as [|[|i]]; [| |lia]; unfold ex_d; simpl; lra. Qed.
Lemma ex_d_cov : has_cov 2 ex_d (sig_U (SuFloat 1)).
Proof.
  intros i j Hi Hj. unfold ex_d, Cov.
  destruct i as [|[|i]]; [| |lia]; (destruct j as [|[|j]]; [| |lia]); simpl; lra.
Qed.

Lemma dft_map_cov n H L w d U i j : has_cov L d U ->
  Cov d (fun s => dft_map n H L (fun m => w m * s m) i) (fun s => dft_map n H L (fun m => w m * s m) j)
  = sandwich L (fun r m => dft_coeff n H r m) (fun a b => w a * U a b * w b) (fun r m => dft_coeff n H r m) i j.
Proof.
  intros HU. unfold dft_map.
  rewrite (Cov_ext d _ _ (fun s => rsum L (fun m => (dft_coeff n H i m * w m) * s m))
                         (fun s => rsum L (fun m => (dft_coeff n H j m * w m) * s m)))
    by (intros; apply rsum_ext; intros; ring).
  rewrite (linear_cov L d U) by assumption. unfold sandwich.
  apply rsum_ext; intros; apply rsum_ext; intros; ring.
Qed.

(** ** C22 *)
(** Any call that returns: entry i is the DFT of the windowed, zero padded signal at the
    line selected for it. *)
Theorem C22_dft_estimate : forall x Ux N w CxCos CxSin rc o,
  let L := alen x in let n := dft_len L N in let H := (n / 2 + 1)%nat in
  GUM_DFT x Ux N w CxCos CxSin rc None = Ok o ->
  pad_fits L N /\ alen (dft_F o) = (2 * H)%nat /\
  forall i, (i < 2 * H)%nat -> dft_F o i = dft_map n H L (fun m => win w m * x m) i.
Proof.
  intros x Ux N w c s rc o L n H E.
  assert (Hwin : exists x' U', alen x' = L /\ (forall m, x' m = win w m * x m) /\
            GUM_DFT x' U' N None c s rc None = Ok o).
  { destruct w as [w|]; [|exists x, Ux; repeat split; [intros; simpl; ring | exact E]].
    destruct (apply_window x Ux w) as [[x' U']|] eqn:Ew.
    - rewrite (GUM_DFT_window _ _ _ _ _ _ _ _ _ _ Ew) in E.
      exists x', U'.
      assert (alen x' = L /\ forall m, x' m = w m * x m) as [H1 H2].
      { unfold apply_window in Ew. destruct (negb (alen x =? alen w)%nat); [discriminate|].
        destruct Ux; simpl in Ew; try discriminate.
        - inversion Ew; subst. split; [reflexivity|]. intros; simpl; ring.
        - destruct (negb ((mrows m =? mcols m) && (mrows m =? alen x))%nat); [discriminate|].
          destruct (prod3 w m w); simpl in Ew; [|discriminate].
          inversion Ew; subst. split; [reflexivity|]. intros; simpl; ring. }
      split; [exact H1|]. split; [exact H2|].
      exact E.
    - unfold GUM_DFT in E. rewrite Ew in E. simpl in E. discriminate. }
  destruct Hwin as [x' [U' [Hl [Hx E']]]]. clear E. rename E' into E.
  assert (HN : pad_fits L N).
  { destruct N as [z|]; [|exact I]. simpl. unfold GUM_DFT in E. cbv beta iota delta [bind] in E.
    rewrite Hl in E. destruct (Z.ltb_spec z (Z.of_nat L)); [discriminate|lia]. }
  split; [exact HN|].
  assert (Hn : (1 <= n)%nat).
  { destruct (Nat.eq_dec n 0) as [Hz|Hz]; [|lia]. exfalso.
    unfold GUM_DFT in E. cbv beta iota zeta delta [bind] in E. rewrite Hl in E.
    unfold n, dft_len in Hz. destruct N as [z|]; simpl in HN.
    - replace (z <? Z.of_nat L)%Z with false in E by (symmetry; apply Z.ltb_ge; exact HN).
      unfold rfft in E. simpl alen in E. rewrite Hl, Hz in E.
      replace (L + (0 - L))%nat with 0%nat in E by (pose proof (dft_len_ge L (Some z) HN); simpl in *; lia).
      simpl in E. discriminate.
    - unfold rfft in E. rewrite Hl, Hz in E. simpl in E. discriminate. }
  (* the estimate does not depend on the uncertainty *)
  destruct (GUM_DFT_core x' (SuFloat 0) N false None) as [o2 [E2 [E3 [E4 _]]]]; rewrite ?Hl; auto.
  { exact I. }
  { intros a b _ _. simpl. rewrite (Nat.eqb_sym b a). reflexivity. }
  { exact I. }
  assert (HF : dft_F o = dft_F o2).
  { revert E E2. unfold GUM_DFT. cbv beta iota zeta delta [bind].
    match goal with |- context [match ?e with Ok _ => _ | Err _ => _ end] =>
      match e with match N with Some _ => _ | None => _ end => destruct e as [[xp l]|]; [|discriminate] end end.
    destruct (rfft xp) as [[re im]|]; [|discriminate].
    intros E E2. inversion E2; subst o2; clear E2. cbn [dft_F].
    destruct U' as [u|v|m].
    - inversion E; reflexivity.
    - inv_ok E. inversion E; reflexivity.
    - inv_ok E. inversion E; reflexivity. }
  rewrite Hl in E3, E4. fold n H in E3, E4. unfold lines in E3, E4. fold n H in E3, E4. rewrite seq_length in E3, E4.
  rewrite HF. split; [exact E3|]. intros i Hi. rewrite E4 by exact Hi.
  pose proof (row_nomask n i Hi) as Er. unfold lines in Er. fold H in Er. rewrite Er.
  unfold dft_map. apply rsum_ext; intros m _. now rewrite Hx.
Qed.
(** Admissible arguments do return; a transform length below the signal length does not. *)
Theorem C22_dft_returns : forall x Ux N w rc,
  let L := alen x in let n := dft_len L N in let H := (n / 2 + 1)%nat in
  sig_fits L Ux -> symm L (sig_U Ux) -> win_fits L Ux w -> pad_fits L N -> (1 <= n)%nat ->
  exists o, GUM_DFT x Ux N w None None rc None = Ok o.
Proof.
  intros x Ux N w rc L n H Hs Hy Hw Hp Hn.
  destruct (GUM_DFT_run x Ux N w rc None) as [o [E _]]; auto; [exact I | eauto].
Qed.
Theorem C22_dft_short_N_rejected : forall x Ux z c s rc mask,
  (z < Z.of_nat (alen x))%Z -> GUM_DFT x Ux (Some z) None c s rc mask = Err ValueError.
Proof.
  intros. unfold GUM_DFT. cbv beta iota delta [bind].
  replace (z <? Z.of_nat (alen x))%Z with true by (symmetry; now apply Z.ltb_lt). reflexivity.
Qed.
Example C22_example : exists o, GUM_DFT ex_x (SuFloat 1) None None None None false None = Ok o /\
  alen (dft_F o) = 4%nat /\ dft_F o 0%nat = 3 /\ dft_F o 1%nat = -1 /\ dft_F o 3%nat = 0.
Proof.
  destruct (C22_dft_returns ex_x (SuFloat 1) None None false) as [o E]; simpl; auto; try exact I.
  { intros a b _ _. simpl. rewrite (Nat.eqb_sym b a). reflexivity. }
  exists o. split; [exact E|]. destruct (C22_dft_estimate _ _ _ _ _ _ _ _ E) as [_ [HL HF]].
  split; [exact HL|]. rewrite !HF by (simpl; lia).
  change (alen ex_x) with 2%nat. change (dft_len 2 None) with 2%nat. change (2 / 2 + 1)%nat with 2%nat.
  destruct (dft2 (fun m => win None m * ex_x m)) as [-> [-> [_ ->]]]. simpl. repeat split; lra.
Qed.
Print Assumptions C22_dft_estimate.
Print Assumptions C22_dft_returns.
Print Assumptions C22_dft_short_N_rejected.

(** ** C23 *)
Theorem C23_dft_cov_exact : forall x Ux N w rc (d : dist (nat -> R)),
  let L := alen x in let n := dft_len L N in let H := (n / 2 + 1)%nat in
  sig_fits L Ux -> symm L (sig_U Ux) -> win_fits L Ux w -> pad_fits L N -> (1 <= n)%nat ->
  has_cov L d (sig_U Ux) ->
  let F s i := dft_map n H L (fun m => win w m * s m) i in
  exists o, GUM_DFT x Ux N w None None rc None = Ok o /\
    match dft_U o with
    | FuVec v => (exists u, Ux = SuFloat u) /\ w = None /\ alen v = (2 * H)%nat /\
        forall i, (i < 2 * H)%nat -> v i = Cov d (fun s => F s i) (fun s => F s i)
    | FuMat M => ~ ((exists u, Ux = SuFloat u) /\ w = None) /\ mrows M = (2 * H)%nat /\ mcols M = (2 * H)%nat /\
        forall i j, (i < 2 * H)%nat -> (j < 2 * H)%nat -> M i j = Cov d (fun s => F s i) (fun s => F s j)
    end.
Proof.
  intros x Ux N w rc d L n H Hs Hy Hw Hp Hn Hc F.
  destruct (GUM_DFT_run x Ux N w rc None) as [o [E [_ [_ HU]]]]; auto; [exact I|].
  exists o. split; [exact E|]. fold L n H in HU. unfold lines in HU. fold H in HU. rewrite seq_length in HU.
  assert (Hrow : forall i, (i < 2 * H)%nat -> row H (seq 0 H) i = i).
  { intros i Hi. pose proof (row_nomask n i Hi) as Er. exact Er. }
  unfold unc_ok in HU. fold H in HU. destruct (dft_U o) as [v|M].
  - destruct HU as [[Hsc Hw0] [Hl Hv]]. split.
    { destruct Ux; try contradiction. eauto. }
    split; [exact Hw0|]. split; [exact Hl|]. intros i Hi. rewrite Hv by assumption. unfold F.
    rewrite (dft_map_cov n H L (win w) d (sig_U Ux)) by assumption. unfold sandwich. rewrite Hrow by assumption. reflexivity.
  - destruct HU as [Hns [Hr [Hcc HM]]]. split.
    { intros [[u ->] Hw0]. apply Hns. split; [exact I|exact Hw0]. }
    split; [exact Hr|]. split; [exact Hcc|]. intros i j Hi Hj. rewrite HM by assumption. unfold F.
    rewrite (dft_map_cov n H L (win w) d (sig_U Ux)) by assumption. unfold sandwich. rewrite !Hrow by assumption. reflexivity.
Qed.
Example C23_example : exists o v, GUM_DFT ex_x (SuFloat 1) None None None None false None = Ok o /\
  dft_U o = FuVec v /\ v 0%nat = 2 /\ v 1%nat = 2 /\ v 3%nat = 0.
Proof.
  destruct (C23_dft_cov_exact ex_x (SuFloat 1) None None false ex_d) as [o [E HU]]; simpl; auto; try exact I.
  { intros a b _ _. simpl. rewrite (Nat.eqb_sym b a). reflexivity. }
  { exact ex_d_cov. }
  destruct (dft_U o) as [v|M] eqn:Eo.
  - exists o, v. split; [exact E|]. split; [exact Eo|].
    change (alen ex_x) with 2%nat in HU. change (dft_len 2 None) with 2%nat in HU. change (2 / 2 + 1)%nat with 2%nat in HU.
    destruct HU as [_ [_ [_ HV]]]. rewrite !HV by lia.
    rewrite (Cov_ext ex_d (fun s => dft_map 2 2 2 (fun m => win None m * s m) 0) (fun s => dft_map 2 2 2 (fun m => win None m * s m) 0)
             (fun s => s 0%nat + s 1%nat) (fun s => s 0%nat + s 1%nat))
      by (intros a; destruct (dft2 (fun m => win None m * a m)) as [-> _]; simpl; ring).
    rewrite (Cov_ext ex_d (fun s => dft_map 2 2 2 (fun m => win None m * s m) 1) (fun s => dft_map 2 2 2 (fun m => win None m * s m) 1)
             (fun s => s 0%nat - s 1%nat) (fun s => s 0%nat - s 1%nat))
      by (intros a; destruct (dft2 (fun m => win None m * a m)) as [_ [-> _]]; simpl; ring).
    rewrite (Cov_ext ex_d (fun s => dft_map 2 2 2 (fun m => win None m * s m) 3) (fun s => dft_map 2 2 2 (fun m => win None m * s m) 3)
             (fun s => 0) (fun s => 0))
      by (intros a; destruct (dft2 (fun m => win None m * a m)) as [_ [_ [_ ->]]]; simpl; ring).
    unfold ex_d, Cov. simpl. repeat split; lra.
  - exfalso. destruct HU as [Hn _]. apply Hn. split; [eauto|reflexivity].
Qed.
Print Assumptions C23_dft_cov_exact.

(** ** C24 *)
Theorem C24_scalar_variance_lossless : forall x u rc (d : dist (nat -> R)),
  let n := alen x in let H := (n / 2 + 1)%nat in
  (1 <= n)%nat -> has_cov n d (fun i j => if (i =? j)%nat then u else 0) ->
  let F s i := dft_map n H n s i in
  exists o v, GUM_DFT x (SuFloat u) None None None None rc None = Ok o /\ dft_U o = FuVec v /\
    alen v = (2 * H)%nat /\
    forall i j, (i < 2 * H)%nat -> (j < 2 * H)%nat ->
      Cov d (fun s => F s i) (fun s => F s j) = if (i =? j)%nat then v i else 0.
Proof.
  intros x u rc d n H Hn Hc F.
  destruct (C23_dft_cov_exact x (SuFloat u) None None rc d) as [o [E HU]]; auto; try exact I.
  { intros a b _ _. simpl. rewrite (Nat.eqb_sym b a). reflexivity. }
  change (dft_len (alen x) None) with n in HU. fold H in HU. fold n in HU.
  destruct (dft_U o) as [v|M] eqn:Eo.
  2:{ exfalso. destruct HU as [Hns _]. apply Hns. split; [eauto|reflexivity]. }
  destruct HU as [_ [_ [Hl HV]]]. exists o, v. split; [exact E|]. split; [exact Eo|]. split; [exact Hl|].
  assert (HW : forall i s, dft_map n H n (fun m => win None m * s m) i = dft_map n H n s i).
  { intros. unfold dft_map. apply rsum_ext; intros. simpl. ring. }
  intros i j Hi Hj. destruct (Nat.eqb_spec i j) as [<-|Hne].
  - rewrite HV by assumption. apply Cov_ext; intros; unfold F; now rewrite HW.
  - unfold F, dft_map. rewrite (linear_cov n d _ _ _ Hc).
    rewrite (rsum_ext n _ (fun a => u * (dft_coeff n H i a * dft_coeff n H j a))).
    + rewrite rsum_scal. rewrite dft_orth by assumption. ring.
    + intros a Ha. rewrite (rsum_single n a); auto.
      * rewrite Nat.eqb_refl. ring.
      * intros b _ Hb. apply Nat.neq_sym, Nat.eqb_neq in Hb. rewrite Hb. ring.
Qed.
Example C24_example : exists o v, GUM_DFT ex_x (SuFloat 1) None None None None false None = Ok o /\
  dft_U o = FuVec v /\ Cov ex_d (fun s => dft_map 2 2 2 s 0) (fun s => dft_map 2 2 2 s 1) = 0.
Proof.
  destruct (C24_scalar_variance_lossless ex_x 1 false ex_d) as [o [v [E [Ev [_ HC]]]]]; simpl; auto.
  { exact ex_d_cov. }
  exists o, v. split; [exact E|]. split; [exact Ev|]. apply (HC 0%nat 1%nat); simpl; lia.
Qed.
Print Assumptions C24_scalar_variance_lossless.

(** ** C25 (false): a window together with point-wise variances always fails. *)
Theorem C25_window_vector_refuted : exists x v w,
  alen v = alen x /\ alen w = alen x /\ (1 <= alen x)%nat /\
  GUM_DFT x (SuVec v) None (Some w) None None false None = Err IndexError.
Proof. exists ex_x, ex_x, ex_x. repeat split; simpl; lia. Qed.
Theorem C25_window_vector_always_fails : forall x v w N c s rc mask,
  GUM_DFT x (SuVec v) N (Some w) c s rc mask = Err IndexError \/
  GUM_DFT x (SuVec v) N (Some w) c s rc mask = Err AssertionError.
Proof.
  intros. unfold GUM_DFT, apply_window. destruct (negb (alen x =? alen w)%nat); simpl; auto.
Qed.
(** What holds: the diagonal matrix of the variances is accepted. *)
Theorem C25_window_diagonal_partial : forall x v w rc (d : dist (nat -> R)),
  let n := alen x in let H := (n / 2 + 1)%nat in
  (1 <= n)%nat -> alen v = n -> alen w = n ->
  has_cov n d (fun i j => if (i =? j)%nat then v i else 0) ->
  exists o M, GUM_DFT x (SuMat (diagm v)) None (Some w) None None rc None = Ok o /\ dft_U o = FuMat M /\
    forall i j, (i < 2 * H)%nat -> (j < 2 * H)%nat ->
      M i j = Cov d (fun s => dft_map n H n (fun m => w m * s m) i) (fun s => dft_map n H n (fun m => w m * s m) j).
Proof.
  intros x v w rc d n H Hn Hv Hw Hc.
  destruct (C23_dft_cov_exact x (SuMat (diagm v)) None (Some w) rc d) as [o [E HU]]; auto.
  - split; exact Hv.
  - intros a b _ _. simpl. rewrite (Nat.eqb_sym b a). destruct (Nat.eqb_spec a b); [subst|]; reflexivity.
  - split; [exact Hw|exact I].
  - exact I.
  - destruct (dft_U o) as [u|M] eqn:Eo.
    + destruct HU as [_ [Hw0 _]]. discriminate.
    + destruct HU as [_ [_ [_ HM]]]. exists o, M. split; [exact E|]. split; [exact Eo|]. exact HM.
Qed.
Example C25_example : exists o M,
  GUM_DFT ex_x (SuMat (diagm (of_list [1; 1]))) None (Some (of_list [1; 2])) None None false None = Ok o /\
  dft_U o = FuMat M /\ M 0%nat 0%nat = 5 /\ M 0%nat 1%nat = -3.
Proof.
  destruct (C25_window_diagonal_partial ex_x (of_list [1; 1]) (of_list [1; 2]) false ex_d) as [o [M [E [Eo HM]]]];
    simpl; auto.
  { intros i j Hi Hj. rewrite ex_d_cov by assumption.
    destruct i as [|[|i]]; [| |lia]; (destruct j as [|[|j]]; [| |lia]); reflexivity. }
  exists o, M. split; [exact E|]. split; [exact Eo|].
  change (alen ex_x) with 2%nat in HM. change (2 / 2 + 1)%nat with 2%nat in HM.
  rewrite !HM by lia. set (w := of_list [1; 2]).
  rewrite (Cov_ext ex_d (fun s => dft_map 2 2 2 (fun m => w m * s m) 0) (fun s => dft_map 2 2 2 (fun m => w m * s m) 0)
             (fun s => s 0%nat + 2 * s 1%nat) (fun s => s 0%nat + 2 * s 1%nat))
    by (intros a; destruct (dft2 (fun m => w m * a m)) as [-> _]; simpl; ring).
  rewrite (Cov_ext ex_d (fun s => dft_map 2 2 2 (fun m => w m * s m) 0) (fun s => dft_map 2 2 2 (fun m => w m * s m) 1)
             (fun s => s 0%nat + 2 * s 1%nat) (fun s => s 0%nat - 2 * s 1%nat))
    by (intros a; destruct (dft2 (fun m => w m * a m)) as [H1 [H2 _]]; rewrite ?H1, ?H2; simpl; ring).
  unfold ex_d, Cov. simpl. split; lra.
Qed.
Print Assumptions C25_window_vector_refuted.
Print Assumptions C25_window_vector_always_fails.
Print Assumptions C25_window_diagonal_partial.

Lemma even_h2 n : Nat.Even n -> (2 * (n / 2 + 1) = n + 2)%nat.
Proof.
  intros [p ->]. replace (2 * p / 2)%nat with p; [lia|].
  rewrite Nat.mul_comm. symmetry. apply Nat.div_mul. lia.
Qed.
Lemma idft_dft_rows N p a : Nat.Even N -> (p < N)%nat -> (a < N)%nat ->
  rsum (2 * (N / 2 + 1)) (fun k => idft_coeff N p k * dft_coeff N (N / 2 + 1) k a) = if (p =? a)%nat then 1 else 0.
Proof.
  intros He Hp Ha.
  pose proof (idft_dft N (fun m => if (m =? a)%nat then 1 else 0) p He Hp) as E. cbv beta in E.
  rewrite <- E. rewrite idft_map_linear by (auto; lia). apply rsum_ext; intros k Hk. f_equal.
  unfold dft_map. rewrite (rsum_single N a); auto.
  - rewrite Nat.eqb_refl. ring.
  - intros m _ Hm. apply Nat.eqb_neq in Hm. rewrite Hm. ring.
Qed.

(** ** C26 (false for odd lengths) *)
(** Every odd length n >= 3: the reconstruction has n-1 samples, and asking for n samples
    raises ValueError. *)
Theorem C26_odd_length_refuted : exists x Ux o x' V c,
  alen x = 3%nat /\ GUM_DFT x Ux None None None None false None = Ok o /\
  GUM_iDFT (dft_F o) (dft_U o) None None None = Ok (x', V, c) /\ alen x' = 2%nat.
Proof.
  set (x := of_list [1; 2; 3]).
  assert (Hy : symm 3 (sig_U (SuFloat 1))) by (intros a b _ _; simpl; rewrite (Nat.eqb_sym b a); reflexivity).
  destruct (dft_plain x (SuFloat 1) false) as [o [E [HL [HF [Hf [Hsy _]]]]]]; simpl; auto.
  destruct (GUM_iDFT_run (dft_F o) (dft_U o) None 2 2) as [x' [V [c [E' [Hl _]]]]]; auto.
  { exists 1%nat; lia. } { reflexivity. }
  exists x, (SuFloat 1), o, x', V, c. repeat split; assumption.
Qed.
Theorem C26_odd_length_always_short : forall x Ux,
  let n := alen x in
  sig_fits n Ux -> symm n (sig_U Ux) -> Nat.Odd n -> (3 <= n)%nat ->
  exists o x' V c, GUM_DFT x Ux None None None None false None = Ok o /\
    GUM_iDFT (dft_F o) (dft_U o) None None None = Ok (x', V, c) /\ alen x' = (n - 1)%nat /\
    GUM_iDFT (dft_F o) (dft_U o) (Some n) None None = Err ValueError.
Proof.
  intros x Ux n Hs Hy [p Hp] Hn.
  destruct (dft_plain x Ux false) as [o [E [HL [HF [Hf [Hsy _]]]]]]; auto; [fold n; lia|].
  fold n in HL, HF, Hf, Hsy.
  assert (HH : (n / 2 = p)%nat) by (rewrite Hp, Nat.mul_comm, Nat.div_add_l by lia; simpl; lia).
  rewrite HH in *. replace (2 * (p + 1))%nat with (n - 1 + 2)%nat in * by lia.
  destruct (GUM_iDFT_run (dft_F o) (dft_U o) None (n - 1) (n - 1)) as [x' [V [c [E' [Hl _]]]]]; auto.
  { exists p; lia. } { lia. } { reflexivity. }
  exists o, x', V, c. repeat split; auto.
  assert (Hlen : fu_len (dft_U o) = (n - 1 + 2)%nat) by (destruct (dft_U o); simpl in *; tauto).
  unfold GUM_iDFT. rewrite Hlen.
  replace (n - 1 + 2 <=? 2)%nat with false by (symmetry; apply Nat.leb_gt; lia).
  cbv beta iota zeta delta [bind].
  replace (n - 1 + 2 - 2 <? n)%nat with true by (symmetry; apply Nat.ltb_lt; lia). reflexivity.
Qed.
(** What holds: even lengths. *)
Theorem C26_even_length_partial : forall x Ux,
  let n := alen x in
  sig_fits n Ux -> symm n (sig_U Ux) -> Nat.Even n -> (2 <= n)%nat ->
  exists o x' V c, GUM_DFT x Ux None None None None false None = Ok o /\
    GUM_iDFT (dft_F o) (dft_U o) None None None = Ok (x', V, c) /\ alen x' = n /\
    forall i, (i < n)%nat -> x' i = x i.
Proof.
  intros x Ux n Hs Hy He Hn.
  destruct (dft_plain x Ux false) as [o [E [HL [HF [Hf [Hsy _]]]]]]; auto; [fold n; lia|].
  fold n in HL, HF, Hf, Hsy.
  assert (H2 : (2 * (n / 2 + 1) = n + 2)%nat).
  { now apply even_h2. }
  rewrite H2 in HL, Hf, Hsy.
  destruct (GUM_iDFT_run (dft_F o) (dft_U o) None n n) as [x' [V [c [E' [Hl [_ [_ [Hx _]]]]]]]]; auto.
  { reflexivity. }
  exists o, x', V, c. repeat split; auto. intros i Hi. rewrite Hx by assumption.
  rewrite <- (idft_dft n x i He Hi). rewrite !idft_map_linear by (auto; lia).
  apply rsum_ext; intros k Hk. now rewrite HF.
Qed.
Example C26_example : exists o x' V c, GUM_DFT ex_x (SuFloat 1) None None None None false None = Ok o /\
    GUM_iDFT (dft_F o) (dft_U o) None None None = Ok (x', V, c) /\ x' 0%nat = 1 /\ x' 1%nat = 2.
Proof.
  destruct (C26_even_length_partial ex_x (SuFloat 1)) as [o [x' [V [c [E [E' [Hl Hx]]]]]]]; simpl; auto.
  { intros a b _ _; simpl; rewrite (Nat.eqb_sym b a); reflexivity. } { exists 1%nat; reflexivity. }
  exists o, x', V, c. repeat split; auto; rewrite Hx; simpl; auto.
Qed.
Print Assumptions C26_odd_length_refuted.
Print Assumptions C26_odd_length_always_short.
Print Assumptions C26_even_length_partial.

(** ** C27 *)
Theorem C27_idft_variances_exact : forall F UF Nx N nx (d : dist (nat -> R)),
  Nat.Even N -> (2 <= N)%nat -> nx_fits N Nx nx ->
  alen F = (N + 2)%nat -> fun_fits (N + 2) UF -> symm (N + 2) (fun_U UF) ->
  has_cov (N + 2) d (fun_U UF) ->
  exists x V c, GUM_iDFT F UF Nx None None = Ok (x, V, c) /\
    alen x = nx /\ mrows V = nx /\ mcols V = nx /\
    (forall n, (n < nx)%nat -> x n = idft_map N F n) /\
    (forall n, (n < nx)%nat -> V n n = Cov d (fun s => idft_map N s n) (fun s => idft_map N s n)) /\
    (forall n m, (n < nx)%nat -> (m < nx)%nat ->
       (V n m + V m n) / 2 = Cov d (fun s => idft_map N s n) (fun s => idft_map N s m)).
Proof.
  intros F UF Nx N nx d He HN Hx HF Hf Hs Hd.
  destruct (GUM_iDFT_run F UF Nx N nx) as [x [V [c [E [L1 [R1 [C1 [X1 [V1 _]]]]]]]]]; auto.
  assert (H2 : (2 * (N / 2 + 1) = N + 2)%nat).
  { now apply even_h2. }
  assert (HC : forall n m, Cov d (fun s => idft_map N s n) (fun s => idft_map N s m)
     = sandwich (N + 2) (idft_coeff N) (fun_U UF) (idft_coeff N) n m).
  { intros n m.
    rewrite (Cov_ext d _ _ (fun s => rsum (N + 2) (fun j => idft_coeff N n j * s j))
                           (fun s => rsum (N + 2) (fun j => idft_coeff N m j * s j)))
      by (intros; rewrite idft_map_linear by (auto; lia); now rewrite H2).
    now apply linear_cov. }
  exists x, V, c. repeat (split; [assumption|]). split.
  - intros n Hn. rewrite V1, HC. ring.
  - intros n m Hn Hm. rewrite !V1, HC. rewrite (sandwich_symm _ _ _ m n) by assumption. field.
Qed.
(** Two lines of a spectrum of length 2: real parts vary, imaginary parts are zero. *)
Definition ex_df : dist (nat -> R) :=
  map (fun l => (/4, fun i => nth i l 0)) [[4;0;0;0]; [4;-2;0;0]; [2;0;0;0]; [2;-2;0;0]].
Lemma idft2 (s : nat -> R) : idft_map 2 s 0 = (s 0%nat + s 1%nat) / 2 /\ idft_map 2 s 1 = (s 0%nat - s 1%nat) / 2.
Proof.
  assert (He : Nat.Even 2) by (exists 1%nat; lia).
  rewrite !idft_map_linear by (auto; lia). unfold idft_coeff, idft_Cc, idft_Cs. simpl.
  replace (PI * 0) with 0 by ring. replace (PI * 1) with PI by ring.
  rewrite cos_0, sin_0, cos_PI, sin_PI. split; field.
Qed.
Example C27_example : exists x V c,
  GUM_iDFT (of_list [3; -1; 0; 0]) (FuVec (of_list [1; 1; 0; 0])) None None None = Ok (x, V, c) /\
  x 0%nat = 1 /\ x 1%nat = 2 /\ V 0%nat 0%nat = /2 /\ V 1%nat 1%nat = /2.
Proof.
  destruct (C27_idft_variances_exact (of_list [3; -1; 0; 0]) (FuVec (of_list [1; 1; 0; 0])) None 2 2 ex_df)
    as [x [V [c [E [_ [_ [_ [X1 [V1 _]]]]]]]]]; simpl; auto.
  { exists 1%nat; lia. }
  { intros a b _ _; simpl; rewrite (Nat.eqb_sym b a). destruct (Nat.eqb_spec a b); [subst|]; reflexivity. }
  { intros i j Hi Hj. unfold ex_df, Cov.
    destruct i as [|[|[|[|i]]]]; try lia; (destruct j as [|[|[|[|j]]]]; try lia); simpl; lra. }
  exists x, V, c. split; [exact E|]. rewrite !X1, !V1 by lia.
  destruct (idft2 (of_list [3; -1; 0; 0])) as [-> ->].
  rewrite (Cov_ext ex_df (fun s => idft_map 2 s 0) (fun s => idft_map 2 s 0)
     (fun s => (s 0%nat + s 1%nat) / 2) (fun s => (s 0%nat + s 1%nat) / 2)) by (intros a; apply (proj1 (idft2 a))).
  rewrite (Cov_ext ex_df (fun s => idft_map 2 s 1) (fun s => idft_map 2 s 1)
     (fun s => (s 0%nat - s 1%nat) / 2) (fun s => (s 0%nat - s 1%nat) / 2)) by (intros a; apply (proj2 (idft2 a))).
  unfold ex_df, Cov. simpl. repeat split; lra.
Qed.
Print Assumptions C27_idft_variances_exact.

(** ** C28 (false) *)
(** A signal of length 4 with one uncertain sample: transforming forth and back yields a
    matrix that is not symmetric. *)
Theorem C28_idft_symmetric_refuted : exists x Ux o x' V c,
  alen x = 4%nat /\ sig_fits 4 Ux /\ psd 4 (sig_U Ux) /\
  GUM_DFT x Ux None None None None false None = Ok o /\ symm 6 (fun_U (dft_U o)) /\
  GUM_iDFT (dft_F o) (dft_U o) None None None = Ok (x', V, c) /\
  V 1%nat 3%nat - V 3%nat 1%nat = -1 /\ V 1%nat 3%nat <> sig_U Ux 1 3 /\ sig_U Ux 3 3 = 0.
Proof.
  set (x := of_list [0; 0; 0; 0]). set (u := of_list [0; 1; 0; 0]).
  assert (Hy : symm 4 (sig_U (SuVec u))).
  { intros a b _ _; simpl; rewrite (Nat.eqb_sym b a). destruct (Nat.eqb_spec a b); [subst|]; reflexivity. }
  assert (Hp : psd 4 (sig_U (SuVec u))).
  { split; [exact Hy|]. intros v. unfold quad. simpl. nra. }
  destruct (dft_plain x (SuVec u) false) as [o [E [HL [HF [Hf [Hsy HV]]]]]]; try exact Hy; try reflexivity; try (simpl; lia); change (alen x) with 4%nat in *.
  change (4 / 2 + 1)%nat with 3%nat in *. change (2 * 3)%nat with 6%nat in *.
  destruct (GUM_iDFT_run (dft_F o) (dft_U o) None 4 4) as [x' [V [c [E' [L1 [_ [_ [_ [V1 _]]]]]]]]]; auto.
  { exists 2%nat; lia. } { reflexivity. }
  exists x, (SuVec u), o, x', V, c.
  split; [reflexivity|]. split; [reflexivity|]. split; [exact Hp|]. split; [exact E|]. split; [exact Hsy|].
  split; [exact E'|].
  assert (HV1 : forall i j, (i < 6)%nat -> (j < 6)%nat -> fun_U (dft_U o) i j = dft_coeff 4 3 i 1 * dft_coeff 4 3 j 1).
  { intros i j Hi Hj. rewrite HV by assumption. unfold sandwich. simpl. ring. }
  assert (HX : forall n m, idft_cross 4 (fun_U (dft_U o)) n m =
     (idft_coeff 4 n 0 * dft_coeff 4 3 0 1 + idft_coeff 4 n 1 * dft_coeff 4 3 1 1 + idft_coeff 4 n 2 * dft_coeff 4 3 2 1)
     * (idft_coeff 4 m 3 * dft_coeff 4 3 3 1 + idft_coeff 4 m 4 * dft_coeff 4 3 4 1 + idft_coeff 4 m 5 * dft_coeff 4 3 5 1)).
  { intros n m. unfold idft_cross. change (4 / 2 + 1)%nat with 3%nat. cbv zeta. cbn [rsum Nat.add].
    rewrite !HV1 by lia. ring. }
  assert (E0 : 2 * PI * 0 * 1 / (1 + 1 + 1 + 1) = 0) by lra.
  assert (E1 : 2 * PI * 1 * 1 / (1 + 1 + 1 + 1) = PI / 2) by lra.
  assert (E2 : 2 * PI * (1 + 1) * 1 / (1 + 1 + 1 + 1) = PI) by lra.
  assert (B1 : 1 * (2 * PI * 1 / (1 + 1 + 1 + 1)) = PI / 2) by lra.
  assert (B3 : 1 * (2 * PI * (1 + 1 + 1) / (1 + 1 + 1 + 1)) = 3 * (PI / 2)) by lra.
  assert (P1 : PI * 1 = PI) by ring.
  assert (P3 : PI * (1 + 1 + 1) = PI + 2 * PI) by ring.
  assert (S3 : sin (3 * (PI / 2)) = -1) by apply sin_3PI2.
  assert (K3 : cos (3 * (PI / 2)) = 0).
  { replace (3 * (PI / 2)) with (PI / 2 + PI) by lra. rewrite neg_cos, cos_PI2. ring. }
  assert (X13 : idft_cross 4 (fun_U (dft_U o)) 1 3 = - / 4).
  { rewrite HX. unfold idft_coeff, idft_Cc, idft_Cs, dft_coeff, beta_dft. simpl.
    rewrite E0, E1, E2, B1, B3, P1, P3. rewrite S3, cos_PI2, sin_PI2, cos_PI, sin_PI, cos_0, sin_0.
    rewrite (sin_plus PI (2 * PI)), sin_PI, sin_2PI, cos_PI, cos_2PI. field. }
  assert (X31 : idft_cross 4 (fun_U (dft_U o)) 3 1 = / 4).
  { rewrite HX. unfold idft_coeff, idft_Cc, idft_Cs, dft_coeff, beta_dft. simpl.
    rewrite E0, E1, E2, B1, B3, P1, P3. rewrite K3, cos_PI2, sin_PI2, cos_PI, sin_PI, cos_0, sin_0.
    rewrite (cos_plus PI (2 * PI)), cos_PI, sin_PI, cos_2PI, sin_2PI. field. }
  assert (HS : sandwich 6 (idft_coeff 4) (fun_U (dft_U o)) (idft_coeff 4) 1 3 = 0).
  { rewrite (sandwich_ext 4 6 _ (idft_coeff 4) _ (sandwich 4 (fun r m => dft_coeff 4 3 r m) (sig_U (SuVec u)) (fun r m => dft_coeff 4 3 r m))
       _ (idft_coeff 4)) by (auto; lia).
    rewrite sandwich_compose.
    rewrite (sandwich_ext 4 4 _ (fun p a => if (p =? a)%nat then 1 else 0) _ (sig_U (SuVec u)) _ (fun p a => if (p =? a)%nat then 1 else 0)); auto; try lia.
    - unfold sandwich. simpl. ring.
    - intros p a Hp' Ha. apply (idft_dft_rows 4 p a); [exists 2%nat; lia | lia | lia].
    - intros p a Hp' Ha. apply (idft_dft_rows 4 p a); [exists 2%nat; lia | lia | lia]. }
  split.
  - rewrite !V1. change (4 + 2)%nat with 6%nat. rewrite X13, X31. rewrite (sandwich_symm _ _ _ 3 1) by assumption. lra.
  - rewrite V1. change (4 + 2)%nat with 6%nat. rewrite X13, X31, HS. simpl. split; [lra|reflexivity].
Qed.
(** What holds: without covariance between real and imaginary parts the matrix is exact. *)
Theorem C28_uncorrelated_parts_partial : forall F UF Nx N nx (d : dist (nat -> R)),
  Nat.Even N -> (2 <= N)%nat -> nx_fits N Nx nx ->
  alen F = (N + 2)%nat -> fun_fits (N + 2) UF -> symm (N + 2) (fun_U UF) ->
  (forall a b, (a < N / 2 + 1)%nat -> (b < N / 2 + 1)%nat -> fun_U UF a (N / 2 + 1 + b)%nat = 0) ->
  has_cov (N + 2) d (fun_U UF) ->
  exists x V c, GUM_iDFT F UF Nx None None = Ok (x, V, c) /\ mrows V = nx /\ mcols V = nx /\
    (forall n m, (n < nx)%nat -> (m < nx)%nat ->
       V n m = Cov d (fun s => idft_map N s n) (fun s => idft_map N s m)).
Proof.
  intros F UF Nx N nx d He HN Hx HF Hf Hs H0 Hd.
  destruct (C27_idft_variances_exact F UF Nx N nx d) as [x [V [c [E [L1 [R1 [C1 [_ [_ HC]]]]]]]]]; auto.
  destruct (GUM_iDFT_run F UF Nx N nx) as [x2 [V2 [c2 [E2 [_ [_ [_ [_ [V1 _]]]]]]]]]; auto.
  rewrite E in E2. inversion E2; subst x2 V2 c2. clear E2.
  exists x, V, c. repeat (split; [assumption|]). intros n m Hn Hm. rewrite <- HC by assumption.
  assert (Hz : forall n m, idft_cross N (fun_U UF) n m = 0).
  { intros. unfold idft_cross. cbv zeta. apply rsum_zero; intros a Ha. apply rsum_zero; intros b Hb.
    rewrite H0 by assumption. ring. }
  rewrite !V1, !Hz. rewrite (sandwich_symm _ _ _ m n) by assumption. field.
Qed.
(** The symmetric part always is: forth and back gives Ux after symmetrisation. *)
Theorem C28_round_trip_partial : forall x Ux,
  let n := alen x in
  sig_fits n Ux -> symm n (sig_U Ux) -> Nat.Even n -> (2 <= n)%nat ->
  exists o x' V c, GUM_DFT x Ux None None None None false None = Ok o /\
    GUM_iDFT (dft_F o) (dft_U o) None None None = Ok (x', V, c) /\
    (forall i j, (i < n)%nat -> (j < n)%nat -> (V i j + V j i) / 2 = sig_U Ux i j) /\
    (forall i, (i < n)%nat -> V i i = sig_U Ux i i).
Proof.
  intros x Ux n Hs Hy He Hn.
  destruct (dft_plain x Ux false) as [o [E [HL [HF [Hf [Hsy HV]]]]]]; auto; [fold n; lia|].
  fold n in HL, HF, Hf, Hsy, HV.
  assert (H2 : (2 * (n / 2 + 1) = n + 2)%nat).
  { now apply even_h2. }
  rewrite H2 in *.
  destruct (GUM_iDFT_run (dft_F o) (dft_U o) None n n) as [x' [V [c [E' [Hl [_ [_ [_ [V1 _]]]]]]]]]; auto.
  { reflexivity. }
  assert (HS : forall i j, (i < n)%nat -> (j < n)%nat ->
     sandwich (n + 2) (idft_coeff n) (fun_U (dft_U o)) (idft_coeff n) i j = sig_U Ux i j).
  { intros i j Hi Hj.
    rewrite (sandwich_ext n (n + 2) _ (idft_coeff n) _ (sandwich n (fun r m => dft_coeff n (n / 2 + 1) r m) (sig_U Ux) (fun r m => dft_coeff n (n / 2 + 1) r m))
       _ (idft_coeff n)) by auto.
    rewrite sandwich_compose.
    rewrite (sandwich_ext n n _ (fun p a => if (p =? a)%nat then 1 else 0) _ (sig_U Ux) _ (fun p a => if (p =? a)%nat then 1 else 0)); auto.
    - unfold sandwich. rewrite (rsum_single n i); auto.
      + rewrite (rsum_single n j); auto; [rewrite !Nat.eqb_refl; ring|].
        intros b _ Hb. apply Nat.neq_sym, Nat.eqb_neq in Hb. rewrite Hb. ring.
      + intros a _ Ha. apply Nat.neq_sym, Nat.eqb_neq in Ha. rewrite Ha. apply rsum_zero; intros; ring.
    - intros p a Hp Ha. rewrite <- H2. now apply idft_dft_rows.
    - intros p a Hp Ha. rewrite <- H2. now apply idft_dft_rows. }
  exists o, x', V, c. split; [exact E|]. split; [exact E'|]. split.
  - intros i j Hi Hj. rewrite !V1, !HS by assumption. rewrite (Hy j i) by assumption. field.
  - intros i Hi. rewrite V1, HS by assumption. ring.
Qed.
Example C28_example : exists o x' V c, GUM_DFT ex_x (SuVec (of_list [1; 4])) None None None None false None = Ok o /\
  GUM_iDFT (dft_F o) (dft_U o) None None None = Ok (x', V, c) /\ V 0%nat 0%nat = 1 /\ V 1%nat 1%nat = 4.
Proof.
  destruct (C28_round_trip_partial ex_x (SuVec (of_list [1; 4]))) as [o [x' [V [c [E [E' [_ HD]]]]]]]; simpl; auto.
  { intros a b _ _; simpl; rewrite (Nat.eqb_sym b a). destruct (Nat.eqb_spec a b); [subst|]; reflexivity. }
  { exists 1%nat; reflexivity. }
  exists o, x', V, c. split; [exact E|]. split; [exact E'|]. rewrite !HD by (simpl; lia). split; reflexivity.
Qed.
Print Assumptions C28_idft_symmetric_refuted.
Print Assumptions C28_uncorrelated_parts_partial.
Print Assumptions C28_round_trip_partial.

(** ** C83 *)
Lemma sorted_filter_seq (f : nat -> bool) n : forall s, Sorted lt (filter f (seq s n)).
Proof.
  induction n as [|n IH]; intros s; simpl; [constructor|].
  assert (Hs : forall l, (forall k, In k l -> (s < k)%nat) -> Sorted lt l -> Sorted lt (s :: l)).
  { intros [|a l] Hl Hso; constructor; auto. constructor. apply Hl. now left. }
  destruct (f s); [|apply IH]. apply Hs; [|apply IH].
  intros k Hk. apply filter_In in Hk. destruct Hk as [Hk _]. apply in_seq in Hk. lia.
Qed.
Lemma row_lt H idx i : (forall k, In k idx -> (k < H)%nat) -> (i < 2 * length idx)%nat -> (row H idx i < 2 * H)%nat.
Proof.
  intros Hk Hi. unfold row. destruct (Nat.ltb_spec i (length idx)) as [Hl|Hl].
  - pose proof (Hk _ (nth_In idx 0%nat Hl)). lia.
  - assert (H2 : (i - length idx < length idx)%nat) by lia. pose proof (Hk _ (nth_In idx 0%nat H2)). lia.
Qed.
Lemma row_inj H idx i j : (forall k, In k idx -> (k < H)%nat) -> NoDup idx ->
  (i < 2 * length idx)%nat -> (j < 2 * length idx)%nat -> row H idx i = row H idx j -> i = j.
Proof.
  intros Hk Hd Hi Hj. pose proof (proj1 (NoDup_nth idx 0%nat) Hd) as Hn. unfold row.
  destruct (Nat.ltb_spec i (length idx)) as [Hl|Hl], (Nat.ltb_spec j (length idx)) as [Hm|Hm]; intros E.
  - now apply Hn.
  - pose proof (Hk _ (nth_In idx 0%nat Hl)). lia.
  - pose proof (Hk _ (nth_In idx 0%nat Hm)). lia.
  - assert (i - length idx = j - length idx)%nat by (apply Hn; lia). lia.
Qed.
(** A boolean mask with one entry per line selects the lines where it is True, in order,
    from the estimate and from the uncertainty. *)
Theorem C83_mask_selects_lines : forall x Ux N w rc (m : arr bool),
  let L := alen x in let n := dft_len L N in let H := (n / 2 + 1)%nat in
  sig_fits L Ux -> symm L (sig_U Ux) -> win_fits L Ux w -> pad_fits L N -> (1 <= n)%nat -> alen m = H ->
  exists om ou idx,
    GUM_DFT x Ux N w None None rc (Some m) = Ok om /\ GUM_DFT x Ux N w None None rc None = Ok ou /\
    Sorted lt idx /\ (forall k, In k idx <-> (k < H)%nat /\ m k = true) /\
    let q := length idx in
    alen (dft_F om) = (2 * q)%nat /\ fun_fits (2 * q) (dft_U om) /\
    (forall i, (i < 2 * q)%nat -> dft_F om i = dft_F ou (row H idx i)) /\
    (forall i j, (i < 2 * q)%nat -> (j < 2 * q)%nat ->
       fun_U (dft_U om) i j = fun_U (dft_U ou) (row H idx i) (row H idx j)).
Proof.
  intros x Ux N w rc m L n H Hs Hy Hw Hp Hn Hm.
  destruct (GUM_DFT_run x Ux N w rc (Some m)) as [om [Em [Lm [Fm Um]]]]; auto.
  destruct (GUM_DFT_run x Ux N w rc None) as [ou [Eu [Lu [Fu Uu]]]]; auto; [exact I|].
  fold L n H in Lm, Fm, Um, Lu, Fu, Uu.
  set (idx := lines n (Some m)) in *.
  assert (Hin : forall k, In k idx <-> (k < H)%nat /\ m k = true).
  { intros k. unfold idx, lines, true_idx. rewrite filter_In, in_seq, Hm. intuition lia. }
  assert (Hlt : forall k, In k idx -> (k < H)%nat) by (intros k Hk; now apply Hin).
  exists om, ou, idx. split; [exact Em|]. split; [exact Eu|].
  split; [apply sorted_filter_seq|]. split; [exact Hin|]. split; [exact Lm|].
  assert (Hrow : forall i, (i < 2 * H)%nat -> row H (lines n None) i = i) by (intros; apply row_nomask; assumption).
  assert (Hlen : length (lines n None) = H) by apply seq_length.
  rewrite Hlen in Lu, Fu, Uu.
  assert (HU : fun_fits (2 * length idx) (dft_U om) /\ forall i j, (i < 2 * length idx)%nat -> (j < 2 * length idx)%nat ->
       fun_U (dft_U om) i j = fun_U (dft_U ou) (row H idx i) (row H idx j)).
  { unfold unc_ok in Um, Uu. destruct (dft_U om) as [v|M], (dft_U ou) as [v'|M'].
    - destruct Um as [_ [L1 V1]], Uu as [_ [L2 V2]]. split; [exact L1|]. intros i j Hi Hj. cbn [fun_U].
      destruct (Nat.eqb_spec i j) as [<-|Hne].
      + rewrite Nat.eqb_refl, V1, V2 by (try apply row_lt; auto).
        unfold sandwich. fold H. rewrite Hrow by (apply row_lt; auto). reflexivity.
      + destruct (Nat.eqb_spec (row H idx i) (row H idx j)) as [E|]; [|reflexivity].
        exfalso. apply Hne. apply (row_inj H idx); auto. unfold idx, lines, true_idx.
        apply NoDup_filter, seq_NoDup.
    - tauto.
    - tauto.
    - destruct Um as [_ [R1 [C1 V1]]], Uu as [_ [R2 [C2 V2]]]. split; [split; assumption|].
      intros i j Hi Hj. cbn [fun_U]. rewrite V1, V2 by (try apply row_lt; auto).
      unfold sandwich. fold H. rewrite !Hrow by (apply row_lt; auto). reflexivity. }
  destruct HU as [H1 H2]. split; [exact H1|]. split; [|exact H2].
  intros i Hi. rewrite Fm, Fu by (try apply row_lt; auto). rewrite Hrow by (apply row_lt; auto). reflexivity.
Qed.
Theorem C83_mask_length_checked : forall x Ux N rc c s (m : arr bool),
  let n := dft_len (alen x) N in
  pad_fits (alen x) N -> (1 <= n)%nat -> alen m <> (n / 2 + 1)%nat ->
  GUM_DFT x Ux N None c s rc (Some m) = Err IndexError.
Proof.
  intros x Ux N rc c s m n Hp Hn Hm. unfold GUM_DFT. cbv beta iota zeta delta [bind].
  assert (E : match N with Some z => if (z <? Z.of_nat (alen x))%Z then Err ValueError
       else Ok (cat x (mkArr (Z.to_nat z - alen x) (fun _ => 0)), (Z.to_nat z - alen x)%nat) | None => Ok (x, 0%nat) end
     = Ok (match N with Some z => cat x (mkArr (Z.to_nat z - alen x) (fun _ => 0)) | None => x end, (n - alen x)%nat)).
  { unfold n. destruct N as [z|]; simpl in *.
    - replace (z <? Z.of_nat (alen x))%Z with false by (symmetry; now apply Z.ltb_ge). reflexivity.
    - rewrite Nat.sub_diag. reflexivity. }
  rewrite E. set (xp := match N with Some z => _ | None => x end).
  assert (Hl : alen xp = n).
  { unfold xp, n. destruct N as [z|]; simpl in *; lia. }
  unfold rfft. rewrite Hl. replace (n =? 0)%nat with false by (symmetry; apply Nat.eqb_neq; lia).
  cbn [alen]. apply Nat.eqb_neq in Hm. rewrite Hm. reflexivity.
Qed.
Definition ex_mask : arr bool := mkArr 2 (fun k => nth k [false; true] false).
Example C83_example : exists om, GUM_DFT ex_x (SuFloat 1) None None None None false (Some ex_mask) = Ok om
  /\ alen (dft_F om) = 2%nat /\ dft_F om 0%nat = -1 /\ dft_F om 1%nat = 0.
Proof.
  destruct (GUM_DFT_run ex_x (SuFloat 1) None None false (Some ex_mask)) as [om [E [HL [HF _]]]];
    try exact I; try reflexivity; try (simpl; lia).
  { intros a b _ _; simpl; rewrite (Nat.eqb_sym b a); reflexivity. }
  exists om. split; [exact E|]. split; [exact HL|].
  rewrite !HF by (simpl; lia). change (alen ex_x) with 2%nat. change (dft_len 2 None) with 2%nat.
  destruct (dft2 (fun m => win None m * ex_x m)) as [_ [E1 [_ E3]]].
  split; [transitivity (dft_map 2 2 2 (fun m => win None m * ex_x m) 1); [reflexivity|rewrite E1; simpl; lra]
         |transitivity (dft_map 2 2 2 (fun m => win None m * ex_x m) 3); [reflexivity|exact E3]].
Qed.
Print Assumptions C83_mask_selects_lines.
Print Assumptions C83_mask_length_checked.

(** ** C84 *)
(** Sensitivities returned by one call may be handed to later calls for signals of the same
    length: same estimate, same uncertainty, same exceptions as without them. *)
Lemma dft_returned_C x Ux N mask o c s rc : GUM_DFT x Ux N None None None true mask = Ok o ->
  dft_C o = Some (c, s) -> forall x' Ux', alen x' = alen x ->
  match GUM_DFT x' Ux' N None c s rc mask, GUM_DFT x' Ux' N None None None rc mask with
  | Ok a, Ok b => dft_F a = dft_F b /\ dft_U a = dft_U b
  | Err e, Err e' => e = e'
  | _, _ => False
  end.
Proof.
  intros E HC x' Ux' Hl. unfold GUM_DFT in *. cbv beta iota zeta delta [bind] in *. rewrite Hl.
  match type of E with match ?e with Ok _ => _ | Err _ => _ end = _ =>
    destruct e as [[xp l]|] eqn:Ep; [|discriminate E] end.
  assert (Hq : exists xp', match N with
                | Some z => if (z <? Z.of_nat (alen x))%Z then Err ValueError
                            else Ok (cat x' (mkArr (Z.to_nat z - alen x) (fun _ => 0)), (Z.to_nat z - alen x)%nat)
                | None => Ok (x', 0%nat)
                end = Ok (xp', l) /\ alen xp = alen xp').
  { destruct N as [z|]; [destruct (z <? Z.of_nat (alen x))%Z|]; inversion Ep; subst; eexists; (split; [reflexivity|]); simpl; lia. }
  destruct Hq as [xp' [Eq Hxp]]. rewrite Eq. clear Ep Eq.
  unfold rfft in *. rewrite <- Hxp. destruct (alen xp =? 0)%nat; [discriminate|]. cbn [alen] in *.
  set (lin := match mask with
              | Some m => if (alen m =? alen xp / 2 + 1)%nat then Ok (true_idx m) else Err IndexError
              | None => Ok (seq 0 (alen xp / 2 + 1)) end) in *.
  destruct lin as [idx|e]; [|discriminate E].
  assert (HC' : (c = None /\ s = None) \/
     (c = Some (mkMat (length idx) (alen xp - l) (fun i m => Cxkc (alen xp) (nth i idx 0%nat) m)) /\
      s = Some (mkMat (length idx) (alen xp - l) (fun i m => Cxks (alen xp) (nth i idx 0%nat) m)))).
  { destruct Ux.
    - inversion E; subst o. cbn [dft_C] in HC. inversion HC. auto.
    - right. inv_ok E. inversion E; subst o. cbn [dft_C] in HC. inversion HC. auto.
    - right. inv_ok E. inversion E; subst o. cbn [dft_C] in HC. inversion HC. auto. }
  destruct HC' as [[-> ->]|[-> ->]].
  - match goal with |- match ?r with Ok _ => _ | Err _ => _ end => destruct r; auto end.
  - destruct Ux' as [u|v|M]; [auto| |].
    + match goal with |- match ?r with Ok _ => _ | Err _ => _ end => destruct r; auto end.
    + match goal with |- match ?r with Ok _ => _ | Err _ => _ end => destruct r; auto end.
Qed.
Theorem C84_reuse_sensitivities : forall x Ux N w mask o c s rc x' Ux' w',
  GUM_DFT x Ux N w None None true mask = Ok o -> dft_C o = Some (c, s) -> alen x' = alen x ->
  match GUM_DFT x' Ux' N w' c s rc mask, GUM_DFT x' Ux' N w' None None rc mask with
  | Ok a, Ok b => dft_F a = dft_F b /\ dft_U a = dft_U b
  | Err e, Err e' => e = e'
  | _, _ => False
  end.
Proof.
  assert (Hw : forall x Ux w x1 U1, apply_window x Ux w = Ok (x1, U1) -> alen x1 = alen x).
  { intros x Ux w x1 U1 E. unfold apply_window in E. destruct (negb (alen x =? alen w)%nat); [discriminate|].
    destruct Ux; simpl in E; try discriminate.
    - inversion E; reflexivity.
    - destruct (negb ((mrows m =? mcols m) && (mrows m =? alen x))%nat); [discriminate|].
      destruct (prod3 w m w); simpl in E; [|discriminate]. inversion E; reflexivity. }
  intros x Ux N w mask o c s rc x' Ux' w' E HC Hl.
  assert (exists x1 U1, GUM_DFT x1 U1 N None None None true mask = Ok o /\ alen x1 = alen x) as [x1 [U1 [E1 L1]]].
  { destruct w as [w|]; [|eauto]. destruct (apply_window x Ux w) as [[x1 U1]|] eqn:Ew.
    - rewrite (GUM_DFT_window _ _ _ _ _ _ _ _ _ _ Ew) in E. eauto.
    - unfold GUM_DFT in E. rewrite Ew in E. discriminate. }
  destruct w' as [w'|].
  - destruct (apply_window x' Ux' w') as [[x2 U2]|e] eqn:Ew.
    + rewrite !(GUM_DFT_window _ _ _ _ _ _ _ _ _ _ Ew).
      apply (dft_returned_C x1 U1 N mask o c s rc E1 HC). rewrite (Hw _ _ _ _ _ Ew). congruence.
    + unfold GUM_DFT. rewrite Ew. reflexivity.
  - apply (dft_returned_C x1 U1 N mask o c s rc E1 HC). congruence.
Qed.
Example C84_example : exists o c s, GUM_DFT ex_x (SuVec ex_x) None None None None true None = Ok o /\
  dft_C o = Some (Some c, Some s) /\ mrows c = 2%nat /\
  exists a, GUM_DFT ex_x (SuVec (of_list [3; 4])) None None (Some c) (Some s) false None = Ok a.
Proof.
  eexists. eexists. eexists. split; [reflexivity|]. split; [reflexivity|]. split; [reflexivity|].
  eexists. reflexivity.
Qed.
Print Assumptions C84_reuse_sensitivities.

(** ** C85: covariance matrices stay positive semi-definite *)
Lemma psd_diagv n (u : nat -> R) : (forall i, (i < n)%nat -> 0 <= u i) ->
  psd n (fun i j => if (i =? j)%nat then u i else 0).
Proof.
  intros Hu. split.
  - intros i j _ _. rewrite (Nat.eqb_sym j i). destruct (Nat.eqb_spec i j); [subst|]; reflexivity.
  - intros v. unfold quad. rewrite (rsum_ext n _ (fun i => u i * (v i) ^ 2)).
    + apply rsum_nonneg. intros i Hi. specialize (Hu i Hi). pose proof (pow2_ge_0 (v i)). nra.
    + intros i Hi. rewrite (rsum_single n i); auto.
      * rewrite Nat.eqb_refl. ring.
      * intros j _ Hj. apply Nat.neq_sym, Nat.eqb_neq in Hj. rewrite Hj. ring.
Qed.
Theorem C85_dft_psd : forall x Ux N w rc mask,
  let L := alen x in let n := dft_len L N in
  sig_fits L Ux -> psd L (sig_U Ux) -> win_fits L Ux w -> pad_fits L N -> (1 <= n)%nat -> mask_fits n mask ->
  exists o, GUM_DFT x Ux N w None None rc mask = Ok o /\
    fun_fits (alen (dft_F o)) (dft_U o) /\ psd (alen (dft_F o)) (fun_U (dft_U o)).
Proof.
  intros x Ux N w rc mask L n Hs Hpsd Hw Hp Hn Hm.
  destruct (GUM_DFT_run x Ux N w rc mask) as [o [E [HL [_ HU]]]]; auto; [apply Hpsd|].
  fold L n in HL, HU. exists o. split; [exact E|]. rewrite HL.
  set (q := length (lines n mask)) in *. set (H := (n / 2 + 1)%nat) in *.
  set (rw := row H (lines n mask)) in *.
  set (J := fun r m => dft_coeff n H (rw r) m * win w m).
  assert (HJ : forall i j, sandwich L (fun r m => dft_coeff n H (rw r) m)
        (fun a b => win w a * sig_U Ux a b * win w b) (fun r m => dft_coeff n H (rw r) m) i j
     = sandwich L J (sig_U Ux) J i j).
  { intros. unfold sandwich, J. apply rsum_ext; intros; apply rsum_ext; intros; ring. }
  pose proof (psd_sandwich (2 * q) L J (sig_U Ux) Hpsd) as HS.
  unfold unc_ok in HU. fold H in HU. destruct (dft_U o) as [v|M].
  - destruct HU as [_ [Hl Hv]]. split; [exact Hl|].
    apply (psd_diagv (2 * q) v). intros i Hi. rewrite Hv, HJ by assumption. now apply (psd_diag (2 * q)).
  - destruct HU as [_ [Hr [Hc HM]]]. split; [split; assumption|].
    apply (psd_ext (2 * q) (sandwich L J (sig_U Ux) J)); [|exact HS].
    intros i j Hi Hj. cbn [fun_U]. now rewrite HM, HJ.
Qed.
Example C85_example : exists o, GUM_DFT ex_x (SuVec (of_list [1; 4])) None None None None false None = Ok o /\
  psd 4 (fun_U (dft_U o)).
Proof.
  destruct (C85_dft_psd ex_x (SuVec (of_list [1; 4])) None None false None) as [o [E [_ HP]]];
    try exact I; try reflexivity; try (simpl; lia).
  { apply (psd_diagv 2). intros [|[|i]] Hi; [simpl; lra|simpl; lra|lia]. }
  exists o. split; [exact E|]. destruct (C22_dft_estimate _ _ _ _ _ _ _ _ E) as [_ [HL _]].
  rewrite HL in HP. exact HP.
Qed.
Print Assumptions C85_dft_psd.

(** ** C86 *)
(** The frequencies match the lines of GUM_DFT: line k is the correlation of the signal with
    cos and -sin of frequency f[k] at the sampling instants m*dt; f runs from 0 in equal steps
    to at most half the sampling rate. *)
Theorem C86_frequencies_of_lines : forall x Ux N rc o f dt,
  let L := alen x in let n := dft_len L N in
  dt <> 0 -> GUM_DFT x Ux N None None None rc None = Ok o -> GUM_DFTfreq n dt = Ok f ->
  alen (dft_F o) = (2 * alen f)%nat /\
  (forall k, (k < alen f)%nat ->
     dft_F o k = rsum L (fun m => x m * cos (2 * PI * f k * (INR m * dt))) /\
     dft_F o (alen f + k)%nat = - rsum L (fun m => x m * sin (2 * PI * f k * (INR m * dt)))) /\
  f 0%nat = 0 /\
  (0 < dt -> forall k, (k < alen f)%nat -> 0 <= f k <= / (2 * dt) /\ f (S k) - f k = / (INR n * dt)).
Proof.
  intros x Ux N rc o f dt L n Hdt E Ef. destruct (C22_dft_estimate _ _ _ _ _ _ _ _ E) as [_ [HL HF]].
  fold L n in HL, HF. unfold GUM_DFTfreq in Ef. destruct (Nat.eqb_spec n 0) as [|Hn]; [discriminate|].
  destruct (Req_EM_T dt 0); [contradiction|].
  assert (Ef' : f = mkArr (n / 2 + 1) (fun k => INR k / (INR n * dt))) by congruence.
  subst f; clear Ef. cbn [alen aget].
  assert (Hn' : 0 < INR n) by (apply lt_0_INR; lia).
  split; [exact HL|]. split; [|split].
  - intros k Hk. rewrite (HF k), (HF (n / 2 + 1 + k)%nat) by lia. unfold dft_map, dft_coeff.
    replace (k <? n / 2 + 1)%nat with true by (symmetry; now apply Nat.ltb_lt).
    replace (n / 2 + 1 + k <? n / 2 + 1)%nat with false by (symmetry; apply Nat.ltb_ge; lia).
    replace (n / 2 + 1 + k - (n / 2 + 1))%nat with k by lia. split.
    + apply rsum_ext; intros m _. simpl.
      replace (2 * PI * (INR k / (INR n * dt)) * (INR m * dt)) with (2 * PI * INR k * INR m / INR n) by (field; lra). ring.
    + rewrite <- rsum_opp. apply rsum_ext; intros m _. simpl.
      replace (2 * PI * (INR k / (INR n * dt)) * (INR m * dt)) with (2 * PI * INR k * INR m / INR n) by (field; lra). ring.
  - simpl. field. lra.
  - intros Hd k Hk. assert (Hp : 0 < INR n * dt) by nra.
    pose proof (pos_INR k) as Hk0. split; [split|].
    + apply Rmult_le_pos; [assumption|]. left. now apply Rinv_0_lt_compat.
    + replace (INR k / (INR n * dt)) with (INR k / INR n * / dt) by (field; lra).
      replace (/ (2 * dt)) with (/ 2 * / dt) by (field; lra).
      apply Rmult_le_compat_r; [left; now apply Rinv_0_lt_compat|].
      apply (Rmult_le_reg_r (INR n)); [assumption|].
      replace (INR k / INR n * INR n) with (INR k) by (field; lra).
      assert (H2 : (2 * k <= n)%nat) by (pose proof (Nat.div_mod n 2 ltac:(lia)); lia).
      apply le_INR in H2. rewrite mult_INR in H2. simpl in H2. lra.
    + rewrite S_INR. field. lra.
Qed.
Example C86_example : exists f, GUM_DFTfreq 4 (/2) = Ok f /\ alen f = 3%nat /\ f 1%nat = /2 /\ f 2%nat = 1.
Proof.
  unfold GUM_DFTfreq. destruct (Req_EM_T (/ 2) 0); [exfalso; lra|]. eexists. split; [reflexivity|]. simpl. repeat split; lra.
Qed.
Print Assumptions C86_frequencies_of_lines.
(** Only lengths and sampling intervals of zero are refused, with a ZeroDivisionError. *)
Theorem C86_refused : forall N dt,
  (GUM_DFTfreq N dt = Err ZeroDivisionError <-> N = 0%nat \/ dt = 0) /\
  (forall e, GUM_DFTfreq N dt = Err e -> e = ZeroDivisionError) /\
  (N <> 0%nat -> dt <> 0 -> exists f, GUM_DFTfreq N dt = Ok f /\ alen f = (N / 2 + 1)%nat).
Proof.
  intros N dt. unfold GUM_DFTfreq. destruct (Nat.eqb_spec N 0) as [|H]; [|destruct (Req_EM_T dt 0)].
  - split; [tauto|]. split; [congruence|]. contradiction.
  - split; [tauto|]. split; [congruence|]. contradiction.
  - split; [split; [discriminate|tauto]|]. split; [intros ? E; discriminate E|]. intros _ _. eexists. split; reflexivity.
Qed.
Example C86_refused_ex : GUM_DFTfreq 4 0 = Err ZeroDivisionError /\ exists f, GUM_DFTfreq 5 (1 / 2) = Ok f /\ alen f = 3%nat.
Proof.
  split; [apply C86_refused; now right|]. apply (C86_refused 5 (1 / 2)); [discriminate|lra].
Qed.
Print Assumptions C86_refused.
