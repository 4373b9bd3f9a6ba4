(** Lemmas about the FIR model: closed forms of estimate and covariance. *)
From Coq Require Import Reals List Arith ZArith Bool Lia Lra String.
From Verif Require Import Base Sums Stats StatsFacts M_Filter S_Filter.
Import ListNotations.
Open Scope R_scope.

(** ** Small facts *)
Ltac bdestr :=
  repeat match goal with
  | |- context [ (?a <? ?b)%nat ] => destruct (Nat.ltb_spec a b)
  | |- context [ (?a <=? ?b)%nat ] => destruct (Nat.leb_spec a b)
  | |- context [ (?a =? ?b)%nat ] => destruct (Nat.eqb_spec a b)
  end; simpl andb; simpl orb; simpl negb; cbv iota.

Lemma trimOrPad_len a n : alen (trimOrPad a n) = n.
Proof. unfold trimOrPad. bdestr; simpl; lia. Qed.

Lemma trimOrPad_get a n i : (i < n)%nat ->
  trimOrPad a n i = if (i <? alen a)%nat then a i else 0.
Proof. intros Hi. unfold trimOrPad. bdestr; simpl; bdestr; try reflexivity; try lia. Qed.

(** ** lfilter with a = [1]: closed form *)
Lemma lf_state_fir b zi x n : forall i,
  lf_state b one_vec zi x n i = rsum n (fun j => vpad b (i + n - j)%nat * x j) + zi (i + n)%nat.
Proof.
  induction n as [|n IH]; intros i.
  - simpl. rewrite Nat.add_0_r. lra.
  - simpl. unfold lf_next at 1. rewrite IH.
    replace (vpad one_vec 0) with 1 by reflexivity.
    replace (vpad one_vec (S i)) with 0 by reflexivity.
    replace (i + S n - n)%nat with (S i) by lia.
    replace (i + S n)%nat with (S i + n)%nat by lia. unfold Rdiv. rewrite Rinv_1.
    lra.
Qed.

Lemma lfilter_fir b x zi n :
  lfilter b one_vec x zi n =
  rsum (S n) (fun j => vpad b (n - j)%nat * x j) + vpad zi n.
Proof.
  unfold lfilter. simpl aget. unfold lf_out. rewrite lf_state_fir.
  replace (vpad one_vec 0) with 1 by reflexivity. simpl rsum.
  rewrite Nat.sub_diag. rewrite Nat.add_0_l. unfold Rdiv. rewrite Rinv_1. lra.
Qed.

(** lfilter_zi1 solves the steady state equation zi = A zi + B of scipy. *)
Lemma lfilter_zi_steady b zi : lfilter_zi1 b = Ok zi ->
  forall i, (i < alen b - 1)%nat ->
    zi i = b (i + 1)%nat + (if (i + 1 <? alen b - 1)%nat then zi (i + 1)%nat else 0).
Proof.
  unfold lfilter_zi1. destruct (Nat.ltb_spec (alen b) 2); [discriminate|].
  intros H0 i Hi. inversion H0; subst; clear H0. simpl.
  destruct (Nat.ltb_spec (i + 1) (alen b - 1)).
  - replace (alen b - 1 - i)%nat with (S (alen b - 1 - (i + 1))) by lia.
    rewrite rsum_S_l. f_equal. { f_equal. lia. } apply rsum_ext. intros. f_equal. lia.
  - replace (alen b - 1 - i)%nat with 1%nat by lia. simpl. rewrite Nat.add_0_r. lra.
Qed.

(** Value of the filter with history x0. *)
Lemma fir_lfilter_value theta x x0 zi n :
  (n < alen x)%nat -> lfilter_zi1 theta = Ok zi ->
  lfilter theta one_vec x (vscale x0 zi) n =
  fir_outcome (alen theta) theta (continued (alen theta - 1) x0 x) n.
Proof.
  intros Hn Hzi. rewrite lfilter_fir. unfold fir_outcome.
  set (N := alen theta).
  assert (HN : (2 <= N)%nat).
  { unfold lfilter_zi1 in Hzi. destruct (Nat.ltb_spec (alen theta) 2); [discriminate|]. exact H. }
  assert (Hz : zi = mkArr (N - 1) (fun i => rsum (N - 1 - i) (fun k => theta (i + 1 + k)%nat))).
  { unfold lfilter_zi1 in Hzi. destruct (alen theta <? 2)%nat; [discriminate|].
    now inversion Hzi. }
  rewrite Hz; clear Hz Hzi.
  (* reverse the convolution sum *)
  rewrite rsum_rev.
  rewrite (rsum_ext (S n) _ (fun k => vpad theta k * x (n - k)%nat))
    by (intros k Hk; f_equal; [f_equal; lia | f_equal; lia]).
  destruct (Nat.le_gt_cases N (S n)) as [Hc|Hc].
  - (* whole filter inside the record *)
    rewrite (rsum_split (S n) N) by lia.
    rewrite (rsum_zero (S n - N)).
    2:{ intros i Hi. unfold vpad. destruct (Nat.ltb_spec (N + i) (alen theta)); [unfold N in *; lia|ring]. }
    replace (vpad (vscale x0 _) n) with 0.
    2:{ unfold vpad. simpl. destruct (Nat.ltb_spec n (N - 1)); [lia|reflexivity]. }
    rewrite !Rplus_0_r. apply rsum_ext. intros k Hk. unfold vpad, continued.
    destruct (Nat.ltb_spec k (alen theta)); [|unfold N in *; lia].
    destruct (Nat.ltb_spec (n + (N - 1) - k) (N - 1)); [lia|]. f_equal. f_equal. lia.
  - rewrite (rsum_split N (S n)) by lia.
    rewrite (rsum_ext (S n) (fun k => theta k * _) (fun k => vpad theta k * x (n - k)%nat)).
    2:{ intros k Hk. unfold vpad, continued.
        destruct (Nat.ltb_spec k (alen theta)); [|unfold N in *; lia].
        destruct (Nat.ltb_spec (n + (N - 1) - k) (N - 1)); [lia|]. f_equal. f_equal. lia. }
    f_equal. unfold vpad. simpl.
    destruct (Nat.ltb_spec n (N - 1)); [|].
    + rewrite <- rsum_scal. replace (N - 1 - n)%nat with (N - S n)%nat by lia.
      apply rsum_ext. intros k Hk. unfold continued.
      destruct (Nat.ltb_spec (n + (N - 1) - S (n + k)) (N - 1)); [|lia].
      rewrite Rmult_comm. f_equal. f_equal. lia.
    + replace (N - S n)%nat with 0%nat by lia. reflexivity.
Qed.

(** ** "valid" convolutions *)
Lemma conv2_core_swap a b : mrows a = mrows b -> mcols a = mcols b ->
  (1 <= mrows a)%nat -> (1 <= mcols a)%nat ->
  forall i j, (i < 1)%nat -> (j < 1)%nat -> conv2_core a b i j = conv2_core b a i j.
Proof.
  intros Hr Hc H1 H2 i j Hi Hj. unfold conv2_core. simpl.
  rewrite Hr, Hc in *. replace i with 0%nat by lia. replace j with 0%nat by lia.
  rewrite rsum_rev. apply rsum_ext. intros k Hk. rewrite rsum_rev. apply rsum_ext. intros l Hl.
  simpl. rewrite Rmult_comm. f_equal; f_equal; lia.
Qed.

Lemma conv2_valid_small_big s b :
  (1 <= mrows s <= mrows b)%nat -> (1 <= mcols s <= mcols b)%nat ->
  (mrows s = mrows b <-> mcols s = mcols b) ->
  exists M, conv2_valid s b = Ok M /\ mrows M = (mrows b - mrows s + 1)%nat /\
    mcols M = (mcols b - mcols s + 1)%nat /\
    forall i j, (i < mrows M)%nat -> (j < mcols M)%nat -> M i j = conv2_core b s i j.
Proof.
  intros Hr Hc Hsq. unfold conv2_valid.
  destruct (Nat.leb_spec (mrows b) (mrows s)); destruct (Nat.leb_spec (mcols b) (mcols s));
    simpl; try (exfalso; lia).
  - eexists; split; [reflexivity|]. simpl. repeat split; try lia.
    intros i j Hi Hj. apply conv2_core_swap; lia.
  - destruct (Nat.leb_spec (mrows s) (mrows b)); [|lia].
    destruct (Nat.leb_spec (mcols s) (mcols b)); [|lia]. simpl.
    eexists; split; [reflexivity|]. simpl. repeat split; try lia.
Qed.

Lemma conv2_valid_big_small b s :
  (mrows s <= mrows b)%nat -> (mcols s <= mcols b)%nat ->
  conv2_valid b s = Ok (conv2_core b s).
Proof.
  intros Hr Hc. unfold conv2_valid. apply Nat.leb_le in Hr. apply Nat.leb_le in Hc.
  now rewrite Hr, Hc.
Qed.

Lemma iadd2_same A B : mrows B = mrows A -> mcols B = mcols A ->
  exists M, iadd2 A B = Ok M /\ mrows M = mrows A /\ mcols M = mcols A /\
    forall i j, M i j = A i j + B i j.
Proof.
  intros Hr Hc. unfold iadd2. rewrite Hr, Hc, !Nat.eqb_refl. simpl.
  eexists; split; [reflexivity|]. simpl. auto.
Qed.

(** ** Closed form of _fir_filter *)
Definition cov_or_zero (U : option mat) (i j : nat) : R :=
  match U with Some m => m i j | None => 0 end.
Definition unc_or_zero (U : cunc) (i j : nat) : R :=
  match U with UtMat m => m i j | _ => 0 end.
Definition shape_ok (n : nat) (U : option mat) : Prop :=
  match U with Some m => mrows m = n /\ mcols m = n | None => True end.
Definition ushape_ok (n : nat) (U : cunc) : Prop :=
  match U with UtNone => True | UtMat m => mrows m = n /\ mcols m = n | _ => False end.

(** covariance of the continued input, by initial condition *)
Definition ext_cov (ic : string) (n p : nat) (U : nat -> nat -> R) (i j : nat) : R :=
  if String.eqb ic "constant" then stat_cont n p U i j
  else if (p <=? i)%nat && (p <=? j)%nat then U (i - p)%nat (j - p)%nat else 0.

Lemma stationary_prepend_spec U n p i j :
  mrows U = n -> mcols U = n -> (i < n + p)%nat -> (j < n + p)%nat ->
  stationary_prepend_covariance U p i j = stat_cont n p U i j.
Proof.
  intros Hr Hc Hi Hj. unfold stationary_prepend_covariance, stat_cont. simpl.
  rewrite Hr, Hc. reflexivity.
Qed.

Theorem fir_filter_closed x theta Ux Ut ic x0 n N :
  alen x = n -> alen theta = N -> (1 <= n)%nat -> (2 <= N)%nat ->
  history_value x ic = Ok x0 -> shape_ok n Ux -> ushape_ok N Ut ->
  exists y U, fir_filter x theta Ux Ut ic = Ok (y, U) /\
    alen y = n /\ mrows U = n /\ mcols U = n /\
    (forall i, (i < n)%nat ->
       y i = fir_outcome N theta (continued (N - 1) x0 x) i) /\
    (forall i j, (i < n)%nat -> (j < n)%nat ->
       U i j = rsum N (fun a => rsum N (fun b =>
         theta a * theta b * ext_cov ic n (N - 1) (cov_or_zero Ux) (i + (N - 1) - a) (j + (N - 1) - b)
         + unc_or_zero Ut a b * (continued (N - 1) x0 x (i + (N - 1) - a)
                                 * continued (N - 1) x0 x (j + (N - 1) - b))
         + unc_or_zero Ut b a * ext_cov ic n (N - 1) (cov_or_zero Ux) (i + (N - 1) - a) (j + (N - 1) - b)))).
Proof.
  intros Hx Ht Hn HN Hh HUx HUt.
  unfold fir_filter. rewrite Hh. simpl bind.
  destruct (lfilter_zi1 theta) as [zi|e] eqn:Hzi.
  2:{ unfold lfilter_zi1 in Hzi. destruct (Nat.ltb_spec (alen theta) 2); [lia|discriminate]. }
  simpl bind.
  set (y := lfilter theta one_vec x (vscale x0 zi)).
  assert (Hy : forall i, (i < n)%nat -> y i = fir_outcome N theta (continued (N - 1) x0 x) i).
  { intros i Hi. unfold y. rewrite (fir_lfilter_value theta x x0 zi i); [now rewrite Ht | lia | exact Hzi]. }
  set (ext := fun U => if (ic =? "constant")%string
                       then stationary_prepend_covariance U (alen theta - 1)
                       else zero_prepend_covariance U (alen theta - 1)).
  assert (Hext : forall U, mrows U = n -> mcols U = n ->
     mrows (ext U) = (n + (N - 1))%nat /\ mcols (ext U) = (n + (N - 1))%nat /\
     forall i j, (i < n + (N - 1))%nat -> (j < n + (N - 1))%nat ->
       ext U i j = ext_cov ic n (N - 1) U i j).
  { intros U Hr Hc. unfold ext, ext_cov. rewrite Ht.
    destruct (ic =? "constant")%string.
    - split; [|split]; simpl; try lia. intros i j Hi Hj.
      now apply stationary_prepend_spec.
    - split; [|split]; simpl; try lia. intros. reflexivity. }
  (* first term *)
  assert (T1 : exists U1,
    match Ux with
    | None => Ok (zeros2 (alen x) (alen x))
    | Some U => do c <- conv2_valid (outer theta theta) (ext U) ;; iadd2 (zeros2 (alen x) (alen x)) c
    end = Ok U1 /\ mrows U1 = n /\ mcols U1 = n /\
    forall i j, (i < n)%nat -> (j < n)%nat -> U1 i j =
      rsum N (fun a => rsum N (fun b =>
        theta a * theta b * ext_cov ic n (N - 1) (cov_or_zero Ux) (i + (N - 1) - a) (j + (N - 1) - b)))).
  { destruct Ux as [U|]; simpl in HUx.
    - destruct HUx as [Hr Hc]. destruct (Hext U Hr Hc) as [Er [Ec Ee]].
      destruct (conv2_valid_small_big (outer theta theta) (ext U)) as [M [HM [Mr [Mc Me]]]];
        simpl; try lia.
      rewrite HM. simpl bind. simpl in Mr, Mc.
      destruct (iadd2_same (zeros2 (alen x) (alen x)) M) as [M' [HM' [Mr' [Mc' Me']]]]; simpl; try lia.
      exists M'. split; [exact HM'|]. simpl in *. split; [lia|split;[lia|]].
      intros i j Hi Hj. rewrite Me', Me by lia. simpl. rewrite Rplus_0_l. rewrite Ht.
      apply rsum_ext. intros a Ha. apply rsum_ext. intros b Hb.
      rewrite Ee by lia. reflexivity.
    - exists (zeros2 (alen x) (alen x)). split; [reflexivity|]. simpl. split; [lia|split;[lia|]].
      intros i j Hi Hj. symmetry. apply rsum_zero. intros a Ha. apply rsum_zero. intros b Hb.
      unfold ext_cov, stat_cont. simpl.
      destruct (ic =? "constant")%string; repeat destruct (_ && _)%bool; repeat destruct (_ <=? _)%nat;
        repeat destruct (_ <? _)%nat; ring. }
  destruct T1 as [U1 [HU1 [R1 [C1 E1]]]]. cbv beta delta [ext] in HU1. rewrite HU1. simpl bind.
  (* second term *)
  assert (T2 : exists U2,
    match Ut with
    | UtNone => Ok U1
    | u => let xe := prepend (alen theta - 1) x0 x in
           do c <- conv2_valid_unc (outer xe xe) u false ;; iadd2 U1 c
    end = Ok U2 /\ mrows U2 = n /\ mcols U2 = n /\
    forall i j, (i < n)%nat -> (j < n)%nat -> U2 i j = U1 i j +
      rsum N (fun a => rsum N (fun b =>
        unc_or_zero Ut a b * (continued (N - 1) x0 x (i + (N - 1) - a)
                                 * continued (N - 1) x0 x (j + (N - 1) - b))))).
  { destruct Ut as [|u|v|m]; simpl in HUt; try contradiction.
    - exists U1. repeat split; auto. intros i j Hi Hj. rewrite (rsum_zero N); [lra|].
      intros a Ha. apply rsum_zero. intros b Hb. simpl. ring.
    - destruct HUt as [Hr Hc]. cbv zeta. unfold conv2_valid_unc.
      rewrite conv2_valid_big_small by (simpl; lia). simpl bind.
      set (big := outer _ _).
      destruct (iadd2_same U1 (conv2_core big m)) as [M' [HM' [Mr' [Mc' Me']]]];
        try (simpl; lia).
      exists M'. split; [exact HM'|]. split; [lia|split;[lia|]].
      intros i j Hi Hj. rewrite Me'. f_equal. simpl. rewrite Hr, Hc.
      apply rsum_ext. intros a Ha. apply rsum_ext. intros b Hb.
      unfold continued. rewrite Ht. reflexivity. }
  destruct T2 as [U2 [HU2 [R2 [C2 E2]]]]. cbv zeta in HU2. rewrite HU2. simpl bind.
  (* third term *)
  assert (T3 : exists U3,
    match Ux, Ut with
    | None, _ => Ok U2
    | _, UtNone => Ok U2
    | Some U, u => do c <- conv2_valid_unc (ext U) u true ;; iadd2 U2 c
    end = Ok U3 /\ mrows U3 = n /\ mcols U3 = n /\
    forall i j, (i < n)%nat -> (j < n)%nat -> U3 i j = U2 i j +
      rsum N (fun a => rsum N (fun b =>
        unc_or_zero Ut b a * ext_cov ic n (N - 1) (cov_or_zero Ux) (i + (N - 1) - a) (j + (N - 1) - b)))).
  { assert (Hzero : forall i j, ext_cov ic n (N - 1) (fun _ _ => 0) i j = 0).
    { intros i j. unfold ext_cov, stat_cont.
      destruct (ic =? "constant")%string; repeat destruct (_ && _)%bool; repeat destruct (_ <=? _)%nat;
        repeat destruct (_ <? _)%nat; ring. }
    destruct Ux as [U|].
    - destruct Ut as [|u|v|m]; simpl in HUt; try contradiction.
      + exists U2. repeat split; auto. intros i j Hi Hj. rewrite (rsum_zero N); [lra|].
        intros a Ha. apply rsum_zero. intros b Hb. simpl. ring.
      + destruct HUx as [Hr Hc]. destruct HUt as [Hmr Hmc].
        destruct (Hext U Hr Hc) as [Er [Ec Ee]].
        unfold conv2_valid_unc. rewrite conv2_valid_big_small by (simpl; lia). simpl bind.
        destruct (iadd2_same U2 (conv2_core (ext U) (transp m))) as [M' [HM' [Mr' [Mc' Me']]]];
          try (simpl; lia).
        exists M'. split; [exact HM'|]. split; [lia|split;[lia|]].
        intros i j Hi Hj. rewrite Me'. f_equal. simpl. rewrite Hmr, Hmc.
        apply rsum_ext. intros a Ha. apply rsum_ext. intros b Hb. rewrite Ee by lia. reflexivity.
    - exists U2. split; [reflexivity|]. repeat split; auto. intros i j Hi Hj.
      rewrite (rsum_zero N); [lra|]. intros a Ha. apply rsum_zero. intros b Hb.
      change (cov_or_zero None) with (fun _ _ : nat => 0). rewrite Hzero. ring. }
  destruct T3 as [U3 [HU3 [R3 [C3 E3]]]]. cbv beta delta [ext] in HU3. rewrite HU3. simpl bind.
  exists y, U3. split; [reflexivity|]. split; [exact Hx|]. split; [exact R3|]. split; [exact C3|].
  split; [exact Hy|]. intros i j Hi Hj. rewrite E3, E2, E1 by assumption.
  rewrite <- !rsum_plus. apply rsum_ext. intros a Ha. rewrite <- !rsum_plus. reflexivity.
Qed.

(** ** Closed form of _fir_filter_diag *)
Lemma conv1_core_swap a b : alen a = alen b -> (1 <= alen a)%nat ->
  forall i, (i < 1)%nat -> conv1_core a b i = conv1_core b a i.
Proof.
  intros H1 H2 i Hi. unfold conv1_core. simpl. rewrite H1 in *.
  replace i with 0%nat by lia. rewrite rsum_rev. apply rsum_ext. intros k Hk.
  simpl. rewrite Rmult_comm. f_equal; f_equal; lia.
Qed.

Lemma conv1_valid_small_big s b : (1 <= alen s <= alen b)%nat ->
  alen (conv1_valid s b) = (alen b - alen s + 1)%nat /\
  forall i, (i < alen b - alen s + 1)%nat -> conv1_valid s b i = conv1_core b s i.
Proof.
  intros H. unfold conv1_valid. destruct (Nat.leb_spec (alen b) (alen s)).
  - split; [simpl; lia|]. intros i Hi. apply conv1_core_swap; lia.
  - split; reflexivity.
Qed.

Lemma conv1_valid_big_small b s : (alen s <= alen b)%nat -> conv1_valid b s = conv1_core b s.
Proof. intros H. unfold conv1_valid. apply Nat.leb_le in H. now rewrite H. Qed.

Lemma iadd1_same a b : alen b = alen a ->
  exists v, iadd1 a b = Ok v /\ alen v = alen a /\ forall i, v i = a i + b i.
Proof.
  intros H. unfold iadd1. rewrite H, Nat.eqb_refl. simpl. eexists; split; [reflexivity|].
  simpl. auto.
Qed.

Definition vec_or_zero (u : option vec) (i : nat) : R :=
  match u with Some v => v i | None => 0 end.
Definition vshape_ok (n : nat) (u : option vec) : Prop :=
  match u with Some v => alen v = n | None => True end.

(** continued point-wise variances *)
Definition ext_var (ic : string) (p : nat) (u : nat -> R) (i : nat) : R :=
  continued p (if String.eqb ic "constant" then u 0%nat else 0) u i.

Theorem fir_filter_diag_closed x theta Ux Ut ic x0 n N :
  alen x = n -> alen theta = N -> (1 <= n)%nat -> (2 <= N)%nat ->
  history_value x ic = Ok x0 -> vshape_ok n Ux -> vshape_ok N Ut ->
  exists y U, fir_filter_diag x theta Ux Ut ic = Ok (y, U) /\
    alen y = n /\ alen U = n /\
    (forall i, (i < n)%nat -> y i = fir_outcome N theta (continued (N - 1) x0 x) i) /\
    (forall i, (i < n)%nat -> U i = rsum N (fun a =>
         theta a * theta a * ext_var ic (N - 1) (vec_or_zero Ux) (i + (N - 1) - a)
         + vec_or_zero Ut a * (continued (N - 1) x0 x (i + (N - 1) - a)
                                 * continued (N - 1) x0 x (i + (N - 1) - a))
         + vec_or_zero Ut a * ext_var ic (N - 1) (vec_or_zero Ux) (i + (N - 1) - a))).
Proof.
  intros Hx Ht Hn HN Hh HUx HUt.
  unfold fir_filter_diag. rewrite Hh. simpl bind.
  destruct (lfilter_zi1 theta) as [zi|e] eqn:Hzi.
  2:{ unfold lfilter_zi1 in Hzi. destruct (Nat.ltb_spec (alen theta) 2); [lia|discriminate]. }
  simpl bind.
  set (y := lfilter theta one_vec x (vscale x0 zi)).
  assert (Hy : forall i, (i < n)%nat -> y i = fir_outcome N theta (continued (N - 1) x0 x) i).
  { intros i Hi. unfold y. rewrite (fir_lfilter_value theta x x0 zi i); [now rewrite Ht | lia | exact Hzi]. }
  assert (T1 : exists U1,
    match Ux with
    | None => Ok (mkArr (alen x) (fun _ => 0))
    | Some u => iadd1 (mkArr (alen x) (fun _ => 0)) (conv1_valid (vmap Rsqr theta)
         (prepend (alen theta - 1) (if (ic =? "constant")%string then u 0%nat else 0) u))
    end = Ok U1 /\ alen U1 = n /\ forall i, (i < n)%nat -> U1 i =
      rsum N (fun a => theta a * theta a * ext_var ic (N - 1) (vec_or_zero Ux) (i + (N - 1) - a))).
  { destruct Ux as [u|]; simpl in HUx.
    - set (e := prepend _ _ _).
      destruct (conv1_valid_small_big (vmap Rsqr theta) e) as [L1 E1]; [simpl; lia|].
      destruct (iadd1_same (mkArr (alen x) (fun _ => 0)) (conv1_valid (vmap Rsqr theta) e))
        as [v [Hv [Lv Ev]]]; [rewrite L1; simpl; lia|].
      exists v. split; [exact Hv|]. simpl in Lv. split; [lia|]. intros i Hi.
      rewrite Ev, E1 by (simpl; lia). simpl. rewrite Rplus_0_l, Ht. apply rsum_ext. intros a Ha.
      unfold ext_var, continued, Rsqr. rewrite ?Ht. reflexivity.
    - eexists. split; [reflexivity|]. simpl. split; [lia|]. intros i Hi. symmetry. apply rsum_zero.
      intros a Ha. unfold ext_var, continued. simpl.
      destruct (ic =? "constant")%string; destruct (_ <? _)%nat; ring. }
  destruct T1 as [U1 [HU1 [L1 E1]]]. rewrite HU1. simpl bind.
  assert (T2 : exists U2,
    match Ut with
    | None => Ok U1
    | Some ut => iadd1 U1 (conv1_valid (vmap Rsqr (prepend (alen theta - 1) x0 x)) ut)
    end = Ok U2 /\ alen U2 = n /\ forall i, (i < n)%nat -> U2 i = U1 i +
      rsum N (fun a => vec_or_zero Ut a * (continued (N - 1) x0 x (i + (N - 1) - a)
                                 * continued (N - 1) x0 x (i + (N - 1) - a)))).
  { destruct Ut as [ut|]; simpl in HUt.
    - rewrite conv1_valid_big_small by (simpl; lia).
      destruct (iadd1_same U1 (conv1_core (vmap Rsqr (prepend (alen theta - 1) x0 x)) ut))
        as [v [Hv [Lv Ev]]]; [simpl; lia|].
      exists v. split; [exact Hv|]. split; [lia|]. intros i Hi. rewrite Ev. f_equal. simpl.
      rewrite HUt, Ht. apply rsum_ext. intros a Ha. unfold continued, Rsqr. reflexivity.
    - exists U1. repeat split; auto. intros i Hi. rewrite (rsum_zero N); [lra|]. intros; simpl; ring. }
  destruct T2 as [U2 [HU2 [L2 E2]]]. rewrite HU2. simpl bind.
  assert (T3 : exists U3,
    match Ux, Ut with
    | Some u, Some ut => iadd1 U2 (conv1_valid
         (prepend (alen theta - 1) (if (ic =? "constant")%string then u 0%nat else 0) u) ut)
    | _, _ => Ok U2
    end = Ok U3 /\ alen U3 = n /\ forall i, (i < n)%nat -> U3 i = U2 i +
      rsum N (fun a => vec_or_zero Ut a * ext_var ic (N - 1) (vec_or_zero Ux) (i + (N - 1) - a))).
  { destruct Ux as [u|], Ut as [ut|]; simpl in HUx, HUt.
    - rewrite conv1_valid_big_small by (simpl; lia).
      set (e := prepend _ _ _).
      destruct (iadd1_same U2 (conv1_core e ut)) as [v [Hv [Lv Ev]]]; [simpl; lia|].
      exists v. split; [exact Hv|]. split; [lia|]. intros i Hi. rewrite Ev. f_equal. simpl.
      rewrite HUt, Ht. apply rsum_ext. intros a Ha. reflexivity.
    - exists U2. repeat split; auto. intros i Hi. rewrite (rsum_zero N); [lra|]. intros; simpl; ring.
    - exists U2. repeat split; auto. intros i Hi. rewrite (rsum_zero N); [lra|]. intros a Ha.
      unfold ext_var, continued. simpl.
      destruct (ic =? "constant")%string; destruct (_ <? _)%nat; ring.
    - exists U2. repeat split; auto. intros i Hi. rewrite (rsum_zero N); [lra|]. intros; simpl; ring. }
  destruct T3 as [U3 [HU3 [L3 E3]]]. rewrite HU3. simpl bind.
  exists y, U3. split; [reflexivity|]. split; [exact Hx|]. split; [exact L3|]. split; [exact Hy|].
  intros i Hi. rewrite E3, E2, E1 by assumption. rewrite <- !rsum_plus. reflexivity.
Qed.

(** ** Estimate, without any assumption on the shapes *)
Lemma history_constant x x0 : history_value x "constant" = Ok x0 ->
  (1 <= alen x)%nat /\ x0 = x 0%nat.
Proof.
  unfold history_value. simpl. destruct (Nat.eqb_spec (alen x) 0); [discriminate|].
  intros H; inversion H. split; [lia|reflexivity].
Qed.

Lemma fir_outcome_value (theta x : vec) n : (1 <= alen theta)%nat ->
  fir_outcome (alen theta) theta (continued (alen theta - 1) (x 0%nat) x) n = fir_value theta x n.
Proof.
  intros HN. unfold fir_outcome, fir_value. apply rsum_ext. intros k Hk. f_equal. unfold continued.
  destruct (Nat.ltb_spec (n + (alen theta - 1) - k) (alen theta - 1)); destruct (Nat.leb_spec k n);
    try lia; try reflexivity. f_equal. lia.
Qed.

Lemma bind_inv {A B} (m : res A) (f : A -> res B) b : bind m f = Ok b ->
  exists a, m = Ok a /\ f a = Ok b.
Proof. destruct m; simpl; [eauto|discriminate]. Qed.

Lemma lfilter_zi1_inv b zi : lfilter_zi1 b = Ok zi -> (2 <= alen b)%nat.
Proof. unfold lfilter_zi1. destruct (Nat.ltb_spec (alen b) 2); [discriminate|auto]. Qed.

Lemma fir_filter_estimate x theta Ux Ut y U : fir_filter x theta Ux Ut "constant" = Ok (y, U) ->
  (1 <= alen x)%nat /\ (2 <= alen theta)%nat /\
  alen y = alen x /\ forall n, (n < alen x)%nat -> y n = fir_value theta x n.
Proof.
  unfold fir_filter. intros H.
  apply bind_inv in H. destruct H as [x0 [Hx0 H]].
  apply bind_inv in H. destruct H as [zi [Hzi H]].
  apply bind_inv in H. destruct H as [U1 [_ H]].
  apply bind_inv in H. destruct H as [U2 [_ H]].
  apply bind_inv in H. destruct H as [U3 [_ H]]. inversion H; subst; clear H.
  destruct (history_constant _ _ Hx0) as [Hn ->]. pose proof (lfilter_zi1_inv _ _ Hzi) as HN.
  split; [assumption|]. split; [assumption|]. split; [reflexivity|]. intros n Hi.
  rewrite (fir_lfilter_value theta x (x 0%nat) zi n Hi Hzi). apply fir_outcome_value. lia.
Qed.

Lemma fir_filter_diag_estimate x theta Ux Ut y U :
  fir_filter_diag x theta Ux Ut "constant" = Ok (y, U) ->
  (1 <= alen x)%nat /\ (2 <= alen theta)%nat /\
  alen y = alen x /\ forall n, (n < alen x)%nat -> y n = fir_value theta x n.
Proof.
  unfold fir_filter_diag. intros H.
  apply bind_inv in H. destruct H as [x0 [Hx0 H]].
  apply bind_inv in H. destruct H as [zi [Hzi H]].
  apply bind_inv in H. destruct H as [U1 [_ H]].
  apply bind_inv in H. destruct H as [U2 [_ H]].
  apply bind_inv in H. destruct H as [U3 [_ H]]. inversion H; subst; clear H.
  destruct (history_constant _ _ Hx0) as [Hn ->]. pose proof (lfilter_zi1_inv _ _ Hzi) as HN.
  split; [assumption|]. split; [assumption|]. split; [reflexivity|]. intros n Hi.
  rewrite (fir_lfilter_value theta x (x 0%nat) zi n Hi Hzi). apply fir_outcome_value. lia.
Qed.

Lemma fir_value_ext (theta x : vec) (x' : vec) n : (n < alen x)%nat ->
  (forall i, (i < alen x)%nat -> x i = x' i) -> fir_value theta x n = fir_value theta x' n.
Proof.
  intros Hn H. unfold fir_value. apply rsum_ext. intros k Hk. f_equal.
  destruct (Nat.leb_spec k n); apply H; lia.
Qed.

(** Estimate of FIRuncFilter before shifting. *)
Definition filtered (blow : option vec) (theta y : vec) (n : nat) : R :=
  match blow with
  | None => fir_value theta y n
  | Some bl => fir_value theta (mkArr (alen y) (fir_value bl y)) n
  end.

Lemma FIRuncFilter_estimate ydt tdt y sn theta Ut shift blow kind full x ux :
  FIRuncFilter ydt tdt y sn theta Ut shift blow kind full = Ok (x, ux) ->
  (1 <= alen y)%nat /\ (2 <= alen theta)%nat /\ alen x = alen y /\
  ((fast_path sn Ut blow kind full = true /\ forall n, (n < alen y)%nat -> x n = fir_value theta y n) \/
   (fast_path sn Ut blow kind full = false /\
      forall n, (n < alen y)%nat -> x n = filtered blow theta y (roll_idx (alen y) (- shift) n))).
Proof.
  unfold FIRuncFilter. destruct (fast_path sn Ut blow kind full) eqn:Hf; intros H.
  - apply bind_inv in H. destruct H as [[x1 U1] [H1 H2]]. inversion H2; subst; clear H2.
    destruct (fir_filter_diag_estimate _ _ _ _ _ _ H1) as [? [? [? ?]]].
    repeat (split; [assumption|]). left. split; [reflexivity|assumption].
  - apply bind_inv in H. destruct H as [Uy [_ H]].
    apply bind_inv in H. destruct H as [[x1 U1] [H1 H2]].
    assert (Hest : (1 <= alen y)%nat /\ (2 <= alen theta)%nat /\ alen x1 = alen y /\
               forall n, (n < alen y)%nat -> x1 n = filtered blow theta y n).
    { destruct blow as [bl|].
      - apply bind_inv in H1. destruct H1 as [[xl Ul] [Hl H1]].
        destruct (fir_filter_estimate _ _ _ _ _ _ Hl) as [? [? [Hxl Hvl]]].
        destruct (fir_filter_estimate _ _ _ _ _ _ H1) as [? [? [? Hv]]].
        split; [assumption|]. split; [assumption|]. split; [congruence|].
        intros n Hn. rewrite Hv by lia. simpl. apply fir_value_ext; [lia|].
        intros i Hi. simpl. apply Hvl. lia.
      - destruct (fir_filter_estimate _ _ _ _ _ _ H1) as [? [? [? Hv]]].
        repeat (split; [assumption|]). exact Hv. }
    destruct Hest as [Hy [Ht [Hx1 Hv]]].
    assert (Hx : x = if (shift =? 0)%Z then x1 else roll x1 (- shift)).
    { destruct full; inversion H2; reflexivity. }
    split; [assumption|]. split; [assumption|].
    assert (Hidx : forall n, (n < alen y)%nat -> (roll_idx (alen y) (- shift) n < alen y)%nat).
    { intros n Hn. unfold roll_idx.
      assert (Hpos : (0 < Z.of_nat (alen y))%Z) by lia.
      pose proof (Z.mod_pos_bound (Z.of_nat n - - shift) _ Hpos). lia. }
    split.
    { rewrite Hx. destruct (shift =? 0)%Z; simpl; assumption. }
    right. split; [reflexivity|]. intros n Hn. rewrite Hx.
    destruct (Z.eqb_spec shift 0) as [->|Hs].
    + rewrite Hv by assumption. f_equal. unfold roll_idx. simpl.
      rewrite Z.sub_0_r. rewrite Z.mod_small by lia. lia.
    + simpl. rewrite Hx1. apply Hv. auto.
Qed.
