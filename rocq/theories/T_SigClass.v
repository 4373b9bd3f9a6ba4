(** Theorems about the class Signal (C78-C80) and the denominator of Monte Carlo (C111). *)
From Coq Require Import String.
From Coq Require Import Reals List Arith ZArith Bool Lia Lra Permutation.
From Verif Require Import Base Sums Stats StatsFacts M_Filter S_Filter P_Filter P_Filter2
  M_MC S_MC S_MC2 P_MC P_MC2 P_MC3 P_MC4 M_SigClass T_Filter T_MC3.
Import ListNotations.
Open Scope R_scope.
Local Notation length := Datatypes.length.

(** ** C78: construction *)
Lemma lsum_bounds lo hi (l : list R) : (forall v, In v l -> lo <= v <= hi) ->
  lo * INR (length l) <= lsum l <= hi * INR (length l).
Proof.
  unfold lsum. induction l as [|a l IH]; intros H; cbn [length fold_right].
  - cbn [INR]. lra.
  - rewrite S_INR. specialize (IH (fun v Hv => H v (or_intror Hv))). specialize (H a (or_introl eq_refl)). lra.
Qed.
Lemma unique_mean_bounds lo hi (l : list R) : l <> [] -> (forall v, In v l -> lo <= v <= hi) ->
  exists t, unique_mean l = Num t /\ lo <= t <= hi.
Proof.
  intros Hn H. unfold unique_mean.
  assert (Hu : forall v, In v (nodup Req_EM_T l) -> lo <= v <= hi) by (intros v Hv; apply H, (nodup_In Req_EM_T), Hv).
  destruct (nodup Req_EM_T l) as [|a u] eqn:E.
  - exfalso. destruct l as [|b l]; [auto|].
    assert (In b (nodup Req_EM_T (b :: l))) as Hb by (apply nodup_In; left; reflexivity). rewrite E in Hb. exact Hb.
  - cbv zeta. exists (lsum (a :: u) / INR (length (a :: u))). split; [reflexivity|].
    pose proof (lsum_bounds lo hi (a :: u) Hu) as B.
    assert (0 < INR (length (a :: u))) as P by (apply lt_0_INR; cbn; lia).
    split; apply (Rmult_le_reg_r (INR (length (a :: u)))); try exact P;
      unfold Rdiv; rewrite Rmult_assoc, Rinv_l, Rmult_1_r by lra; lra.
Qed.
Lemma In_diffs (time : vec) v : In v (diffs time) -> exists i, (S i < alen time)%nat /\ v = time (S i) - time i.
Proof. intros H. apply in_map_iff in H. destruct H as (i & <- & Hi). apply in_seq in Hi. exists i. split; [lia|reflexivity]. Qed.
Lemma diffs_nonempty (time : vec) : (2 <= alen time)%nat -> diffs time <> [].
Proof. intros H. unfold diffs. destruct (alen time) as [|[|n]]; [lia|lia|]. discriminate. Qed.

Lemma Signal_inv time vals Ts Fs u s : Signal time vals Ts Fs u = Ok s ->
  exists v su, vals = Val1 v /\ alen time = alen v /\ initial_unc v u (alen time) = Ok su /\
    time_base time Ts Fs = Ok (sg_Ts s, sg_Fs s) /\
    sg_time s = time /\ sg_values s = Some v /\ sg_unc s = su.
Proof.
  unfold Signal. destruct vals as [r|v|]; try discriminate.
  destruct (Nat.eqb_spec (alen time) (alen v)) as [E|E]; [|discriminate]. cbn [negb].
  destruct (time_base time Ts Fs) as [[t f]|] eqn:T; [|discriminate]. cbn [bind].
  destruct (initial_unc v u (alen time)) as [su|] eqn:U; [|discriminate]. cbn [bind].
  intros H. injection H as <-. exists v, su. cbn. auto 10.
Qed.

(** The full statement: every constructed Signal carries Ts and Fs with Fs*Ts = 1, its time
    axis has this step, and its uncertainty fits the values.  It holds if neither Ts nor Fs
    is given and the axis is increasing: Ts lies between the smallest and the largest
    step. *)
Theorem C78_derived_time_base_partial : forall time vals u s lo hi,
  Signal time vals TsNone None u = Ok s -> (2 <= alen time)%nat -> 0 < lo ->
  (forall i, (S i < alen time)%nat -> lo <= time (S i) - time i <= hi) ->
  exists t f, sg_Ts s = Num t /\ sg_Fs s = Num f /\ f * t = 1 /\ lo <= t <= hi.
Proof.
  intros time vals u s lo hi H Hn Hlo Hd. destruct (Signal_inv _ _ _ _ _ _ H) as (v & su & _ & _ & _ & T & _).
  destruct (unique_mean_bounds lo hi (diffs time) (diffs_nonempty _ Hn)) as (t & Et & Bt).
  { intros x Hx. destruct (In_diffs _ _ Hx) as (i & Hi & ->). apply Hd, Hi. }
  cbn [time_base] in T. rewrite Et in T. cbn [np_inv] in T. destruct (Req_EM_T t 0) as [X|X]; [lra|].
  injection T as T1 T2. exists t, (1 / t). repeat split; try (symmetry; assumption); try lra. field. lra.
Qed.
(** Equidistant axis: Ts is the step. *)
Theorem C78_equidistant_partial : forall time vals u s h,
  Signal time vals TsNone None u = Ok s -> (2 <= alen time)%nat -> h <> 0 ->
  (forall i, (S i < alen time)%nat -> time (S i) - time i = h) ->
  sg_Ts s = Num h /\ exists f, sg_Fs s = Num f /\ f * h = 1.
Proof.
  intros time vals u s h H Hn Hh Hd. destruct (Signal_inv _ _ _ _ _ _ H) as (v & su & _ & _ & _ & T & _).
  destruct (unique_mean_bounds h h (diffs time) (diffs_nonempty _ Hn)) as (t & Et & Bt).
  { intros x Hx. destruct (In_diffs _ _ Hx) as (i & Hi & ->). rewrite Hd by exact Hi. lra. }
  assert (t = h) by lra. subst t.
  cbn [time_base] in T. rewrite Et in T. cbn [np_inv] in T. destruct (Req_EM_T h 0) as [X|X]; [lra|].
  injection T as T1 T2. split; [symmetry; assumption|]. exists (1 / h). split; [symmetry; assumption|]. field. exact Hh.
Qed.
(** Only a float Ts given. *)
Theorem C78_given_interval_partial : forall time vals t u,
  (forall s, Signal time vals (TsFloat t) None u = Ok s ->
     t <> 0 /\ sg_Ts s = Num t /\ exists f, sg_Fs s = Num f /\ f * t = 1) /\
  (forall v, vals = Val1 v -> alen time = alen v -> t = 0 ->
     Signal time vals (TsFloat t) None u = Err ZeroDivisionError).
Proof.
  intros time vals t u. split.
  - intros s H. destruct (Signal_inv _ _ _ _ _ _ H) as (v & su & _ & _ & _ & T & _).
    cbn [time_base] in T. destruct (Req_EM_T t 0) as [X|X]; [discriminate|]. injection T as T1 T2.
    split; [exact X|]. split; [symmetry; assumption|]. exists (1 / t). split; [symmetry; assumption|]. field. exact X.
  - intros v -> E ->. unfold Signal. rewrite E, Nat.eqb_refl. cbn [negb time_base].
    destruct (Req_EM_T 0 0); [reflexivity|lra].
Qed.
(** Point-wise uncertainties have the length of the signal: the given number everywhere,
    the given values (also from an array with one row or one column), or zero. *)
Definition entry (u : uarg) (i : nat) : R :=
  match u with
  | UaFloat s => s
  | UaVec v => v i
  | UaMat m => if (mrows m =? 1)%nat then m 0%nat i else m i 0%nat
  | _ => 0
  end.
Theorem C78_pointwise_partial : forall time vals Ts Fs u s,
  Signal time vals Ts Fs u = Ok s ->
  match u with
  | UaFloat _ | UaVec _ | UaOther => True
  | UaMat m => mrows m = 1%nat \/ mcols m = 1%nat
  | UaCube _ _ => False
  end ->
  exists v w, vals = Val1 v /\ alen v = alen time /\ sg_time s = time /\ sg_values s = Some v /\
    sg_unc s = SuVec w /\ alen w = alen v /\ forall i, (i < alen v)%nat -> w i = entry u i.
Proof.
  intros time vals Ts Fs u s H Hu. destruct (Signal_inv _ _ _ _ _ _ H) as (v & su & Ev & En & U & _ & Et & Es & Esu).
  assert (K : exists w, su = SuVec w /\ alen w = alen v /\ forall i, (i < alen v)%nat -> w i = entry u i).
  { destruct u as [x|w|m|d0 d1|]; cbn [initial_unc squeeze_unc] in U; try contradiction.
    - injection U as <-. eexists. split; [reflexivity|]. split; [reflexivity|]. intros. cbn. ring.
    - destruct (Nat.eqb_spec (alen w) 1); [discriminate|]. destruct (Nat.eqb_spec (alen w) (alen time)); [|discriminate].
      injection U as <-. exists w. split; [reflexivity|]. split; [congruence|]. reflexivity.
    - destruct (Nat.eqb_spec (mrows m) 1) as [E1|E1]; [|destruct (Nat.eqb_spec (mcols m) 1) as [E2|E2]].
      + cbn [alen] in U. destruct (Nat.eqb_spec (mcols m) 1); [discriminate|].
        destruct (Nat.eqb_spec (mcols m) (alen time)); [|discriminate]. injection U as <-.
        eexists. split; [reflexivity|]. split; [cbn; congruence|]. intros i Hi. cbn [aget entry]. rewrite E1. reflexivity.
      + cbn [alen] in U. destruct (Nat.eqb_spec (mrows m) 1); [discriminate|].
        destruct (Nat.eqb_spec (mrows m) (alen time)); [|discriminate]. injection U as <-.
        eexists. split; [reflexivity|]. split; [cbn; congruence|]. intros i Hi. cbn [aget entry].
        destruct (Nat.eqb_spec (mrows m) 1); [contradiction|reflexivity].
      + exfalso. destruct Hu; auto.
    - injection U as <-. eexists. split; [reflexivity|]. split; [reflexivity|]. reflexivity. }
  destruct K as (w & Ew & Lw & Vw). exists v, w. subst su. rewrite Ew in *. repeat split; auto. 
Qed.
(** Arguments that are rejected. *)
Theorem C78_rejects : forall time vals Ts Fs u,
  (vals = ValN -> Signal time vals Ts Fs u = Err NotImplementedError) /\
  (forall v, vals = Val1 v ->
     (alen time <> alen v -> Signal time vals Ts Fs u = Err AssertionError) /\
     (alen time = alen v ->
        (forall t f, Ts = TsFloat t -> Fs = Some f -> 1 / 100000 <= Rabs (f * t - 1) ->
           Signal time vals Ts Fs u = Err AssertionError) /\
        (forall w, u = UaVec w -> alen w <> alen v -> Ts = TsNone ->
           Signal time vals Ts Fs u = Err (if (alen w =? 1)%nat then IndexError else AssertionError)) /\
        (forall m, u = UaMat m -> mrows m <> mcols m -> mrows m <> 1%nat -> mcols m <> 1%nat -> Ts = TsNone ->
           Signal time vals Ts Fs u = Err AssertionError))).
Proof.
  intros time vals Ts Fs u. split; [intros ->; reflexivity|]. intros v ->. split.
  - intros E. unfold Signal. destruct (Nat.eqb_spec (alen time) (alen v)); [contradiction|reflexivity].
  - intros E.
    assert (Hb : forall t, TsNone = t -> exists a, time_base time t Fs = Ok a).
    { intros t <-. destruct Fs; cbn [time_base]; eexists; reflexivity. }
    split; [|split].
    + intros t f -> -> Hf. unfold Signal. rewrite E, Nat.eqb_refl. cbn [negb time_base].
      destruct (Rlt_dec (Rabs (f * t - 1)) (1 / 100000)); [lra|reflexivity].
    + intros w -> Hw ->. unfold Signal. rewrite E, Nat.eqb_refl. cbn [negb].
      destruct (Hb TsNone eq_refl) as [a ->]. cbn [bind initial_unc squeeze_unc].
      destruct (Nat.eqb_spec (alen w) 1); [reflexivity|]. destruct (Nat.eqb_spec (alen w) (alen v)); [contradiction|reflexivity].
    + intros m -> H1 H2 H3 ->. unfold Signal. rewrite E, Nat.eqb_refl. cbn [negb].
      destruct (Hb TsNone eq_refl) as [a ->]. cbn [bind initial_unc squeeze_unc].
      destruct (Nat.eqb_spec (mrows m) 1); [contradiction|]. destruct (Nat.eqb_spec (mcols m) 1); [contradiction|].
      destruct (Nat.eqb_spec (mrows m) (mcols m)); [contradiction|reflexivity].
Qed.
(** The statement fails: Fs alone, or Fs together with a matching Ts, or an integer Ts leave
    Fs (and Ts) without a value; a Ts contradicting the time axis and a covariance matrix
    of another size are accepted; one value with one uncertainty is rejected. *)
Theorem C78_consistent_refuted : exists time v,
  alen time = alen v /\ (forall i, (S i < alen time)%nat -> time (S i) - time i = 1) /\
  (exists s, Signal time (Val1 v) TsNone (Some 1) UaOther = Ok s /\ sg_Ts s = Unset /\ sg_Fs s = Unset) /\
  (exists s, Signal time (Val1 v) (TsFloat 1) (Some 1) UaOther = Ok s /\ sg_Ts s = Num 1 /\ sg_Fs s = Unset) /\
  (exists s, Signal time (Val1 v) TsOther None UaOther = Ok s /\ sg_Ts s = Unset /\ sg_Fs s = Unset) /\
  (exists s, Signal time (Val1 v) (TsFloat 5) None UaOther = Ok s /\ sg_Ts s = Num 5) /\
  (exists s m, Signal time (Val1 v) TsNone None (UaMat m) = Ok s /\ sg_unc s = SuMat m /\
     mrows m <> alen v /\ mcols m <> alen v) /\
  exists t1 v1 w, alen t1 = 1%nat /\ alen v1 = 1%nat /\ alen w = 1%nat /\
    Signal t1 (Val1 v1) (TsFloat 1) None (UaVec w) = Err IndexError.
Proof.
  exists (of_list [0; 1]), (of_list [3; 4]). split; [reflexivity|]. split.
  { intros [|i] Hi; cbn in Hi |- *; [lra|lia]. }
  split; [|split; [|split; [|split; [|split]]]].
  - eexists. split; [reflexivity|]. split; reflexivity.
  - eexists. unfold Signal. cbn [alen of_list length Nat.eqb negb time_base].
    destruct (Rlt_dec (Rabs (1 * 1 - 1)) (1 / 100000)) as [X|X].
    + split; [reflexivity|]. split; reflexivity.
    + exfalso. apply X. replace (1 * 1 - 1) with 0 by ring. rewrite Rabs_R0. lra.
  - eexists. split; [reflexivity|]. split; reflexivity.
  - eexists. unfold Signal. cbn [alen of_list length Nat.eqb negb time_base].
    destruct (Req_EM_T 5 0) as [X|X]; [lra|]. split; reflexivity.
  - eexists. exists (mkMat 3 3 (fun _ _ => 0)). split; [reflexivity|]. split; [reflexivity|]. cbn. lia.
  - exists (of_list [0]), (of_list [3]), (of_list [1]). repeat split.
    unfold Signal. cbn [alen of_list length Nat.eqb negb time_base].
    destruct (Req_EM_T 1 0) as [X|X]; [lra|]. reflexivity.
Qed.
Example C78_ex : exists s, Signal (of_list [0; 1 / 2; 1]) (Val1 (of_list [1; 2; 3])) TsNone None (UaFloat (1 / 10)) = Ok s /\
  sg_Ts s = Num (1 / 2) /\ (exists f, sg_Fs s = Num f /\ f = 2) /\
  exists w, sg_unc s = SuVec w /\ alen w = 3%nat /\ w 2%nat = 1 / 10.
Proof.
  eexists. split; [reflexivity|].
  destruct (C78_equidistant_partial (of_list [0; 1 / 2; 1]) (Val1 (of_list [1; 2; 3])) (UaFloat (1 / 10)) _ (1 / 2) eq_refl) as [E1 (f & E2 & E3)].
  { cbn; lia. } { lra. } { intros [|[|i]] Hi; cbn in Hi |- *; lra || lia. }
  split; [exact E1|]. split; [exists f; split; [exact E2|lra]|].
  eexists. split; [reflexivity|]. split; [reflexivity|]. cbn. lra.
Qed.
(** Steps 1 and 3: Ts is between them. *)
Example C78_uneven_ex : exists s t, Signal (of_list [0; 1; 2; 5]) (Val1 (of_list [1; 2; 3; 4])) TsNone None UaOther = Ok s /\
  sg_Ts s = Num t /\ 1 <= t <= 3.
Proof.
  eexists. 
  destruct (C78_derived_time_base_partial (of_list [0; 1; 2; 5]) (Val1 (of_list [1; 2; 3; 4])) UaOther _ 1 3 eq_refl)
    as (t & f & E1 & _ & _ & B).
  { cbn; lia. } { lra. } { intros [|[|[|i]]] Hi; cbn in Hi |- *; lra || lia. }
  exists t. split; [reflexivity|]. split; [exact E1|exact B].
Qed.
Example C78_given_ex : exists s, Signal (of_list [0; 1]) (Val1 (of_list [1; 2])) (TsFloat 4) None
    (UaMat (of_rows [[1]; [2]])) = Ok s /\ (exists f, sg_Fs s = Num f /\ f * 4 = 1) /\
    exists w, sg_unc s = SuVec w /\ w 1%nat = 2.
Proof.
  assert (exists s, Signal (of_list [0; 1]) (Val1 (of_list [1; 2])) (TsFloat 4) None (UaMat (of_rows [[1]; [2]])) = Ok s) as [s E].
  { unfold Signal. cbn [alen of_list length Nat.eqb negb time_base]. destruct (Req_EM_T 4 0); [lra|]. cbn. eexists. reflexivity. }
  exists s. split; [exact E|]. destruct (proj1 (C78_given_interval_partial _ _ _ _) s E) as (_ & _ & F). split; [exact F|].
  destruct (C78_pointwise_partial _ _ _ _ _ _ E) as (v & w & Ev & _ & _ & _ & Ew & _ & Vw); [right; reflexivity|].
  injection Ev as <-. exists w. split; [exact Ew|]. rewrite Vw by (cbn; lia). reflexivity.
Qed.
Example C78_rejects_ex : Signal (of_list [0; 1]) (Val1 (of_list [1; 2; 3])) TsNone None UaOther = Err AssertionError /\
  Signal (of_list [0; 1]) (Val1 (of_list [1; 2])) (TsFloat (1 / 2)) (Some 3) UaOther = Err AssertionError.
Proof.
  split; [reflexivity|].
  destruct (proj2 (C78_rejects (of_list [0; 1]) (Val1 (of_list [1; 2])) (TsFloat (1 / 2)) (Some 3) UaOther) (of_list [1; 2]) eq_refl) as [_ K].
  apply (proj1 (K eq_refl) (1 / 2) 3); auto. rewrite Rabs_pos_eq by lra. lra.
Qed.
Print Assumptions C78_derived_time_base_partial.
Print Assumptions C78_equidistant_partial.
Print Assumptions C78_given_interval_partial.
Print Assumptions C78_pointwise_partial.
Print Assumptions C78_rejects.
Print Assumptions C78_consistent_refuted.

(** ** C79: FIR filters *)
Lemma apply_fir stable me theta z bdt dr s b fu x u : sg_values s = Some x -> sg_unc s = SuVec u ->
  apply_filter stable me theta z bdt dr s b DenNum fu RunsOther =
  match FIRuncFilter DFloat bdt x (NsVec u) b fu 0 None "corr" false with
  | Ok r => Ok (mkSig (sg_time s) (Some (fst r)) (sg_Ts s) (sg_Fs s)
                      (match snd r with PointU v => SuVec v | FullU m => SuMat m end))
  | Err e => Err e
  end.
Proof.
  intros Hx Hu. unfold apply_filter. rewrite Hx, Hu.
  destruct (FIRuncFilter DFloat bdt x (NsVec u) b fu 0 None "corr" false); reflexivity.
Qed.
Lemma Cov_self_nonneg {A} (d : dist A) f : is_prob d -> 0 <= Cov d f f.
Proof. intros [Hp _]. unfold Cov. apply Ex_nonneg; [exact Hp|]. intros a. apply Rle_0_sqr. Qed.

(** The full statement asks for input covariance diag(u^2).  What the code computes: the
    estimate of the filter for the steadily continued signal, and the variances for a
    stationary signal whose autocovariance at lag k is u[k]. *)
Theorem C79_autocovariance_partial : forall stable me theta z bdt dr s b fu x u n N (dx dt : dist (nat -> R)),
  sg_values s = Some x -> sg_unc s = SuVec u ->
  alen x = n -> alen u = n -> alen b = N -> (1 <= n)%nat -> (2 <= N)%nat -> coeff_matrix N fu ->
  is_prob dx -> is_prob dt ->
  has_mean (n + (N - 1)) dx (continued (N - 1) (x 0%nat) x) ->
  has_cov (n + (N - 1)) dx (fun i j => let lag := (Nat.max i j - Nat.min i j)%nat in
                                       if (lag <? n)%nat then u lag else 0) ->
  has_mean N dt b -> has_cov N dt (coeff_cov fu) ->
  exists s' x' u', apply_filter stable me theta z bdt dr s b DenNum fu RunsOther = Ok s' /\
    sg_values s' = Some x' /\ sg_unc s' = SuVec u' /\ alen x' = n /\ alen u' = n /\
    sg_time s' = sg_time s /\ sg_Ts s' = sg_Ts s /\ sg_Fs s' = sg_Fs s /\
    forall i, (i < n)%nat ->
      x' i = Ex (indep dx dt) (fun o => fir_outcome N (snd o) (fst o) i) /\ 0 <= u' i /\
      u' i * u' i = Cov (indep dx dt) (fun o => fir_outcome N (snd o) (fst o) i)
                                      (fun o => fir_outcome N (snd o) (fst o) i).
Proof.
  intros stable me theta z bdt dr s b fu x u n N dx dt Hx Hu Lx Lu Lb H1 H2 Hfu Px Pt Mx Cx Mt Ct.
  destruct (C02_fir_cov_exact DFloat bdt x (NsVec u) b fu "corr" n N dx dt) as (x' & U & E & Lx' & R1 & R2 & V); auto.
  { right. reflexivity. }
  { intros i j Hi Hj. rewrite (Cx i j Hi Hj). unfold stat_cont, sig_cov. cbv zeta. cbn [String.eqb Ascii.eqb Bool.eqb].
    rewrite Lu. destruct (Nat.leb_spec (N - 1) i), (Nat.leb_spec (N - 1) j); cbn [andb].
    1: { replace (Nat.max (i - (N - 1)) (j - (N - 1)) - Nat.min (i - (N - 1)) (j - (N - 1)))%nat
           with (Nat.max i j - Nat.min i j)%nat by lia. reflexivity. }
    all: destruct (Nat.leb_spec j i);
      [replace (Nat.max i j - Nat.min i j)%nat with (i - j)%nat by lia;
       replace (Nat.max (i - j) 0 - Nat.min (i - j) 0)%nat with (i - j)%nat by lia
      |replace (Nat.max i j - Nat.min i j)%nat with (j - i)%nat by lia;
       replace (Nat.max 0 (j - i) - Nat.min 0 (j - i))%nat with (j - i)%nat by lia];
      match goal with |- context [(?a <? ?c)%nat] => destruct (a <? c)%nat end; reflexivity. }
  rewrite (apply_fir stable me theta z bdt dr s b fu x u Hx Hu).
  assert (Hf : fast_path (NsVec u) fu None "corr" false = false) by (destruct fu; reflexivity).
  rewrite (FIR_point_of_full DFloat bdt x (NsVec u) b fu 0 None "corr" Hf), E. cbn [fst snd].
  eexists. exists x'. eexists. split; [reflexivity|]. cbn [sg_values sg_unc sg_time sg_Ts sg_Fs].
  split; [reflexivity|]. split; [reflexivity|]. split; [exact Lx'|]. split; [exact R1|].
  split; [reflexivity|]. split; [reflexivity|]. split; [reflexivity|].
  intros i Hi. destruct (V i i Hi Hi) as [Vx Vu]. split; [exact Vx|].
  cbn [vmap diag_of aget]. split; [apply sqrt_pos|]. rewrite <- Vu. rewrite sqrt_sqrt by apply Rabs_pos.
  apply Rabs_pos_eq. rewrite Vu. apply Cov_self_nonneg, indep_prob; assumption.
Qed.
(** The identity filter (1, 0): a signal with uncertainty 2 everywhere, point-wise, comes
    out with sqrt 2; FIRuncFilter with kind "diag" keeps 2. *)
Theorem C79_pointwise_refuted : exists s x u b s' u' x2 u2,
  Signal (of_list [0; 1]) (Val1 x) TsNone None (UaFloat 2) = Ok s /\ sg_unc s = SuVec u /\
  (forall i, (i < 2)%nat -> u i = 2) /\
  (forall y n, (1 <= alen y)%nat -> fir_value b y n = y n) /\
  apply_filter (fun _ _ => true) (fun _ => 1) (fun _ => x) (fun _ => x) DFloat 10 s b DenNum UtNone RunsOther = Ok s' /\
  sg_unc s' = SuVec u' /\ u' 0%nat = sqrt 2 /\ u' 1%nat = sqrt 2 /\ u' 0%nat <> 2 /\
  FIRuncFilter DFloat DFloat x (NsVec u) b UtNone 0 None "diag" false = Ok (x2, PointU u2) /\
  u2 0%nat = 2 /\ u2 1%nat = 2.
Proof.
  set (x := of_list [3; 4]). set (b := of_list [1; 0]).
  destruct (FIR_general DFloat DFloat x (NsVec (mkArr 2 (fun _ => 1 * 2))) b UtNone "corr" 2 2)
    as (x' & U & E & Lx & R1 & R2 & Ex & EU); try reflexivity; try lia; try exact I.
  { right. reflexivity. }
  destruct (C04_fast_equals_general x (NsVec (mkArr 2 (fun _ => 1 * 2))) b UtNone "diag" "diag" 2 2)
    as (x2 & u2 & x3 & U3 & F1 & F2 & _ & _ & _ & F3); try reflexivity; try lia; try exact I.
  { split; reflexivity. }
  assert (S2 : sqrt 2 < 2).
  { rewrite <- (sqrt_square 2) at 2 by lra. apply sqrt_lt_1; lra. }
  assert (D : forall i, (i < 2)%nat -> U i i = 2).
  { intros i Hi. rewrite EU by auto. unfold gen_cov, stat_cont, continued, sig_cov.
    destruct i as [|[|i]]; [| |lia]; cbn; lra. }
  assert (D3 : forall i, (i < 2)%nat -> u2 i = 2).
  { intros i Hi. destruct (F3 i Hi) as (_ & _ & ->).
    destruct (FIR_general DFloat DFloat x (NsMat (mkMat 2 2 (sig_cov (NsVec (mkArr 2 (fun _ => 1 * 2))) "diag"))) b
      (UtMat (mkMat 2 2 (coeff_cov UtNone))) "diag" 2 2) as (x4 & U4 & G & _ & _ & _ & _ & G4);
      try (split; reflexivity); try reflexivity; try lia.
    rewrite F2 in G. injection G as <- <-. rewrite G4 by auto.
    replace (gen_cov _ _ _ _ _ _ i i) with (2 * 2); [apply sqrt_square; lra|].
    unfold gen_cov, stat_cont, continued. destruct i as [|[|i]]; [| |lia]; cbn; lra. }
  eexists. exists x, (mkArr 2 (fun _ => 1 * 2)), b. eexists. eexists. exists x2, u2.
  split; [reflexivity|]. split; [reflexivity|]. split; [intros; cbn; lra|]. split.
  { intros y n Hy. unfold fir_value, b. cbn [alen of_list length rsum aget nth Nat.leb]. rewrite Nat.sub_0_r.
    destruct n; cbn; lra. }
  split.
  { rewrite (apply_fir _ _ _ _ _ _ _ _ _ x (mkArr 2 (fun _ => 1 * 2))) by reflexivity.
    rewrite (FIR_point_of_full DFloat DFloat x (NsVec (mkArr 2 (fun _ => 1 * 2))) b UtNone 0 None "corr" eq_refl).
    rewrite E. reflexivity. }
  split; [reflexivity|]. cbn [vmap diag_of aget]. rewrite !D by lia.
  rewrite !Rabs_pos_eq by lra. repeat split; try lra; try exact F1; apply D3; lia.
Qed.
Example C79_ex : exists s s' x' u' dx dt, sg_values s = Some (of_list [1; 2]) /\ sg_unc s = SuVec (of_list [0; 0]) /\
  apply_filter (fun _ _ => true) (fun _ => 1) (fun _ => of_list []) (fun _ => of_list []) DFloat 10 s (of_list [1; 1]) DenNum UtNone RunsOther = Ok s' /\
  is_prob dx /\ is_prob dt /\ has_cov 3 dx (fun _ _ => 0) /\ has_cov 2 dt (fun _ _ => 0) /\
  sg_values s' = Some x' /\ sg_unc s' = SuVec u' /\ x' 0%nat = 2 /\ x' 1%nat = 3 /\ u' 1%nat = 0.
Proof.
  set (s := mkSig (of_list [0; 1]) (Some (of_list [1; 2])) (Num 1) (Num 1) (SuVec (of_list [0; 0]))).
  set (dx := [(1, (continued 1 1 (of_list [1; 2]) : nat -> R))]). set (dt := [(1, (aget (of_list [1; 1]) : nat -> R))]).
  assert (Px : is_prob dx) by (split; [intros p a [H|[]]; injection H as <- <-; lra|unfold Ex, dx; cbn; lra]).
  assert (Pt : is_prob dt) by (split; [intros p a [H|[]]; injection H as <- <-; lra|unfold Ex, dt; cbn; lra]).
  assert (Cx : has_cov 3 dx (fun _ _ => 0)) by (intros i j _ _; unfold Cov, Ex, dx; cbn; ring).
  assert (Ct : has_cov 2 dt (fun _ _ => 0)) by (intros i j _ _; unfold Cov, Ex, dt; cbn; ring).
  destruct (C79_autocovariance_partial (fun _ _ => true) (fun _ => 1) (fun _ => of_list []) (fun _ => of_list []) DFloat 10 s
    (of_list [1; 1]) UtNone (of_list [1; 2]) (of_list [0; 0]) 2 2 dx dt)
    as (s' & x' & u' & E & Ex' & Eu & Lx & Lu & _ & _ & _ & V); try reflexivity; try lia; try exact I; try assumption.
  { intros i Hi. unfold Ex, dx. cbn. lra. }
  { intros i j Hi Hj. rewrite (Cx i j Hi Hj). cbv zeta. destruct (_ <? 2)%nat; [|reflexivity].
    set (k := (Nat.max i j - Nat.min i j)%nat). destruct k as [|[|[|k]]]; reflexivity. }
  { intros i Hi. unfold Ex, dt. cbn. lra. }
  exists s, s', x', u', dx, dt. split; [reflexivity|]. split; [reflexivity|]. split; [exact E|].
  split; [exact Px|]. split; [exact Pt|]. split; [exact Cx|]. split; [exact Ct|].
  split; [exact Ex'|]. split; [exact Eu|].
  destruct (V 0%nat ltac:(lia)) as (V0 & _). destruct (V 1%nat ltac:(lia)) as (V1 & P1 & Q1).
  rewrite V0, V1. unfold Cov, Ex, dx, dt, indep, fir_outcome, continued in *. cbn in *. repeat split; nra.
Qed.
Print Assumptions C79_autocovariance_partial.
Print Assumptions C79_pointwise_refuted.

(** ** C80: is the filter applied? *)
(** The full statement: whenever apply_filter returns, the values are the filtered ones.
    It holds for FIR filters (the values are the convolution with the steadily continued
    signal), *)
Theorem C80_fir_partial : forall stable me theta z bdt dr s b fu runs s' x,
  sg_values s = Some x -> apply_filter stable me theta z bdt dr s b DenNum fu runs = Ok s' ->
  exists x' u', sg_values s' = Some x' /\ sg_unc s' = SuVec u' /\ alen x' = alen x /\
    sg_time s' = sg_time s /\ forall n, (n < alen x)%nat -> x' n = fir_value b x n.
Proof.
  intros stable me theta z bdt dr s b fu runs s' x Hx H.
  destruct (sg_unc s) as [q|u|m| |] eqn:Hu; destruct runs as [k|];
    try (unfold apply_filter in H; rewrite Hx, Hu in H; discriminate).
  rewrite (apply_fir stable me theta z bdt dr s b fu x u Hx Hu) in H.
  destruct (FIRuncFilter DFloat bdt x (NsVec u) b fu 0 None "corr" false) as [[x' r]|] eqn:E; [|discriminate].
  injection H as <-. destruct (C01_fir_estimate _ _ _ _ _ _ _ _ _ _ _ E) as [L V].
  assert (exists u', r = PointU u') as [u' ->].
  { unfold FIRuncFilter in E. assert (Hf : fast_path (NsVec u) fu None "corr" false = false) by (destruct fu; reflexivity).
    rewrite Hf in E. apply bind_inv in E. destruct E as (Uy & _ & E). apply bind_inv in E. destruct E as ([x1 U1] & _ & E).
    injection E as <- <-. eexists. reflexivity. }
  exists x', u'. cbn. auto.
Qed.
(** and for IIR filters without a number of runs: mean and covariance of the stable
    simulated filter outputs. *)
Theorem C80_iir_partial : forall stable me theta z bdt dr s b a Uab x,
  sg_values s = Some x ->
  match sg_unc s with
  | SuVec u => alen u = alen x
  | SuMat m => mrows m = alen x /\ mcols m = alen x /\ alen x <> 1%nat /\ least_sign (me m) m /\ pos_def m
  | _ => False
  end ->
  (1 <= alen a)%nat -> mrows Uab = (alen a - 1 + alen b)%nat -> mcols Uab = (alen a - 1 + alen b)%nat ->
  (forall k, alen (theta k) = (alen a - 1 + alen b)%nat) -> (forall k, alen (z k) = alen x) ->
  let n := alen x in
  let st := filter (passes stable a b theta) (seq 0 dr) in
  exists (ys : nat -> vec) s',
    (forall k, exists xk, alen xk = n /\
       (forall i, (i < n)%nat -> xk i = match sg_unc s with SuVec u => x i + u i * z k i | _ => z k i end) /\
       filter_response (drawn_b (alen a) (alen b) (theta k)) (drawn_a (alen a) (theta k)) xk (ys k)) /\
    apply_filter stable me theta z bdt dr s b (DenArr a) (UtMat Uab) RunsOther = Ok s' /\
    sg_time s' = sg_time s /\
    ((2 <= length st)%nat -> n <> 1%nat -> exists m M, sg_values s' = Some m /\ sg_unc s' = SuMat M /\
       alen m = n /\ mrows M = n /\ mcols M = n /\
       forall i j, (i < n)%nat -> (j < n)%nat ->
         m i = avg (fun k => ys k i) st /\ M i j = sample_cov (fun k => ys k i) (fun k => ys k j) st).
Proof.
  intros stable me theta z bdt dr s b a Uab x Hx Hu Ha H1 H2 Ht Hz n st.
  destruct (C55_stable_draws stable me x (su_mc (alen x) (sg_unc s)) b a Uab dr None None 0 theta z)
    as (ys & Hy & (y & U & E & Ym & Um) & _); auto; try exact I.
  { destruct (sg_unc s); cbn; auto; contradiction || tauto. }
  { destruct (sg_unc s); cbn; auto; contradiction || tauto. }
  assert (S0 : forall i, (i < alen x)%nat -> shifted_from (alen x) 0 i = i).
  { intros i Hi. unfold shifted_from. rewrite Z.sub_0_r, Z.mod_small by lia. apply Nat2Z.id. }
  exists ys. eexists. split.
  { intros k. destruct (Hy k) as (xk & w & D & L & F). cbn in L. subst w. exists xk.
    destruct D as [Lk D]. split; [exact Lk|]. split; [|exact F]. intros i Hi.
    destruct (sg_unc s); cbn in D; try contradiction; [apply D, Hi|apply D, Hi]. }
  split.
  { unfold apply_filter. rewrite Hx. cbn [sig_mc]. rewrite E. reflexivity. }
  split; [reflexivity|]. intros Hst Hn. cbn [sg_values sg_unc fst snd]. fold st in Ym, Um.
  destruct y as [m|]; [|rewrite Ym in Hst; cbn in Hst; lia].
  destruct U as [|r|M]; [lia|exfalso; destruct Um as [(_ & X & _)|(k & X & _)]; [exact (Hn X)|rewrite X in Hst; cbn in Hst; lia]|].
  destruct Ym as (_ & Lm & Ym). destruct Um as (_ & _ & R1 & R2 & Um).
  exists m, M. split; [reflexivity|]. split; [reflexivity|]. split; [exact Lm|]. split; [exact R1|]. split; [exact R2|].
  intros i j Hi Hj. rewrite Ym, Um by auto. rewrite !S0 by auto. split; reflexivity.
Qed.
(** A second order case: gains 1 and 3 for the signal (2, 0) with one recursive pole 0. *)
Definition th80 (k : nat) : vec := of_list [0; match k with O => 1 | _ => 3 end].
Example C80_iir_ex : exists s', apply_filter (fun _ _ => true) (fun _ => 1) th80 (fun _ => of_list [0; 0]) DFloat 2
    (mkSig (of_list [0; 1]) (Some (of_list [2; 0])) (Num 1) (Num 1) (SuVec (of_list [1; 1])))
    (of_list [2]) (DenArr (of_list [1; 0])) (UtMat (mkMat 2 2 (fun _ _ => 1))) RunsOther = Ok s' /\
  exists m M, sg_values s' = Some m /\ sg_unc s' = SuMat M /\ m 0%nat = 4 /\ M 0%nat 0%nat = 8.
Proof.
  destruct (C80_iir_partial (fun _ _ => true) (fun _ => 1) th80 (fun _ => of_list [0; 0]) DFloat 2
    (mkSig (of_list [0; 1]) (Some (of_list [2; 0])) (Num 1) (Num 1) (SuVec (of_list [1; 1])))
    (of_list [2]) (of_list [1; 0]) (mkMat 2 2 (fun _ _ => 1)) (of_list [2; 0]))
    as (ys & s' & Hy & E & _ & V); try reflexivity; try (cbn; lia).
  exists s'. split; [exact E|]. destruct (V ltac:(cbn; lia) ltac:(cbn; lia)) as (m & M & E1 & E2 & _ & _ & _ & V2).
  exists m, M. split; [exact E1|]. split; [exact E2|]. destruct (V2 0%nat 0%nat ltac:(cbn; lia) ltac:(cbn; lia)) as [-> ->].
  change (filter _ _) with [0%nat; 1%nat].
  assert (Y : forall k, ys k 0%nat = match k with O => 2 | _ => 6 end).
  { intros k. destruct (Hy k) as (xk & Lk & Xk & _ & F). specialize (F 0%nat ltac:(rewrite Lk; cbn; lia)).
    specialize (Xk 0%nat ltac:(cbn; lia)). cbn in Xk. cbn in F. rewrite Xk in F. destruct k; cbn in F; lra. }
  unfold sample_cov, scatter, avg. cbn. rewrite !Y. split; lra.
Qed.
(** It fails for IIR filters with a number of Monte Carlo runs: nothing happens. *)
Theorem C80_iir_runs_unchanged_partial : forall stable me theta z bdt dr s b a fu k,
  apply_filter stable me theta z bdt dr s b (DenArr a) fu (RunsInt k) = Ok s.
Proof. intros. unfold apply_filter. destruct (sg_values s); reflexivity. Qed.
Theorem C80_applied_refuted : exists s x b a fu k s' x',
  (1 <= alen a)%nat /\ a 0%nat = 1 /\ sg_values s = Some x /\
  (forall stable me theta z bdt dr, apply_filter stable me theta z bdt dr s b (DenArr a) fu (RunsInt k) = Ok s') /\
  sg_values s' = Some x' /\ ~ filter_response b a x x'.
Proof.
  set (s := mkSig (of_list [0; 1]) (Some (of_list [1; 1])) (Num 1) (Num 1) (SuVec (of_list [1; 1]))).
  exists s, (of_list [1; 1]), (of_list [5]), (of_list [1; -1 / 2]), (UtMat (no_mat 2)), 100%nat, s, (of_list [1; 1]).
  split; [cbn; lia|]. split; [reflexivity|]. split; [reflexivity|]. split; [reflexivity|]. split; [reflexivity|].
  intros [_ F]. specialize (F 0%nat ltac:(cbn; lia)). cbn in F. lra.
Qed.
(** The remaining argument combinations raise: a FIR filter with a number of runs or with a
    covariance matrix for the signal, an IIR filter without covariance matrix of the
    coefficients ("Uab=None if no uncertainty"). *)
Theorem C80_raises : forall stable me theta z bdt dr s b fu x, sg_values s = Some x ->
  (forall k, apply_filter stable me theta z bdt dr s b DenNum fu (RunsInt k) = Err TypeError) /\
  (forall m runs, sg_unc s = SuMat m -> apply_filter stable me theta z bdt dr s b DenNum fu runs = Err TypeError) /\
  (forall a, (forall M, fu <> UtMat M) -> apply_filter stable me theta z bdt dr s b (DenArr a) fu RunsOther = Err ValueError).
Proof.
  intros stable me theta z bdt dr s b fu x Hx. split; [|split].
  - intros k. unfold apply_filter. rewrite Hx. destruct (sg_unc s); reflexivity.
  - intros m runs Hu. unfold apply_filter. rewrite Hx, Hu. destruct runs; reflexivity.
  - intros a Hfu. unfold apply_filter. rewrite Hx. destruct fu as [| | |M]; try reflexivity. exfalso. apply (Hfu M). reflexivity.
Qed.
Example C80_raises_ex :
  apply_filter (fun _ _ => true) (fun _ => 1) (fun _ => of_list []) (fun _ => of_list []) DFloat 10
    (mkSig (of_list [0; 1]) (Some (of_list [1; 1])) (Num 1) (Num 1) (SuMat (no_mat 2)))
    (of_list [1; 1]) DenNum UtNone RunsOther = Err TypeError.
Proof.
  apply (proj1 (proj2 (C80_raises (fun _ _ => true) (fun _ => 1) (fun _ => of_list []) (fun _ => of_list []) DFloat 10
    (mkSig (of_list [0; 1]) (Some (of_list [1; 1])) (Num 1) (Num 1) (SuMat (no_mat 2))) (of_list [1; 1]) UtNone _ eq_refl)) (no_mat 2)).
  reflexivity.
Qed.
Print Assumptions C80_fir_partial.
Print Assumptions C80_iir_partial.
Print Assumptions C80_iir_runs_unchanged_partial.
Print Assumptions C80_applied_refuted.
Print Assumptions C80_raises.

(** ** C111: Monte Carlo applies the filter (b, a) *)
(** All draws equal the estimates (a[1:], b) and the signal x: nothing is uncertain. *)
Definition certain_MC (x b a : vec) (runs : nat) : res mc_result :=
  MC (fun _ _ => true) (fun _ => 0) x (McVec (mkArr (alen x) (fun _ => 0))) b a (no_mat (alen a - 1 + alen b)) runs None None false 0
     (fun _ => mkArr (alen a - 1 + alen b) (fun i => if (i <? alen a - 1)%nat then a (S i) else b (i - (alen a - 1))%nat))
     (fun _ => mkArr (alen x) (fun _ => 0)).
Lemma avg_const {A} (c : R) (l : list A) : l <> [] -> avg (fun _ => c) l = c.
Proof.
  intros Hl. unfold avg. assert (E : tot (map (fun _ : A => c) l) = c * INR (length l)).
  { clear. induction l as [|q l IH]; cbn [map tot length]; [cbn; ring|]. rewrite IH, S_INR. ring. }
  rewrite E. field. apply not_0_INR. destruct l; [contradiction|discriminate].
Qed.
(** What is filtered with is (b, (1, a[1:])). *)
Lemma certain_MC_response (x b a : vec) runs : (1 <= runs)%nat -> (1 <= alen a)%nat ->
  exists m U, certain_MC x b a runs = Ok (McMoments (Some m) U) /\
    filter_response b (mkArr (alen a) (fun i => if (i =? 0)%nat then 1 else a i)) x m.
Proof.
  intros Hr Ha.
  set (th := mkArr (alen a - 1 + alen b) (fun i => if (i <? alen a - 1)%nat then a (S i) else b (i - (alen a - 1))%nat)).
  set (aa := mkArr (alen a) (fun i => if (i =? 0)%nat then 1 else a i)).
  destruct (C55_stable_draws (fun _ _ => true) (fun _ => 0) x (McVec (mkArr (alen x) (fun _ => 0))) b a (no_mat (alen a - 1 + alen b)) runs
    None None 0 (fun _ => th) (fun _ => mkArr (alen x) (fun _ => 0))) as (ys & Hy & (y & U & E & Hm & _) & _);
    try exact I; try reflexivity; try exact Ha.
  assert (Est : filter (passes (fun _ _ => true) a b (fun _ => th)) (seq 0 runs) = seq 0 runs).
  { clear. induction (seq 0 runs) as [|k l IH]; [reflexivity|].
    change (k :: filter (passes (fun _ _ => true) a b (fun _ => th)) l = k :: l). f_equal. exact IH. }
  rewrite Est in Hm. destruct y as [m|]; [|destruct runs; [lia|discriminate]].
  destruct Hm as (Hne & Lm & Hm).
  assert (Y : forall k, filter_response b aa x (ys k)).
  { intros k. destruct (Hy k) as (xk & w & [Lk D] & L & [Ly F]). cbn in L. subst w. cbn in D. destruct D as [_ D].
    split; [congruence|]. intros n Hn. specialize (F n ltac:(lia)). cbn [drawn_a drawn_b alen aget] in F.
    etransitivity; [|etransitivity; [exact F|]].
    - apply rsum_ext. intros j Hj. cbn [aa aget]. destruct (j <=? n)%nat eqn:Ej; [|reflexivity].
      destruct (Nat.eqb_spec j 0); [reflexivity|]. cbn [th aget].
      destruct (Nat.ltb_spec (j - 1) (alen a - 1)); [|lia]. replace (S (j - 1)) with j by lia. reflexivity.
    - apply rsum_ext. intros j Hj. destruct (j <=? n)%nat eqn:Ej; [|reflexivity].
      rewrite D by lia. rewrite Rmult_0_l, Rplus_0_r. cbn [th aget].
      destruct (Nat.ltb_spec (alen a - 1 + j) (alen a - 1)); [lia|].
      replace (alen a - 1 + j - (alen a - 1))%nat with j by lia. reflexivity. }
  exists m, U. split; [exact E|].
  assert (Em : forall i, (i < alen x)%nat -> m i = ys 0%nat i).
  { intros i Hi. rewrite Hm by auto. unfold shifted_from. rewrite Z.sub_0_r, Z.mod_small, Nat2Z.id by lia.
    rewrite <- (avg_const (ys 0%nat i) (seq 0 runs)) by exact Hne. unfold avg. f_equal. f_equal. apply map_ext.
    intros k. apply (response_unique b aa x (ys k) (ys 0%nat)); auto. cbn. lra. }
  split; [exact Lm|]. intros n Hn. rewrite <- (proj2 (Y 0%nat) n Hn). apply rsum_ext. intros j Hj.
  destruct (Nat.leb_spec j n); [|reflexivity]. rewrite Em by lia. reflexivity.
Qed.
(** The full statement: the mean is the response of (b, a).  It holds if a[0] = 1, *)
Theorem C111_normalised_partial : forall x b a runs, (1 <= runs)%nat -> (1 <= alen a)%nat -> a 0%nat = 1 ->
  exists m U, certain_MC x b a runs = Ok (McMoments (Some m) U) /\ filter_response b a x m.
Proof.
  intros x b a runs Hr Ha H1. destruct (certain_MC_response x b a runs Hr Ha) as (m & U & E & L & F).
  exists m, U. split; [exact E|]. split; [exact L|]. intros n Hn. rewrite <- (F n Hn). apply rsum_ext. intros j Hj.
  cbn [aget]. destruct (Nat.eqb_spec j 0) as [->|]; [rewrite H1|]; reflexivity.
Qed.
(** and otherwise the filter (b, (1, a[1:])) is applied instead, never (b, a): for the pulse
    (1, 0, ...) and b[0] <> 0 the result is wrong for every a[0] <> 1. *)
Theorem C111_pulse_partial : forall x b a runs, (1 <= runs)%nat -> (1 <= alen a)%nat -> (1 <= alen b)%nat ->
  (1 <= alen x)%nat -> x 0%nat = 1 -> b 0%nat <> 0 -> a 0%nat <> 1 ->
  exists m U, certain_MC x b a runs = Ok (McMoments (Some m) U) /\ m 0%nat = b 0%nat /\ ~ filter_response b a x m.
Proof.
  intros x b a runs Hr Ha Hb Hx X0 B0 A0. destruct (certain_MC_response x b a runs Hr Ha) as (m & U & E & L & F).
  assert (K : forall (q : nat -> R) k, (1 <= k)%nat ->
    rsum k (fun j => if (j <=? 0)%nat then q j else 0) = q 0%nat).
  { intros q [|k] Hk; [lia|]. rewrite rsum_S_l. cbn [Nat.leb]. rewrite rsum_zero; [ring|]. reflexivity. }
  specialize (F 0%nat ltac:(lia)). cbn [alen] in F.
  rewrite (K (fun j => _ * m (0 - j)%nat)) in F by exact Ha. rewrite (K (fun j => b j * x (0 - j)%nat)) in F by exact Hb.
  cbn [aget Nat.eqb Nat.sub] in F. rewrite X0 in F.
  exists m, U. split; [exact E|]. split; [lra|]. intros [_ G]. specialize (G 0%nat ltac:(lia)).
  rewrite (K (fun j => a j * m (0 - j)%nat)) in G by exact Ha. rewrite (K (fun j => b j * x (0 - j)%nat)) in G by exact Hb.
  cbn [Nat.sub] in G. rewrite X0 in G. apply A0. apply (Rmult_eq_reg_r (m 0%nat)); [|lra]. lra.
Qed.
Theorem C111_denominator_refuted : exists x b a runs m U,
  (1 <= runs)%nat /\ (1 <= alen a)%nat /\ a 0%nat <> 0 /\
  certain_MC x b a runs = Ok (McMoments (Some m) U) /\ ~ filter_response b a x m.
Proof.
  destruct (C111_pulse_partial (of_list [1; 0]) (of_list [1]) (of_list [2; 1]) 3) as (m & U & E & _ & F);
    try (cbn; lia); try (cbn; lra).
  exists (of_list [1; 0]), (of_list [1]), (of_list [2; 1]), 3%nat, m, U.
  split; [lia|]. split; [cbn; lia|]. split; [cbn; lra|]. split; [exact E|exact F].
Qed.
Example C111_ex : exists m U, certain_MC (of_list [1; 0]) (of_list [1]) (of_list [1; -1 / 2]) 3 = Ok (McMoments (Some m) U) /\
  m 0%nat = 1 /\ m 1%nat = 1 / 2.
Proof.
  destruct (C111_normalised_partial (of_list [1; 0]) (of_list [1]) (of_list [1; -1 / 2]) 3) as (m & U & E & _ & F);
    try (cbn; lia); [reflexivity|].
  exists m, U. split; [exact E|]. pose proof (F 0%nat ltac:(cbn; lia)) as F0. pose proof (F 1%nat ltac:(cbn; lia)) as F1.
  cbn in F0, F1. lra.
Qed.
(** UMC: the same.  Gain 1/2 as b = (1), a = (2): the signal (3) stays (3). *)
Definition draw111 (c n : nat) : list (vec * vec * vec) :=
  map (fun _ => (of_list [1], of_list [0], of_list [1 / 2])) (seq 0 n).
Theorem C111_UMC_refuted : exists (x b a : vec) (draw : nat -> nat -> list (vec * vec * vec)) order o,
  a 0%nat <> 0 /\ (forall c n, length (draw c n) = n) /\ (forall c l, Permutation (order c l) l) /\
  (* every draw consists of the estimates and of no noise *)
  (forall c n th (e u : vec), In (th, e, u) (draw c n) -> alen a = 1%nat /\ th = b /\ alen e = alen x /\ forall i, (i < alen x)%nat -> e i = 0) /\
  UMC draw order x b a 2 2 (of_list [1]) (of_list [1]) 0 1 [10%nat] (1 / 2) = Ok o /\
  ~ filter_response b a x (uf_y o).
Proof.
  assert (DL : forall c n, length (draw111 c n) = n) by (intros; unfold draw111; rewrite map_length, seq_length; reflexivity).
  assert (DI : forall c n th e u, In (th, e, u) (draw111 c n) -> th = of_list [1] /\ e = of_list [0]).
  { intros c n th e u Hin. apply in_map_iff in Hin. destruct Hin as (i & Ei & _). injection Ei as <- <- <-. auto. }
  destruct (UMC_ok draw111 (fun _ l => l) DL (fun _ l => Permutation_refl l)
    (of_list [3]) (of_list [1]) (of_list [2]) 2 2 (of_list [1]) (of_list [1]) 0 1 [10%nat] (1/2)) as [o Ho];
    try lia; try discriminate; [cbn; lia|lra|].
  exists (of_list [3]), (of_list [1]), (of_list [2]), draw111, (fun _ l => l), o.
  split; [cbn; lra|]. split; [exact DL|]. split; [intros; apply Permutation_refl|]. split.
  { intros c n th e u Hin. destruct (DI _ _ _ _ _ Hin) as [-> ->]. repeat split. intros [|i] Hi; [reflexivity|cbn in Hi; lia]. }
  split; [exact Ho|].
  destruct (C92_umc draw111 (fun _ l => l) (of_list [3]) (of_list [1]) (of_list [2]) 2 2 (of_list [1]) (of_list [1])
    0 1 [10%nat] (1/2) o DL (fun _ l => Permutation_refl l)) as (B & outs & HB & F & E);
    [intros c n th e u Hin; destruct (DI _ _ _ _ _ Hin) as [-> _]; reflexivity|cbn; lia|cbn; lra|exact Ho|].
  assert (B = 1%nat) by lia. subst B. cbn [seq flat_map draw111 map app] in F.
  inversion F as [|? o1 ? l1 D1 F1]; subst. inversion F1 as [|? o2 ? l2 D2 F2]; subst. inversion F2; subst.
  intros [_ G]. specialize (G 0%nat ltac:(cbn; lia)). cbn [alen of_list length rsum Nat.leb aget nth Nat.sub] in G.
  change (uf_y o 0%nat) with (aget (uf_y o) 0%nat) in G. rewrite E in G. unfold avg in G. cbn [map tot length] in G.
  destruct D1 as (w & y & W & Y & _ & O). destruct D2 as (w' & y' & W' & Y' & _ & O').
  destruct (O 0%nat ltac:(cbn; lia)) as (d & Ed & Eo). destruct (O' 0%nat ltac:(cbn; lia)) as (d' & Ed' & Eo').
  rewrite Ed, Ed', Eo, Eo' in G.
  destruct W as [Lw W]. specialize (W 0%nat ltac:(cbn; lia)). cbn in W.
  destruct W' as [Lw' W']. specialize (W' 0%nat ltac:(cbn; lia)). cbn in W'.
  destruct Y as [_ Y]. specialize (Y 0%nat ltac:(rewrite Lw; cbn; lia)). cbn in Y.
  destruct Y' as [_ Y']. specialize (Y' 0%nat ltac:(rewrite Lw'; cbn; lia)). cbn in Y'. cbn [INR] in G. nra.
Qed.
Print Assumptions C111_normalised_partial.
Print Assumptions C111_pulse_partial.
Print Assumptions C111_denominator_refuted.
Print Assumptions C111_UMC_refuted.
