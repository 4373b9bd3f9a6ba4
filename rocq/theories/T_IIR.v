(** Theorems about IIRuncFilter (C16, C113). *)
From Coq Require Import Reals List Arith Bool Lra Lia.
From Verif Require Import Base Sums Stats M_Filter M_IIR S_MC.
Import ListNotations.
Open Scope R_scope.

(** ** C16 (false: every call fails, the name tf2ss does not exist in the module) *)
Theorem C16_iir_returns_refuted : exists x s b a U,
  (1 <= alen x)%nat /\ alen b = alen a /\ a 0%nat = 1 /\
  mrows U = (2 * (alen a - 1) + 1)%nat /\ mcols U = mrows U /\
  IIRuncFilter x (NzFloat s) b a (UabArr U) = Err NameError.
Proof.
  exists (of_list [1; 2; 3]), (1 / 10), (of_list [1; 1 / 2]), (of_list [1; - (1 / 2)]), (mkMat 3 3 (fun _ _ => 0)).
  cbn. repeat split; try lia.
Qed.
Theorem C16_iir_never_returns : forall x noise b a U r, IIRuncFilter x noise b a U <> Ok r.
Proof.
  intros x noise b a U r. unfold IIRuncFilter, IIR_with.
  destruct (alen b =? alen a)%nat; [discriminate|]. destruct (alen a <? alen b)%nat; discriminate.
Qed.

(** ** C113: IIRuncFilter with the missing import supplied *)
(** Full claim: with tf2ss of scipy available, the call returns the filter output and the
    standard uncertainties of the output for an exactly known filter and uncorrelated input
    noise (first conjunct), and for uncertain coefficients (second one).
    No call with an array as covariance returns, whatever the filter. *)
Theorem C113_array_partial : forall x noise b a U r, (1 <= alen x)%nat ->
  IIR_with (Some scipy_tf2ss) x noise b a (UabArr U) <> Ok r.
Proof.
  intros x noise b a U r Hx. unfold IIR_with.
  destruct (alen b =? alen a)%nat; [|destruct (alen a <? alen b)%nat; [discriminate|]]; cbn [bind].
  all: unfold scipy_tf2ss; destruct (alen a =? 0)%nat; [discriminate|]; destruct (alen a =? 1)%nat; cbn [bind];
    destruct (Nat.eqb_spec (alen x) 0); [lia| |lia|]; destruct (alen a - 1)%nat as [|[|q]]; try discriminate;
    destruct (alen (match noise with NzFloat s => _ | NzArr v => v end) =? 0)%nat; discriminate.
Qed.
Theorem C113_array_refuted : exists x noise b a U,
  alen x = 2%nat /\ alen b = alen a /\ a 0%nat = 1 /\ mrows U = 3%nat /\ mcols U = 3%nat /\
  IIR_with (Some scipy_tf2ss) x noise b a (UabArr U) = Err ValueError.
Proof.
  exists (of_list [1; 2]), (NzFloat 1), (of_list [1; 1 / 2]), (of_list [1; - (1 / 2)]), (mkMat 3 3 (fun _ _ => 0)).
  repeat split.
Qed.
(** Orders other than one never return. *)
Theorem C113_order_partial : forall x noise b a U r, (1 <= alen x)%nat -> alen a <> 2%nat ->
  IIR_with (Some scipy_tf2ss) x noise b a U <> Ok r.
Proof.
  intros x noise b a U r Hx Ha. unfold IIR_with.
  destruct (alen b =? alen a)%nat; [|destruct (alen a <? alen b)%nat; [discriminate|]]; cbn [bind].
  all: unfold scipy_tf2ss; destruct (Nat.eqb_spec (alen a) 0); [discriminate|]; destruct (Nat.eqb_spec (alen a) 1); cbn [bind];
    destruct (Nat.eqb_spec (alen x) 0); [lia| |lia|]; destruct (alen a - 1)%nat as [|[|q]] eqn:E; try discriminate; lia.
Qed.
Example C113_order_ex : (1 <= alen (of_list [1%R]))%nat /\ alen (of_list [1%R; 0%R; 1%R]) <> 2%nat.
Proof. cbn. lia. Qed.

Lemma iir1_y_response b a x nz n : alen a = 2%nat -> a 0%nat <> 0 ->
  let al := - (vpad a 1 / vpad a 0) in
  let ga := vpad b 1 / vpad a 0 - vpad b 0 / vpad a 0 * (vpad a 1 / vpad a 0) in
  let y := iir1_y al 1 ga (vpad b 0 / vpad a 0) x nz in
  a 0%nat * y n + (match n with O => 0 | S m => a 1%nat * y m end)
  = vpad b 0 * x n + (match n with O => 0 | S m => vpad b 1 * x m end).
Proof.
  intros Ha H0. cbv zeta. unfold vpad. rewrite Ha. cbn [Nat.ltb Nat.leb].
  destruct n as [|m]; unfold iir1_y; cbn [iir1_state].
  - field. auto.
  - destruct (iir1_state _ _ x nz m) as [[z dz] P]. field. auto.
Qed.

Lemma iir_ok x noise b a U y Uy : (1 <= alen x)%nat ->
  IIR_with (Some scipy_tf2ss) x noise b a U = Ok (y, Uy) ->
  alen a = 2%nat /\ (alen b <= 2)%nat /\
  exists nz M, U = UabMatrix M /\ mrows M = 3%nat /\ mcols M = 3%nat /\ (alen x <= alen nz)%nat /\
    match noise with NzFloat s => forall i, nz i = s | NzArr v => nz = v end /\
    let al := - (vpad a 1 / vpad a 0) in
    let ga := vpad b 1 / vpad a 0 - vpad b 0 / vpad a 0 * (vpad a 1 / vpad a 0) in
    alen y = alen x /\ alen Uy = alen x /\
    (forall n, y n = iir1_y al 1 ga (vpad b 0 / vpad a 0) x nz n) /\
    (forall n, Uy n = sqrt (Rabs (iir1_var al 1 ga (vpad b 0 / vpad a 0) (vpad b 0) (vpad a 1) M x nz n))).
Proof.
  intros Hx E. unfold IIR_with in E.
  set (nz := match noise with NzFloat s => mkArr (alen x) (fun _ => s) | NzArr v => v end) in *.
  set (bb := if (alen b =? alen a)%nat then Ok b else if (alen a <? alen b)%nat then Err ValueError
            else Ok (mkArr (alen a) (fun i => vpad b i))) in *.
  assert (Q : bb = Err ValueError \/ exists b', bb = Ok b' /\ alen b' = alen a /\ (alen b <= alen a)%nat /\
            forall i, vpad b' i = vpad b i).
  { unfold bb. destruct (Nat.eqb_spec (alen b) (alen a)); [right; exists b; repeat split; auto; lia|].
    destruct (Nat.ltb_spec (alen a) (alen b)); [left; reflexivity|]. right. eexists. split; [reflexivity|].
    cbn [alen]. split; [reflexivity|]. split; [lia|]. intros i. unfold vpad at 1. cbn [alen aget].
    destruct (Nat.ltb_spec i (alen a)); [reflexivity|]. unfold vpad. destruct (Nat.ltb_spec i (alen b)); [lia|reflexivity]. }
  destruct Q as [Q|(b' & Q & Hl & Hb & Hv)]; rewrite Q in E; cbn [bind] in E; [discriminate|].
  destruct (Nat.eq_dec (alen a) 2) as [Ha|Ha].
  2:{ exfalso. unfold scipy_tf2ss in E. destruct (Nat.eqb_spec (alen a) 0); [discriminate|].
      destruct (Nat.eqb_spec (alen a) 1); cbn [bind] in E; (destruct (Nat.eqb_spec (alen x) 0); [lia|]);
        destruct (alen a - 1)%nat as [|[|q]] eqn:Ep; try discriminate; lia. }
  split; [exact Ha|]. split; [lia|].
  unfold scipy_tf2ss in E. rewrite Ha in E. cbn [Nat.eqb bind Nat.sub] in E.
  destruct (Nat.eqb_spec (alen x) 0); [lia|].
  destruct (alen nz =? 0)%nat; [discriminate|]. destruct U as [M|M]; [discriminate|].
  destruct (Nat.eqb_spec (mrows M) 3) as [Mr|]; [|discriminate].
  destruct (Nat.eqb_spec (mcols M) 3) as [Mc|]; [|discriminate]. cbn [andb] in E.
  destruct (Nat.ltb_spec (alen nz) (alen x)) as [|Hn]; [discriminate|].
  injection E as <- <-. exists nz, M. repeat (split; [solve [auto]|]).
  split; [unfold nz; destruct noise; reflexivity|]. cbn [alen aget mget].
  split; [reflexivity|]. split; [reflexivity|]. rewrite !Hv.
  split; [reflexivity|]. intros m.
  assert (B0 : b' 0%nat = vpad b 0). { rewrite <- Hv. unfold vpad. rewrite Hl, Ha. reflexivity. }
  assert (A1 : a 1%nat = vpad a 1). { unfold vpad. rewrite Ha. reflexivity. }
  rewrite B0, A1. reflexivity.
Qed.

(** The estimate is right whenever a call returns. *)
Theorem C113_estimate_partial : forall x noise b a U y Uy, (1 <= alen x)%nat -> vpad a 0 <> 0 ->
  IIR_with (Some scipy_tf2ss) x noise b a U = Ok (y, Uy) ->
  filter_response b a x y /\ alen Uy = alen x.
Proof.
  intros x noise b a U y Uy Hx H0 E. apply iir_ok in E; auto. cbv zeta in E.
  destruct E as (Ha & Hb & nz & M & _ & _ & _ & _ & _ & Hy & HU & Ey & _). split; [|exact HU]. split; [exact Hy|].
  intros n Hn.
  assert (A0 : a 0%nat <> 0). { revert H0. unfold vpad. rewrite Ha. auto. }
  pose proof (iir1_y_response b a x nz n Ha A0) as R. cbv zeta in R. rewrite Ha.
  assert (B : rsum (alen b) (fun j => if (j <=? n)%nat then b j * x (n - j)%nat else 0)
              = vpad b 0 * x n + match n with O => 0 | S m => vpad b 1 * x m end).
  { unfold vpad. destruct (alen b) as [|[|[|q]]]; [| | |lia]; cbn [Nat.ltb Nat.leb rsum]; destruct n as [|m];
      cbn [Nat.leb Nat.sub]; rewrite ?Nat.sub_0_r; ring. }
  rewrite B, <- R. cbn [rsum Nat.leb]. rewrite !Ey.
  destruct n as [|m]; cbn [Nat.leb Nat.sub]; rewrite ?Nat.sub_0_r, ?Ey; ring.
Qed.
(** Such calls exist. *)
Example C113_estimate_ex : exists r, (1 <= alen (of_list [1%R; 2%R]))%nat /\ vpad (of_list [2%R; -1]) 0 <> 0 /\
  IIR_with (Some scipy_tf2ss) (of_list [1; 2]) (NzFloat 1) (of_list [1]) (of_list [2; -1]) (UabMatrix (mkMat 3 3 (fun _ _ => 1))) = Ok r.
Proof. eexists. split; [cbn; lia|]. split; [cbn; lra|]. reflexivity. Qed.

(** The variance of the noise is counted once too often: an exactly known filter with
    y[0] = x[0] turns the standard uncertainty 1 of x[0] into sqrt 2. *)
Theorem C113_noise_refuted : exists x b a y Uy,
  IIR_with (Some scipy_tf2ss) x (NzFloat 1) b a (UabMatrix (mkMat 3 3 (fun _ _ => 0))) = Ok (y, Uy) /\
  Uy 0%nat = sqrt 2 /\
  (forall (x' y' : vec), (1 <= alen x')%nat -> filter_response b a x' y' -> y' 0%nat = x' 0%nat).
Proof.
  exists (of_list [1; 1]), (of_list [1; 1]), (of_list [1; 0%R]).
  destruct (IIR_with (Some scipy_tf2ss) (of_list [1; 1]) (NzFloat 1) (of_list [1; 1]) (of_list [1; 0%R])
              (UabMatrix (mkMat 3 3 (fun _ _ => 0)))) as [[y Uy]|] eqn:E; [|discriminate].
  exists y, Uy. split; [reflexivity|]. apply iir_ok in E; [|cbn; lia]. cbv zeta in E.
  destruct E as (_ & _ & nz & M & EM & _ & _ & _ & Hnz & _ & _ & _ & Eu). injection EM as <-.
  split.
  - rewrite Eu. f_equal. unfold iir1_var, iir1_phi. cbn. rewrite !Hnz.
    match goal with |- Rabs ?e = _ => replace e with 2 by field end. apply Rabs_right. lra.
  - intros x' y' Hx [_ F]. specialize (F 0%nat ltac:(lia)). cbn in F. lra.
Qed.

(** The uncertainty of b_0 is ignored: y[0] = b_0 x[0] has the variance u(b_0)^2 x[0]^2. *)
Theorem C113_coefficients_refuted : exists x b a U y Uy,
  IIR_with (Some scipy_tf2ss) x (NzFloat 0) b a (UabMatrix U) = Ok (y, Uy) /\
  (forall i j, U i j = if ((i =? 1) && (j =? 1))%nat then 1 else 0) /\ x 0%nat = 1 /\ Uy 0%nat = 0 /\
  (forall (b' y' : vec), alen b' = alen b -> filter_response b' a x y' -> y' 0%nat = b' 0%nat * x 0%nat).
Proof.
  pose (U := mkMat 3 3 (fun i j => if ((i =? 1) && (j =? 1))%nat then 1 else 0)).
  exists (of_list [1; 1]), (of_list [1; 1]), (of_list [1; 0%R]), U.
  destruct (IIR_with (Some scipy_tf2ss) (of_list [1; 1]) (NzFloat 0) (of_list [1; 1]) (of_list [1; 0%R])
              (UabMatrix U)) as [[y Uy]|] eqn:E; [|discriminate].
  exists y, Uy. split; [reflexivity|]. apply iir_ok in E; [|cbn; lia]. cbv zeta in E.
  destruct E as (_ & _ & nz & M & EM & _ & _ & _ & Hnz & _ & _ & _ & Eu). injection EM as <-.
  split; [reflexivity|]. split; [reflexivity|]. split.
  - rewrite Eu. replace 0 with (sqrt 0) by apply sqrt_0. f_equal. unfold iir1_var, iir1_phi. cbn. rewrite !Hnz.
    match goal with |- Rabs ?e = _ => replace e with 0 by field end. apply Rabs_R0.
  - intros b' y' Hb [_ F]. cbn in Hb. specialize (F 0%nat ltac:(cbn; lia)). rewrite Hb in F. cbn in F. cbn. lra.
Qed.
(** The sensitivity to a_1 is read from an array that has already been updated (line 482
    gives the arrays dz and dz1 one identity): y[1] = b_1 x[0] does not depend on a_1, but the
    standard uncertainty 1 of a_1 is said to make it uncertain. *)
Theorem C113_alias_refuted : exists x b a U y Uy,
  IIR_with (Some scipy_tf2ss) x (NzFloat 0) b a (UabMatrix U) = Ok (y, Uy) /\
  (forall i j, U i j = if ((i =? 0) && (j =? 0))%nat then 1 else 0) /\ Uy 1%nat = 1 /\
  (forall (a' y' : vec), alen a' = 2%nat -> a' 0%nat = 1 -> filter_response b a' x y' -> y' 1%nat = x 0%nat).
Proof.
  pose (U := mkMat 3 3 (fun i j => if ((i =? 0) && (j =? 0))%nat then 1 else 0)).
  exists (of_list [1; 1]), (of_list [0; 1]), (of_list [1; 0%R]), U.
  destruct (IIR_with (Some scipy_tf2ss) (of_list [1; 1]) (NzFloat 0) (of_list [0; 1]) (of_list [1; 0%R])
              (UabMatrix U)) as [[y Uy]|] eqn:E; [|discriminate].
  exists y, Uy. split; [reflexivity|]. apply iir_ok in E; [|cbn; lia]. cbv zeta in E.
  destruct E as (_ & _ & nz & M & EM & _ & _ & _ & Hnz & _ & _ & _ & Eu). injection EM as <-.
  split; [reflexivity|]. split.
  - rewrite Eu. apply eq_trans with (sqrt 1); [|apply sqrt_1]. f_equal. unfold iir1_var, iir1_phi. cbn. rewrite !Hnz.
    match goal with |- Rabs ?e = _ => replace e with 1 by field end. apply Rabs_R1.
  - intros a' y' Ha A0 [_ F]. pose proof (F 0%nat ltac:(cbn; lia)) as F0. pose proof (F 1%nat ltac:(cbn; lia)) as F1.
    rewrite Ha in F0, F1. cbn in F0, F1. rewrite A0 in F0, F1. cbn. assert (y' 0%nat = 0) by lra.
    rewrite H in F1. lra.
Qed.

(** What is reported instead: for an uncertain a_1 the sensitivity of sample n is that of
    sample n+1 (up to a difference of the states z, the input delayed by one sample and
    filtered with 1/a, if there is a direct path b_0). *)
Theorem C113_alias_partial : forall x b0 b1 a1 u U y Uy (Y : R -> vec) (z : vec) n s, (1 <= n)%nat -> (n + 1 < alen x)%nat ->
  IIR_with (Some scipy_tf2ss) x (NzFloat 0) (of_list [b0; b1]) (of_list [1; a1]) (UabMatrix U) = Ok (y, Uy) ->
  (forall i j, U i j = if ((i =? 0) && (j =? 0))%nat then u ^ 2 else 0) ->
  (forall a, filter_response (of_list [b0; b1]) (of_list [1; a]) x (Y a)) ->
  filter_response (of_list [0; 1]) (of_list [1; a1]) x z ->
  derivable_pt_lim (fun a => Y a (n + 1)%nat) a1 s ->
  Uy n = Rabs (u * (s + b0 * (z (n + 1)%nat - z n))).
Proof.
  intros x b0 b1 a1 u U y Uy Y z n s H1 Hn E HU HY Hz D. apply iir_ok in E; [|lia]. cbv zeta in E.
  destruct E as (_ & _ & nz & M & EM & _ & _ & _ & Hnz & _ & _ & _ & Eu). injection EM as <-.
  rewrite Eu. clear Eu y Uy.
  set (st := iir1_state (- a1) 1 x nz).
  set (dz := fun k => snd (fst (st k))). set (zz := fun k => fst (fst (st k))).
  set (ga := b1 - b0 * a1).
  assert (Z : forall k, zz (S k) = - a1 * zz k + x k).
  { intros k. unfold zz, st. cbn [iir1_state]. destruct (iir1_state _ _ _ _ k) as [[? ?] ?]. cbn. ring. }
  assert (DZ : forall k, dz (S k) = - a1 * dz k - zz k).
  { intros k. unfold dz, zz, st. cbn [iir1_state]. destruct (iir1_state _ _ _ _ k) as [[? ?] ?]. cbn. ring. }
  assert (PZ : forall k, snd (st k) = 0).
  { induction k; unfold st; cbn [iir1_state]; [reflexivity|]. fold (st k). destruct (st k) as [[? ?] P]. cbn in *.
    rewrite Hnz, IHk. ring. }
  assert (ZZ : forall k, (k < alen x)%nat -> z k = zz k).
  { induction k; intros Hk; destruct Hz as [_ F]; specialize (F _ Hk); cbn in F.
    - unfold zz. cbn. lra.
    - rewrite ?Nat.sub_0_r in F. rewrite IHk in F by lia. rewrite Z. lra. }
  assert (Y0 : forall a, Y a 0%nat = b0 * x 0%nat).
  { intros a. destruct (HY a) as [_ F]. specialize (F 0%nat ltac:(lia)). cbn in F. lra. }
  assert (YS : forall a k, (S k < alen x)%nat -> Y a (S k) = - a * Y a k + (b0 * x (S k) + b1 * x k)).
  { intros a k Hk. destruct (HY a) as [_ F]. specialize (F (S k) Hk). cbn in F. rewrite ?Nat.sub_0_r in F. lra. }
  assert (W : forall k, (k < alen x)%nat -> Y a1 k = ga * zz k + b0 * x k /\
            derivable_pt_lim (fun a => Y a k) a1 (ga * dz k - b0 * zz k)).
  { induction k; intros Hk.
    - split; [rewrite Y0; unfold zz; cbn; ring|].
      replace (ga * dz 0%nat - b0 * zz 0%nat) with 0 by (unfold dz, zz; cbn; ring).
      apply (derivable_pt_lim_ext (fun _ => b0 * x 0%nat)); [intros; rewrite Y0; reflexivity|]. apply derivable_pt_lim_const.
    - destruct (IHk ltac:(lia)) as [I1 I2]. split; [rewrite YS, I1, Z by auto; unfold ga; ring|].
      apply (derivable_pt_lim_ext (fun a => (- id a)%R * Y a k + (b0 * x (S k) + b1 * x k))).
      { intros a. rewrite (YS a k Hk). reflexivity. }
      replace (ga * dz (S k) - b0 * zz (S k)) with (((- (1)) * Y a1 k + (- id a1) * (ga * dz k - b0 * zz k)) + 0)
        by (rewrite DZ, Z, I1; unfold id; ring).
      apply (derivable_pt_lim_plus (fun a => - id a * Y a k) (fun _ => b0 * x (S k) + b1 * x k)); [|apply derivable_pt_lim_const].
      apply (derivable_pt_lim_mult (fun a => - id a) (fun a => Y a k)); [|exact I2].
      apply (derivable_pt_lim_opp id). apply derivable_pt_lim_id. }
  destruct (W (n + 1)%nat Hn) as [_ D'].
  rewrite (uniqueness_limite _ _ _ _ D D'). rewrite !ZZ by lia. rewrite Nat.add_1_r, DZ.
  match goal with |- sqrt (Rabs ?e) = Rabs ?r => replace e with (r ^ 2) end.
  - rewrite <- RPow_abs. match goal with |- sqrt ?e = Rabs ?r => replace e with (Rsqr (Rabs r)) by (unfold Rsqr; ring) end.
    apply sqrt_Rsqr, Rabs_pos.
  - unfold iir1_var, iir1_phi. cbn [rsum]. rewrite !HU. cbn [Nat.eqb andb].
    replace (- (vpad (of_list [1; a1]) 1 / vpad (of_list [1; a1]) 0)) with (- a1) by (cbn; field).
    replace (vpad (of_list [b0; b1]) 0) with b0 by (cbn; reflexivity).
    replace (vpad (of_list [b0; b1]) 1) with b1 by (cbn; reflexivity).
    replace (vpad (of_list [1; a1]) 0) with 1 by (cbn; reflexivity).
    replace (vpad (of_list [1; a1]) 1) with a1 by (cbn; reflexivity).
    fold st. pose proof (PZ (S n)) as P1. pose proof (Hnz n) as N0. fold (st n). fold (st (S n)).
    unfold dz, zz. destruct (st (S n)) as [[? ?] P]. cbn in P1. rewrite P1, N0. destruct (st n) as [[z0 d] ?]. cbn [fst snd].
    destruct n; [lia|]. unfold ga. field.
Qed.
Example C113_alias_ex : exists r, (1 <= 1)%nat /\ (1 + 1 < alen (of_list [1%R; 2%R; 3%R]))%nat /\
  IIR_with (Some scipy_tf2ss) (of_list [1; 2; 3]) (NzFloat 0) (of_list [0; 1]) (of_list [1; 0%R])
    (UabMatrix (mkMat 3 3 (fun i j => if ((i =? 0) && (j =? 0))%nat then 1 ^ 2 else 0))) = Ok r /\
  (forall a, filter_response (of_list [0; 1]) (of_list [1; a]) (of_list [1; 2; 3]) (of_list [0; 1; 2 - a])) /\
  derivable_pt_lim (fun a => of_list [0; 1; 2 - a] (1 + 1)%nat) 0 (-1).
Proof.
  eexists. split; [lia|]. split; [cbn; lia|]. split; [reflexivity|]. split.
  - intros a. split; [reflexivity|]. intros n Hn. cbn in Hn. destruct n as [|[|[|n]]]; [| | |lia]; cbn; ring.
  - cbn. apply (derivable_pt_lim_ext (fun a => 2 - id a)); [reflexivity|]. replace (-1) with (0 - 1) by ring.
    apply (derivable_pt_lim_minus (fun _ => 2) id); [apply derivable_pt_lim_const|apply derivable_pt_lim_id].
Qed.

(** An exactly known filter: the direct path is counted as it should be, all other samples
    enter with the impulse response h read one sample too late; the variance of y[n] is
    sum_k h[k]^2 u(x[n-k])^2. *)
Theorem C113_noise_partial : forall x v b0 b1 a1 y Uy (h d : vec) n, (n + 1 < alen h)%nat -> (n < alen x)%nat ->
  IIR_with (Some scipy_tf2ss) x (NzArr v) (of_list [b0; b1]) (of_list [1; a1]) (UabMatrix (mkMat 3 3 (fun _ _ => 0))) = Ok (y, Uy) ->
  alen d = alen h -> (forall k, d k = match k with O => 1 | _ => 0 end) ->
  filter_response (of_list [b0; b1]) (of_list [1; a1]) d h ->
  Uy n = sqrt (h 0%nat ^ 2 * v n ^ 2 + rsum (S n) (fun k => h (S k) ^ 2 * v (n - k)%nat ^ 2)).
Proof.
  intros x v b0 b1 a1 y Uy h d n Hh Hn E Ld Hd [_ F]. rewrite Ld in F. apply iir_ok in E; [|lia]. cbv zeta in E.
  destruct E as (_ & _ & nz & M & EM & _ & _ & _ & Hnz & _ & _ & _ & Eu). injection EM as <-. subst nz.
  rewrite Eu. clear Eu y Uy. 
  assert (h0 : h 0%nat = b0). { specialize (F 0%nat ltac:(lia)). cbn in F. rewrite Hd in F. lra. }
  assert (hs : forall k, (k <= n)%nat -> h (S k) = (b1 - b0 * a1) * (- a1) ^ k).
  { induction k; intros Hk.
    - specialize (F 1%nat ltac:(lia)). cbn in F. rewrite !Hd, h0 in F. cbn. lra.
    - specialize (F (S (S k)) ltac:(lia)). cbn in F. rewrite !Hd, ?Nat.sub_0_r in F. rewrite IHk in F by lia. cbn [pow]. lra. }
  set (ga := b1 - b0 * a1) in *.
  assert (P : forall m, snd (iir1_state (- a1) 1 x v (S m)) = rsum (S m) (fun k => ((- a1) ^ k) ^ 2 * v (m - k)%nat ^ 2)).
  { induction m.
    - cbn. ring.
    - rewrite rsum_S_l. change (iir1_state (- a1) 1 x v (S (S m))) with
        (let '(z, dz, P) := iir1_state (- a1) 1 x v (S m) in
         (- a1 * z + 1 * x (S m), - a1 * dz + - (1) * z, - a1 * P * - a1 + v (S m) ^ 2 * (1 * 1))).
      destruct (iir1_state (- a1) 1 x v (S m)) as [[z dz] P]. cbn [snd] in *. rewrite IHm.
      rewrite (rsum_ext (S m) (fun i => ((- a1) ^ S i) ^ 2 * v (S m - S i)%nat ^ 2)
                 (fun i => a1 ^ 2 * (((- a1) ^ i) ^ 2 * v (m - i)%nat ^ 2))).
      2:{ intros i _. cbn [pow Nat.sub]. ring. }
      rewrite rsum_scal. set (q := rsum (S m) _). cbn [pow Nat.sub]. ring. }
  f_equal. unfold iir1_var.
  replace (- (vpad (of_list [1; a1]) 1 / vpad (of_list [1; a1]) 0)) with (- a1) by (cbn; field).
  replace (vpad (of_list [b0; b1]) 1 / vpad (of_list [1; a1]) 0 -
     vpad (of_list [b0; b1]) 0 / vpad (of_list [1; a1]) 0 * (vpad (of_list [1; a1]) 1 / vpad (of_list [1; a1]) 0))
    with ga by (unfold ga; cbn; field).
  replace (vpad (of_list [b0; b1]) 0) with b0 by reflexivity.
  specialize (P n). destruct (iir1_state (- a1) 1 x v (S n)) as [[z dz] Q]. cbn [snd] in P. rewrite P.
  cbn [mget]. rewrite (rsum_zero 3).
  2:{ intros i _. apply rsum_zero. intros j _. ring. }
  rewrite (rsum_ext (S n) (fun k => h (S k) ^ 2 * v (n - k)%nat ^ 2) (fun k => ga ^ 2 * (((- a1) ^ k) ^ 2 * v (n - k)%nat ^ 2))).
  2:{ intros k Hk. rewrite hs by lia. ring. }
  rewrite rsum_scal, h0.
  assert (N : 0 <= rsum (S n) (fun k => ((- a1) ^ k) ^ 2 * v (n - k)%nat ^ 2)).
  { apply rsum_nonneg. intros k _. apply Rmult_le_pos; apply pow2_ge_0. }
  set (q := rsum (S n) _) in *. rewrite Rabs_right.
  - ring.
  - pose proof (pow2_ge_0 ga). pose proof (pow2_ge_0 b0). pose proof (pow2_ge_0 (v n)).
    replace (0 + ga * q * ga + b0 ^ 2 * v n ^ 2) with (ga ^ 2 * q + b0 ^ 2 * v n ^ 2) by ring.
    apply Rle_ge. apply Rplus_le_le_0_compat; apply Rmult_le_pos; auto.
Qed.
Example C113_noise_ex : exists r, (1 + 1 < alen (of_list [1%R; 2%R; 1%R]))%nat /\ (1 < alen (of_list [1%R; 2%R]))%nat /\
  IIR_with (Some scipy_tf2ss) (of_list [1; 2]) (NzArr (of_list [1; 3])) (of_list [1; 1]) (of_list [1; -1])
    (UabMatrix (mkMat 3 3 (fun _ _ => 0))) = Ok r /\
  filter_response (of_list [1; 1]) (of_list [1; -1]) (mkArr 3 (fun k => match k with O => 1 | _ => 0 end)) (of_list [1; 2; 2]).
Proof.
  eexists. split; [cbn; lia|]. split; [cbn; lia|]. split; [reflexivity|].
  split; [reflexivity|]. intros n Hn. cbn in Hn. destruct n as [|[|[|n]]]; [| | |lia]; cbn; ring.
Qed.
Print Assumptions C16_iir_returns_refuted.
Print Assumptions C16_iir_never_returns.
Print Assumptions C113_array_partial.
Print Assumptions C113_array_refuted.
Print Assumptions C113_order_partial.
Print Assumptions C113_estimate_partial.
Print Assumptions C113_noise_refuted.
Print Assumptions C113_coefficients_refuted.
Print Assumptions C113_alias_refuted.
Print Assumptions C113_alias_partial.
Print Assumptions C113_noise_partial.
