(** Regridding equidistant data (C142); Monte Carlo and the closed formula agree for FIR
    filters past the transient (C143). *)
From Coq Require Import String.
From Coq Require Import Reals List Arith ZArith Bool Lra Lia Permutation Sorted.
From Verif Require Import Base Sums Stats StatsFacts M_Filter S_Filter P_Filter P_Filter2 M_Interp S_Interp
  P_Interp P_Interp2 T_Interp M_MC S_MC S_MC2 S_Rand P_MC P_MC2 P_MC3 P_MC4 P_Rand P_Conv T_MC T_MC2 T_MC3 T_MC4.
Import ListNotations.
Open Scope R_scope.
Local Notation length := Datatypes.length.

(** ** C142: data that are equidistant already *)
(** n samples at T0, T0+dt, ... *)
Definition spaced (n : nat) (T0 dt : R) (t : vec) : Prop :=
  alen t = n /\ forall k, (k < n)%nat -> t k = T0 + INR k * dt.
Lemma spaced_increasing n T0 dt t : 0 < dt -> spaced n T0 dt t -> increasing n t.
Proof.
  intros Hd [_ H] i j Hij Hj. rewrite !H by lia. apply lt_INR in Hij. nra.
Qed.

(** Full statement: make_equidistant t y uy dt kd returns t, y and uy.  Missing: the last
    sample, which is never returned (C142_unchanged_refuted). *)
Theorem C142_all_but_last_partial : forall t y uy dt kd n T0,
  spaced n T0 dt t -> (2 <= n)%nat -> 0 < dt -> alen y = n -> alen uy = n -> kd <> KOther ->
  (forall i, (i < n)%nat -> 0 <= uy i) ->
  exists o, make_equidistant t y uy dt kd = Ok o /\
    alen (io_t o) = (n - 1)%nat /\
    forall k, (k < n - 1)%nat -> io_t o k = t k /\ io_y o k = Some (y k) /\ io_u o k = Some (uy k).
Proof.
  intros t y uy dt kd n T0 Hs H2 Hd Hy Hu Hkd Hp.
  pose proof (spaced_increasing n T0 dt t Hd Hs) as Hinc. destruct Hs as [Hn Ht].
  destruct (C47_equidistant t y uy dt kd n Hn H2 Hinc Hy Hu Hkd Hd) as (o & E & L1 & Et & Elt & Elast & EI).
  exists o. split; [exact E|].
  assert (L : alen (io_t o) = (n - 1)%nat).
  { assert (A : (alen (io_t o) < S (n - 1))%nat).
    { apply INR_lt. rewrite S_INR. specialize (Elt (alen (io_t o) - 1)%nat ltac:(lia)).
      rewrite Et in Elt by lia. rewrite !Ht in Elt by lia. rewrite minus_INR in Elt by lia.
      change (INR 0) with 0 in Elt. cbn [INR] in Elt.
      assert (INR (alen (io_t o)) - 1 < INR (n - 1)) by nra. lra. }
    assert (B : (n - 1 <= alen (io_t o))%nat).
    { apply INR_le. rewrite Et in Elast by lia. rewrite !Ht in Elast by lia.
      rewrite (minus_INR (alen (io_t o))) in Elast by lia. change (INR 0) with 0 in Elast. cbn [INR] in Elast. nra. }
    lia. }
  split; [exact L|]. intros k Hk.
  assert (Etk : io_t o k = t k).
  { rewrite Et by lia. rewrite !Ht by lia. change (INR 0) with 0. ring. }
  split; [exact Etk|].
  assert (Kd : kd = KLinear \/ kd = KPrevious \/ kd = KNext \/ kd = KNearest) by (destruct kd; auto; congruence).
  destruct Kd as [->|Kd].
  - exact (C42_linear_at_node _ _ _ _ _ _ _ _ _ n k k Hn H2 Hinc EI ltac:(lia) ltac:(lia) Etk (Hp k ltac:(lia))).
  - destruct (C42_lookup_kinds _ _ _ _ _ _ _ _ _ _ n k Kd Hn Hinc EI ltac:(lia)) as (i & Hi & Hr & Yi & Ui).
    { rewrite Etk. split; apply (increasing_le n t); auto; lia. }
    rewrite Etk in Hr.
    assert (Eik : t i = t k).
    { destruct Kd as [->|[->| ->]]; cbn [right_node] in Hr.
      - destruct Hr as [A B]. specialize (B k ltac:(lia) (Rle_refl _)). lra.
      - destruct Hr as [A B]. specialize (B k ltac:(lia) (Rle_refl _)). lra.
      - specialize (Hr k ltac:(lia)). rewrite Rminus_diag_eq with (r1 := t k) in Hr by reflexivity.
        rewrite Rabs_R0 in Hr. pose proof (Rabs_pos (t i - t k)) as P.
        destruct (Req_dec (t i - t k) 0) as [Z|Z]; [lra|]. apply Rabs_pos_lt in Z. lra. }
    assert (i = k).
    { destruct (lt_eq_lt_dec i k) as [[C|C]|C]; [|exact C|].
      - assert (t i < t k) by (apply Hinc; lia). lra.
      - assert (t k < t i) by (apply Hinc; lia). lra. }
    subst i. split; assumption.
Qed.
(** In exact arithmetic the sample at the end of the time axis is lost. *)
Theorem C142_unchanged_refuted : exists t y uy dt kd n T0 o,
  spaced n T0 dt t /\ (2 <= n)%nat /\ 0 < dt /\ alen y = n /\ alen uy = n /\
  make_equidistant t y uy dt kd = Ok o /\ alen (io_t o) <> n.
Proof.
  destruct (C142_all_but_last_partial (of_list [5; 6; 7]) (of_list [1; 2; 4]) (of_list [1; 1; 2]) 1 KLinear 3 5)
    as (o & E & L & _); cbn; auto; try lia; try lra; try discriminate.
  - split; [reflexivity|]. intros [|[|[|k]]] Hk; cbn; try lra. lia.
  - intros [|[|[|k]]] Hk; cbn in Hk |- *; try lra; lia.
  - exists (of_list [5; 6; 7]), (of_list [1; 2; 4]), (of_list [1; 1; 2]), 1, KLinear, 3%nat, 5, o.
    repeat split; auto; try lia; try lra.
    intros [|[|[|k]]] Hk; cbn; try lra. lia.
Qed.
Example C142_example : exists o,
  make_equidistant (of_list [5; 6; 7]) (of_list [1; 2; 4]) (of_list [1; 1; 2]) 1 KNearest = Ok o /\
  alen (io_t o) = 2%nat /\ io_t o 1%nat = 6 /\ io_y o 1%nat = Some 2 /\ io_u o 1%nat = Some 1.
Proof.
  destruct (C142_all_but_last_partial (of_list [5; 6; 7]) (of_list [1; 2; 4]) (of_list [1; 1; 2]) 1 KNearest 3 5)
    as (o & E & L & F); cbn; auto; try lia; try lra; try discriminate.
  - split; [reflexivity|]. intros [|[|[|k]]] Hk; cbn; try lra. lia.
  - intros [|[|[|k]]] Hk; cbn in Hk |- *; try lra; lia.
  - exists o. split; [exact E|]. split; [exact L|]. exact (F 1%nat ltac:(cbn; lia)).
Qed.
Print Assumptions C142_all_but_last_partial.
Print Assumptions C142_unchanged_refuted.

(** ** C143: MC and FIRuncFilter report the same mean and covariance *)
(** z: the values drawn for the signal.  Standard: mean zero, covariance the identity. *)
Definition standard (n : nat) (dz : dist vec) : Prop :=
  forall i j, (i < n)%nat -> (j < n)%nat ->
    Ex dz (fun z => z i) = 0 /\ Cov dz (fun z => z i) (fun z => z j) = if (i =? j)%nat then 1 else 0.
(** Both functions are told the same uncertainty of the signal y and the draws z follow it. *)
Definition same_signal (y : vec) (Ux : mcunc) (sn : M_Filter.noise) (kind : string) (dz : dist vec) : Prop :=
  match Ux, sn with
  | McFloat s, NsFloat s' => s' = s /\ standard (alen y) dz
  | McVec v, NsVec v' => v' = v /\ alen v = alen y /\ kind = "diag"%string /\ standard (alen y) dz
  | McMat m, NsMat m' => m' = m /\ mrows m = alen y /\ mcols m = alen y /\
      forall i j, (i < alen y)%nat -> (j < alen y)%nat ->
        Ex dz (fun z => z i) = y i /\ Cov dz (fun z => z i) (fun z => z j) = m i j
  | _, _ => False
  end.
(** The draws of the coefficients follow b and Ub. *)
Definition same_filter (b : vec) (Ub : mat) (dt : dist vec) : Prop :=
  forall i j, (i < alen b)%nat -> (j < alen b)%nat ->
    Ex dt (fun t => t i) = b i /\ Cov dt (fun t => t i) (fun t => t j) = Ub i j.

(** The simulated signal as a sequence, its mean and covariance. *)
Definition sim (y : vec) (Ux : mcunc) (z : vec) (i : nat) : R :=
  match Ux with McFloat s => y i + s * z i | McVec v => y i + v i * z i | _ => z i end.
Lemma Ex_affine {A} (d : dist A) c e (u : A -> R) : is_prob d ->
  Ex d (fun a => c + e * u a) = c + e * Ex d u.
Proof. intros Hp. rewrite (Ex_plus d (fun _ => c)), Ex_scal, Ex_const by exact Hp. reflexivity. Qed.
Lemma Cov_affine {A} (d : dist A) c e f g (u v : A -> R) : is_prob d ->
  Cov d (fun a => c + e * u a) (fun a => f + g * v a) = e * g * Cov d u v.
Proof.
  intros Hp. unfold Cov. rewrite (Ex_affine d c e u Hp), (Ex_affine d f g v Hp).
  rewrite <- (Ex_scal d (e * g)). apply Ex_ext. intros a. ring.
Qed.
Lemma sim_moments y Ux sn kind dz : is_prob dz -> same_signal y Ux sn kind dz ->
  noise_fits (alen y) sn kind /\ fits (alen y) Ux /\
  forall i j, (i < alen y)%nat -> (j < alen y)%nat ->
    Ex dz (fun z => sim y Ux z i) = y i /\
    Cov dz (fun z => sim y Ux z i) (fun z => sim y Ux z j) = sig_cov sn kind i j.
Proof.
  intros Hp H. destruct Ux as [s|v|m|], sn as [|s'|v'|m'| |]; cbn in H; try contradiction.
  - destruct H as [-> H]. split; [exact I|]. split; [exact I|]. intros i j Hi Hj. destruct (H i j Hi Hj) as [A B].
    cbn [sim sig_cov]. split.
    + rewrite Ex_affine, A by exact Hp. ring.
    + rewrite Cov_affine by exact Hp. rewrite B. destruct (i =? j)%nat; ring.
  - destruct H as (-> & Hl & -> & H). split; [left; auto|]. split; [exact Hl|]. intros i j Hi Hj.
    destruct (H i j Hi Hj) as [A B]. cbn [sim sig_cov]. split.
    + rewrite Ex_affine, A by exact Hp. ring.
    + rewrite Cov_affine by exact Hp. rewrite B. cbn [String.eqb]. 
      destruct (Nat.eqb_spec i j) as [->|]; cbn; ring.
  - destruct H as (-> & Hr & Hc & H). split; [split; assumption|]. split; [split; assumption|]. exact H.
Qed.

Lemma shifted_zero n i : (i < n)%nat -> shifted_from n 0 i = i.
Proof. intros Hi. unfold shifted_from. rewrite Z.sub_0_r, Z.mod_small by lia. apply Nat2Z.id. Qed.

(** The response of the drawn FIR filter. *)
Definition fir_resp (y : vec) (Ux : mcunc) (N : nat) (q : vec * vec) : vec :=
  mkArr (alen y) (fun i => rsum N (fun k => if (k <=? i)%nat then fst q k * sim y Ux (snd q) (i - k)%nat else 0)).
Lemma fir_run_response y Ux b q : fits (alen y) Ux ->
  run_response y Ux (of_list [1]) b None None q (fir_resp y Ux (alen b) q).
Proof.
  intros Hf. exists (mkArr (alen y) (sim y Ux (snd q))), (mkArr (alen y) (sim y Ux (snd q))).
  split; [|split; [reflexivity|]].
  - split; [reflexivity|]. destruct Ux; cbn in Hf |- *; auto. destruct Hf; auto.
  - split; [reflexivity|]. intros n Hn. cbn. rewrite Nat.sub_0_r. rewrite Rplus_0_l, Rmult_1_l.
    apply rsum_ext. intros k Hk. reflexivity.
Qed.

(** Full statement: at every sample MC and FIRuncFilter have the same mean and covariance.
    Missing: the transient, the first alen b - 1 samples (C143_transient_refuted). *)
Theorem C143_past_transient_partial : forall stable min_eig ydt tdt y Ux sn kind b Ub runs
    (D : dist (nat -> vec * vec)) (dt dz : dist vec),
  iid 0 runs D (indep dt dz) -> is_prob dt -> is_prob dz ->
  same_signal y Ux sn kind dz -> same_filter b Ub dt -> proper min_eig (alen y) Ux ->
  mrows Ub = alen b -> mcols Ub = alen b ->
  (forall p w, In (p, w) D -> forall k, alen (fst (w k)) = alen b /\ alen (snd (w k)) = alen y /\
     stable (drawn_b 1 (alen b) (fst (w k))) (drawn_a 1 (fst (w k))) = true) ->
  (2 <= runs)%nat -> (2 <= alen y)%nat -> (2 <= alen b)%nat ->
  exists x U (m : (nat -> vec * vec) -> vec) (V : (nat -> vec * vec) -> mat),
    FIRuncFilter ydt tdt y sn b (UtMat Ub) 0 None kind true = Ok (x, FullU U) /\
    (forall p w, In (p, w) D ->
       MC stable min_eig y Ux b (of_list [1]) Ub runs None None false 0 (fun k => fst (w k)) (fun k => snd (w k))
       = Ok (McMoments (Some (m w)) (CovMat (V w)))) /\
    forall i j, (alen b - 1 <= i < alen y)%nat -> (alen b - 1 <= j < alen y)%nat ->
      Ex D (fun w => m w i) = x i /\ Ex D (fun w => V w i j) = U i j.
Proof.
  intros stable min_eig ydt tdt y Ux sn kind b Ub runs D dt dz HI Pt Pz Hs Hb Hp R1 R2 HD Hr Hy HN.
  destruct (sim_moments y Ux sn kind dz Pz Hs) as (Nf & Ff & Mom).
  destruct (FIR_general ydt tdt y sn b (UtMat Ub) kind (alen y) (alen b)) as (x & U & E & _ & _ & _ & Ex0 & EU);
    auto; try lia; [cbn; auto|].
  destruct (C137_unbiased stable min_eig y Ux b (of_list [1]) Ub runs None None 0 D (indep dt dz)
    (fir_resp y Ux (alen b)) HI Ff Hp ltac:(cbn; lia) I) as (m & V & EM & F); try assumption.
  { intros p w Hw k. destruct (HD p w Hw k) as (A & B & C). repeat (split; [assumption|]).
    apply fir_run_response. exact Ff. }
  exists x, U, m, V. split; [exact E|]. split; [exact EM|].
  set (N := alen b) in *. set (n := alen y) in *.
  set (dx := map_dist (sim y Ux) dz).
  set (dth := map_dist (@aget R) dt).
  assert (Mx : has_mean n dx y) by (intros i Hi; unfold dx; rewrite Ex_map; apply (Mom i i Hi Hi)).
  assert (Cx : has_cov n dx (sig_cov sn kind)).
  { intros i j Hi Hj. unfold dx. rewrite Cov_map. apply (Mom i j Hi Hj). }
  assert (Mt : has_mean N dth b) by (intros i Hi; unfold dth; rewrite Ex_map; apply (Hb i i Hi Hi)).
  assert (Ct : has_cov N dth (coeff_cov (UtMat Ub))).
  { intros i j Hi Hj. unfold dth. rewrite Cov_map. apply (Hb i j Hi Hj). }
  assert (Px : is_prob dx) by (apply is_prob_map; exact Pz).
  assert (Pth : is_prob dth) by (apply is_prob_map; exact Pt).
  (* the response past the transient as linear combination *)
  assert (Lin : forall (h : (vec * vec -> R)) (g : (nat -> R) * (nat -> R) -> R),
     (forall t z, h (t, z) = g (sim y Ux z, aget t)) -> Ex (indep dt dz) h = Ex (indep dx dth) g).
  { intros h g Hg. rewrite (Ex_pair_swap dt dz), !Ex_indep. unfold dx. rewrite Ex_map. apply Ex_ext. intros z.
    unfold dth. rewrite Ex_map. apply Ex_ext. intros t. apply Hg. }
  assert (Resp : forall i t z, (N - 1 <= i < n)%nat ->
     fir_resp y Ux N (t, z) i = rsum N (fun k => t k * sim y Ux z (i - k)%nat)).
  { intros i t z Hi. cbn [fir_resp aget fst snd]. apply rsum_ext. intros k Hk.
    destruct (Nat.leb_spec k i); [reflexivity|lia]. }
  assert (LC : forall i, Ex (indep dt dz) (fun q => fir_resp y Ux N q i) = 
     Ex (indep dx dth) (fun o => rsum N (fun k => if (k <=? i)%nat then snd o k * fst o (i - k)%nat else 0))).
  { intros i. apply Lin. reflexivity. }
  intros i j Hi Hj. destruct (F i ltac:(lia)) as [Fm FU]. specialize (FU j ltac:(lia)).
  rewrite shifted_zero in Fm, FU by lia. rewrite (shifted_zero _ j) in FU by lia.
  set (ri := fun o : (nat -> R) * (nat -> R) => rsum N (fun k => snd o k * fst o (i - k)%nat)).
  set (rj := fun o : (nat -> R) * (nat -> R) => rsum N (fun k => snd o k * fst o (j - k)%nat)).
  assert (Ei : Ex (indep dt dz) (fun q => fir_resp y Ux N q i) = Ex (indep dx dth) ri)
    by (apply Lin; intros t z; apply Resp; lia).
  assert (Ej : Ex (indep dt dz) (fun q => fir_resp y Ux N q j) = Ex (indep dx dth) rj)
    by (apply Lin; intros t z; apply Resp; lia).
  rewrite Fm, FU. split.
  - rewrite Ei, Ex0 by lia.
    pose proof (bilinear_mean n N dx dth y b Mx Mt (fun k => (i - k)%nat) ltac:(intros; cbv beta; lia)) as BM.
    unfold lin_comb in BM. unfold ri. rewrite BM. unfold fir_value. fold N. apply rsum_ext. intros k Hk.
    destruct (Nat.leb_spec k i); [reflexivity|lia].
  - assert (EC : Cov (indep dt dz) (fun q => fir_resp y Ux N q i) (fun q => fir_resp y Ux N q j)
      = Cov (indep dx dth) ri rj).
    { unfold Cov. rewrite Ei, Ej. apply Lin. intros t z. rewrite !Resp by lia. reflexivity. }
    rewrite EC, EU by lia.
    pose proof (bilinear_cov n N dx dth y b (sig_cov sn kind) (coeff_cov (UtMat Ub)) Px Pth Mx Mt Cx Ct
      (fun k => (i - k)%nat) (fun k => (j - k)%nat) ltac:(intros; cbv beta; lia) ltac:(intros; cbv beta; lia)) as BC.
    unfold lin_comb in BC. unfold ri, rj. rewrite BC. unfold gen_cov.
    apply rsum_ext. intros k Hk. apply rsum_ext. intros l Hl.
    assert (Sy : coeff_cov (UtMat Ub) l k = coeff_cov (UtMat Ub) k l) by (rewrite <- !Ct by lia; apply Cov_sym).
    rewrite Sy. unfold stat_cont, continued.
    destruct (Nat.leb_spec (N - 1) (i + (N - 1) - k)); [|lia].
    destruct (Nat.leb_spec (N - 1) (j + (N - 1) - l)); [|lia].
    destruct (Nat.ltb_spec (i + (N - 1) - k) (N - 1)); [lia|].
    destruct (Nat.ltb_spec (j + (N - 1) - l) (N - 1)); [lia|]. cbn [andb].
    replace (i + (N - 1) - k - (N - 1))%nat with (i - k)%nat by lia.
    replace (j + (N - 1) - l - (N - 1))%nat with (j - l)%nat by lia. reflexivity.
Qed.
(** First coefficient 0 or 2, second one certain; four possible errors of the two samples. *)
Definition coin143t : dist vec := [(1/2, of_list [0; 1]); (1/2, of_list [2; 1])].
Definition coin143z : dist vec :=
  [(1/4, of_list [1; 1]); (1/4, of_list [1; -1]); (1/4, of_list [-1; 1]); (1/4, of_list [-1; -1])].
Definition start143 : vec * vec := (of_list [0; 1], of_list [1; 1]).
Definition runs143 : dist (nat -> vec * vec) := repeated start143 (indep coin143t coin143z) 2.
Lemma prob143t : is_prob coin143t.
Proof. split; [|cbn; lra]. intros p q [E|[E|[]]]; injection E as <- _; lra. Qed.
Lemma prob143z : is_prob coin143z.
Proof. split; [|cbn; lra]. intros p q [E|[E|[E|[E|[]]]]]; injection E as <- _; lra. Qed.
Lemma iid143 : iid 0 2 runs143 (indep coin143t coin143z).
Proof. apply repeated_iid. apply indep_prob; [exact prob143t|exact prob143z]. Qed.
Lemma signal143 : same_signal (of_list [1; 2]) (McFloat 1) (NsFloat 1) "diag" coin143z.
Proof.
  split; [reflexivity|]. intros [|[|i]] [|[|j]] Hi Hj; cbn in Hi, Hj; try lia; unfold Cov; cbn; split; lra.
Qed.
Lemma filter143 : same_filter (of_list [1; 1]) (of_rows [[1; 0]; [0; 0]]) coin143t.
Proof.
  intros [|[|i]] [|[|j]] Hi Hj; cbn in Hi, Hj; try lia; unfold Cov; cbn; split; lra.
Qed.
Lemma draws143 : forall p w, In (p, w) runs143 -> forall k,
  alen (fst (w k)) = 2%nat /\ alen (snd (w k)) = 2%nat.
Proof.
  intros p w Hw k.
  apply (repeated_in (fun q : vec * vec => alen (fst q) = 2%nat /\ alen (snd q) = 2%nat) start143 (indep coin143t coin143z) 2)
    with (p := p); [split; reflexivity| |exact Hw].
  intros p' q Hin. cbn in Hin. repeat (destruct Hin as [X|Hin]; [injection X as _ <-; split; reflexivity|]). contradiction.
Qed.
Example C143_example : exists x U (m : (nat -> vec * vec) -> vec) (V : (nat -> vec * vec) -> mat),
  FIRuncFilter DFloat DFloat (of_list [1; 2]) (NsFloat 1) (of_list [1; 1]) (UtMat (of_rows [[1; 0]; [0; 0]])) 0 None "diag" true
    = Ok (x, FullU U) /\
  (forall p w, In (p, w) runs143 ->
     MC (fun _ _ => true) (fun _ => 1) (of_list [1; 2]) (McFloat 1) (of_list [1; 1]) (of_list [1]) (of_rows [[1; 0]; [0; 0]])
       2 None None false 0 (fun k => fst (w k)) (fun k => snd (w k)) = Ok (McMoments (Some (m w)) (CovMat (V w)))) /\
  Ex runs143 (fun w => m w 1%nat) = x 1%nat /\ Ex runs143 (fun w => V w 1%nat 1%nat) = U 1%nat 1%nat /\
  x 1%nat = 3 /\ U 1%nat 1%nat = 7.
Proof.
  destruct (C143_past_transient_partial (fun _ _ => true) (fun _ => 1) DFloat DFloat (of_list [1; 2]) (McFloat 1) (NsFloat 1)
    "diag" (of_list [1; 1]) (of_rows [[1; 0]; [0; 0]]) 2 runs143 coin143t coin143z iid143 prob143t prob143z signal143
    filter143 I eq_refl eq_refl) as (x & U & m & V & E & EM & F); try (cbn; lia).
  { intros p w Hw k. destruct (draws143 p w Hw k). auto. }
  exists x, U, m, V. split; [exact E|]. split; [exact EM|].
  destruct (F 1%nat 1%nat ltac:(cbn; lia) ltac:(cbn; lia)) as [A B]. split; [exact A|]. split; [exact B|].
  destruct (FIR_general DFloat DFloat (of_list [1; 2]) (NsFloat 1) (of_list [1; 1]) (UtMat (of_rows [[1; 0]; [0; 0]])) "diag" 2 2
    eq_refl eq_refl ltac:(lia) ltac:(lia) I (conj eq_refl eq_refl)) as (x' & U' & E' & _ & _ & _ & Ex' & EU').
  rewrite E in E'. injection E' as <- <-. rewrite Ex', EU' by lia.
  unfold fir_value, gen_cov, stat_cont, continued. cbn. split; lra.
Qed.

(** The first sample: MC starts from a filter at rest, FIRuncFilter from the stationary
    continuation of the signal into the past. *)
Theorem C143_transient_refuted : exists stable min_eig y Ux sn kind b Ub runs
    (D : dist (nat -> vec * vec)) (dt dz : dist vec) x U (m : (nat -> vec * vec) -> vec) (V : (nat -> vec * vec) -> mat),
  iid 0 runs D (indep dt dz) /\ is_prob dt /\ is_prob dz /\
  same_signal y Ux sn kind dz /\ same_filter b Ub dt /\
  FIRuncFilter DFloat DFloat y sn b (UtMat Ub) 0 None kind true = Ok (x, FullU U) /\
  (forall p w, In (p, w) D ->
     MC stable min_eig y Ux b (of_list [1]) Ub runs None None false 0 (fun k => fst (w k)) (fun k => snd (w k))
     = Ok (McMoments (Some (m w)) (CovMat (V w)))) /\
  Ex D (fun w => m w 0%nat) = 1 /\ x 0%nat = 2 /\ Ex D (fun w => V w 0%nat 0%nat) = 3 /\ U 0%nat 0%nat = 4.
Proof.
  destruct (FIR_general DFloat DFloat (of_list [1; 2]) (NsFloat 1) (of_list [1; 1]) (UtMat (of_rows [[1; 0]; [0; 0]])) "diag" 2 2
    eq_refl eq_refl ltac:(lia) ltac:(lia) I (conj eq_refl eq_refl)) as (x & U & E & _ & _ & _ & Ex' & EU').
  destruct (C137_unbiased (fun _ _ => true) (fun _ => 1) (of_list [1; 2]) (McFloat 1) (of_list [1; 1]) (of_list [1])
    (of_rows [[1; 0]; [0; 0]]) 2 None None 0 runs143 (indep coin143t coin143z) (fir_resp (of_list [1; 2]) (McFloat 1) 2)
    iid143 I I ltac:(cbn; lia) I eq_refl eq_refl) as (m & V & EM & F); try (cbn; lia).
  { intros p w Hw k. destruct (draws143 p w Hw k) as [A B]. split; [exact A|]. split; [exact B|]. split; [reflexivity|].
    apply (fir_run_response (of_list [1; 2]) (McFloat 1) (of_list [1; 1])). exact I. }
  exists (fun _ _ => true), (fun _ => 1), (of_list [1; 2]), (McFloat 1), (NsFloat 1), "diag"%string, (of_list [1; 1]),
    (of_rows [[1; 0]; [0; 0]]), 2%nat, runs143, coin143t, coin143z, x, U, m, V.
  split; [exact iid143|]. split; [exact prob143t|]. split; [exact prob143z|]. split; [exact signal143|].
  split; [exact filter143|]. split; [exact E|]. split; [exact EM|].
  destruct (F 0%nat ltac:(cbn; lia)) as [Fm FV]. specialize (FV 0%nat ltac:(cbn; lia)). rewrite Fm, FV, Ex', EU' by lia.
  unfold Cov, fir_value, gen_cov, stat_cont, continued. cbn. repeat split; lra.
Qed.
Print Assumptions C143_past_transient_partial.
Print Assumptions C143_transient_refuted.
