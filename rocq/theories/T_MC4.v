(** Credible intervals are nested (C136); expectations of the Monte Carlo estimates
    (C137, C138). *)
From Coq Require Import String.
From Coq Require Import Reals List Arith ZArith Bool Lra Lia Permutation.
From Verif Require Import Base Sums Stats StatsFacts M_Filter S_Filter P_Filter M_Interp M_MC S_MC S_MC2
  S_Rand P_Interp P_MC P_MC2 P_MC3 P_MC4 P_Rand T_MC T_MC2 T_MC3.
Import ListNotations.
Open Scope R_scope.
Local Notation length := Datatypes.length.

(** ** C136: a larger credibility gives a larger interval and nothing else changes *)
Theorem C136_nested : forall draw order x b a runs bs blow alow Delta ri nbins nbins' c1 c2 o1 o2,
  (forall c n, length (draw c n) = n) -> (forall c l, Permutation (order c l) l) ->
  UMC draw order x b a runs bs blow alow Delta ri nbins c1 = Ok o1 ->
  UMC draw order x b a runs bs blow alow Delta ri nbins' c2 = Ok o2 ->
  nbins <> [] -> nbins' <> [] -> 0 <= c1 -> c1 <= c2 -> c2 <= 1 ->
  uf_y o2 = uf_y o1 /\ uf_U o2 = uf_U o1 /\ uf_h o2 = uf_h o1 /\
  exists h, uf_h o1 = [h] /\ forall k, (k < alen x)%nat ->
    0 < rsum (h_bins h) (fun i => h_counts h i k) ->
    exists low1 low2 high1 high2,
      nth k (nth 0 (uf_low o1) []) None = Some low1 /\ nth k (nth 0 (uf_high o1) []) None = Some high1 /\
      nth k (nth 0 (uf_low o2) []) None = Some low2 /\ nth k (nth 0 (uf_high o2) []) None = Some high2 /\
      low2 <= low1 /\ low1 <= high1 /\ high1 <= high2.
Proof.
  intros draw order x b a runs bs blow alow Delta ri nbins nbins' c1 c2 o1 o2 Hd Ho H1 H2 Hn1 Hn2 Hc0 Hc Hc1.
  destruct (UMC_inv draw order Hd Ho _ _ _ _ _ _ _ _ _ _ _ _ H1)
    as (bl & al & g & h & Ep & Eg & Eu & Eb & Eh & Ey & EU & El & Er).
  destruct (UMC_inv draw order Hd Ho _ _ _ _ _ _ _ _ _ _ _ _ H2)
    as (bl' & al' & g' & h' & Ep' & Eg' & Eu' & Eb' & Eh' & Ey' & EU' & El' & Er').
  rewrite <- Ep in Ep'. injection Ep' as -> ->. rewrite Eg in Eg'. injection Eg' as <-.
  rewrite Eu in Eu'. injection Eu' as <-.
  split; [congruence|]. split; [congruence|]. split; [congruence|].
  exists h. split; [exact Eh|]. intros k Hk HT.
  destruct nbins as [|n1 nb]; [congruence|]. destruct nbins' as [|n2 nb']; [congruence|].
  cbn [Datatypes.length] in El, Er, El', Er'.
  apply cred_rows_one in El. destruct El as (l1 & R1 & ->).
  apply cred_rows_one in Er. destruct Er as (l2 & R2 & ->).
  apply cred_rows_one in El'. destruct El' as (l3 & R3 & ->).
  apply cred_rows_one in Er'. destruct Er' as (l4 & R4 & ->).
  cbn [nth].
  destruct (cred_row_inv _ _ _ _ R1) as [_ N1]. destruct (cred_row_inv _ _ _ _ R2) as [_ N2].
  destruct (cred_row_inv _ _ _ _ R3) as [_ N3]. destruct (cred_row_inv _ _ _ _ R4) as [_ N4].
  assert (Ek : nth_error (seq 0 (alen x)) k = Some k).
  { rewrite (nth_error_nth' _ 0%nat) by (rewrite seq_length; auto). rewrite seq_nth by auto. reflexivity. }
  destruct (N1 k k Ek) as (v1 & V1 & ->). destruct (N2 k k Ek) as (v2 & V2 & ->).
  destruct (N3 k k Ek) as (v3 & V3 & ->). destruct (N4 k k Ek) as (v4 & V4 & ->).
  assert (Hin : In h (u_h g)) by (rewrite Eu; left; reflexivity).
  assert (Hb : (1 <= h_bins h)%nat) by (rewrite Eb; lia).
  destruct (umc_hist_shape draw _ order Hd Ho _ _ _ _ _ _ h Eg Hin Hb k) as [M1 M2].
  destruct (cred_bound_value h k ((1 - c1) / 2) Hb M2 M1 HT) as (w1 & _ & F1 & _); [lra|].
  destruct (cred_bound_value h k ((1 + c1) / 2) Hb M2 M1 HT) as (w2 & _ & F2 & _); [lra|].
  destruct (cred_bound_value h k ((1 - c2) / 2) Hb M2 M1 HT) as (w3 & _ & F3 & _); [lra|].
  destruct (cred_bound_value h k ((1 + c2) / 2) Hb M2 M1 HT) as (w4 & _ & F4 & _); [lra|].
  rewrite V1 in F1. injection F1 as ->. rewrite V2 in F2. injection F2 as ->.
  rewrite V3 in F3. injection F3 as ->. rewrite V4 in F4. injection F4 as ->.
  exists w1, w3, w2, w4. repeat (split; [reflexivity|]).
  split; [|split].
  - apply (cred_bound_order h k ((1 - c2) / 2) ((1 - c1) / 2) w3 w1); auto; lra.
  - apply (cred_bound_order h k ((1 - c1) / 2) ((1 + c1) / 2) w1 w2); auto; lra.
  - apply (cred_bound_order h k ((1 + c1) / 2) ((1 + c2) / 2) w2 w4); auto; lra.
Qed.
(** The credibilities 1/2 and 9/10 for the two coefficients of C54_example. *)
Example C136_example : exists o1 o2,
  UMC draw54 (fun _ l => l) unit_filter unit_filter unit_filter 2 2 unit_filter unit_filter 0 2 [10%nat] (1/2) = Ok o1 /\
  UMC draw54 (fun _ l => l) unit_filter unit_filter unit_filter 2 2 unit_filter unit_filter 0 2 [10%nat; 20%nat] (9/10) = Ok o2 /\
  exists low1 low2 high1 high2,
      nth 0 (nth 0 (uf_low o1) []) None = Some low1 /\ nth 0 (nth 0 (uf_high o1) []) None = Some high1 /\
      nth 0 (nth 0 (uf_low o2) []) None = Some low2 /\ nth 0 (nth 0 (uf_high o2) []) None = Some high2 /\
      low2 <= low1 /\ low1 <= high1 /\ high1 <= high2.
Proof.
  destruct (UMC_ok draw54 (fun _ l => l) draw54_length (fun _ l => Permutation_refl l)
    unit_filter unit_filter unit_filter 2 2 unit_filter unit_filter 0 2 [10%nat] (1/2)) as [o1 H1];
    try lia; try discriminate; [cbn; lia|lra|].
  destruct (UMC_ok draw54 (fun _ l => l) draw54_length (fun _ l => Permutation_refl l)
    unit_filter unit_filter unit_filter 2 2 unit_filter unit_filter 0 2 [10%nat; 20%nat] (9/10)) as [o2 H2];
    try lia; try discriminate; [cbn; lia|lra|].
  destruct C54_example as (o & h & Ho & Eh & Ec & _).
  exists o1, o2. split; [exact H1|]. split; [exact H2|].
  destruct (C136_nested _ _ _ _ _ _ _ _ _ _ _ _ _ _ _ _ _ draw54_length (fun _ l => Permutation_refl l) H1 H2
    ltac:(discriminate) ltac:(discriminate) ltac:(lra) ltac:(lra) ltac:(lra)) as (_ & _ & _ & h1 & E1 & K).
  apply (K 0%nat); [cbn; lia|].
  destruct (C136_nested _ _ _ _ _ _ _ _ _ _ _ _ _ _ _ _ _ draw54_length (fun _ l => Permutation_refl l) H1 Ho
    ltac:(discriminate) ltac:(discriminate) ltac:(lra) ltac:(lra) ltac:(lra)) as (_ & _ & E2 & _).
  rewrite E1, Eh in E2. injection E2 as <-. rewrite Ec. lra.
Qed.
Print Assumptions C136_nested.

(** ** C137: MC returns unbiased estimates *)
(** Two runs with the same draw have the same response. *)
Lemma run_unique x Ux blow alow na nb th z xk w y xk' w' y' :
  fits (alen x) Ux -> (1 <= na)%nat -> lowpass_ok alow ->
  input_draw x Ux z xk -> lowpassed blow alow xk w ->
  filter_response (drawn_b na nb th) (drawn_a na th) w y ->
  input_draw x Ux z xk' -> lowpassed blow alow xk' w' ->
  filter_response (drawn_b na nb th) (drawn_a na th) w' y' ->
  forall i, (i < alen x)%nat -> y i = y' i.
Proof.
  intros HU Ha Hl [L1 X1] W1 Y1 [L2 X2] W2 Y2.
  assert (EX : forall i, (i < alen x)%nat -> xk i = xk' i).
  { intros i Hi. destruct Ux as [u|v|m|]; [| | |contradiction].
    - rewrite X1, X2; auto.
    - destruct X1 as [_ X1], X2 as [_ X2]. rewrite X1, X2; auto.
    - destruct X1 as (_ & _ & X1), X2 as (_ & _ & X2). rewrite X1, X2; auto. }
  assert (TR : forall b a u u' v, alen u = alen u' -> (forall i, (i < alen u)%nat -> u i = u' i) ->
     filter_response b a u v -> filter_response b a u' v).
  { intros b a u u' v L E [R1 R2]. split; [congruence|]. intros n Hn. rewrite R2 by lia.
    apply rsum_ext. intros j _. destruct (Nat.leb_spec j n); [|reflexivity]. rewrite E by lia. reflexivity. }
  assert (EW : alen w = alen x /\ alen w' = alen x /\ forall i, (i < alen x)%nat -> w i = w' i).
  { unfold lowpassed in W1, W2. destruct blow as [bl|].
    - split; [destruct W1; congruence|]. split; [destruct W2; congruence|].
      intros i Hi. apply (response_unique bl (match alow with Some al => al | None => mkArr 1 (fun _ => 1) end) xk');
        [destruct alow; cbn in *; [tauto|lia]|destruct alow; cbn in *; [tauto|lra]| |exact W2|lia].
      apply (TR _ _ xk); [congruence| |exact W1]. intros j Hj. apply EX. lia.
    - subst w w'. auto. }
  destruct EW as (Lw & Lw' & EW). intros i Hi.
  apply (response_unique (drawn_b na nb th) (drawn_a na th) w');
    [cbn; lia|cbn; lra| |exact Y2|lia].
  apply (TR _ _ w); [congruence| |exact Y1]. intros j Hj. apply EW. lia.
Qed.

Lemma filter_all {A} (p : A -> bool) l : (forall k, p k = true) -> filter p l = l.
Proof. intros G. induction l as [|k l IH]; [reflexivity|]. cbn [filter]. rewrite G, IH. reflexivity. Qed.
(** resp: the response of the simulated filter to the simulated signal for one draw (theta, z). *)
Definition run_response (x : vec) (Ux : mcunc) (a b : vec) (blow alow : option vec) (q : vec * vec) (y : vec) : Prop :=
  exists xk w, input_draw x Ux (snd q) xk /\ lowpassed blow alow xk w /\
    filter_response (drawn_b (alen a) (alen b) (fst q)) (drawn_a (alen a) (fst q)) w y.

(** The expectation of the returned mean is the expectation of the response, the
    expectation of the returned covariance is its covariance, if no draw is unstable. *)
Theorem C137_unbiased : forall stable min_eig x Ux b a Uab runs blow alow shift
    (D : dist (nat -> vec * vec)) (d : dist (vec * vec)) (resp : vec * vec -> vec),
  iid 0 runs D d ->
  fits (alen x) Ux -> proper min_eig (alen x) Ux -> (1 <= alen a)%nat -> lowpass_ok alow ->
  mrows Uab = (alen a - 1 + alen b)%nat -> mcols Uab = (alen a - 1 + alen b)%nat ->
  (forall p w, In (p, w) D -> forall k, alen (fst (w k)) = (alen a - 1 + alen b)%nat /\ alen (snd (w k)) = alen x /\
     passes stable a b (fun i => fst (w i)) k = true /\ run_response x Ux a b blow alow (w k) (resp (w k))) ->
  (2 <= runs)%nat -> (2 <= alen x)%nat ->
  exists (m : (nat -> vec * vec) -> vec) (U : (nat -> vec * vec) -> mat),
    (forall p w, In (p, w) D ->
       MC stable min_eig x Ux b a Uab runs blow alow false shift (fun k => fst (w k)) (fun k => snd (w k))
       = Ok (McMoments (Some (m w)) (CovMat (U w)))) /\
    forall i, (i < alen x)%nat ->
      Ex D (fun w => m w i) = Ex d (fun q => resp q (shifted_from (alen x) shift i)) /\
      forall j, (j < alen x)%nat ->
        Ex D (fun w => U w i j) = Cov d (fun q => resp q (shifted_from (alen x) shift i))
                                        (fun q => resp q (shifted_from (alen x) shift j)).
Proof.
  intros stable min_eig x Ux b a Uab runs blow alow shift D d resp HI HU Hp Ha Hlow H1 H2 HD Hr Hx.
  set (run := fun w : nat -> vec * vec =>
    MC stable min_eig x Ux b a Uab runs blow alow false shift (fun k => fst (w k)) (fun k => snd (w k))).
  assert (K : forall p w, In (p, w) D -> exists m U, run w = Ok (McMoments (Some m) (CovMat U)) /\
    forall i, (i < alen x)%nat ->
      m i = avg (fun k => resp (w k) (shifted_from (alen x) shift i)) (seq 0 runs) /\
      forall j, (j < alen x)%nat ->
      U i j = sample_cov (fun k => resp (w k) (shifted_from (alen x) shift i))
                         (fun k => resp (w k) (shifted_from (alen x) shift j)) (seq 0 runs)).
  { intros p w Hw. specialize (HD p w Hw).
    destruct (C55_stable_draws stable min_eig x Ux b a Uab runs blow alow shift (fun k => fst (w k)) (fun k => snd (w k))
      HU Hp Ha Hlow H1 H2 (fun k => proj1 (HD k)) (fun k => proj1 (proj2 (HD k))))
      as (ys & Hy & (y & U & E & Hm & HM) & _).
    assert (Est : filter (passes stable a b (fun k => fst (w k))) (seq 0 runs) = seq 0 runs).
    { assert (G : forall k, passes stable a b (fun k => fst (w k)) k = true) by (intros k; apply HD).
      apply filter_all, G. }
    rewrite Est in Hm, HM. rewrite seq_length in HM.
    assert (Ey : forall k i, (i < alen x)%nat -> ys k i = resp (w k) i).
    { intros k i Hi. destruct (Hy k) as (xk & v & X & V & Y).
      destruct (HD k) as (_ & _ & _ & xk' & v' & X' & V' & Y').
      exact (run_unique x Ux blow alow (alen a) (alen b) _ _ xk v (ys k) xk' v' (resp (w k))
        HU Ha Hlow X V Y X' V' Y' i Hi). }
    assert (Sh : forall i, (shifted_from (alen x) shift i < alen x)%nat).
    { intros i. unfold shifted_from. 
      pose proof (Z.mod_pos_bound (Z.of_nat i - shift) (Z.of_nat (alen x)) ltac:(lia)). lia. }
    destruct y as [m|]; [|exfalso; apply (f_equal (@length nat)) in Hm; rewrite seq_length in Hm; cbn in Hm; lia].
    destruct U as [|r|M].
    - exfalso. lia.
    - exfalso. destruct HM as [(_ & X & _)|(k & X & _)]; [lia|].
      apply (f_equal (@length nat)) in X. rewrite seq_length in X. cbn in X. lia.
    - exists m, M. split; [exact E|]. intros i Hi. split.
      + destruct Hm as (_ & _ & Hm). rewrite Hm by exact Hi. unfold avg. f_equal. apply tot_ext.
        intros k _. apply Ey, Sh.
      + intros j Hj. destruct HM as (_ & _ & _ & _ & HM). rewrite HM by auto.
        unfold sample_cov. f_equal. unfold scatter.
        assert (Av : forall i, avg (fun k => ys k (shifted_from (alen x) shift i)) (seq 0 runs)
          = avg (fun k => resp (w k) (shifted_from (alen x) shift i)) (seq 0 runs)).
        { intros i'. unfold avg. f_equal. apply tot_ext. intros k _. apply Ey, Sh. }
        rewrite !Av. apply tot_ext. intros k _. rewrite !Ey by apply Sh. reflexivity. }
  exists (fun w => match run w with Ok (McMoments (Some m) _) => m | _ => x end),
         (fun w => match run w with Ok (McMoments _ (CovMat U)) => U | _ => Uab end).
  split.
  - intros p w Hw. destruct (K p w Hw) as (m & U & E & _). fold (run w). rewrite E. reflexivity.
  - assert (Hs : forall k, In k (seq 0 runs) -> (0 <= k < 0 + runs)%nat) by (intros k Hk; apply in_seq in Hk; lia).
    intros i Hi. split.
    + rewrite <- (iid_mean 0 runs D d HI (seq 0 runs) Hs (fun q => resp q (shifted_from (alen x) shift i)))
        by (destruct runs; [lia|discriminate]).
      apply Ex_ext_in. intros p w Hw. destruct (K p w Hw) as (m & U & E & F). rewrite E. apply F. exact Hi.
    + intros j Hj.
      rewrite <- (iid_sample_cov 0 runs D d HI (seq 0 runs) Hs (fun q => resp q (shifted_from (alen x) shift i))
        (fun q => resp q (shifted_from (alen x) shift j)) (seq_NoDup runs 0)) by (rewrite seq_length; exact Hr).
      apply Ex_ext_in. intros p w Hw. destruct (K p w Hw) as (m & U & E & F). rewrite E. apply F; assumption.
Qed.
(** The gain 1 or 3 with equal probability, the signal (1, 0): mean 2, variance 1, although
    the two runs return the means 1, 2, 3 and the variances 0 and 2. *)
Definition gain (v : R) : vec * vec := (mkArr 1 (fun _ => v), of_list [0; 0]).
Definition coin137 : dist (vec * vec) := [(1/2, gain 1); (1/2, gain 3)].
Definition resp137 (q : vec * vec) : vec := of_list [fst q 0%nat; 0].
Example C137_example : exists m U,
  (forall p w, In (p, w) (repeated (gain 1) coin137 2) ->
    MC (fun _ _ => true) (fun _ => 1) (of_list [1; 0]) (McFloat 0) (of_list [2]) (of_list [1]) (of_rows [[1]]) 2 None None false 0
     (fun k => fst (w k)) (fun k => snd (w k)) = Ok (McMoments (Some (m w)) (CovMat (U w)))) /\
  Ex (repeated (gain 1) coin137 2) (fun w => m w 0%nat) = 2 /\
  Ex (repeated (gain 1) coin137 2) (fun w => U w 0%nat 0%nat) = 1.
Proof.
  assert (Hp : is_prob coin137).
  { split; [|cbn; lra]. intros p q [E|[E|[]]]; injection E as <- _; lra. }
  destruct (C137_unbiased (fun _ _ => true) (fun _ => 1) (of_list [1; 0]) (McFloat 0) (of_list [2]) (of_list [1])
    (of_rows [[1]]) 2 None None 0 (repeated (gain 1) coin137 2) coin137 resp137
    (repeated_iid (gain 1) coin137 2 Hp) I I ltac:(cbn; lia) I eq_refl eq_refl) as (m & U & E & F).
  - intros p w Hw k.
    assert (G : exists v, w k = gain v).
    { apply (repeated_in (fun q => exists v, q = gain v) (gain 1) coin137 2) with (p := p); auto; [exists 1; reflexivity|].
      intros p' q [X|[X|[]]]; injection X as _ <-; eauto. }
    destruct G as [v ->]. split; [reflexivity|]. split; [reflexivity|]. split; [reflexivity|].
    exists (of_list [1; 0]), (of_list [1; 0]). split.
    + split; [reflexivity|]. intros [|[|i]] Hi; cbn in Hi |- *; lra || lia.
    + split; [reflexivity|]. split; [reflexivity|].
      intros [|[|i]] Hi; cbn in Hi |- *; [lra|lra|lia].
  - lia.
  - cbn; lia.
  - exists m, U. split; [exact E|]. destruct (F 0%nat ltac:(cbn; lia)) as [Fm FU].
    specialize (FU 0%nat ltac:(cbn; lia)). rewrite Fm, FU. unfold Cov. cbn. lra.
Qed.
Print Assumptions C137_unbiased.

(** ** C138: the covariance returned by UMC_generic is biased *)
(** The draws in the order in which the blocks request them. *)
Definition blocks {A} (bs : nat) (w : nat -> A) (c n : nat) : list A :=
  map (fun i => w (c * bs + i)%nat) (seq 0 n).
Lemma blocks_length {A} bs (w : nat -> A) c n : length (blocks bs w c n) = n.
Proof. unfold blocks. rewrite map_length, seq_length. reflexivity. Qed.
Lemma seq_add n : forall s m, seq s (n + m) = (seq s n ++ seq (s + n) m)%list.
Proof. intros. apply seq_app. Qed.
Lemma map_seq_shift {A} (w : nat -> A) s n : map (fun i => w (s + i)%nat) (seq 0 n) = map w (seq s n).
Proof.
  rewrite <- (map_map (fun i => (s + i)%nat) w). f_equal. induction n as [|n IH]; [reflexivity|].
  rewrite !seq_S, map_app, IH. reflexivity.
Qed.
Lemma blocks_drawn {A} bs (w : nat -> A) B : drawn (blocks bs w) bs B = map w (seq bs (B * bs)).
Proof.
  unfold drawn. induction B as [|B IH]; [reflexivity|].
  rewrite seq_S, flat_map_app, IH. cbn [flat_map Nat.add]. rewrite app_nil_r. unfold blocks.
  rewrite (map_seq_shift w (S B * bs)). replace (S B * bs)%nat with (bs + B * bs)%nat by lia.
  rewrite (Nat.add_comm bs (B * bs)) at 2. rewrite seq_add, map_app. reflexivity.
Qed.
Lemma avg_map {A B} (h : A -> B) f l : avg f (map h l) = avg (fun a => f (h a)) l.
Proof. unfold avg. rewrite map_map, map_length. reflexivity. Qed.
Lemma scatter_map {A B} (h : A -> B) f g l : scatter f g (map h l) = scatter (fun a => f (h a)) (fun a => g (h a)) l.
Proof. unfold scatter. rewrite map_map, !avg_map. reflexivity. Qed.

(** With B blocks of size bs the expectation of the returned mean is the expectation of
    the evaluations; that of the returned covariance is their covariance times
    1 + (bs-1)(bs-2)/(B bs - 1). *)
Theorem C138_expectations_partial : forall A (d : dist A) (D : dist (nat -> A)) (evaluate : A -> vec) order
    runs bs ri nbins n B,
  iid bs (B * bs) D d -> (forall c l, Permutation (order c l) l) -> (forall q, alen (evaluate q) = n) ->
  (0 < runs)%nat -> (0 < ri)%nat -> (runs <= B * bs < runs + bs)%nat -> (2 <= B * bs)%nat ->
  exists (m : (nat -> A) -> vec) (U : (nat -> A) -> mat),
    (forall w, exists o, UMC_generic (blocks bs w) evaluate order runs bs ri nbins false = Ok o /\
       u_y o = m w /\ u_U o = U w) /\
    forall i, Ex D (fun w => m w i) = Ex d (fun q => evaluate q i) /\
      forall j, Ex D (fun w => U w i j)
        = (1 + (INR bs - 1) * (INR bs - 2) / (INR (B * bs) - 1))
          * Cov d (fun q => evaluate q i) (fun q => evaluate q j).
Proof.
  intros A d D evaluate order runs bs ri nbins n B HI Ho He Hr Hi HB H2.
  assert (Hbs : (0 < bs)%nat) by lia.
  set (run := fun w => UMC_generic (blocks bs w) evaluate order runs bs ri nbins false).
  assert (K : forall w, exists o, run w = Ok o /\
    forall i, u_y o i = avg (fun k => evaluate (w k) i) (seq bs (B * bs)) /\
    forall j, u_U o i j = sample_cov (fun k => evaluate (w k) i) (fun k => evaluate (w k) j) (seq bs (B * bs))
      + (INR bs - 2) * scatter (fun k => evaluate (w k) i) (fun k => evaluate (w k) j) (seq bs bs) / (INR (B * bs) - 1)).
  { intros w.
    destruct (C48_returns A (blocks bs w) evaluate order runs bs ri nbins n (blocks_length bs w) Ho He Hr Hbs Hi) as [o E].
    exists o. split; [exact E|].
    destruct (C48_mean _ _ _ _ _ _ _ _ _ _ (blocks_length bs w) Ho E) as (B1 & HB1 & _ & _ & _ & Em).
    destruct (C49_covariance_error_partial _ _ _ _ _ _ _ _ _ _ (blocks_length bs w) Ho E) as (B2 & HB2 & _ & _ & EU).
    assert (B1 = B) by nia. assert (B2 = B) by nia. subst B1 B2. cbv zeta in EU.
    intros i. split.
    - rewrite Em, blocks_drawn, !avg_map. reflexivity.
    - intros j. rewrite EU by (destruct (le_lt_dec 2 bs); [right; lia|left; assert (X : bs = 1%nat) by lia; rewrite X in H2; lia]). rewrite !blocks_drawn. unfold sample_cov.
      rewrite !map_length, !scatter_map, Nat.mul_1_l. reflexivity. }
  exists (fun w => match run w with Ok o => u_y o | Err _ => mkArr 0 (fun _ => 0) end),
         (fun w => match run w with Ok o => u_U o | Err _ => mkMat 0 0 (fun _ _ => 0) end).
  split.
  - intros w. destruct (K w) as (o & E & _). exists o. rewrite E. auto.
  - assert (Hs : forall k, In k (seq bs (B * bs)) -> (bs <= k < bs + B * bs)%nat) by (intros k Hk; apply in_seq in Hk; lia).
    assert (HBb : (bs <= B * bs)%nat) by (destruct B; lia).
    assert (Hs1 : forall k, In k (seq bs bs) -> (bs <= k < bs + B * bs)%nat) by (intros k Hk; apply in_seq in Hk; lia).
    assert (N1 : seq bs (B * bs) <> []). { destruct (B * bs)%nat eqn:Z; [lia|discriminate]. }
    assert (N2 : seq bs bs <> []). { destruct bs; [lia|discriminate]. }
    assert (HN : INR (B * bs) - 1 <> 0) by (apply (le_INR 2) in H2; cbn in H2; lra).
    intros i. split.
    + rewrite <- (iid_mean bs (B * bs) D d HI (seq bs (B * bs)) Hs (fun q => evaluate q i) N1).
      apply Ex_ext. intros w. destruct (K w) as (o & E & F). rewrite E. apply F.
    + intros j.
      pose proof (iid_sample_cov bs (B * bs) D d HI (seq bs (B * bs)) Hs (fun q => evaluate q i) (fun q => evaluate q j)
        (seq_NoDup _ _) ltac:(rewrite seq_length; exact H2)) as E1.
      pose proof (iid_scatter bs (B * bs) D d HI (seq bs bs) Hs1 (fun q => evaluate q i) (fun q => evaluate q j)
        (seq_NoDup _ _) N2) as E2.
      rewrite seq_length in E2.
      rewrite (Ex_ext D _ (fun w => sample_cov (fun k => evaluate (w k) i) (fun k => evaluate (w k) j) (seq bs (B * bs))
        + scatter (fun k => evaluate (w k) i) (fun k => evaluate (w k) j) (seq bs bs) * ((INR bs - 2) / (INR (B * bs) - 1)))).
      * rewrite Ex_plus, Ex_scal_r, E1, E2. field. exact HN.
      * intros w. destruct (K w) as (o & E & F). rewrite E. destruct (F i) as [_ G]. rewrite G. field. exact HN.
Qed.
(** The statement with the covariance itself fails: one block of three tosses of a coin
    with the values 0 and 1, of variance 1/4, gives 1/2 on average. *)
Definition coin : dist R := [(1/2, 0); (1/2, 1)].
Lemma coin_prob : is_prob coin.
Proof. split; [|cbn; lra]. intros p q [E|[E|[]]]; injection E as <- _; lra. Qed.
(** The first bs entries of the sequence (the initial draws) are not used by the mean. *)
Lemma iid_weaken {A} s r s' r' (D : dist (nat -> A)) d : (s <= s')%nat -> (s' + r' <= s + r)%nat ->
  iid s r D d -> iid s' r' D d.
Proof.
  intros H1 H2 (P1 & P2 & I1 & I2). split; [exact P1|]. split; [exact P2|]. split; intros.
  - apply I1. lia.
  - apply I2; lia.
Qed.
Theorem C138_unbiased_refuted : exists (d : dist R) (D : dist (nat -> R)) (U : (nat -> R) -> mat) evaluate,
  iid 3 3 D d /\
  (forall w, exists o, UMC_generic (blocks 3 w) evaluate (fun _ l => l) 3 3 1 [10%nat] false = Ok o /\ u_U o = U w) /\
  Ex D (fun w => U w 0%nat 0%nat) = 1 / 2 /\
  Cov d (fun q => evaluate q 0%nat) (fun q => evaluate q 0%nat) = 1 / 4.
Proof.
  assert (HI : iid 3 3 (repeated 0 coin 6) coin).
  { apply (iid_weaken 0 6); [lia|lia|]. apply repeated_iid, coin_prob. }
  destruct (C138_expectations_partial R coin (repeated 0 coin 6) (fun q => mkArr 1 (fun _ => q)) (fun _ l => l) 3 3 1 [10%nat] 1 1
    HI (fun _ l => Permutation_refl l) (fun _ => eq_refl) ltac:(lia) ltac:(lia) ltac:(lia) ltac:(lia))
    as (m & U & E & F).
  exists coin, (repeated 0 coin 6), U, (fun q => mkArr 1 (fun _ => q)). split; [exact HI|].
  assert (V : Cov coin (fun q => aget (mkArr 1 (fun _ => q)) 0%nat) (fun q => aget (mkArr 1 (fun _ => q)) 0%nat) = 1 / 4).
  { unfold Cov, coin. cbn. lra. }
  split; [intros w; destruct (E w) as (o & Eo & _ & EU); exists o; auto|].
  split; [|exact V]. destruct (F 0%nat) as [_ G]. rewrite G, V. cbn. lra.
Qed.
Example C138_example : exists m U : (nat -> R) -> _,
  (forall w, exists o, UMC_generic (blocks 2 w) (fun q => mkArr 1 (fun _ => q)) (fun _ l => l) 4 2 1 [10%nat] false = Ok o /\
     u_y o = m w /\ u_U o = U w) /\
  Ex (repeated 0 coin 6) (fun w => m w 0%nat) = 1 / 2 /\
  Ex (repeated 0 coin 6) (fun w => U w 0%nat 0%nat) = 1 / 4.
Proof.
  assert (HI : iid 2 (2 * 2) (repeated 0 coin 6) coin).
  { apply (iid_weaken 0 6); [lia|lia|]. apply repeated_iid, coin_prob. }
  destruct (C138_expectations_partial R coin (repeated 0 coin 6) (fun q => mkArr 1 (fun _ => q)) (fun _ l => l) 4 2 1 [10%nat] 1 2
    HI (fun _ l => Permutation_refl l) (fun _ => eq_refl) ltac:(lia) ltac:(lia) ltac:(lia) ltac:(lia))
    as (m & U & E & F).
  exists m, U. split; [exact E|]. destruct (F 0%nat) as [-> G]. rewrite G.
  unfold Cov, coin. cbn. lra.
Qed.
Print Assumptions C138_expectations_partial.
Print Assumptions C138_unbiased_refuted.
