(** Theorems about Monte Carlo propagation (C55-C58, C92). *)
From Coq Require Import String.
From Coq Require Import Reals List Arith ZArith Bool Lra Lia Permutation.
From Verif Require Import Base Sums M_Filter S_Filter P_Filter M_Interp M_MC S_MC S_MC2
  P_Interp P_MC P_MC2 P_MC3 P_MC4.
Import ListNotations.
Open Scope R_scope.
Local Notation length := Datatypes.length.

(** ** C92: the filter routine and the block diagram of _UMCevaluate *)
(** scipy.signal.lfilter as modelled is the one and only solution of the difference
    equation. *)
Theorem C92_lfilter : forall b a x, (1 <= alen a)%nat -> a 0%nat <> 0 ->
  filter_response b a x (lfilter0 b a x) /\
  forall y, filter_response b a x y -> forall n, (n < alen x)%nat -> lfilter0 b a x n = y n.
Proof.
  intros b a x Hl Ha. assert (R : filter_response b a x (lfilter0 b a x)).
  { apply lfilter0_response. unfold vpad. destruct (Nat.ltb_spec 0 (alen a)); [auto|lia]. }
  split; [auto|]. intros y Hy n Hn. apply (response_unique b a x); auto.
Qed.
Example C92_lfilter_example :
  let y := lfilter0 (of_list [1]) (of_list [1; -1 / 2]) (of_list [1; 0; 0]) in
  y 0%nat = 1 /\ y 1%nat = 1 / 2 /\ y 2%nat = 1 / 4.
Proof.
  cbv zeta. pose proof (C92_lfilter (of_list [1]) (of_list [1; -1/2]) (of_list [1; 0; 0]) ltac:(cbn; lia) ltac:(cbn; lra)) as [_ U].
  rewrite (U (of_list [1; 1/2; 1/4]));
    [rewrite (U (of_list [1; 1/2; 1/4]));
      [rewrite (U (of_list [1; 1/2; 1/4])); [cbn; lra| |cbn; lia]| |cbn; lia]| |cbn; lia];
  (split; [reflexivity|]; intros [|[|[|n]]] Hn; cbn in Hn |- *; lra || lia).
Qed.

(** x + e -> low-pass -> filter (bb, aa) -> + d with d uniform in [-Delta, Delta]. *)
Definition block_diagram (nb : nat) (x blow alow : vec) (Delta : R) (th e u out : vec) : Prop :=
  exists w y, let na := (alen th - nb + 1)%nat in
    filter_response blow alow (mkArr (alen x) (fun i => x i + e i)) w /\
    filter_response (drawn_b na nb th) (drawn_a na th) w y /\
    alen out = alen x /\
    forall i, (i < alen x)%nat -> exists d, out i = y i + d /\ d = - Delta + (2 * Delta) * u i.

Lemma response_scaled b a x y c : c <> 0 ->
  filter_response (vmap (fun v => v / c) b) (vmap (fun v => v / c) a) x y <-> filter_response b a x y.
Proof.
  intros Hc. unfold filter_response. cbn [vmap alen aget].
  assert (K : forall (v : vec) (f : nat -> R) n m, 
    rsum m (fun j => if (j <=? n)%nat then v j / c * f (n - j)%nat else 0)
    = / c * rsum m (fun j => if (j <=? n)%nat then v j * f (n - j)%nat else 0)).
  { intros v f n m. rewrite <- rsum_scal. apply rsum_ext. intros j _. destruct (j <=? n)%nat; [unfold Rdiv|]; ring. }
  split; intros [H1 H2]; (split; [auto|]); intros n Hn; specialize (H2 n Hn).
  - change (@aget R (vmap (fun v => v / c) a)) with (fun i => a i / c) in H2.
    change (@aget R (vmap (fun v => v / c) b)) with (fun i => b i / c) in H2. cbv beta in H2.
    rewrite !K in H2. apply Rmult_eq_reg_l with (/ c); auto. apply Rinv_neq_0_compat; auto.
  - rewrite !K. rewrite H2. reflexivity.
Qed.

Theorem C92_evaluate : forall nb x blow (alow : vec) Delta th e (u : vec),
  (1 <= alen alow)%nat -> alow 0%nat <> 0 -> (nb <= alen th)%nat ->
  block_diagram nb x blow alow Delta th e u (UMCevaluate nb x Delta blow alow (th, e, u)) /\
  (forall i, 0 <= u i <= 1 -> 0 <= Delta -> - Delta <= - Delta + (2 * Delta) * u i <= Delta).
Proof.
  intros nb x blow alow Delta th e u Hl Ha Hn. split; [|intros i Hu HD; nra].
  unfold UMCevaluate. set (na := (alen th - nb + 1)%nat).
  assert (Eb : slice th (na - 1) (alen th) = drawn_b na nb th).
  { unfold slice, drawn_b. rewrite Nat.min_id. f_equal. unfold na. lia. }
  rewrite Eb. fold (drawn_a na th).
  exists (lfilter0 blow alow (vplus x e)), (lfilter0 (drawn_b na nb th) (drawn_a na th) (lfilter0 blow alow (vplus x e))).
  cbv zeta. fold na. split; [|split; [|split]].
  - apply (C92_lfilter blow alow (vplus x e)); auto.
  - apply C92_lfilter; cbn [drawn_a alen aget Nat.eqb]; [unfold na; lia|lra].
  - reflexivity.
  - intros i Hi. exists (Delta * (2 * u i - 1)). split; [reflexivity|ring].
Qed.
(** UMC averages block diagram outputs for its samples, also if alow[0] <> 1. *)
Theorem C92_umc : forall draw order x b a runs bs blow (alow : vec) Delta ri nbins cred o,
  (forall c n, length (draw c n) = n) -> (forall c l, Permutation (order c l) l) ->
  (forall c n th e u, In (th, e, u) (draw c n) -> alen th = (alen a - 1 + alen b)%nat) ->
  (1 <= alen a)%nat -> alow 0%nat <> 0 ->
  UMC draw order x b a runs bs blow alow Delta ri nbins cred = Ok o ->
  exists B outs, (runs <= B * bs < runs + bs)%nat /\
    Forall2 (fun smp out => let '(th, e, u) := smp in block_diagram (alen b) x blow alow Delta th e u out)
            (flat_map (fun m => draw (S m) bs) (seq 0 B)) outs /\
    forall k, uf_y o k = avg (fun r : vec => r k) outs.
Proof.
  intros draw order x b a runs bs blow alow Delta ri nbins cred o Hd Hp Ht Hla Ha H.
  destruct (UMC_inv draw _ Hd Hp _ _ _ _ _ _ _ _ _ _ _ _ H)
    as (bl & al & g & h & Ep & Eg & _ & _ & _ & Ey & _).
  destruct (umc_generic_inv draw _ order Hd Hp _ _ _ _ _ _ Eg)
    as (B & r0 & init & s & Hbs & HB & N1 & N2 & _ & _ & I & _ & E).
  assert (Hal : (1 <= alen alow)%nat).
  { unfold UMC in H. destruct (Nat.eqb_spec (alen alow) 0); [discriminate|lia]. }
  exists B, (all_results draw (UMCevaluate (alen b) x Delta bl al) bs B).
  split; [lia|]. split.
  - unfold all_results.
    change (flat_map (fun m => draw (S m) bs) (seq 0 B)) with (all_samples draw bs B).
    assert (Hin : forall smp, In smp (all_samples draw bs B) -> exists c n, In smp (draw c n)).
    { intros smp Hs. unfold all_samples in Hs. apply in_flat_map in Hs. destruct Hs as (m & _ & Hs). eauto. }
    induction (all_samples draw bs B) as [|[[th e] u] l IH]; [constructor|].
    cbn [map]. constructor.
    + destruct (Hin (th, e, u) (or_introl eq_refl)) as (c & n & Hc). pose proof (Ht _ _ _ _ _ Hc) as Lt.
      destruct (Req_EM_T (alow 0%nat) 1) as [E1|E1]; injection Ep as -> ->.
      * apply C92_evaluate; auto; lia.
      * assert (K : forall out, block_diagram (alen b) x (vmap (fun v => v / alow 0%nat) blow) (vmap (fun v => v / alow 0%nat) alow) Delta th e u out ->
                  block_diagram (alen b) x blow alow Delta th e u out).
        { intros out (w & y & W & Y). exists w, y. split; [|exact Y].
          apply response_scaled in W; auto. }
        apply K. apply C92_evaluate; [exact Hal| |lia].
        cbn [vmap aget]. unfold Rdiv. rewrite Rinv_r; lra.
    + apply IH. intros; apply Hin. right; auto.
  - intros k. rewrite Ey, E. cbn [u_y aget]. rewrite (inv_y _ _ _ _ _ _ _ _ _ _ I) by lia.
    apply avg_perm, (delivered_perm draw _ order Hp).
Qed.
(** A low-pass without any denominator coefficient is rejected (alow[0] does not exist). *)
Theorem C92_empty_lowpass : forall draw order x b a runs bs blow (alow : vec) Delta ri nbins cred,
  alen alow = 0%nat -> UMC draw order x b a runs bs blow alow Delta ri nbins cred = Err IndexError.
Proof. intros. unfold UMC. rewrite H. reflexivity. Qed.
Example C92_empty_lowpass_ex : alen (of_list []) = 0%nat.
Proof. reflexivity. Qed.
(** a = (1), b random, low-pass with alow[0] = 2. *)
Definition draw92 (c n : nat) : list (vec * vec * vec) :=
  map (fun i => (mkArr 1 (fun _ => INR i), mkArr 1 (fun _ => 0), mkArr 1 (fun _ => 1 / 2))) (seq 0 n).
Lemma draw92_length c n : length (draw92 c n) = n.
Proof. unfold draw92. rewrite map_length, seq_length. reflexivity. Qed.
Example C92_example : exists o,
  UMC draw92 (fun _ l => l) (of_list [3]) (of_list [1]) (of_list [1]) 2 2 (of_list [2]) (of_list [2]) 0 1 [10%nat] (1/2) = Ok o /\
  uf_y o 0%nat = 3 / 2.
Proof.
  destruct (UMC_ok draw92 (fun _ l => l) draw92_length (fun _ l => Permutation_refl l)
    (of_list [3]) (of_list [1]) (of_list [1]) 2 2 (of_list [2]) (of_list [2]) 0 1 [10%nat] (1/2)) as [o Ho];
    try lia; try discriminate; [cbn; lia|lra|].
  exists o. split; [auto|].
  assert (Hth : forall c n th e u, In (th, e, u) (draw92 c n) -> alen th = (alen (of_list [1%R]) - 1 + alen (of_list [1%R]))%nat).
  { intros c n th e u Hin. unfold draw92 in Hin. apply in_map_iff in Hin.
    destruct Hin as (i & Ei & _). injection Ei as <- <- <-. reflexivity. }
  destruct (C92_umc draw92 (fun _ l => l) (of_list [3]) (of_list [1]) (of_list [1]) 2 2 (of_list [2]) (of_list [2])
    0 1 [10%nat] (1/2) o draw92_length (fun _ l => Permutation_refl l)
    Hth ltac:(cbn; lia) ltac:(cbn; lra) Ho) as (B & outs & HB & F & E).
  assert (B = 1%nat) by lia. subst B. cbn [seq flat_map draw92 map app] in F.
  inversion F as [|? o1 ? l1 D1 F1]; subst. inversion F1 as [|? o2 ? l2 D2 F2]; subst. inversion F2; subst.
  rewrite E. unfold avg. cbn [map tot length].
  destruct D1 as (w & y & W & Y & _ & O). destruct D2 as (w' & y' & W' & Y' & _ & O').
  destruct (O 0%nat ltac:(cbn; lia)) as (d & -> & ->). destruct (O' 0%nat ltac:(cbn; lia)) as (d' & -> & ->).
  destruct W as [Lw W]. specialize (W 0%nat ltac:(cbn; lia)). cbn in W.
  destruct W' as [Lw' W']. specialize (W' 0%nat ltac:(cbn; lia)). cbn in W'.
  destruct Y as [_ Y]. specialize (Y 0%nat ltac:(rewrite Lw; cbn; lia)). cbn in Y.
  destruct Y' as [_ Y']. specialize (Y' 0%nat ltac:(rewrite Lw'; cbn; lia)). cbn in Y'. cbn [INR]. nra.
Qed.
Print Assumptions C92_lfilter.
Print Assumptions C92_evaluate.
Print Assumptions C92_umc.

(** ** C55 *)
Definition passes (stable : vec -> vec -> bool) (a b : vec) (theta : nat -> vec) (k : nat) : bool :=
  stable (drawn_b (alen a) (alen b) (theta k)) (drawn_a (alen a) (theta k)).
Definition lowpass_ok (alow : option vec) : Prop :=
  match alow with None => True | Some al => (1 <= alen al)%nat /\ al 0%nat <> 0 end.

Lemma sample_cov_ext (f g : nat -> R) l : (forall i, In i l -> f i = g i) -> sample_cov f f l = sample_cov g g l.
Proof.
  intros H. unfold sample_cov. f_equal. unfold scatter.
  assert (E : avg f l = avg g l) by (unfold avg; f_equal; apply tot_ext; exact H).
  apply tot_ext. intros i Hi. rewrite E, H by exact Hi. reflexivity.
Qed.
Lemma tot_seq n (f : nat -> R) : tot (map f (seq 0 n)) = rsum n f.
Proof. induction n as [|n IH]; [reflexivity|]. rewrite seq_S, map_app, tot_app, IH. cbn. lra. Qed.
Lemma var_of_sample_cov (v : vec) : (1 <= alen v)%nat -> var_of v = sample_cov (fun i => v i) (fun i => v i) (seq 0 (alen v)).
Proof.
  intros H. unfold var_of, sample_cov, scatter, avg. rewrite !tot_seq, !seq_length, minus_INR by lia. reflexivity.
Qed.

(** One list of responses serves both forms of the result. *)
Theorem C55_stable_draws : forall stable min_eig x Ux b a Uab runs blow alow shift theta z,
  fits (alen x) Ux -> proper min_eig (alen x) Ux -> (1 <= alen a)%nat -> lowpass_ok alow ->
  mrows Uab = (alen a - 1 + alen b)%nat -> mcols Uab = (alen a - 1 + alen b)%nat ->
  (forall k, alen (theta k) = (alen a - 1 + alen b)%nat) -> (forall k, alen (z k) = alen x) ->
  let n := alen x in
  let st := filter (passes stable a b theta) (seq 0 runs) in
  exists ys : nat -> vec,
    (forall k, exists xk w, input_draw x Ux (z k) xk /\ lowpassed blow alow xk w /\
       filter_response (drawn_b (alen a) (alen b) (theta k)) (drawn_a (alen a) (theta k)) w (ys k)) /\
    (exists y U, MC stable min_eig x Ux b a Uab runs blow alow false shift theta z = Ok (McMoments y U) /\
       match y with
       | None => st = []
       | Some m => st <> [] /\ alen m = n /\ forall i, (i < n)%nat -> m i = avg (fun k => ys k (shifted_from n shift i)) st
       end /\
       match U with
       | CovNaN => (length st = 0)%nat \/ (length st = 1 /\ n <= 1)%nat
       | CovScalar r =>
           (2 <= length st)%nat /\ n = 1%nat /\ r = sample_cov (fun k => ys k 0%nat) (fun k => ys k 0%nat) st \/
           (* one run: the variance over the samples of that run *)
           exists k, st = [k] /\ (2 <= n)%nat /\
             r = sample_cov (fun i => ys k (shifted_from n shift i)) (fun i => ys k (shifted_from n shift i)) (seq 0 n)
       | CovMat M => (2 <= length st)%nat /\ n <> 1%nat /\ mrows M = n /\ mcols M = n /\
           forall i j, (i < n)%nat -> (j < n)%nat ->
             M i j = sample_cov (fun k => ys k (shifted_from n shift i)) (fun k => ys k (shifted_from n shift j)) st
       end) /\
    (exists Y, MC stable min_eig x Ux b a Uab runs blow alow true shift theta z = Ok (McSamples Y) /\ length Y = runs /\
       forall k, (k < runs)%nat -> exists row, nth_error Y k = Some row /\ alen row = n /\
         forall i, (i < n)%nat -> row i = if passes stable a b theta k then ys k (shifted_from n shift i) else 0).
Proof.
  intros stable min_eig x Ux b a Uab runs blow alow shift theta z HU Hp Ha Hlow H1 H2 Ht Hz n st.
  exists (fun k => mc_y (alen a) (alen b) blow alow (theta k) (mc_x x Ux (z k))).
  assert (Lx : forall k, alen (mc_x x Ux (z k)) = n).
  { intros k. apply mc_x_length; [intros; apply Hz|]. intros ->. exact HU. }
  split; [|split].
  - intros k. exists (mc_x x Ux (z k)), (mc_low blow alow (mc_x x Ux (z k))).
    split; [apply mc_x_draw; auto|]. split.
    + unfold lowpassed, mc_low. destruct blow as [bl|]; [|reflexivity].
      destruct alow as [al|]; cbn in Hlow.
      * apply C92_lfilter; tauto.
      * apply C92_lfilter; cbn; [lia|lra].
    + apply C92_lfilter; cbn [drawn_a alen aget Nat.eqb]; [lia|lra].
  - rewrite (MC_eq stable min_eig x Ux b a Uab runs blow alow false shift theta z HU Hp H1 H2 Ht Hz).
    cbv zeta. eexists. eexists. split; [reflexivity|]. rewrite map_length. fold (passes stable a b theta). fold st.
    split.
    + destruct (Nat.eqb_spec (length st) 0) as [E|E].
      * destruct st; [reflexivity|discriminate].
      * split; [intros X; rewrite X in E; apply E; reflexivity|]. split; [reflexivity|].
        intros i Hi. cbn [rows_mean aget]. unfold avg. rewrite map_length, map_map. f_equal. 
        apply tot_ext. intros k _. cbn [roll aget]. rewrite mc_y_length, Lx. reflexivity.
    + assert (Em : forall i, (i < n)%nat -> rows_mean (alen x) (map (fun k => roll (mc_y (alen a) (alen b) blow alow (theta k) (mc_x x Ux (z k))) shift) st) i
         = avg (fun k => mc_y (alen a) (alen b) blow alow (theta k) (mc_x x Ux (z k)) (shifted_from n shift i)) st).
      { intros i' Hi'. cbn [rows_mean aget]. unfold avg. rewrite map_length, map_map. f_equal.
        apply tot_ext. intros k _. cbn [roll aget]. rewrite mc_y_length, Lx. reflexivity. }
      assert (EM : (2 <= length st)%nat -> forall i j, (i < n)%nat -> (j < n)%nat ->
        rows_cov (alen x) (map (fun k => roll (mc_y (alen a) (alen b) blow alow (theta k) (mc_x x Ux (z k))) shift) st) i j
        = sample_cov (fun k => mc_y (alen a) (alen b) blow alow (theta k) (mc_x x Ux (z k)) (shifted_from n shift i))
                     (fun k => mc_y (alen a) (alen b) blow alow (theta k) (mc_x x Ux (z k)) (shifted_from n shift j)) st).
      { intros E i j Hi Hj.
        cbn [rows_cov mget]. unfold sample_cov. rewrite map_length, minus_INR by lia. f_equal.
        unfold scatter. rewrite map_map.
        apply tot_ext. intros k _. rewrite !Em by auto. cbn [roll aget]. rewrite mc_y_length, Lx. reflexivity. }
      clear Em. revert EM. destruct st as [|k [|k' l]] eqn:Est; intros EM.
      * left. reflexivity.
      * cbn [map np_cov_rows]. fold n. destruct (Nat.leb_spec n 1) as [E|E]; [right; split; [reflexivity|lia]|].
        right. exists k. split; [reflexivity|]. split; [lia|].
        rewrite var_of_sample_cov by (cbn; lia). cbn [alen aget]. apply sample_cov_ext. intros i Hi. apply in_seq in Hi.
        cbn [roll aget]. rewrite mc_y_length, Lx. reflexivity.
      * cbn [map np_cov_rows]. cbn [map length] in EM. fold n. fold n in EM. destruct (Nat.eqb_spec n 1) as [E|E].
        -- left. split; [cbn; lia|]. split; [exact E|].
           rewrite (EM ltac:(lia) 0%nat 0%nat) by lia. rewrite E. unfold shifted_from. rewrite Z.mod_1_r. reflexivity.
        -- split; [cbn; lia|]. split; [exact E|]. split; [reflexivity|]. split; [reflexivity|].
           apply EM. lia.
  - rewrite (MC_eq stable min_eig x Ux b a Uab runs blow alow true shift theta z HU Hp H1 H2 Ht Hz).
    cbv zeta. eexists. split; [reflexivity|]. rewrite map_length, seq_length. split; [reflexivity|].
    intros k Hk.
    assert (Ek : nth_error (seq 0 runs) k = Some k).
    { rewrite (nth_error_nth' _ 0%nat) by (rewrite seq_length; auto). rewrite seq_nth by auto. reflexivity. }
    eexists. split; [rewrite nth_error_map, Ek; reflexivity|]. cbv beta.
    unfold passes. destruct (stable _ _).
    + split; [cbn [roll alen]; rewrite mc_y_length; apply Lx|].
      intros i Hi. cbn [roll aget]. rewrite mc_y_length, Lx. reflexivity.
    + split; [reflexivity|]. intros i Hi. reflexivity.
Qed.
(** Draws of unstable filters have no influence on mean and covariance. *)
Theorem C55_unstable_no_influence : forall stable min_eig x Ux b a Uab runs blow alow shift theta z theta' z',
  fits (alen x) Ux -> proper min_eig (alen x) Ux -> mrows Uab = (alen a - 1 + alen b)%nat -> mcols Uab = (alen a - 1 + alen b)%nat ->
  (forall k, alen (theta k) = (alen a - 1 + alen b)%nat) -> (forall k, alen (z k) = alen x) ->
  (forall k, alen (theta' k) = (alen a - 1 + alen b)%nat) -> (forall k, alen (z' k) = alen x) ->
  (forall k, passes stable a b theta k = passes stable a b theta' k) ->
  (forall k, passes stable a b theta k = true -> theta' k = theta k /\ z' k = z k) ->
  MC stable min_eig x Ux b a Uab runs blow alow false shift theta z
  = MC stable min_eig x Ux b a Uab runs blow alow false shift theta' z'.
Proof.
  intros stable min_eig x Ux b a Uab runs blow alow shift theta z theta' z' HU Hm H1 H2 Ht Hz Ht' Hz' Hp He.
  rewrite (MC_eq stable min_eig x Ux b a Uab runs blow alow false shift theta z HU Hm H1 H2 Ht Hz).
  rewrite (MC_eq stable min_eig x Ux b a Uab runs blow alow false shift theta' z' HU Hm H1 H2 Ht' Hz').
  cbv zeta. fold (passes stable a b theta). fold (passes stable a b theta').
  rewrite (filter_ext _ _ Hp (seq 0 runs)).
  rewrite (map_ext_in _ (fun k => roll (mc_y (alen a) (alen b) blow alow (theta' k) (mc_x x Ux (z' k))) shift)
            (filter (passes stable a b theta') (seq 0 runs))).
  - reflexivity.
  - intros k Hk. apply filter_In in Hk. destruct Hk as [_ Hk]. rewrite <- Hp in Hk.
    destruct (He k Hk) as [-> ->]. reflexivity.
Qed.
(** Arguments that do not fit *)
Theorem C55_errors : forall stable min_eig x Ux b a Uab runs blow alow rs shift theta z,
  (mrows Uab <> (alen a - 1 + alen b)%nat \/ mcols Uab <> (alen a - 1 + alen b)%nat ->
     MC stable min_eig x Ux b a Uab runs blow alow rs shift theta z = Err ValueError) /\
  (mrows Uab = (alen a - 1 + alen b)%nat -> mcols Uab = (alen a - 1 + alen b)%nat ->
     (Ux = McOther -> MC stable min_eig x Ux b a Uab runs blow alow rs shift theta z = Err NotImplementedError) /\
     (forall m, Ux = McMat m -> mrows m <> alen x \/ mcols m <> alen x ->
        MC stable min_eig x Ux b a Uab runs blow alow rs shift theta z = Err ValueError)).
Proof.
  intros stable min_eig x Ux b a Uab runs blow alow rs shift theta z. unfold MC. split; [|intros H1 H2; split].
  - intros H. destruct (Nat.eqb_spec (mrows Uab) (alen a - 1 + alen b)), (Nat.eqb_spec (mcols Uab) (alen a - 1 + alen b));
      try reflexivity. lia.
  - intros ->. rewrite H1, H2, Nat.eqb_refl. reflexivity.
  - intros m -> Hm. rewrite H1, H2, Nat.eqb_refl. cbn [andb negb mc_inputs].
    destruct (Nat.eqb_spec (mrows m) (mcols m)), (Nat.eqb_spec (mrows m) (alen x)); cbn [andb negb bind]; try reflexivity. lia.
Qed.
Lemma mc_loop_sizes stable min_eig x (v : vec) Na blow alow theta z : alen x = 1%nat -> (2 <= alen v)%nat ->
  forall todo k0, (exists k, (k0 <= k < k0 + todo)%nat /\
     stable (slice (theta k) (Na - 1) (alen (theta k))) (mkArr Na (fun i => if (i =? 0)%nat then 1 else theta k (i - 1)%nat)) = true) ->
  mc_loop stable min_eig x (McVec v) Na blow alow theta z todo k0 = Err ValueError.
Proof.
  intros Hx Hv. induction todo as [|t IH]; intros k0 (k & Hk & Hs); [lia|].
  cbn [mc_loop mc_inputs]. unfold normal_zerocorr. cbn [np_size1]. rewrite Hx.
  destruct (Nat.eqb_spec 1 (alen v)); [lia|]. destruct (Nat.eqb_spec (alen v) 1); [lia|]. cbn [Nat.eqb negb andb bind].
  unfold mc_scalar. cbn [andb].
  assert (HL : forall bb aa xn, alen (lfilter0 bb aa xn) = alen xn) by reflexivity.
  unfold mc_run.
  destruct (stable (slice (theta k0) (Na - 1) (alen (theta k0))) _) eqn:Es.
  - rewrite HL. destruct blow; rewrite ?HL; cbn [alen fst];
      (destruct (Nat.eqb_spec (alen v) 1); [lia|]); (destruct alow; reflexivity) || reflexivity.
  - rewrite IH; [reflexivity|]. destruct (Nat.eq_dec k k0) as [->|]; [congruence|]. exists k. split; [lia|exact Hs].
Qed.
(** Standard uncertainties whose number does not fit the signal: ValueError, also where broadcasting would
    work (one sample, several uncertainties) as soon as a drawn filter is stable. *)
Theorem C55_sizes : forall stable min_eig x (v : vec) b a Uab runs blow alow rs shift theta z,
  mrows Uab = (alen a - 1 + alen b)%nat -> mcols Uab = (alen a - 1 + alen b)%nat ->
  alen v <> alen x -> alen v <> 1%nat ->
  (alen x <> 1%nat -> MC stable min_eig x (McVec v) b a Uab runs blow alow rs shift theta z = Err ValueError) /\
  (alen x = 1%nat -> (2 <= alen v)%nat -> (forall k, alen (theta k) = (alen a - 1 + alen b)%nat) ->
   (exists k, (k < runs)%nat /\ passes stable a b theta k = true) ->
     MC stable min_eig x (McVec v) b a Uab runs blow alow rs shift theta z = Err ValueError).
Proof.
  intros stable min_eig x v b a Uab runs blow alow rs shift theta z R1 C1 H1 H2. split; intros H3.
  - unfold MC. rewrite R1, C1, Nat.eqb_refl. cbn [andb negb mc_inputs]. unfold normal_zerocorr. cbn [np_size1].
    destruct (Nat.eqb_spec (alen x) (alen v)); [congruence|]. destruct (Nat.eqb_spec (alen x) 1); [congruence|].
    destruct (Nat.eqb_spec (alen v) 1); [congruence|]. reflexivity.
  - intros Hv Ht (k & Hk & Hp). unfold MC. rewrite R1, C1, Nat.eqb_refl. cbn [andb negb].
    rewrite mc_loop_sizes.
    + cbn [mc_inputs]. unfold normal_zerocorr. cbn [np_size1]. rewrite H3.
      destruct (Nat.eqb_spec 1 (alen v)); [lia|]. destruct (Nat.eqb_spec (alen v) 1); [lia|]. reflexivity.
    + exact H3.
    + exact Hv.
    + exists k. split; [lia|]. unfold passes, drawn_b, drawn_a in Hp.
      unfold slice. rewrite Ht, Nat.min_id. rewrite <- Hp. f_equal. f_equal. lia.
Qed.
Example C55_sizes_example :
  MC (fun _ _ => true) (fun _ => 1) (of_list [1]) (McVec (of_list [1; 2])) (of_list [2]) (of_list [1]) (of_rows [[1]]) 3 None None
     false 0 (fun _ => of_list [1]) (fun _ => of_list [0; 0]) = Err ValueError /\
  MC (fun _ _ => true) (fun _ => 1) (of_list [1; 2; 3]) (McVec (of_list [1; 2])) (of_list [2]) (of_list [1]) (of_rows [[1]]) 3 None None
     false 0 (fun _ => of_list [1]) (fun _ => of_list [0; 0]) = Err ValueError.
Proof.
  split.
  - eapply C55_sizes; try reflexivity; try (cbn; lia). exists 0%nat. split; [lia|reflexivity].
  - eapply (fun st me x v b a U r bl al rs sh th z h1 h2 h3 h4 => proj1 (C55_sizes st me x v b a U r bl al rs sh th z h1 h2 h3 h4));
      try reflexivity; cbn; lia.
Qed.
Print Assumptions C55_sizes.
(** Gains 1 (stable), 5 (unstable), 3 (stable) applied to the signal (1, 0): mean 2,
    variance 2; with shift 1 the response appears one sample later. *)
Definition stable55 (b a : vec) : bool := rltb (b 0%nat) 4.
Definition theta55 (k : nat) : vec := mkArr 1 (fun _ => match k with O => 1 | 1%nat => 5 | _ => 3 end).
Example C55_example : exists m M,
  MC stable55 (fun _ => 1) (of_list [1; 0]) (McFloat 0) (of_list [2]) (of_list [1]) (of_rows [[1]]) 3 None None false 1
     theta55 (fun _ => of_list [0; 0]) = Ok (McMoments (Some m) (CovMat M)) /\
  m 0%nat = 0 /\ m 1%nat = 2 /\ M 1%nat 1%nat = 2.
Proof.
  destruct (C55_stable_draws stable55 (fun _ => 1) (of_list [1; 0]) (McFloat 0) (of_list [2]) (of_list [1]) (of_rows [[1]]) 3
    None None 1 theta55 (fun _ => of_list [0; 0])) as (ys & Hy & (y & U & E & Hm & HU) & _);
    [exact I|exact I|cbn; lia|exact I|reflexivity|reflexivity|reflexivity|reflexivity|].
  assert (Est : filter (passes stable55 (of_list [1]) (of_list [2]) theta55) (seq 0 3) = [0%nat; 2%nat]).
  { cbn [seq filter]. unfold passes, stable55, drawn_b, theta55. cbn [aget alen].
    unfold rltb. destruct (Rlt_dec 1 4), (Rlt_dec 5 4), (Rlt_dec 3 4); try reflexivity; lra. }
  rewrite Est in Hm, HU.
  destruct y as [m|]; [|discriminate]. destruct U as [|r|M]; [cbn in HU; lia|cbn in HU; destruct HU as [(_ & X & _)|(k & X & _)]; discriminate|].
  exists m, M. split; [exact E|].
  destruct Hm as (_ & _ & Hm). destruct HU as (_ & _ & _ & _ & HM). cbn [alen of_list Datatypes.length] in Hm, HM.
  assert (V : forall k, ys k 0%nat = theta55 k 0%nat /\ ys k 1%nat = 0).
  { intros k. destruct (Hy k) as (xk & w & (Lx & Dx) & Lw & (_ & R)). cbn in Lw. subst w.
    cbn [alen of_list Datatypes.length] in Lx, Dx.
    pose proof (Dx 0%nat ltac:(lia)) as D0. pose proof (Dx 1%nat ltac:(lia)) as D1. cbn in D0, D1.
    pose proof (R 0%nat ltac:(lia)) as R0. pose proof (R 1%nat ltac:(lia)) as R1. cbn in R0, R1. cbn. split; nra. }
  rewrite (Hm 0%nat), (Hm 1%nat), (HM 1%nat 1%nat) by lia.
  unfold sample_cov, scatter, avg. cbn [map tot length].
  change (shifted_from 2 1 0) with 1%nat. change (shifted_from 2 1 1) with 0%nat.
  rewrite !(proj1 (V _)), !(proj2 (V _)). cbn. lra.
Qed.
Print Assumptions C55_stable_draws.
Print Assumptions C55_unstable_no_influence.
Print Assumptions C55_errors.

(** ** C56 *)
Definition no_mat (p : nat) : mat := mkMat p p (fun _ _ => 0).
(** MC without uncertainty for the FIR filter b: every draw equals the estimate. *)
Definition MC_certain (x b : vec) (runs : nat) (shift : Z) : res mc_result :=
  MC (fun _ _ => true) (fun _ => 0) x (McFloat 0) b (mkArr 1 (fun _ => 1)) (no_mat (alen b)) runs None None false shift
     (fun _ => b) (fun _ => mkArr (alen x) (fun _ => 0)).
(** Signals starting with zero: both agree up to the sign of the shift. *)
Theorem C56_opposite_partial : forall (x b : vec) runs s x' u',
  (1 <= runs)%nat -> x 0%nat = 0 ->
  FIRuncFilter DFloat DFloat x (NsFloat 0) b UtNone (- s) None "diag" true = Ok (x', u') ->
  exists m U, MC_certain x b runs s = Ok (McMoments (Some m) U) /\
    alen m = alen x' /\ forall i, (i < alen x)%nat -> m i = x' i.
Proof.
  intros x b runs s x' u' Hr H0 HF.
  destruct (C55_stable_draws (fun _ _ => true) (fun _ => 0) x (McFloat 0) b (mkArr 1 (fun _ => 1)) (no_mat (alen b)) runs
    None None s (fun _ => b) (fun _ => mkArr (alen x) (fun _ => 0))) as (ys & Hy & (y & U & E & Hm & _) & _);
    try exact I; try reflexivity.
  assert (Est : filter (passes (fun _ _ => true) (mkArr 1 (fun _ => 1)) b (fun _ => b)) (seq 0 runs) = seq 0 runs).
  { clear. induction (seq 0 runs) as [|k l IH]; [reflexivity|].
    change (k :: filter (passes (fun _ _ => true) (mkArr 1 (fun _ => 1)) b (fun _ => b)) l = k :: l).
    f_equal. exact IH. }
  rewrite Est in Hm. destruct y as [m|]; [|destruct runs; [lia|discriminate]].
  exists m, U. split; [exact E|]. destruct Hm as (_ & Lm & Hm).
  destruct (FIRuncFilter_estimate _ _ _ _ _ _ _ _ _ _ _ _ HF) as (Hn & _ & Lx & [[Hf _]|[_ He]]).
  { discriminate. }
  split; [lia|]. intros i Hi. rewrite Hm by auto. rewrite He by auto. rewrite Z.opp_involutive.
  change (roll_idx (alen x) s i) with (shifted_from (alen x) s i).
  set (j := shifted_from (alen x) s i).
  assert (Hj : (j < alen x)%nat).
  { unfold j, shifted_from. pose proof (Z.mod_pos_bound (Z.of_nat i - s) (Z.of_nat (alen x)) ltac:(lia)). lia. }
  assert (V : forall k, ys k j = fir_value b x j).
  { intros k. destruct (Hy k) as (xk & w & (Lk & Dx) & Lw & R). cbn in Lw. subst w.
    apply (response_unique (drawn_b 1 (alen b) b) (drawn_a 1 b) xk (ys k) (mkArr (alen xk) (fir_value b x)));
      [cbn; lia|cbn; lra|exact R| |lia].
    split; [reflexivity|]. intros m' Hm'. cbn [drawn_a drawn_b alen aget rsum Nat.sub Nat.add Nat.eqb].
    change (0 <=? m')%nat with true. cbv iota. rewrite Rplus_0_l, Rmult_1_l, Nat.sub_0_r.
    unfold fir_value. apply rsum_ext. intros q Hq. destruct (Nat.leb_spec q m').
    - rewrite Dx by lia. cbn [aget]. ring.
    - rewrite H0. ring. }
  cbn [filtered]. unfold avg.
  rewrite (tot_ext _ (fun _ => fir_value b x j)) by (intros; apply V).
  rewrite tot_const, seq_length. field. apply not_0_INR. lia.
Qed.
Theorem C56_same_direction_refuted : exists x b s runs x' u' m U,
  (1 <= runs)%nat /\
  FIRuncFilter DFloat DFloat x (NsFloat 0) b UtNone s None "diag" true = Ok (x', u') /\
  MC_certain x b runs s = Ok (McMoments (Some m) U) /\
  (exists i, (i < alen x)%nat /\ m i <> x' i) /\
  (* without shift they agree *)
  exists x0 u0 m0 U0, FIRuncFilter DFloat DFloat x (NsFloat 0) b UtNone 0 None "diag" true = Ok (x0, u0) /\
    MC_certain x b runs 0 = Ok (McMoments (Some m0) U0) /\ forall i, (i < alen x)%nat -> m0 i = x0 i.
Proof.
  assert (F : forall s, exists x' u',
    FIRuncFilter DFloat DFloat (of_list [0; 0; 1]) (NsFloat 0) (of_list [1; 0]) UtNone s None "diag" true = Ok (x', u')).
  { intros s. eexists. eexists. unfold FIRuncFilter. cbn [fast_path negb andb String.eqb Ascii.eqb Bool.eqb noise_cov bind].
    reflexivity. }
  destruct (F 1%Z) as (x1 & u1 & F1). destruct (F (-1)%Z) as (x2 & u2 & F2). destruct (F 0%Z) as (x0 & u0 & F0).
  destruct (C56_opposite_partial (of_list [0; 0; 1]) (of_list [1; 0]) 1 1 x2 u2 (le_n 1) eq_refl F2) as (m & U & E & _ & Hm).
  destruct (C56_opposite_partial (of_list [0; 0; 1]) (of_list [1; 0]) 1 0 x0 u0 (le_n 1) eq_refl F0) as (m0 & U0 & E0 & _ & Hm0).
  exists (of_list [0; 0; 1]), (of_list [1; 0]), 1%Z, 1%nat, x1, u1, m, U.
  split; [lia|]. split; [exact F1|]. split; [exact E|]. split.
  - exists 0%nat. split; [cbn; lia|]. rewrite Hm by (cbn; lia).
    destruct (FIRuncFilter_estimate _ _ _ _ _ _ _ _ _ _ _ _ F1) as (_ & _ & _ & [[X _]|[_ E1]]); [discriminate|].
    destruct (FIRuncFilter_estimate _ _ _ _ _ _ _ _ _ _ _ _ F2) as (_ & _ & _ & [[X _]|[_ E2]]); [discriminate|].
    rewrite E1, E2 by (cbn; lia). cbn [alen of_list Datatypes.length].
    change (roll_idx 3 (- (1)) 0) with 1%nat. change (roll_idx 3 (- -1) 0) with 2%nat.
    unfold filtered, fir_value. cbn. lra.
  - exists x0, u0, m0, U0. auto.
Qed.
Print Assumptions C56_opposite_partial.
Print Assumptions C56_same_direction_refuted.

(** ** C57 *)
Theorem C57_never_returns : forall x Na Nb phi theta shift, (1 <= alen x)%nat ->
  SMC x Na Nb phi theta shift = Err ValueError \/ SMC x Na Nb phi theta shift = Err IndexError.
Proof.
  intros x Na Nb phi theta shift Hx. unfold SMC, smc_setup.
  destruct ((Nb <? Na)%nat && negb (Nb =? 1)%nat && negb (Na =? 1)%nat); cbn [bind]; [auto|].
  destruct (Nat.eqb_spec (alen x) 0); [lia|].
  destruct phi, theta; cbn; auto.
Qed.
Theorem C57_smc_refuted : exists x Na Nb phi theta shift, (1 <= alen x)%nat /\
  forall r, SMC x Na Nb phi theta shift <> Ok r.
Proof.
  exists (of_list [1; 2]), 1%nat, 2%nat, SmWhite, SmWhite, 0%Z. split; [cbn; lia|]. intros r. discriminate.
Qed.
(** Only the empty signal passes. *)
Theorem C57_empty_partial : forall x Na Nb phi theta shift r,
  SMC x Na Nb phi theta shift = Ok r -> alen x = 0%nat /\ alen (fst r) = 0%nat /\ alen (snd r) = 0%nat.
Proof.
  intros x Na Nb phi theta shift r. unfold SMC, smc_setup.
  destruct ((Nb <? Na)%nat && negb (Nb =? 1)%nat && negb (Na =? 1)%nat); cbn [bind]; [discriminate|].
  destruct (Nat.eqb_spec (alen x) 0) as [E|E].
  - intros H. injection H as <-. auto.
  - destruct phi, theta; discriminate.
Qed.
Example C57_example :
  SMC (of_list [1; 2]) 1 2 SmWhite SmWhite 0 = Err IndexError /\
  exists r, SMC (of_list []) 1 2 SmWhite SmWhite 0 = Ok r.
Proof. split; [reflexivity|]. eexists. reflexivity. Qed.
Print Assumptions C57_never_returns.
Print Assumptions C57_smc_refuted.
Print Assumptions C57_empty_partial.

(** ** C58 *)
Definition arg_size (a : numarg) : nat := match a with NArr v => alen v | NNum _ => 1%nat end.
(** Value at i of an argument extended to n entries. *)
Definition arg_value (a : numarg) (i : nat) : R :=
  match a with NNum v => v | NArr v => if (alen v =? 1)%nat then v 0%nat else v i end.
Definition is_number (a : numarg) : Prop := exists v, a = NNum v.
Theorem C58_broadcast : forall loc scale,
  (is_number loc -> is_number scale -> normal_zerocorr loc scale = Err TypeError) /\
  (~ (is_number loc /\ is_number scale) ->
     arg_size loc <> arg_size scale -> arg_size loc <> 1%nat -> arg_size scale <> 1%nat ->
     normal_zerocorr loc scale = Err ValueError) /\
  (~ (is_number loc /\ is_number scale) ->
     arg_size loc = arg_size scale \/ arg_size loc = 1%nat \/ arg_size scale = 1%nat ->
     exists l s n, normal_zerocorr loc scale = Ok (l, s) /\ alen l = n /\ alen s = n /\
       (n = arg_size loc \/ arg_size loc = 1%nat) /\ (n = arg_size scale \/ arg_size scale = 1%nat) /\
       (forall i, (i < n)%nat -> l i = arg_value loc i /\ s i = arg_value scale i) /\
       forall size z, let X := nzc_rvs (l, s) size z in
         mrows X = size /\ mcols X = n /\
         forall r i, (r < size)%nat -> (i < n)%nat -> X r i = arg_value loc i + arg_value scale i * z r i).
Proof.
  assert (K : forall (l s : vec) n loc scale, alen l = n -> alen s = n ->
     (forall i, (i < n)%nat -> l i = arg_value loc i /\ s i = arg_value scale i) ->
     forall size z, let X := nzc_rvs (l, s) size z in
         mrows X = size /\ mcols X = n /\
         forall r i, (r < size)%nat -> (i < n)%nat -> X r i = arg_value loc i + arg_value scale i * z r i).
  { intros l s n loc scale Hl Hs Hv size z. cbv zeta. cbn [nzc_rvs mrows mcols mget fst snd].
    split; [auto|]. split; [auto|]. intros r i Hr Hi. destruct (Hv i Hi) as [-> ->]. ring. }
  intros loc scale. split; [|split].
  - intros [u ->] [v ->]. reflexivity.
  - intros Hn H1 H2 H3. unfold normal_zerocorr.
    destruct loc as [l|u], scale as [s|v]; cbn [np_size1 alen arg_size] in *; try lia.
    destruct (Nat.eqb_spec (alen l) (alen s)); [lia|].
    destruct (Nat.eqb_spec (alen l) 1); [lia|]. destruct (Nat.eqb_spec (alen s) 1); [lia|]. reflexivity.
  - intros Hn H.
    assert (G : exists l s n, normal_zerocorr loc scale = Ok (l, s) /\ alen l = n /\ alen s = n /\
       (n = arg_size loc \/ arg_size loc = 1%nat) /\ (n = arg_size scale \/ arg_size scale = 1%nat) /\
       (forall i, (i < n)%nat -> l i = arg_value loc i /\ s i = arg_value scale i)).
    { unfold normal_zerocorr.
      destruct loc as [l|u], scale as [s|v]; cbn [np_size1 alen arg_size arg_value] in *.
      - destruct (Nat.eqb_spec (alen l) (alen s)) as [E|E].
        + exists l, s, (alen s). do 5 (split; [solve [auto]|]). intros i Hi. rewrite E.
          destruct (Nat.eqb_spec (alen s) 1); auto. replace i with 0%nat by lia. auto.
        + destruct (Nat.eqb_spec (alen l) 1) as [El|El], (Nat.eqb_spec (alen s) 1) as [Es|Es]; cbn [andb negb]; try lia.
          * exists (mkArr (alen s) (fun _ => l 0%nat)), s, (alen s). do 5 (split; [solve [auto]|]). auto.
          * exists l, (mkArr (alen l) (fun _ => s 0%nat)), (alen l). do 5 (split; [solve [auto]|]). auto.
      - destruct (Nat.eqb_spec (alen l) 1) as [E|E]; cbn [andb negb].
        + exists l, (mkArr 1 (fun _ => v)), 1%nat. do 5 (split; [solve [auto]|]).
          intros i Hi. replace i with 0%nat by lia. auto.
        + exists l, (mkArr (alen l) (fun _ => v)), (alen l). do 5 (split; [solve [auto]|]). auto.
      - destruct (Nat.eqb_spec 1 (alen s)) as [E|E]; cbn [andb negb Nat.eqb].
        + exists (mkArr 1 (fun _ => u)), s, 1%nat. do 5 (split; [solve [auto]|]).
          intros i Hi. rewrite <- E. cbn. replace i with 0%nat by lia. auto.
        + destruct (Nat.eqb_spec (alen s) 1); [lia|].
          exists (mkArr (alen s) (fun _ => u)), s, (alen s). cbn [andb negb].
          do 5 (split; [solve [auto]|]). auto.
      - exfalso. apply Hn. split; eexists; reflexivity. }
    destruct G as (l & s & n & G1 & G2 & G3 & G4 & G5 & G6). exists l, s, n.
    repeat (split; [assumption|]). apply K; auto.
Qed.
Example C58_example : exists l s,
  normal_zerocorr (NArr (of_list [1; 2; 3])) (NNum 5) = Ok (l, s) /\
  nzc_rvs (l, s) 1 (fun _ _ => 2) 0%nat 2%nat = 13 /\
  normal_zerocorr (NArr (of_list [1; 2; 3])) (NArr (of_list [1; 2])) = Err ValueError.
Proof.
  eexists. eexists. split; [reflexivity|]. split; [cbn; lra|reflexivity].
Qed.
Print Assumptions C58_broadcast.
