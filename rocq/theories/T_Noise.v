(** Theorems about noise.py (C59, C60, C98, C99). *)
From Coq Require Import String.
From Coq Require Import Reals List Arith ZArith Bool Lra Lia.
From Verif Require Import Base Sums Stats StatsFacts P_Trig M_Interp P_Interp Cplx M_Noise S_Noise P_Noise.
Import ListNotations.
Open Scope R_scope.
Local Notation length := Datatypes.length.

(** ** C59.  Full statement: for all phi, theta, w and n < length,
    [arma_recursion phi theta w (ARMA w phi theta) n].  It is false for two coefficients. *)
Theorem C59_arma_refuted : exists (w phi theta : vec) n, (n < alen w)%nat /\
  ~ arma_recursion phi theta w (ARMA w (CoVec phi) (CoVec theta)) n.
Proof.
  exists (of_list [1; 0; 0]), (of_list [0; 1/2]), (of_list [0]), 2%nat. split; [cbn; lia|].
  unfold arma_recursion. intros H. cbn in H. unfold arma_step in H. cbn in H. lra.
Qed.
(** The same for the moving average part alone. *)
Theorem C59_ma_refuted : exists (w phi theta : vec) n, (n < alen w)%nat /\
  ~ arma_recursion phi theta w (ARMA w (CoVec phi) (CoVec theta)) n.
Proof.
  exists (of_list [1; 0; 0]), (of_list [0]), (of_list [1/2; 0]), 2%nat. split; [cbn; lia|].
  unfold arma_recursion. intros H. cbn in H. unfold arma_step in H. cbn in H. lra.
Qed.
(** The coefficients given as a number or an array. *)
Definition coefficients (c : coef) : vec := match c with CoNum x => of_list [x] | CoVec v => v end.
(** At most one coefficient each: the documented recursion. *)
Theorem C59_first_order_partial : forall (w : vec) phi theta,
  (alen (coefficients phi) <= 1)%nat -> (alen (coefficients theta) <= 1)%nat ->
  alen (ARMA w phi theta) = alen w /\
  forall n, (n < alen w)%nat -> arma_recursion (coefficients phi) (coefficients theta) w (ARMA w phi theta) n.
Proof.
  intros w phi theta Hp Hq. split; [reflexivity|]. intros n Hn. unfold arma_recursion.
  change coefficients with coef_vec in *. rewrite (ARMA_rec w phi theta n Hn) at 1. cbv zeta. rewrite !rsum_trunc.
  f_equal; [f_equal|]; apply rsum_ext; intros j Hj; f_equal; f_equal; lia.
Qed.
(** Any order, past the start: the recursion holds with the coefficients in reversed order
    (phi[0] weights the oldest value). *)
Theorem C59_reversed_partial : forall (w : vec) phi theta n, (n < alen w)%nat ->
  (alen (coefficients phi) <= n)%nat -> (alen (coefficients theta) <= n)%nat ->
  arma_recursion (reversed (coefficients phi)) (reversed (coefficients theta)) w (ARMA w phi theta) n.
Proof.
  intros w phi theta n Hn Hp Hq. unfold arma_recursion. cbn [alen aget reversed].
  change coefficients with coef_vec in *. rewrite (ARMA_rec w phi theta n Hn) at 1. cbv zeta.
  rewrite (Nat.min_l _ _ Hp), (Nat.min_l _ _ Hq), !rsum_trunc, (Nat.min_l _ _ Hp), (Nat.min_l _ _ Hq).
  reflexivity.
Qed.
(** Hence the documented recursion for palindromic coefficients, past the start. *)
Theorem C59_palindromic_partial : forall (w : vec) phi theta n, (n < alen w)%nat ->
  (alen (coefficients phi) <= n)%nat -> (alen (coefficients theta) <= n)%nat ->
  (forall i, (i < alen (coefficients phi))%nat -> coefficients phi i = reversed (coefficients phi) i) ->
  (forall i, (i < alen (coefficients theta))%nat -> coefficients theta i = reversed (coefficients theta) i) ->
  arma_recursion (coefficients phi) (coefficients theta) w (ARMA w phi theta) n.
Proof.
  intros w phi theta n Hn Hp Hq Sp Sq. pose proof (C59_reversed_partial w phi theta n Hn Hp Hq) as H.
  unfold arma_recursion in *. cbn [alen reversed] in H. rewrite H. f_equal; [f_equal|].
  - apply rsum_ext. intros j Hj. rewrite <- (Sp j Hj). reflexivity.
  - apply rsum_ext. intros j Hj. rewrite <- (Sq j Hj). reflexivity.
Qed.
Example C59_example :
  let e := ARMA (of_list [1; 0; 0]) (CoNum (1/2)) (CoNum (1/3)) in
  e 0%nat = 1 /\ e 1%nat = 1/2 + 1/3 /\ e 2%nat = 5/12.
Proof. cbn. unfold arma_step. cbn. lra. Qed.
Example C59_palindromic_example : let e := ARMA (of_list [1; 0; 0]) (CoVec (of_list [1; 1])) (CoNum 0) in
  e 2%nat = e 1%nat + e 0%nat.
Proof. cbn. unfold arma_step. cbn. lra. Qed.

(** ** C60 *)
(** The white noise actually used: the given w, or N drawn values. *)
Definition used (draw : nat -> vec) (N : option nat) (w : option vec) (v : vec) : Prop :=
  match N, w with
  | None, Some w0 => v = w0
  | Some n, None => v = draw n
  | _, _ => False
  end.
Definition known_color (c : color) (alpha : R) : Prop :=
  match c with
  | ColName s => (s = "violet"%string /\ alpha = 2) \/ (s = "blue"%string /\ alpha = 1) \/
      (s = "white"%string /\ alpha = 0) \/ (s = "pink"%string /\ alpha = -1) \/
      (s = "red"%string /\ alpha = -2) \/ (s = "brown"%string /\ alpha = -2)
  | ColNum x => alpha = x
  | ColOther => False
  end.
Lemma get_alpha_known c alpha : get_alpha c = Ok alpha <-> known_color c alpha.
Proof.
  destruct c as [s|x|]; cbn [get_alpha known_color].
  - unfold colors, lookup.
    destruct (String.eqb_spec s "violet"); [subst; split; [intros [= <-]; tauto|intros [[_ ->]|H]; [reflexivity|]; repeat (destruct H as [[? _]|H]; [discriminate|]); destruct H; discriminate]|].
    destruct (String.eqb_spec s "blue"); [subst; split; [intros [= <-]; tauto|intros [[? _]|[[_ ->]|H]]; [discriminate|reflexivity|]; repeat (destruct H as [[? _]|H]; [discriminate|]); destruct H; discriminate]|].
    destruct (String.eqb_spec s "white"); [subst; split; [intros [= <-]; tauto|intros [[? _]|[[? _]|[[_ ->]|H]]]; [discriminate|discriminate|reflexivity|]; repeat (destruct H as [[? _]|H]; [discriminate|]); destruct H; discriminate]|].
    destruct (String.eqb_spec s "pink"); [subst; split; [intros [= <-]; right; right; right; left; split; auto; lra|intros [[? _]|[[? _]|[[? _]|[[_ ->]|H]]]]; try discriminate; [f_equal; lra|destruct H as [[? _]|[? _]]; discriminate]]|].
    destruct (String.eqb_spec s "red"); [subst; split; [intros [= <-]; do 4 right; left; split; auto; lra|intros [[? _]|[[? _]|[[? _]|[[? _]|[[_ ->]|[? _]]]]]]; try discriminate; f_equal; lra]|].
    destruct (String.eqb_spec s "brown"); [subst; split; [intros [= <-]; do 5 right; split; auto; lra|intros [[? _]|[[? _]|[[? _]|[[? _]|[[? _]|[_ ->]]]]]]; try discriminate; f_equal; lra]|].
    split; [discriminate|]. intros H. exfalso. intuition.
  - split; [intros [= ->]; reflexivity|intros ->; reflexivity].
  - split; [discriminate|contradiction].
Qed.
Lemma noise_run draw N w c mean std v : used draw N w v ->
  power_law_noise draw N w c mean std =
  do alpha <- get_alpha c ;;
  if (alen v =? 0)%nat then Err ValueError
  else let f := coloured v alpha in
       if Req_EM_T (np_std f) 0 then Ok None
       else Ok (Some (mkArr (alen f) (fun i => mean + std * ((f i - np_mean f) / np_std f)))).
Proof. destruct N, w; cbn [used]; intros ->  || intros []; reflexivity. Qed.

Theorem C60_mean_std : forall draw N w c mean std v y, used draw N w v ->
  power_law_noise draw N w c mean std = Ok (Some y) ->
  alen y = alen v /\ (0 < alen v)%nat /\
  has_emp_mean (alen v) y mean /\ has_emp_std (alen v) y (Rabs std).
Proof.
  intros draw N w c mean std v y Hu H. rewrite (noise_run _ _ _ _ _ _ v Hu) in H.
  destruct (get_alpha c) as [alpha|]; [|discriminate]. cbn [bind] in H.
  destruct (Nat.eqb_spec (alen v) 0); [discriminate|]. cbv zeta in H.
  destruct (Req_EM_T (np_std (coloured v alpha)) 0) as [E|E]; [discriminate|]. injection H as <-.
  split; [reflexivity|]. split; [lia|].
  apply (standardise (coloured v alpha) mean std); auto. cbn; lia.
Qed.
(** Which calls succeed: known colour, and at least one sample differs from the others;
    otherwise nan (None) for a constant input. *)
Theorem C60_returns : forall draw N w c mean std v alpha, used draw N w v -> known_color c alpha ->
  (0 < alen v)%nat ->
  (~ constant (alen v) v -> exists y, power_law_noise draw N w c mean std = Ok (Some y)) /\
  (constant (alen v) v -> power_law_noise draw N w c mean std = Ok None).
Proof.
  intros draw N w c mean std v alpha Hu Hc Hv. rewrite (noise_run _ _ _ _ _ _ v Hu).
  apply get_alpha_known in Hc. rewrite Hc. cbn [bind].
  destruct (Nat.eqb_spec (alen v) 0); [lia|]. cbv zeta.
  destruct (Req_EM_T (np_std (coloured v alpha)) 0) as [E|E].
  - split; [|auto]. intros K. exfalso. apply K. apply (coloured_constant v alpha).
    apply (np_std_zero (coloured v alpha)); auto.
  - split; [intros _; eexists; reflexivity|]. intros K. exfalso. apply E.
    apply np_std_constant; [cbn; lia|]. apply (coloured_of_constant v alpha K).
Qed.
(** white: the input itself, standardised. *)
Theorem C60_white : forall draw w mean std y,
  power_law_noise draw None (Some w) (ColName "white") mean std = Ok (Some y) ->
  exists m s, has_emp_mean (alen w) w m /\ has_emp_std (alen w) w s /\ s <> 0 /\
    forall i, (i < alen w)%nat -> y i = mean + std * ((w i - m) / s).
Proof.
  intros draw w mean std y H. rewrite (noise_run _ None (Some w) _ _ _ w eq_refl) in H.
  cbn [get_alpha colors lookup String.eqb Ascii.eqb Bool.eqb bind] in H.
  destruct (Nat.eqb_spec (alen w) 0); [discriminate|]. cbv zeta in H.
  destruct (Req_EM_T (np_std (coloured w 0)) 0) as [E|E]; [discriminate|]. injection H as <-.
  assert (Em : np_mean (coloured w 0) = rsum (alen w) w / INR (alen w)).
  { unfold np_mean. cbn [alen coloured]. f_equal. apply rsum_ext. intros. apply coloured_white. auto. }
  assert (Es : np_std (coloured w 0) = sqrt (rsum (alen w) (fun i => (w i - rsum (alen w) w / INR (alen w)) ^ 2) / INR (alen w))).
  { unfold np_std. rewrite Em. cbn [alen coloured]. f_equal. f_equal. apply rsum_ext. intros.
    rewrite coloured_white by auto. reflexivity. }
  exists (rsum (alen w) w / INR (alen w)), (np_std (coloured w 0)).
  split; [reflexivity|]. split; [symmetry; exact Es|]. split; [exact E|].
  intros i Hi. rewrite <- (coloured_white w i Hi). rewrite <- Em. reflexivity.
Qed.
(** Exceptions. *)
Theorem C60_errors : forall draw N w mean std n v,
  power_law_noise draw (Some n) (Some v) N mean std = Err UserWarning /\
  (forall s, ~ (exists a, known_color (ColName s) a) ->
     used draw None (Some w) v -> power_law_noise draw None (Some w) (ColName s) mean std = Err NotImplementedError) /\
  power_law_noise draw None (Some w) ColOther mean std = Err OSError /\
  (forall c a, known_color c a -> power_law_noise draw None None c mean std = Err AxisError) /\
  (forall c a, known_color c a -> alen v = 0%nat -> power_law_noise draw None (Some v) c mean std = Err ValueError).
Proof.
  intros draw N w mean std n v. split; [reflexivity|]. split; [|split; [reflexivity|split]].
  - intros s Hs _. rewrite (noise_run _ None (Some w) _ _ _ w eq_refl).
    destruct (get_alpha (ColName s)) as [a|e] eqn:E.
    + exfalso. apply Hs. exists a. apply get_alpha_known. auto.
    + cbn [get_alpha] in E. destruct (lookup s colors); [discriminate|]. injection E as <-. reflexivity.
  - intros c a Hc. apply get_alpha_known in Hc. cbn. rewrite Hc. reflexivity.
  - intros c a Hc Hv. apply get_alpha_known in Hc. rewrite (noise_run _ None (Some v) _ _ _ v eq_refl), Hc.
    cbn [bind]. rewrite Hv. reflexivity.
Qed.

(** ** C126: N is ignored if w is given (as documented)
    It holds as far as only one of the two is given, *)
Theorem C126_only_w_partial : forall draw draw' w c mean std,
  power_law_noise draw None (Some w) c mean std = power_law_noise draw' None (Some w) c mean std /\
  forall n, (forall k, draw' k = w) ->
    power_law_noise draw None (Some w) c mean std = power_law_noise draw' (Some n) None c mean std.
Proof.
  intros draw draw' w c mean std. split; [reflexivity|]. intros n H.
  rewrite (noise_run draw None (Some w) _ _ _ w eq_refl), (noise_run draw' (Some n) None _ _ _ w); [reflexivity|].
  symmetry. apply H.
Qed.
(** but both together are refused, whatever their values, even for N = len(w). *)
Theorem C126_both_partial : forall draw n w c mean std, power_law_noise draw (Some n) (Some w) c mean std = Err UserWarning.
Proof. reflexivity. Qed.
Theorem C126_ignored_refuted : exists draw n w c mean std y,
  n = alen w /\ power_law_noise draw None (Some w) c mean std = Ok y /\
  power_law_noise draw (Some n) (Some w) c mean std = Err UserWarning.
Proof.
  destruct (C60_returns (fun n => mkArr n INR) None (Some (mkArr 3 INR)) (ColName "white") 0 1 (mkArr 3 INR) 0 eq_refl) as [K _].
  - right; right; left. auto.
  - cbn; lia.
  - destruct K as [y E].
    + intros K. specialize (K 0%nat 1%nat ltac:(cbn; lia) ltac:(cbn; lia)). cbn in K. lra.
    + exists (fun n => mkArr n INR), 3%nat, (mkArr 3 INR), (ColName "white"), 0, 1, (Some y). auto.
Qed.
Example C60_example : exists y, power_law_noise (fun n => mkArr n INR) (Some 3%nat) None (ColName "pink") 5 2 = Ok (Some y)
  /\ has_emp_mean 3 y 5 /\ has_emp_std 3 y 2.
Proof.
  destruct (C60_returns (fun n => mkArr n INR) (Some 3%nat) None (ColName "pink") 5 2 (mkArr 3 INR) (-1) eq_refl) as [K _].
  - right; right; right; left. auto.
  - cbn; lia.
  - destruct K as [y E].
    + intros K. specialize (K 0%nat 1%nat ltac:(cbn; lia) ltac:(cbn; lia)). cbn in K. lra.
    + exists y. split; [exact E|]. pose proof (C60_mean_std (fun n => mkArr n INR) (Some 3%nat) None _ _ _ (mkArr 3 INR) y eq_refl E) as (_ & _ & M & S).
      rewrite Rabs_pos_eq in S by lra. auto.
Qed.

(** ** C98: spectral shape.  The comment at noise.py:107-109 promises k = 1, 2, 3, ...;
    full statement: every bin k >= 1 of the output is c * (k+1)^(alpha/2) times the bin of
    the white noise, with one constant c. *)
Definition spectrum_shaped (law : nat -> R) (alpha : R) (n : nat) (v y : nat -> R) : Prop :=
  exists c, forall k, (0 < k)%nat -> (2 * k <= n)%nat ->
    dft_bin n y k = cscal (c * Rpower (law k) (alpha / 2)) (dft_bin n v k).
Theorem C98_spectrum_refuted : exists draw w y,
  power_law_noise draw None (Some w) (ColName "violet") 0 1 = Ok (Some y) /\
  ~ spectrum_shaped (fun k => INR k + 1) 2 (alen w) w y.
Proof.
  set (w := of_list [1; 0; 0; 0]).
  destruct (C60_returns (fun _ => w) None (Some w) (ColName "violet") 0 1 w 2 eq_refl) as [K _]; [left; auto|cbn; lia|].
  destruct K as [y E].
  { intros K. specialize (K 0%nat 1%nat ltac:(cbn; lia) ltac:(cbn; lia)). cbn in K. lra. }
  exists (fun _ => w), w, y. split; [exact E|]. intros [c Hc].
  rewrite (noise_run _ None (Some w) _ _ _ w eq_refl) in E. cbn [get_alpha colors lookup String.eqb Ascii.eqb Bool.eqb bind] in E.
  change (alen w) with 4%nat in *. cbn [Nat.eqb] in E. cbv zeta in E.
  destruct (Req_EM_T (np_std (coloured w 2)) 0) as [|Hs]; [discriminate|]. injection E as <-.
  set (s := np_std (coloured w 2)) in *. set (m := np_mean (coloured w 2)) in *.
  assert (B : forall k, (0 < k)%nat -> (2 * k <= 4)%nat ->
     dft_bin 4 (fun i => 0 + 1 * ((coloured w 2 i - m) / s)) k
     = cscal (/ s * Rpower (linspace0 3 k + 1) (2 / 2)) (dft_bin 4 w k)).
  { intros k H1 H2. transitivity (dft_bin 4 (fun i => - m / s + / s * coloured w 2 i) k).
    - rewrite !dft_bin_parts. apply C_eq; cbn [fst snd]; apply rsum_ext; intros; field; auto.
    - rewrite dft_bin_affine by lia. pose proof (coloured_bin w 2 k H1 H2) as CB. change (alen w) with 4%nat in CB.
      rewrite CB. change (4 / 2 + 1)%nat with 3%nat. apply C_eq; cbn [fst snd cscal]; ring. }
  assert (D : forall k, fst (dft_bin 4 w k) = 1).
  { intros k. rewrite dft_bin_parts. cbn [fst rsum].
    change (w 0%nat) with 1. change (w 1%nat) with 0. change (w 2%nat) with 0. change (w 3%nat) with 0.
    replace (ang 4 k 0) with 0 by (unfold ang; simpl (INR 0); unfold Rdiv; ring). rewrite cos_0. ring. }
  pose proof (Hc 1%nat ltac:(lia) ltac:(lia)) as H1. pose proof (Hc 2%nat ltac:(lia) ltac:(lia)) as H2.
  cbn [aget alen coloured] in H1, H2.
  rewrite B in H1 by lia. rewrite B in H2 by lia.
  apply (f_equal fst) in H1. apply (f_equal fst) in H2. cbn [fst cscal] in H1, H2. rewrite !D in H1, H2.
  replace (2 / 2) with 1 in * by lra. unfold linspace0 in *. cbn [Nat.eqb Nat.sub] in *. simpl INR in *.
  rewrite !Rpower_1 in H1 by lra. rewrite !Rpower_1 in H2 by lra.
  assert (/ s <> 0) by (apply Rinv_neq_0_compat; auto). lra.
Qed.
(** What holds: the law k*steps/(steps-1)+1 with steps = N//2+1. *)
Theorem C98_actual_law_partial : forall draw N w c mean std v alpha y, used draw N w v -> known_color c alpha ->
  power_law_noise draw N w c mean std = Ok (Some y) ->
  spectrum_shaped (fun k => INR k * ((INR (alen v / 2) + 1) / INR (alen v / 2)) + 1) alpha (alen v) v y.
Proof.
  intros draw N w c mean std v alpha y Hu Hc H. rewrite (noise_run _ _ _ _ _ _ v Hu) in H.
  apply get_alpha_known in Hc. rewrite Hc in H. cbn [bind] in H.
  destruct (Nat.eqb_spec (alen v) 0); [discriminate|]. cbv zeta in H.
  destruct (Req_EM_T (np_std (coloured v alpha)) 0) as [E|E]; [discriminate|]. injection H as <-.
  set (s := np_std (coloured v alpha)) in *. set (m := np_mean (coloured v alpha)).
  exists (std / s). intros k H1 H2.
  transitivity (dft_bin (alen v) (fun i => mean + std * ((coloured v alpha i - m) / s)) k); [reflexivity|].
  transitivity (dft_bin (alen v) (fun i => (mean - std * m / s) + std / s * coloured v alpha i) k).
  - rewrite !dft_bin_parts. apply C_eq; cbn [fst snd]; apply rsum_ext; intros; field; auto.
  - rewrite dft_bin_affine by lia. rewrite coloured_bin by auto.
    assert (L : linspace0 (alen v / 2 + 1) k = INR k * ((INR (alen v / 2) + 1) / INR (alen v / 2))).
    { unfold linspace0. assert (1 <= alen v / 2)%nat by (apply Nat.div_le_lower_bound; lia).
      destruct (Nat.eqb_spec (alen v / 2 + 1) 1); [lia|]. replace (alen v / 2 + 1 - 1)%nat with (alen v / 2)%nat by lia.
      rewrite plus_INR. reflexivity. }
    rewrite L. apply C_eq; cbn [fst snd cscal]; ring.
Qed.
Example C98_example : exists y : vec, power_law_noise (fun n => mkArr n INR) (Some 3%nat) None (ColNum 2) 5 2 = Ok (Some y)
  /\ spectrum_shaped (fun k => INR k * 2 + 1) 2 3 INR y.
Proof.
  destruct (C60_returns (fun n => mkArr n INR) (Some 3%nat) None (ColNum 2) 5 2 (mkArr 3 INR) 2 eq_refl eq_refl) as [K _]; [cbn; lia|].
  destruct K as [y E].
  { intros K. specialize (K 0%nat 1%nat ltac:(cbn; lia) ltac:(cbn; lia)). cbn in K. lra. }
  exists y. split; [exact E|].
  destruct (C98_actual_law_partial (fun n => mkArr n INR) (Some 3%nat) None (ColNum 2) _ _ (mkArr 3 INR) 2 y eq_refl eq_refl E) as [c Hc].
  exists c. intros k H1 H2. pose proof (Hc k H1 H2) as B. cbn [alen] in B. change (3 / 2)%nat with 1%nat in B.
  change (aget (mkArr 3 INR)) with INR in B. rewrite B. do 3 f_equal. simpl (INR 1). lra.
Qed.

(** ** C99: power_law_acf is a valid autocovariance *)
Theorem C99_acf : forall N c alpha std, (2 <= N)%nat -> known_color c alpha ->
  exists r, power_law_acf N c std = Ok r /\ alen r = N /\ r 0%nat = std ^ 2 /\
    psd N (fun i j => r (Nat.max i j - Nat.min i j)%nat) /\
    (forall i, (i < N)%nat -> Rabs (r i) <= std ^ 2).
Proof.
  intros N c alpha std HN Hc. apply get_alpha_known in Hc. unfold power_law_acf. rewrite Hc. cbn [bind].
  destruct (Nat.eqb_spec (2 * (N - 1)) 0); [lia|]. cbv zeta.
  set (L := (2 * (N - 1))%nat) in *. set (Sp := fun i => Rpower (linspace0 N i + 1) alpha).
  assert (HS : forall k, 0 < Sp k) by (intros; apply exp_pos).
  assert (P0 := acf_zero_pos L Sp ltac:(lia) HS).
  set (Rw := irfft_at L Sp (fun _ => 0)) in *.
  eexists. split; [reflexivity|]. cbn [alen aget]. split; [lia|]. split; [field; lra|].
  set (rr := fun i => std ^ 2 * Rw i / Rw 0%nat).
  assert (Q : psd N (fun i j => rr (Nat.max i j - Nat.min i j)%nat)).
  { unfold rr. destruct (acf_psd L Sp N ltac:(lia) HS) as [Qs Qq]. fold Rw in Qs, Qq. split.
    - intros i j Hi Hj. rewrite (Qs i j) by auto. reflexivity.
    - intros v. specialize (Qq v). unfold quad in *.
      rewrite (rsum_ext N _ (fun i => std ^ 2 / Rw 0%nat * rsum N (fun j => v i * Rw (Nat.max i j - Nat.min i j)%nat * v j))).
      + rewrite rsum_scal. apply Rmult_le_pos; auto. apply Rmult_le_pos; [apply pow2_ge_0|].
        apply Rlt_le, Rinv_0_lt_compat; auto.
      + intros i _. rewrite <- rsum_scal. apply rsum_ext. intros j _. field. lra. }
  split; [exact Q|]. intros i Hi.
  change (Rabs (rr i) <= std ^ 2).
  assert (R0 : rr 0%nat = std ^ 2) by (unfold rr; field; lra).
  destruct (Nat.eq_dec i 0) as [->|Hi0]; [rewrite R0, Rabs_pos_eq by apply pow2_ge_0; lra|].
  destruct Q as [_ Qq].
  assert (K : forall e, e = 1 \/ e = -1 -> 0 <= 2 * std ^ 2 + 2 * e * rr i).
  { intros e He.
    specialize (Qq (fun k => if (k =? 0)%nat then 1 else if (k =? i)%nat then e else 0)). unfold quad in Qq.
    rewrite (rsum_ext N _ (fun a => (if (a =? 0)%nat then std ^ 2 + rr i * e else 0) + (if (a =? i)%nat then e * rr i + std ^ 2 else 0))) in Qq.
    { rewrite rsum_plus, !rsum_delta in Qq by lia. lra. }
    intros a Ha.
    rewrite (rsum_ext N _ (fun b => (if (b =? 0)%nat then (if (a =? 0)%nat then 1 else if (a =? i)%nat then e else 0) * rr (Nat.max a 0 - Nat.min a 0)%nat else 0)
        + (if (b =? i)%nat then (if (a =? 0)%nat then 1 else if (a =? i)%nat then e else 0) * rr (Nat.max a i - Nat.min a i)%nat * e else 0))).
    - rewrite rsum_plus, !rsum_delta by lia.
      destruct (Nat.eqb_spec a 0) as [->|]; [destruct (Nat.eqb_spec 0 i); [lia|]|].
      + replace (Nat.max 0 i - Nat.min 0 i)%nat with i by lia.
        replace (Nat.max 0 0 - Nat.min 0 0)%nat with 0%nat by lia. rewrite R0. cbn [Nat.eqb]. ring.
      + destruct (Nat.eqb_spec a i) as [->|]; [|ring].
        replace (Nat.max i 0 - Nat.min i 0)%nat with i by lia.
        replace (Nat.max i i - Nat.min i i)%nat with 0%nat by lia. rewrite R0.
        destruct He as [->| ->]; ring.
    - intros b Hb.
      destruct (Nat.eqb_spec b 0) as [->|]; [destruct (Nat.eqb_spec 0 i); [lia|ring]|].
      destruct (Nat.eqb_spec b i) as [->|]; ring. }
  pose proof (K 1 (or_introl eq_refl)). pose proof (K (-1) (or_intror eq_refl)).
  apply Rabs_le. lra.
Qed.
Theorem C99_errors : forall N c std,
  (forall alpha, known_color c alpha -> (N <= 1)%nat -> power_law_acf N c std = Err ValueError) /\
  power_law_acf N ColOther std = Err OSError /\
  (forall s, ~ (exists a, known_color (ColName s) a) -> power_law_acf N (ColName s) std = Err NotImplementedError).
Proof.
  intros N c std. split; [|split; [reflexivity|]].
  - intros alpha Hc HN. apply get_alpha_known in Hc. unfold power_law_acf. rewrite Hc. cbn [bind].
    replace (2 * (N - 1))%nat with 0%nat by lia. reflexivity.
  - intros s Hs. unfold power_law_acf. destruct (get_alpha (ColName s)) as [a|e] eqn:E.
    + exfalso. apply Hs. exists a. apply get_alpha_known. auto.
    + cbn [get_alpha] in E. destruct (lookup s colors); [discriminate|]. injection E as <-. reflexivity.
Qed.
Example C99_example : exists r, power_law_acf 2 (ColName "white") 3 = Ok r /\ r 0%nat = 9 /\ r 1%nat = 0.
Proof.
  assert (E : forall n f, irfft_at 2 f (fun _ => 0) n = (f 0%nat + f 1%nat * cos (INR n * PI)) / 2).
  { intros n f. unfold irfft_at. change (2 / 2)%nat with 1%nat. cbn [rsum]. change (2 * 1 =? 2)%nat with true. cbv zeta.
    cbn iota. change (INR 2) with 2. change (INR 1) with 1. replace (2 * PI * 1 * INR n / 2) with (INR n * PI) by lra. lra. }
  assert (P : forall i, Rpower (linspace0 2 i + 1) 0 = 1).
  { intros i. apply Rpower_O. pose proof (linspace0_nonneg 2 i). lra. }
  eexists. split; [reflexivity|]. change (2 * (2 - 1))%nat with 2%nat. cbn [aget]. rewrite !E.
  change (INR 0) with 0. change (INR 1) with 1. rewrite !P.
  replace (0 * PI) with 0 by ring. replace (1 * PI) with PI by ring. rewrite cos_0, cos_PI. lra.
Qed.

Print Assumptions C59_arma_refuted.
Print Assumptions C59_ma_refuted.
Print Assumptions C59_first_order_partial.
Print Assumptions C59_reversed_partial.
Print Assumptions C59_palindromic_partial.
Print Assumptions C60_mean_std.
Print Assumptions C60_returns.
Print Assumptions C60_white.
Print Assumptions C60_errors.
Print Assumptions C126_only_w_partial.
Print Assumptions C126_both_partial.
Print Assumptions C126_ignored_refuted.
Print Assumptions C98_spectrum_refuted.
Print Assumptions C98_actual_law_partial.
Print Assumptions C99_acf.
Print Assumptions C99_errors.
