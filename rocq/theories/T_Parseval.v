(** Conservation of energy: Parseval's identity for GUM_DFT (C144) and for the power
    spectral density of corr_noise.calc_psd (C145). *)
From Coq Require Import Reals List Arith ZArith Bool Lra Lia.
From Verif Require Import Base Sums Stats StatsFacts M_DFT S_DFT P_Trig P_DFT P_iDFT T_DFT M_Psd.
Import ListNotations.
Open Scope R_scope.

(** Number of lines of the full spectrum of length n that line k of the half spectrum
    stands for: 1 for frequency 0 and the Nyquist frequency, else 2. *)
Definition lines_of (n k : nat) : R := if ((k =? 0) || (2 * k =? n))%nat then 1 else 2.

Lemma fold_lines n (c : nat -> R) : (1 <= n)%nat -> (forall k, (0 < k < n)%nat -> c (n - k)%nat = c k) ->
  rsum (n / 2 + 1) (fun k => lines_of n k * c k) = rsum n c.
Proof.
  intros Hn Hc. pose proof (Nat.div_mod n 2 ltac:(lia)) as Hd. pose proof (Nat.mod_upper_bound n 2 ltac:(lia)) as Hm.
  set (h := (n / 2)%nat) in *. set (q := (n mod 2)%nat) in *. clearbody h q.
  rewrite (rsum_split n (h + 1)) by lia.
  rewrite (rsum_rev (n - (h + 1))).
  rewrite (rsum_ext (n - (h + 1)) _ (fun i => c (S i))).
  2:{ intros i Hi. rewrite <- (Hc (S i)) by lia. f_equal. lia. }
  rewrite Nat.add_1_r, !rsum_S_l. unfold lines_of at 1. cbn [Nat.eqb orb].
  destruct q as [|[|q]]; [| |lia].
  - (* even *)
    destruct h as [|h]; [lia|]. replace (n - S (S h))%nat with h by lia. cbn [rsum].
    rewrite (rsum_ext h _ (fun i => 2 * c (S i))).
    + rewrite rsum_scal. unfold lines_of. cbn [Nat.eqb].
      replace (2 * S h =? n)%nat with true by (symmetry; apply Nat.eqb_eq; lia). cbn [orb]. ring.
    + intros i Hi. unfold lines_of. cbn [Nat.eqb].
      replace (2 * S i =? n)%nat with false by (symmetry; apply Nat.eqb_neq; lia). reflexivity.
  - replace (n - S h)%nat with h by lia.
    rewrite (rsum_ext h _ (fun i => 2 * c (S i))).
    + rewrite rsum_scal. ring.
    + intros i Hi. unfold lines_of. cbn [Nat.eqb].
      replace (2 * S i =? n)%nat with false by (symmetry; apply Nat.eqb_neq; lia). reflexivity.
Qed.

Lemma cos_full n a b : (a < n)%nat -> (b < n)%nat ->
  rsum n (fun k => cos (ang n k a - ang n k b)) = if (a =? b)%nat then INR n else 0.
Proof.
  intros Ha Hb. destruct (Nat.eqb_spec a b) as [->|Hne].
  - rewrite (rsum_ext n _ (fun _ => 1)), rsum_const; [ring|]. intros k _. rewrite Rminus_diag_eq by reflexivity. apply cos_0.
  - assert (K : forall a b, (b < a)%nat -> (a < n)%nat -> rsum n (fun k => cos (ang n k a - ang n k b)) = 0).
    { clear. intros a b Hba Ha. rewrite <- (cos_sum_zero n (a - b)) by lia. apply rsum_ext. intros k _. f_equal.
      unfold ang. rewrite minus_INR by lia. unfold Rdiv. ring. }
    destruct (Nat.lt_total a b) as [H|[H|H]]; [|contradiction|auto].
    rewrite <- (K b a H Hb). apply rsum_ext. intros k _.
    replace (ang n k a - ang n k b) with (- (ang n k b - ang n k a)) by ring. apply cos_neg.
Qed.
Lemma half_full n a b : (a < n)%nat -> (b < n)%nat ->
  rsum (n / 2 + 1) (fun k => lines_of n k * (cos (ang n k a) * cos (ang n k b) + sin (ang n k a) * sin (ang n k b)))
  = if (a =? b)%nat then INR n else 0.
Proof.
  intros Ha Hb. rewrite <- (cos_full n a b Ha Hb). rewrite (fold_lines n (fun k => _)) by
    (try lia; intros k Hk; rewrite !cos_refl, !sin_refl by lia; ring).
  apply rsum_ext. intros k _. rewrite cos_minus. reflexivity.
Qed.
(** Bilinear form. *)
Lemma half_bilinear n L (U : nat -> nat -> R) : (L <= n)%nat ->
  rsum (n / 2 + 1) (fun k => lines_of n k *
     (rsum L (fun a => rsum L (fun b => cos (ang n k a) * cos (ang n k b) * U a b))
      + rsum L (fun a => rsum L (fun b => sin (ang n k a) * sin (ang n k b) * U a b))))
  = INR n * rsum L (fun a => U a a).
Proof.
  intros HL.
  rewrite (rsum_ext _ _ (fun k => rsum L (fun a => rsum L (fun b =>
    lines_of n k * (cos (ang n k a) * cos (ang n k b) + sin (ang n k a) * sin (ang n k b)) * U a b)))).
  2:{ intros k _. rewrite <- rsum_plus, <- rsum_scal. apply rsum_ext. intros a _.
      rewrite <- rsum_plus, <- rsum_scal. apply rsum_ext. intros b _. ring. }
  rewrite rsum_swap, <- rsum_scal. apply rsum_ext. intros a Ha.
  rewrite rsum_swap. rewrite (rsum_single L a); [|exact Ha|].
  2:{ intros b Hb Hne. rewrite rsum_scal_r, half_full by lia. destruct (Nat.eqb_spec a b); [congruence|ring]. }
  rewrite rsum_scal_r, half_full by lia. rewrite Nat.eqb_refl. ring.
Qed.

(** ** C144 *)
(** Energy of the spectrum = n times the energy of the (windowed) signal. *)
Theorem C144_estimate : forall x Ux N w CxCos CxSin rc o,
  let L := alen x in let n := dft_len L N in let H := (n / 2 + 1)%nat in
  GUM_DFT x Ux N w CxCos CxSin rc None = Ok o -> (1 <= n)%nat ->
  alen (dft_F o) = (2 * H)%nat /\
  rsum H (fun k => lines_of n k * (dft_F o k * dft_F o k + dft_F o (H + k)%nat * dft_F o (H + k)%nat))
  = INR n * rsum L (fun m => win w m * x m * (win w m * x m)).
Proof.
  intros x Ux N w CxCos CxSin rc o L n H E Hn.
  destruct (C22_dft_estimate x Ux N w CxCos CxSin rc o E) as (Hp & Hl & HF). fold L n H in Hl, HF.
  split; [exact Hl|].
  assert (HL : (L <= n)%nat) by (unfold n, dft_len; destruct N as [z|]; cbn in Hp; fold L in Hp; lia).
  rewrite <- (half_bilinear n L (fun a b => win w a * x a * (win w b * x b)) HL). fold H.
  apply rsum_ext. intros k Hk. f_equal. rewrite !HF by lia. unfold dft_map. rewrite !rsum_mult. f_equal.
  - apply rsum_ext. intros a _. apply rsum_ext. intros b _. unfold dft_coeff.
    destruct (Nat.ltb_spec k H); [|lia]. fold (ang n k a) (ang n k b). ring.
  - apply rsum_ext. intros a _. apply rsum_ext. intros b _. unfold dft_coeff.
    destruct (Nat.ltb_spec (H + k) H); [lia|]. replace (H + k - H)%nat with k by lia. fold (ang n k a) (ang n k b). ring.
Qed.
(** Sum of the variances of the lines = n times the sum of the variances of the samples,
    whatever their correlation. *)
Theorem C144_variance : forall x Ux N w rc,
  let L := alen x in let n := dft_len L N in let H := (n / 2 + 1)%nat in
  sig_fits L Ux -> symm L (sig_U Ux) -> win_fits L Ux w -> pad_fits L N -> (1 <= n)%nat ->
  exists o, GUM_DFT x Ux N w None None rc None = Ok o /\
  rsum H (fun k => lines_of n k * (fun_U (dft_U o) k k + fun_U (dft_U o) (H + k)%nat (H + k)%nat))
  = INR n * rsum L (fun m => win w m * win w m * sig_U Ux m m).
Proof.
  intros x Ux N w rc L n H Hs Hy Hw Hp Hn.
  destruct (GUM_DFT_run x Ux N w rc None) as (o & E & _ & _ & HU); auto; [exact I|].
  exists o. split; [exact E|]. fold L n H in HU. unfold lines in HU. fold H in HU. rewrite seq_length in HU.
  assert (HL : (L <= n)%nat) by (unfold n, dft_len; destruct N as [z|]; cbn in Hp; fold L in Hp; lia).
  assert (Hrow : forall i, (i < 2 * H)%nat -> row H (seq 0 H) i = i) by (intros; apply row_nomask; assumption).
  set (V := fun a b => win w a * sig_U Ux a b * win w b) in *.
  assert (D : forall i, (i < 2 * H)%nat -> fun_U (dft_U o) i i
     = rsum L (fun a => rsum L (fun b => dft_coeff n H i a * V a b * dft_coeff n H i b))).
  { intros i Hi. unfold unc_ok in HU. destruct (dft_U o) as [v|M]; cbn [fun_U].
    - destruct HU as (_ & _ & HV). rewrite Nat.eqb_refl, HV by exact Hi. unfold sandwich. rewrite Hrow by exact Hi. reflexivity.
    - destruct HU as (_ & _ & _ & HV). rewrite HV by exact Hi. unfold sandwich. rewrite Hrow by exact Hi. reflexivity. }
  rewrite (rsum_ext L _ (fun m => V m m)) by (intros m _; unfold V; ring).
  rewrite <- (half_bilinear n L V HL). fold H.
  apply rsum_ext. intros k Hk. f_equal. rewrite !D by lia. f_equal.
  - apply rsum_ext. intros a _. apply rsum_ext. intros b _. unfold dft_coeff.
    destruct (Nat.ltb_spec k H); [|lia]. fold (ang n k a) (ang n k b). ring.
  - apply rsum_ext. intros a _. apply rsum_ext. intros b _. unfold dft_coeff.
    destruct (Nat.ltb_spec (H + k) H); [lia|]. replace (H + k - H)%nat with k by lia. fold (ang n k a) (ang n k b). ring.
Qed.
(** Three samples, the last of them with the variance 4, correlated with the first. *)
Example C144_example : exists o,
  GUM_DFT (of_list [1; 2; 2]) (SuMat (of_rows [[1; 0; 1]; [0; 1; 0]; [1; 0; 4]])) None None None None false None = Ok o /\
  alen (dft_F o) = 4%nat /\
  dft_F o 0%nat * dft_F o 0%nat + dft_F o 2%nat * dft_F o 2%nat
    + 2 * (dft_F o 1%nat * dft_F o 1%nat + dft_F o 3%nat * dft_F o 3%nat) = 27 /\
  fun_U (dft_U o) 0%nat 0%nat + fun_U (dft_U o) 2%nat 2%nat
    + 2 * (fun_U (dft_U o) 1%nat 1%nat + fun_U (dft_U o) 3%nat 3%nat) = 18.
Proof.
  destruct (C144_variance (of_list [1; 2; 2]) (SuMat (of_rows [[1; 0; 1]; [0; 1; 0]; [1; 0; 4]])) None None false)
    as (o & E & V); cbn; auto; try exact I; try lia.
  { intros [|[|[|a]]] [|[|[|b]]] Ha Hb; cbn in Ha, Hb |- *; try reflexivity; lia. }
  destruct (C144_estimate _ _ _ _ _ _ _ _ E ltac:(cbn; lia)) as (Hl & F).
  exists o. split; [exact E|]. split; [exact Hl|]. 
  cbn in F, V. unfold lines_of in F, V. cbn in F, V. split; lra.
Qed.
Print Assumptions C144_estimate.
Print Assumptions C144_variance.

(** ** C145 *)
(** Mean and variance (1/n) of the n values of v. *)
Definition mean_of (v : vec) : R := rsum (alen v) v / INR (alen v).
Definition var_of (v : vec) : R :=
  rsum (alen v) (fun i => (v i - mean_of v) * (v i - mean_of v)) / INR (alen v).
(** The array handed over, else the noise generated before. *)
Definition analysed (noise : option vec) (arg : psd_arg) : option vec :=
  match arg with PsdArray v => Some v | PsdOther => noise end.

Lemma doubled_lines n k : (1 <= n)%nat -> (k < n / 2 + 1)%nat -> (if doubled n k then 2 else 1) = lines_of n k.
Proof.
  intros Hn Hk. pose proof (Nat.div_mod n 2 ltac:(lia)) as Hd. pose proof (Nat.mod_upper_bound n 2 ltac:(lia)) as Hm.
  unfold doubled, lines_of.
  destruct (Nat.eqb_spec (n mod 2) 1), (Nat.leb_spec 1 k), (Nat.eqb_spec k 0), (Nat.eqb_spec (2 * k) n);
    try lia; cbn [orb andb]; try reflexivity; destruct (Nat.ltb_spec k (n / 2)); try reflexivity; lia.
Qed.

(** The density is not negative, vanishes at frequency 0, its integral over the frequencies
    0, Fs/n, ... up to Fs/2 is the variance of the noise. *)
Theorem C145_psd : forall noise arg fs v,
  analysed noise arg = Some v -> (1 <= alen v)%nat -> 0 < fs ->
  exists f P, calc_psd noise arg fs = Ok (f, P) /\
    let n := alen v in
    alen f = (n / 2 + 1)%nat /\ alen P = (n / 2 + 1)%nat /\
    (forall k, (k < n / 2 + 1)%nat -> f k = INR k * (fs / INR n) /\ 0 <= f k <= fs / 2 /\ 0 <= P k) /\
    P 0%nat = 0 /\
    rsum (n / 2 + 1) (fun k => P k * (fs / INR n)) = var_of v.
Proof.
  intros noise arg fs v Ha Hn Hfs.
  assert (Ec : calc_psd noise arg fs = periodogram v fs).
  { destruct arg as [u|]; cbn in Ha |- *; [congruence|]. rewrite Ha. reflexivity. }
  rewrite Ec. unfold periodogram. destruct (Nat.eqb_spec (alen v) 0) as [|_]; [lia|]. destruct (Req_EM_T fs 0) as [|_]; [lra|].
  set (n := alen v) in *. eexists. eexists. split; [reflexivity|]. cbn zeta. cbn [alen aget].
  assert (Pn : 0 < INR n) by (apply lt_0_INR; lia).
  assert (Sc : 0 < 1 / (fs * INR n)).
  { apply Rdiv_lt_0_compat; [lra|]. apply Rmult_lt_0_compat; assumption. }
  split; [reflexivity|]. split; [reflexivity|]. split; [|split].
  - intros k Hk. assert (Ef : INR k / (INR n * (1 / fs)) = INR k * (fs / INR n)) by (field; lra).
    split; [exact Ef|]. rewrite Ef. assert (0 < fs / INR n) by (apply Rdiv_lt_0_compat; assumption).
    pose proof (pos_INR k) as Pk. split; [split; [nra|]|].
    + pose proof (Nat.div_mod n 2 ltac:(lia)) as Hd.
      assert (K : (2 * k <= n)%nat) by lia. apply le_INR in K. rewrite mult_INR in K. cbn [INR] in K.
      apply Rmult_le_reg_r with (INR n); [exact Pn|]. replace (INR k * (fs / INR n) * INR n) with (INR k * fs) by (field; lra). nra.
    + apply Rmult_le_pos; [destruct (doubled n k); lra|]. apply Rmult_le_pos; [lra|].
      pose proof (Rle_0_sqr (rfft_re n (detrended v) k)). pose proof (Rle_0_sqr (rfft_im n (detrended v) k)).
      unfold Rsqr in *. lra.
  - assert (R0 : rfft_re n (detrended v) 0 = 0).
    { unfold rfft_re. rewrite (rsum_ext n _ (fun m => v m - rsum n v / INR n)).
      - rewrite rsum_minus, rsum_const. field. lra.
      - intros m _. unfold detrended. fold n. cbn [INR]. replace (2 * PI * 0 * INR m / INR n) with 0 by (field; lra).
        rewrite cos_0. ring. }
    assert (I0 : rfft_im n (detrended v) 0 = 0).
    { unfold rfft_im. rewrite rsum_zero; [ring|]. intros m _. cbn [INR].
      replace (2 * PI * 0 * INR m / INR n) with 0 by (field; lra). rewrite sin_0. ring. }
    rewrite R0, I0. ring.
  - pose proof (half_bilinear n n (fun a b => detrended v a * detrended v b) (le_n n)) as B.
    rewrite (rsum_ext _ _ (fun k => 1 / (INR n * INR n) * (lines_of n k *
     (rsum n (fun a => rsum n (fun b => cos (ang n k a) * cos (ang n k b) * (detrended v a * detrended v b)))
      + rsum n (fun a => rsum n (fun b => sin (ang n k a) * sin (ang n k b) * (detrended v a * detrended v b))))))).
    + rewrite rsum_scal, B. unfold var_of, mean_of, detrended. fold n. field. lra.
    + intros k Hk. rewrite doubled_lines by lia. unfold rfft_re, rfft_im. 
      replace (- rsum n (fun m => detrended v m * sin (2 * PI * INR k * INR m / INR n)) *
               - rsum n (fun m => detrended v m * sin (2 * PI * INR k * INR m / INR n)))
        with (rsum n (fun m => detrended v m * sin (2 * PI * INR k * INR m / INR n)) *
              rsum n (fun m => detrended v m * sin (2 * PI * INR k * INR m / INR n))) by ring.
      rewrite !rsum_mult.
      rewrite (rsum_ext n (fun i => rsum n (fun j => detrended v i * cos (2 * PI * INR k * INR i / INR n) * (detrended v j * cos (2 * PI * INR k * INR j / INR n))))
         (fun a => rsum n (fun b => cos (ang n k a) * cos (ang n k b) * (detrended v a * detrended v b)))).
      2:{ intros a _. apply rsum_ext. intros b _. unfold ang. ring. }
      rewrite (rsum_ext n (fun i => rsum n (fun j => detrended v i * sin (2 * PI * INR k * INR i / INR n) * (detrended v j * sin (2 * PI * INR k * INR j / INR n))))
         (fun a => rsum n (fun b => sin (ang n k a) * sin (ang n k b) * (detrended v a * detrended v b)))).
      2:{ intros a _. apply rsum_ext. intros b _. unfold ang. ring. }
      field. lra.
Qed.
(** Anything but an array (a list, say) is ignored; no noise, no density; an empty array
    gives empty results; a sampling frequency 0 is an error. *)
Theorem C145_arguments : forall noise fs,
  calc_psd noise PsdOther fs = match noise with Some v => calc_psd None (PsdArray v) fs | None => Err AttributeError end /\
  (forall v, alen v = 0%nat -> calc_psd noise (PsdArray v) fs = Ok (v, v)) /\
  (forall v, (1 <= alen v)%nat -> calc_psd noise (PsdArray v) 0 = Err ZeroDivisionError).
Proof.
  intros noise fs. split; [destruct noise; reflexivity|]. split; intros v Hv; cbn [calc_psd]; unfold periodogram.
  - rewrite Hv. reflexivity.
  - destruct (Nat.eqb_spec (alen v) 0); [lia|]. destruct (Req_EM_T 0 0); [reflexivity|lra].
Qed.
Example C145_example : exists f P, calc_psd (Some (of_list [7])) (PsdArray (of_list [1; 3; 1; 3])) 8 = Ok (f, P) /\
  alen P = 3%nat /\ f 2%nat = 4 /\ 2 * (P 0%nat + P 1%nat + P 2%nat) = 1.
Proof.
  destruct (C145_psd (Some (of_list [7])) (PsdArray (of_list [1; 3; 1; 3])) 8 (of_list [1; 3; 1; 3])) as (f & P & E & A & B & C & D & S);
    [reflexivity|cbn; lia|lra|].
  exists f, P. split; [exact E|]. split; [exact B|]. destruct (C 2%nat ltac:(cbn; lia)) as [-> _].
  unfold var_of, mean_of in S. cbn in S |- *. split; lra.
Qed.
Print Assumptions C145_psd.
Print Assumptions C145_arguments.
