(** Derivatives of signal -> (amplitude, phase). *)
From Coq Require Import Reals List Arith ZArith Bool Lia Lra Psatz.
From Verif Require Import Base Sums Stats StatsFacts M_DFT S_Jac S_DFT P_Jac P_Trig P_DFT P_iDFT
  P_Deriv P_AmpPhase.
Open Scope R_scope.

Lemma amp_chain f g t a b : 0 < amp (f t) (g t) -> derivable_pt_lim f t a -> derivable_pt_lim g t b ->
  derivable_pt_lim (fun s => amp (f s) (g s)) t (f t / amp (f t) (g t) * a + g t / amp (f t) (g t) * b).
Proof.
  intros H Hf Hg. unfold amp at 1. eapply dl_eq.
  { apply dl_sqrt; [|apply dl_plus; apply dl_mult; eassumption]. cbv beta. now apply amp_pos_sq. }
  cbv beta. fold (amp (f t) (g t)). field. lra.
Qed.

Lemma arg_chain p f g t a b : 0 < amp (f t) (g t) -> off_cut p (f t) (g t) ->
  derivable_pt_lim f t a -> derivable_pt_lim g t b ->
  derivable_pt_lim (fun s => arg p (f s) (g s)) t
    (- g t / amp (f t) (g t) ^ 2 * a + f t / amp (f t) (g t) ^ 2 * b).
Proof.
  intros H Hc Hf Hg. unfold arg. cbv zeta. unfold off_cut in Hc.
  assert (HD : derivable_pt_lim (fun s => amp (f s) (g s) + (f s * cos p + g s * sin p)) t
     (f t / amp (f t) (g t) * a + g t / amp (f t) (g t) * b + (a * cos p + b * sin p))).
  { eapply dl_eq.
    - apply dl_plus; [apply amp_chain; eassumption|]. apply dl_plus; apply dl_mult; try eassumption; apply dl_const.
    - cbv beta. ring. }
  assert (HN : derivable_pt_lim (fun s => g s * cos p - f s * sin p) t (b * cos p - a * sin p)).
  { eapply dl_eq.
    - apply dl_minus; apply dl_mult; try eassumption; apply dl_const.
    - cbv beta. ring. }
  eapply dl_eq.
  { apply dl_plus; [apply dl_const|]. apply dl_mult; [apply dl_const|]. apply dl_atan.
    apply (dl_div (fun s => g s * cos p - f s * sin p) (fun s => amp (f s) (g s) + (f s * cos p + g s * sin p))).
    - cbv beta. lra.
    - exact HN.
    - exact HD. }
  cbv beta. set (x := f t) in *. set (y := g t) in *.
  set (r := amp x y) in *.
  assert (Hr : r * r = x * x + y * y) by apply amp_sq.
  set (c := cos p) in *. set (s := sin p) in *.
  assert (Hcs : s * s + c * c = 1) by (pose proof (sin2_cos2 p) as E; unfold Rsqr in E; exact E).
  set (D := r + (x * c + y * s)) in *.
  assert (Hden : D * D + (y * c - x * s) * (y * c - x * s) = 2 * r * D).
  { unfold D. nra. }
  replace (1 + ((y * c - x * s) / D) ^ 2) with (2 * r / D).
  2:{ apply (Rmult_eq_reg_r (D * D)); [|nra].
      replace (2 * r / D * (D * D)) with (2 * r * D) by (field; lra).
      rewrite <- Hden. field. lra. }
  assert (HK1 : ((- s) * D - (x / r + c) * (y * c - x * s)) * (r * r * D) / (r * D) = - y * D).
  { replace (((- s) * D - (x / r + c) * (y * c - x * s)) * (r * r * D) / (r * D))
      with (- y * D - s * (r * r - (x * x + y * y)) - r * y * (s * s + c * c - 1))
      by (unfold D; field; fold D; repeat split; lra).
    rewrite Hr, Hcs. ring. }
  assert (HK2 : (c * D - (y / r + s) * (y * c - x * s)) * (r * r * D) / (r * D) = x * D).
  { replace ((c * D - (y / r + s) * (y * c - x * s)) * (r * r * D) / (r * D))
      with (x * D + c * (r * r - (x * x + y * y)) + r * x * (s * s + c * c - 1))
      by (unfold D; field; fold D; repeat split; lra).
    rewrite Hr, Hcs. ring. }
  assert (Hpos : 0 < r * r * D) by (apply Rmult_lt_0_compat; [apply Rmult_lt_0_compat|]; lra).
  apply (Rmult_eq_reg_r (r * r * D)); [|lra].
  replace ((- y / r ^ 2 * a + x / r ^ 2 * b) * (r * r * D)) with (a * (- y * D) + b * (x * D)) by (field; lra).
  rewrite <- HK1, <- HK2. field. repeat split; lra.
Qed.

(** The chain rule for (amplitude, phase) after a linear map with coefficients C. *)
Lemma to_amp_phase_linear_jac h n p (C : nat -> nat -> R) s :
  let lin (u : nat -> R) r := rsum n (fun m => C r m * u m) in
  (forall k, (k < h)%nat -> 0 < amp (lin s k) (lin s (h + k)%nat) /\ off_cut (p k) (lin s k) (lin s (h + k)%nat)) ->
  is_jac (2 * h) n (fun u i => to_amp_phase h p (lin u) i) s
    (fun i j => rsum (2 * h) (fun k => Kl h (ap_al h (lin s)) (ap_be h (lin s)) i k * C k j)).
Proof.
  intros lin Hk i j Hi Hj.
  rewrite (Kl_row h (ap_al h (lin s)) (ap_be h (lin s)) i (fun k => C k j)) by assumption.
  assert (HL : forall r, derivable_pt_lim (fun t => lin (upd s j t) r) (s j) (C r j)).
  { intros r. apply (dl_ext (fun t => C r j * t + rsum n (fun m => if (m =? j)%nat then 0 else C r m * s m))).
    - intros t. unfold lin.
      rewrite (rsum_ext n (fun m => C r m * upd s j t m)
        (fun m => (if (m =? j)%nat then C r j * t else 0) + (if (m =? j)%nat then 0 else C r m * s m))).
      + rewrite rsum_plus. f_equal. rewrite (rsum_single n j); auto.
        * now rewrite Nat.eqb_refl.
        * intros m _ Hm. apply Nat.eqb_neq in Hm. now rewrite Hm.
      + intros m _. unfold upd. destruct (Nat.eqb_spec m j); [subst|]; ring.
    - eapply dl_eq; [apply dl_plus; [apply dl_mult; [apply dl_const|apply dl_id]|apply dl_const]|]. cbv beta. ring. }
  assert (Hpt : forall r, lin (upd s j (s j)) r = lin s r).
  { intros r. unfold lin. apply rsum_ext; intros m _. unfold upd. destruct (Nat.eqb_spec m j); [subst|]; reflexivity. }
  pose proof (base_lt h i Hi) as Hb. destruct (Hk _ Hb) as [Ha Hc].
  unfold to_amp_phase, ap_al, ap_be, base in *. destruct (Nat.ltb_spec i h).
  - eapply dl_eq.
    + apply (amp_chain (fun t => lin (upd s j t) i) (fun t => lin (upd s j t) (h + i)%nat)); cbv beta; rewrite ?Hpt; auto.
    + cbv beta. rewrite !Hpt. reflexivity.
  - replace (h + (i - h))%nat with i in * by lia. eapply dl_eq.
    + apply (arg_chain (p (i - h)%nat) (fun t => lin (upd s j t) (i - h)%nat) (fun t => lin (upd s j t) i)); cbv beta; rewrite ?Hpt; auto.
    + cbv beta. rewrite !Hpt. reflexivity.
Qed.
