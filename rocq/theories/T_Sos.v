(** sos_FreqResp: resonance (C156), documented formula (C157).  Model: M_Noise.v. *)
From Coq Require Import Reals List Arith Lia Lra Psatz.
From Verif Require Import Base Cplx M_Noise.
Import ListNotations.
Open Scope R_scope.

Lemma sq_pos x : x <> 0 -> 0 < x ^ 2.
Proof. intros H. replace (x ^ 2) with (Rsqr x) by (unfold Rsqr; ring). apply Rsqr_pos_lt. exact H. Qed.

Lemma sos_den_norm d om0 w : cnorm2 (sos_den d om0 w) = (om0 ^ 2 - w ^ 2) ^ 2 + 4 * d ^ 2 * om0 ^ 2 * w ^ 2.
Proof. unfold cnorm2, sos_den; cbn [fst snd]; ring. Qed.

Lemma sos_den_pos d f0 f : f0 <> 0 -> d <> 0 -> 0 < cnorm2 (sos_den d (2 * PI * f0) (2 * PI * f)).
Proof.
  intros Hf Hd. pose proof PI_RGT_0. rewrite sos_den_norm.
  assert (A : 0 < (2 * PI * f0) ^ 2) by (apply sq_pos, Rmult_integral_contrapositive_currified; lra).
  assert (B : 0 < d ^ 2) by (apply sq_pos; exact Hd).
  set (a := (2 * PI * f0) ^ 2) in *. set (w2 := (2 * PI * f) ^ 2). assert (0 <= w2) by apply pow2_ge_0.
  pose proof (pow2_ge_0 (a - w2)).
  destruct (Rle_lt_or_eq_dec 0 w2) as [?|<-]; [assumption| |].
  - assert (0 < d ^ 2 * a * w2) by (apply Rmult_lt_0_compat; [apply Rmult_lt_0_compat|]; assumption).
    replace (4 * d ^ 2 * a * w2) with (4 * (d ^ 2 * a * w2)) by ring. lra.
  - replace ((a - 0) ^ 2 + 4 * d ^ 2 * a * 0) with (a ^ 2) by ring. apply sq_pos. lra.
Qed.

Lemma cnorm2_cdiv_r r z : 0 < cnorm2 z -> cnorm2 (cdiv (RtoC r) z) = r ^ 2 / cnorm2 z.
Proof. intros H. unfold cdiv, cinv, cmul, RtoC, cnorm2 in *. cbn [fst snd] in *. field. lra. Qed.

(** A damped system has a finite response everywhere; its values at f and -f are conjugate; the squared amplitude is that of the resonance curve;
    at f0 the response is S/(2jd): a quarter turn behind; the resonance curve is bounded by S^2/(4 d^2 (1 - d^2)), reached at
    f0 sqrt(1 - 2 d^2), and for d^2 >= 1/2 it never exceeds the static gain. *)
Theorem C156_resonance : forall S_ d f0 (freqs : vec) i, f0 <> 0 -> d <> 0 ->
  let f := freqs i in
  exists h, sos_FreqResp S_ d f0 freqs i = Some h /\
    cnorm2 h * ((f0 ^ 2 - f ^ 2) ^ 2 + 4 * d ^ 2 * f0 ^ 2 * f ^ 2) = S_ ^ 2 * f0 ^ 4 /\
    sos_FreqResp S_ d f0 (of_list [- f]) 0%nat = Some (cconj h) /\
    (f = f0 -> h = (0, - (S_ / (2 * d)))) /\
    (d ^ 2 < 1 -> cnorm2 h <= S_ ^ 2 / (4 * d ^ 2 * (1 - d ^ 2))) /\
    (d ^ 2 < 1 -> f ^ 2 = f0 ^ 2 * (1 - 2 * d ^ 2) -> cnorm2 h = S_ ^ 2 / (4 * d ^ 2 * (1 - d ^ 2))) /\
    (1 / 2 <= d ^ 2 -> cnorm2 h <= S_ ^ 2).
Proof.
  intros S_ d f0 freqs i Hf Hd f. pose proof PI_RGT_0 as Hpi.
  pose proof (sos_den_pos d f0 f Hf Hd) as Hp. pose proof (sos_den_pos d f0 (- f) Hf Hd) as Hq.
  assert (Hd2 : 0 < d ^ 2) by (apply sq_pos; exact Hd). assert (Hf2 : 0 < f0 ^ 2) by (apply sq_pos; exact Hf).
  assert (Hpi2 : 0 < PI ^ 2) by (apply sq_pos; lra).
  set (h := cdiv (RtoC (S_ * (2 * PI * f0) ^ 2)) (sos_den d (2 * PI * f0) (2 * PI * f))).
  set (D := (f0 ^ 2 - f ^ 2) ^ 2 + 4 * d ^ 2 * f0 ^ 2 * f ^ 2).
  assert (ED : cnorm2 (sos_den d (2 * PI * f0) (2 * PI * f)) = 16 * (PI ^ 2) ^ 2 * D) by (rewrite sos_den_norm; unfold D; ring).
  assert (HD : 0 < D).
  { rewrite ED in Hp. assert (0 < 16 * (PI ^ 2) ^ 2) by (pose proof (sq_pos (PI ^ 2)); lra).
    apply (Rmult_lt_reg_l (16 * (PI ^ 2) ^ 2)); lra. }
  assert (N : cnorm2 h = S_ ^ 2 * f0 ^ 4 / D).
  { unfold h. rewrite cnorm2_cdiv_r by exact Hp. rewrite ED. field. lra. }
  assert (DD : D = (f ^ 2 - f0 ^ 2 * (1 - 2 * d ^ 2)) ^ 2 + 4 * d ^ 2 * (1 - d ^ 2) * f0 ^ 4) by (unfold D; ring).
  assert (HS : 0 <= S_ ^ 2) by apply pow2_ge_0.
  exists h. split; [|split; [|split; [|split; [|split; [|split]]]]].
  - cbn [sos_FreqResp aget]. unfold sos_scalar. cbv zeta. fold f. destruct (Req_EM_T _ 0) as [Z|_]; [lra|reflexivity].
  - rewrite N. fold D. field. lra.
  - cbn [sos_FreqResp aget of_list nth]. unfold sos_scalar. cbv zeta.
    destruct (Req_EM_T _ 0) as [Z|_]; [lra|]. f_equal. unfold h, cdiv, cinv, cmul, cconj, RtoC, sos_den, cnorm2 in *.
    cbn [fst snd] in *. apply C_eq; cbn [fst snd]; field; repeat split; try (intro; lra).
  - intros Ef. unfold h. rewrite Ef.
    replace (sos_den d (2 * PI * f0) (2 * PI * f0)) with ((0, 8 * d * PI ^ 2 * f0 ^ 2) : C)
      by (unfold sos_den; apply C_eq; cbn [fst snd]; ring).
    unfold cdiv, cinv, cmul, RtoC, cnorm2. cbn [fst snd].
    apply C_eq; cbn [fst snd]; field; repeat split; try lra; auto.
  - intros H1. rewrite N. apply (Rmult_le_reg_r (D * (4 * d ^ 2 * (1 - d ^ 2)))).
    + apply Rmult_lt_0_compat; [exact HD|]. nra.
    + replace (S_ ^ 2 * f0 ^ 4 / D * (D * (4 * d ^ 2 * (1 - d ^ 2)))) with (S_ ^ 2 * (4 * d ^ 2 * (1 - d ^ 2) * f0 ^ 4)) by (field; lra).
      replace (S_ ^ 2 / (4 * d ^ 2 * (1 - d ^ 2)) * (D * (4 * d ^ 2 * (1 - d ^ 2)))) with (S_ ^ 2 * D) by (field; split; [nra|exact Hd]).
      apply Rmult_le_compat_l; [exact HS|]. rewrite DD. pose proof (pow2_ge_0 (f ^ 2 - f0 ^ 2 * (1 - 2 * d ^ 2))). lra.
  - intros H1 E. rewrite N, DD, E. field. repeat split; try nra; auto.
  - intros H1. rewrite N. apply (Rmult_le_reg_r D); [exact HD|].
    replace (S_ ^ 2 * f0 ^ 4 / D * D) with (S_ ^ 2 * f0 ^ 4) by (field; lra).
    apply Rmult_le_compat_l; [exact HS|]. unfold D.
    pose proof (pow2_ge_0 f). assert (0 <= f0 ^ 2 * f ^ 2) by (apply Rmult_le_pos; lra).
    pose proof (pow2_ge_0 (f ^ 2)). nra.
Qed.
Example C156_example : exists h, sos_FreqResp 3 (1 / 2) 10 (of_list [5; 10]) 1%nat = Some h /\ h = (0, -3) /\ cnorm2 h <= 12.
Proof.
  destruct (C156_resonance 3 (1/2) 10 (of_list [5; 10]) 1%nat) as (h & E & _ & _ & A & B & _); try lra.
  exists h. split; [exact E|]. split.
  - rewrite A by reflexivity. f_equal. lra.
  - eapply Rle_trans; [apply B; lra|]. lra.
Qed.

(** ** C157 *)
(** The formula in the documentation (SecondOrderSystem.py:31-32), with x in place of f. *)
Definition documented_sos (S_ d f0 x : R) (h : C) : Prop :=
  let den : C := ((2 * PI * f0) ^ 2 - x ^ 2, 2 * d * (2 * PI * f0) * x) in
  den <> C0 /\ cmul h den = RtoC (4 * S_ * PI ^ 2 * f0 ^ 2).
(** It holds for the angular frequency 2 pi f in place of f. *)
Theorem C157_documented_partial : forall S_ d f0 (freqs : vec) i h, f0 <> 0 -> d <> 0 ->
  sos_FreqResp S_ d f0 freqs i = Some h -> documented_sos S_ d f0 (2 * PI * freqs i) h.
Proof.
  intros S_ d f0 freqs i h Hf Hd E. cbn [sos_FreqResp aget] in E. unfold sos_scalar in E. cbv zeta in E.
  pose proof (sos_den_pos d f0 (freqs i) Hf Hd) as Hp. destruct (Req_EM_T _ 0) as [Z|_]; [lra|]. injection E as <-.
  unfold documented_sos. cbv zeta. split.
  - intros Z. unfold sos_den in Hp. rewrite Z in Hp. unfold cnorm2, C0 in Hp. cbn [fst snd] in Hp. lra.
  - unfold cdiv, cinv, cmul, RtoC, sos_den, cnorm2 in *. cbn [fst snd] in *. apply C_eq; cbn [fst snd]; field; lra.
Qed.
Theorem C157_documented_refuted : exists S_ d f0 (freqs : vec) i h, f0 <> 0 /\ d <> 0 /\
  sos_FreqResp S_ d f0 freqs i = Some h /\ ~ documented_sos S_ d f0 (freqs i) h.
Proof.
  destruct (C156_resonance 1 1 1 (of_list [1]) 0%nat) as (h & E & _ & _ & A & _); try lra.
  exists 1, 1, 1, (of_list [1]), 0%nat, h. split; [lra|]. split; [lra|]. split; [exact E|].
  rewrite A by reflexivity. intros [_ D]. cbn [of_list aget nth] in D. apply (f_equal snd) in D.
  unfold cmul, RtoC in D. cbn [fst snd] in D. assert (G : 3 < PI) by (pose proof PI_4; pose proof PI2_3_2; lra). nra.
Qed.
Example C157_example : exists h, sos_FreqResp 1 (1/2) 1 (of_list [2]) 0%nat = Some h /\ documented_sos 1 (1/2) 1 (2 * PI * 2) h.
Proof.
  destruct (C156_resonance 1 (1/2) 1 (of_list [2]) 0%nat) as (h & E & _); try lra. exists h. split; [exact E|].
  apply (C157_documented_partial 1 (1/2) 1 (of_list [2]) 0%nat); try lra. exact E.
Qed.
Print Assumptions C156_resonance.
Print Assumptions C157_documented_partial.
Print Assumptions C157_documented_refuted.
