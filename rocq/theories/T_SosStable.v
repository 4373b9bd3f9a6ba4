(** Poles of sampled filters and stability of second order systems (C188).
    Model: M_FilterStuff.v (impinvar, isstable), M_Noise.v (sos_phys2filter).  Vocabulary: S_Poly.v. *)
From Coq Require Import Reals String List Arith ZArith Lia Lra Psatz Permutation Bool.
From Verif Require Import Base Sums Cplx S_Poly S_MC S_DFT M_DFT M_FilterStuff M_Noise P_Poly P_Deriv P_AmpPhase P_FStuff P_FStuff2 T_FilterStuff.
Import ListNotations.
Local Notation length := Datatypes.length.
Open Scope R_scope.

(** ** C188 *)
(** The point of the z-plane belonging to s for the sampling frequency fs: exp(s / fs). *)
Definition sampled (fs : R) (s z : C) : Prop := z = cscal (exp (Re s / fs)) (cis (Im s / fs)).
(** The zeros of the polynomial az are exactly the sampled zeros of a. *)
Definition sampled_poles (fs : R) (a az : vec) : Prop :=
  forall z, ceval (real_poly az) z = C0 <-> exists s, ceval (real_poly a) s = C0 /\ sampled fs s z.

Lemma sampled_abs fs s z : sampled fs s z -> cabs z = exp (Re s / fs).
Proof.
  intros ->. unfold cabs.
  replace (cnorm2 (cscal (exp (Re s / fs)) (cis (Im s / fs)))) with (exp (Re s / fs) * exp (Re s / fs) * cnorm2 (cis (Im s / fs)))
    by (unfold cnorm2, cscal; cbn [fst snd]; ring).
  rewrite cis_norm, Rmult_1_r. apply sqrt_square. left. apply exp_pos.
Qed.
Lemma exp_le_1 x : exp x <= 1 <-> x <= 0.
Proof.
  rewrite <- exp_0. split; intros H.
  - destruct (Rle_lt_dec x 0) as [|P]; auto. apply exp_increasing in P. lra.
  - destruct H as [H | ->]; [left; now apply exp_increasing|right; reflexivity].
Qed.

Lemma impinvar_den residue invres b a fs tol r p k bz az :
  residue b a = (r, p, k) -> k = [] \/ k = [C0] -> exact_roots a p -> length r = length p -> apart tol p -> fs <> 0 ->
  (forall r p k, length r = length p -> invres_exact invres r p k) ->
  impinvar residue invres b a fs tol = Ok (bz, az) ->
  alen az = S (length p) /\ az 0%nat = 1 /\ exact_roots az (zp (1 / fs) p).
Proof.
  intros HR Hk HE HL HA Hfs Hinv. unfold impinvar.
  destruct (Req_EM_T fs 0); [contradiction|]. rewrite HR. set (ts := 1 / fs).
  assert (B : match k with [] => false | [k] => rltb 0 (cabs k) | _ => true end = false).
  { destruct Hk as [-> | ->]; [reflexivity|]. apply rltb_false. change C0 with (RtoC 0). rewrite cabs_real, Rabs_R0. lra. }
  rewrite B, imp_loop_simple by auto. cbn [bind].
  set (k' := fold_left (fun k r => k + to_real (cscal ts r)) r 0).
  assert (Lzr : length (zr ts r p) = length (zp ts p)).
  { unfold zr. rewrite map_length, combine_length, zp_length, HL. apply Nat.min_id. }
  pose proof (Hinv (zr ts r p) (zp ts p) k' Lzr) as HI.
  unfold invres_exact in HI. destruct (invres (zr ts r p) (zp ts p) k') as [bo ao].
  destruct HI as [La [Ea _]]. rewrite zp_length in La. intros E.
  assert (Eaz : az = mkArr (alen ao) (fun i => to_real (ao i))) by congruence.
  clear E. subst az. rewrite La. cbn [alen aget].
  assert (Ca : forall i, (i <= length p)%nat -> ao i = pc (zp ts p) i).
  { apply coef_unique. intros z. rewrite <- (ceval_evd ao) by auto. rewrite Ea.
    rewrite <- evd_pc, zp_length. reflexivity. }
  assert (PP : Permutation (zp ts p) (map cconj (zp ts p))).
  { unfold zp. rewrite map_map. eapply perm_trans; [apply Permutation_map, (real_roots_conj a p HE)|].
    rewrite map_map. rewrite (map_ext _ (fun s => cconj (cexp (cscal ts s)))); auto.
    intros s. rewrite <- cexp_conj. f_equal. cfield. }
  assert (Ra : forall i, snd (pc (zp ts p) i) = 0).
  { intros i. apply cconj_real. rewrite <- pc_conj. apply pc_perm, Permutation_sym, PP. }
  assert (Rr : forall i, (i <= length p)%nat -> RtoC (to_real (ao i)) = pc (zp ts p) i).
  { intros i Hi. rewrite Ca by auto. rewrite to_real_real by auto. apply C_eq; cbn; auto. }
  split; [reflexivity|]. split.
  - assert (Z := Rr 0%nat ltac:(lia)). apply (f_equal fst) in Z. cbn [RtoC fst] in Z. rewrite Z.
    assert (P0 : forall l, pc l 0 = C1).
    { clear. intros l. induction l as [|x l IH]; [reflexivity|]. rewrite pc_cons. exact IH. }
    rewrite P0. reflexivity.
  - exists 1. split; [lra|]. intros z. rewrite (ceval_evd _ (length p)) by reflexivity.
    transitivity (evd (length p) (pc (zp ts p)) z).
    { unfold evd. apply csum_ext. intros i Hi. cbn [real_poly alen aget]. rewrite Rr by lia. reflexivity. }
    rewrite <- (zp_length ts p) at 1. rewrite evd_pc. cfield.
Qed.

(** The poles of the sampled filter are exp(s / fs) for the poles s of the continuous one, for simple
    poles and every sampling frequency; impinvar_causal keeps them. *)
Theorem C188_poles : forall residue invres b a fs tol r p k bz az,
  residue b a = (r, p, k) -> k = [] \/ k = [C0] -> exact_roots a p -> length r = length p -> apart tol p -> fs <> 0 ->
  (forall r p k, length r = length p -> invres_exact invres r p k) ->
  impinvar residue invres b a fs tol = Ok (bz, az) ->
  alen az = S (length p) /\ az 0%nat = 1 /\ sampled_poles fs a az /\
  forall bc ac, impinvar_causal residue invres b a fs tol = Ok (bc, ac) -> ac = az.
Proof.
  intros residue invres b a fs tol r p k bz az HR Hk HE HL HA Hfs Hinv E.
  destruct (impinvar_den residue invres b a fs tol r p k bz az HR Hk HE HL HA Hfs Hinv E) as (L & A0 & X).
  split; [exact L|]. split; [exact A0|]. split.
  - intros z. rewrite (exact_roots_root _ _ z X). unfold zp. rewrite in_map_iff. split; intros [s [H1 H2]]; exists s.
    + split; [now apply (exact_roots_root _ _ s HE)|]. unfold sampled. rewrite <- H1. unfold cexp, cscal, Re, Im. cbn [fst snd].
      replace (1 / fs * fst s) with (fst s / fs) by (field; auto). replace (1 / fs * snd s) with (snd s / fs) by (field; auto). reflexivity.
    + split; [|now apply (exact_roots_root _ _ s HE)]. rewrite H2. unfold cexp, cscal, Re, Im. cbn [fst snd].
      replace (1 / fs * fst s) with (fst s / fs) by (field; auto). replace (1 / fs * snd s) with (snd s / fs) by (field; auto). reflexivity.
  - intros bc ac. unfold impinvar_causal. rewrite E. cbn [bind]. unfold make_causal.
    destruct ((alen bz =? 0) || (alen az =? 0))%nat; intros H; [discriminate H|]. congruence.
Qed.

(** The verdict on the sampled filter: stable if and only if no pole of the continuous filter lies in the open right half plane. *)
Theorem C188_verdict : forall residue invres roots b a fs tol r p k bz az,
  residue b a = (r, p, k) -> k = [] \/ k = [C0] -> exact_roots a p -> length r = length p -> apart tol p -> 0 < fs ->
  (forall r p k, length r = length p -> invres_exact invres r p k) ->
  impinvar residue invres b a fs tol = Ok (bz, az) -> exact_roots az (roots az) ->
  exists s, isstable roots bz az "digital" = Ok s /\ (s = true <-> forall z, ceval (real_poly a) z = C0 -> Re z <= 0).
Proof.
  intros residue invres roots b a fs tol r p k bz az HR Hk HE HL HA Hfs Hinv E HX.
  assert (Hf0 : fs <> 0) by lra.
  destruct (C188_poles residue invres b a fs tol r p k bz az HR Hk HE HL HA Hf0 Hinv E) as (_ & _ & SP & _).
  destruct (C61_digital roots bz az HX) as [s [ES I]]. exists s. split; [exact ES|]. rewrite I.
  assert (D : forall x, x / fs <= 0 <-> x <= 0).
  { intros x. pose proof (Rinv_0_lt_compat fs Hfs). unfold Rdiv. split; intros; nra. }
  split.
  - intros H u Hu. apply D, exp_le_1.
    rewrite <- (sampled_abs fs u _ eq_refl). apply H, SP. exists u. split; [exact Hu|reflexivity].
  - intros H z Hz. apply SP in Hz. destruct Hz as [u [Hu S]]. rewrite (sampled_abs fs u z S). apply exp_le_1, D, H, Hu.
Qed.

(** The poles of a second order system with resonance f0 > 0: all in the open left half plane if and only if the damping
    is positive, all in the closed one if and only if it is not negative. *)
Lemma sos_eval S_ d f0 s : ceval (real_poly (of_list (snd (sos_phys2filter S_ d f0)))) s =
  (Re s * Re s - Im s * Im s + 4 * d * PI * f0 * Re s + (2 * PI * f0) ^ 2, 2 * Im s * (Re s + 2 * d * PI * f0)).
Proof. unfold ceval, csum, real_poly, of_list, Re, Im. cbn -[PI]. destruct s. apply C_eq; cbn [fst snd]; ring. Qed.
Lemma sos_zero S_ d f0 : 0 < f0 -> exists s, ceval (real_poly (of_list (snd (sos_phys2filter S_ d f0)))) s = C0 /\
  (d <= 0 -> 0 <= Re s) /\ (d < 0 -> 0 < Re s).
Proof.
  intros Hf. set (w := 2 * PI * f0). assert (Hw : 0 < w) by (unfold w; pose proof PI_RGT_0; nra).
  destruct (Rle_lt_dec 1 (d * d)) as [B|B].
  - exists (RtoC (w * (sqrt (d * d - 1) - d))). rewrite sos_eval. cbn [Re Im RtoC fst snd].
    assert (Q : sqrt (d * d - 1) * sqrt (d * d - 1) = d * d - 1) by (apply sqrt_sqrt; lra).
    pose proof (sqrt_pos (d * d - 1)) as P. set (q := sqrt (d * d - 1)) in *. split; [|split; intros; nra].
    apply C_eq; cbn [fst snd C0]; [|ring].
    replace (4 * d * PI * f0) with (2 * d * w) by (unfold w; ring). fold w.
    transitivity (w ^ 2 * (q * q - (d * d - 1))); [ring|]. rewrite Q. ring.
  - exists (w * - d, w * sqrt (1 - d * d)). rewrite sos_eval. cbn [Re Im fst snd].
    assert (Q : sqrt (1 - d * d) * sqrt (1 - d * d) = 1 - d * d) by (apply sqrt_sqrt; lra).
    set (q := sqrt (1 - d * d)) in *. split; [|split; intros; nra].
    replace (4 * d * PI * f0) with (2 * d * w) by (unfold w; ring).
    replace (2 * d * PI * f0) with (d * w) by (unfold w; ring). fold w.
    apply C_eq; cbn [fst snd C0]; [|ring].
    transitivity (w ^ 2 * (1 - d * d - q * q)); [ring|]. rewrite Q. ring.
Qed.
Theorem C188_damping : forall S_ d f0, 0 < f0 ->
  let a := of_list (snd (sos_phys2filter S_ d f0)) in
  ((forall s, ceval (real_poly a) s = C0 -> Re s < 0) <-> 0 < d) /\
  ((forall s, ceval (real_poly a) s = C0 -> Re s <= 0) <-> 0 <= d).
Proof.
  intros S_ d f0 Hf a. assert (Hw : 0 < PI * f0) by (pose proof PI_RGT_0; nra).
  assert (K : forall s, ceval (real_poly a) s = C0 -> (0 < d -> Re s < 0) /\ (0 <= d -> Re s <= 0)).
  { intros s Hs. unfold a in Hs. rewrite sos_eval in Hs.
    assert (H1 := f_equal fst Hs). assert (H2 := f_equal snd Hs). cbn [fst snd C0] in H1, H2.
    replace (4 * d * PI * f0) with (4 * d * (PI * f0)) in H1 by ring.
    replace (2 * PI * f0) with (2 * (PI * f0)) in H1 by ring. replace (2 * d * PI * f0) with (2 * d * (PI * f0)) in H2 by ring.
    set (v := PI * f0) in *.
    apply Rmult_integral in H2. destruct H2 as [H2|H2].
    - assert (Z : Im s = 0) by lra. rewrite Z in H1.
      split; intros Hd; (destruct (Rle_lt_dec 0 (Re s)) as [N|N]; [|lra]);
        assert (0 <= d * v * Re s) by (apply Rmult_le_pos; [apply Rmult_le_pos; lra|auto]); nra.
    - split; intros Hd; nra. }
  destruct (sos_zero S_ d f0 Hf) as (s & Hs & S1 & S2). fold a in Hs. split; split; intros H.
  - specialize (H s Hs). destruct (Rlt_le_dec 0 d); auto. specialize (S1 r). lra.
  - intros u Hu. now apply K.
  - specialize (H s Hs). destruct (Rle_lt_dec 0 d); auto. specialize (S2 r). lra.
  - intros u Hu. now apply K.
Qed.
(** Hence a second order system sampled by impinvar is reported stable exactly if its damping is not negative. *)
Theorem C188_sos : forall residue invres roots S_ d f0 fs tol r p k bz az,
  let b := of_list (fst (sos_phys2filter S_ d f0)) in let a := of_list (snd (sos_phys2filter S_ d f0)) in
  residue b a = (r, p, k) -> k = [] \/ k = [C0] -> exact_roots a p -> length r = length p -> apart tol p -> 0 < f0 -> 0 < fs ->
  (forall r p k, length r = length p -> invres_exact invres r p k) ->
  impinvar residue invres b a fs tol = Ok (bz, az) -> exact_roots az (roots az) ->
  exists s, isstable roots bz az "digital" = Ok s /\ (s = true <-> 0 <= d).
Proof.
  intros residue invres roots S_ d f0 fs tol r p k bz az b a HR Hk HE HL HA Hf Hfs Hinv E HX.
  destruct (C188_verdict residue invres roots b a fs tol r p k bz az HR Hk HE HL HA Hfs Hinv E HX) as (s & ES & I).
  exists s. split; [exact ES|]. rewrite I. apply (C188_damping S_ d f0 Hf).
Qed.

(** 1/(s^2 + 3 s + 2) sampled at 10 Hz; the poles -1, -2. *)
Definition damp_r : list C := [C1; RtoC (-1)].
Definition damp_p : list C := [RtoC (-1); RtoC (-2)].
Lemma damp_apart : apart (1 / 10000) damp_p.
Proof. cbn. split; auto. replace (csub (RtoC (-1)) (RtoC (-2))) with (RtoC 1) by cfield. rewrite cabs_real, Rabs_R1. lra. Qed.
Lemma damp_roots : exact_roots (of_list [1; 3; 2]) damp_p.
Proof. exists 1. split; [lra|]. intros z. unfold ceval, lin_prod, csum, real_poly, of_list. cbn. destruct z. cfield. Qed.
Example C188_poles_ex : exact_roots (of_list [1; 3; 2]) damp_p /\ apart (1 / 10000) damp_p /\ length damp_r = length damp_p /\
  (forall r p k, length r = length p -> invres_exact ref_invres r p k) /\
  exists bz az, impinvar (fun _ _ => (damp_r, damp_p, [])) ref_invres (of_list [1]) (of_list [1; 3; 2]) 10 (1 / 10000) = Ok (bz, az) /\
    exact_roots az (zp (1 / 10) damp_p).
Proof.
  split; [exact damp_roots|]. split; [exact damp_apart|]. split; [reflexivity|]. split; [exact ref_invres_exact|].
  assert (E : exists bz az, impinvar (fun _ _ => (damp_r, damp_p, [])) ref_invres (of_list [1]) (of_list [1; 3; 2]) 10 (1 / 10000) = Ok (bz, az)).
  { unfold impinvar. destruct (Req_EM_T 10 0); [lra|]. rewrite imp_loop_simple by (try exact damp_apart; auto).
    cbn [bind]. destruct (ref_invres _ _ _) as [bo ao]. eexists. eexists. reflexivity. }
  destruct E as (bz & az & E). exists bz, az. split; [exact E|].
  apply (impinvar_den (fun _ _ => (damp_r, damp_p, [])) ref_invres (of_list [1]) (of_list [1; 3; 2]) 10 (1 / 10000) damp_r damp_p [] bz az); auto.
  all: first [exact damp_roots | exact damp_apart | exact ref_invres_exact | lra].
Qed.
(** d = 3/(2 sqrt 2), f0 = sqrt 2/(2 pi): the same denominator; d = 0: the poles 2 pi i and - 2 pi i for f0 = 1. *)
Example C188_damping_ex : snd (sos_phys2filter 1 (3 / (2 * sqrt 2)) (sqrt 2 / (2 * PI))) = [1; 3; 2] /\
  ceval (real_poly (of_list (snd (sos_phys2filter 1 0 1)))) (0, 2 * PI) = C0.
Proof.
  assert (P := PI_RGT_0). assert (Q : sqrt 2 * sqrt 2 = 2) by (apply sqrt_sqrt; lra). assert (0 < sqrt 2) by (apply sqrt_lt_R0; lra).
  split.
  - unfold sos_phys2filter. cbn [snd]. f_equal. f_equal; [field; lra|]. f_equal.
    replace (2 * PI * (sqrt 2 / (2 * PI))) with (sqrt 2) by (field; lra). cbn. rewrite Rmult_1_r. exact Q.
  - rewrite sos_eval. apply C_eq; cbn; ring.
Qed.
Example C188_sos_ex : exists d f0, 0 < f0 /\ 0 < d /\ exact_roots (of_list (snd (sos_phys2filter 1 d f0))) damp_p.
Proof.
  assert (P := PI_RGT_0). assert (0 < sqrt 2) by (apply sqrt_lt_R0; lra).
  exists (3 / (2 * sqrt 2)), (sqrt 2 / (2 * PI)). split; [apply Rdiv_lt_0_compat; lra|]. split; [apply Rdiv_lt_0_compat; lra|].
  rewrite (proj1 C188_damping_ex). exact damp_roots.
Qed.
Print Assumptions C188_poles.
Print Assumptions C188_verdict.
Print Assumptions C188_damping.
Print Assumptions C188_sos.
