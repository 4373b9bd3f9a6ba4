(** Lemmas: residues of real filters with distinct poles, impulse responses. *)
From Coq Require Import Reals String List Arith ZArith Lia Lra Psatz Permutation Bool.
From Verif Require Import Base Sums Cplx S_Poly M_FilterStuff P_Poly P_FStuff P_FStuff2.
Import ListNotations.
Local Notation length := Datatypes.length.
Open Scope R_scope.

(** ** Every filter with a[0] <> 0 has an impulse response *)
Fixpoint hist (b a : vec) (n : nat) : nat -> R :=
  match n with
  | O => fun _ => 0
  | S m => fun i => if (i =? m)%nat
                    then (vpad b m - rsum m (fun j => vpad a (S j) * hist b a m (m - 1 - j)%nat)) / vpad a 0
                    else hist b a m i
  end.
Lemma hist_last b a n : hist b a (S n) n = (vpad b n - rsum n (fun j => vpad a (S j) * hist b a n (n - 1 - j)%nat)) / vpad a 0.
Proof. cbn [hist]. rewrite Nat.eqb_refl. reflexivity. Qed.
Lemma hist_stable b a i m : (i < m)%nat -> hist b a m i = hist b a (S i) i.
Proof.
  intros H. induction m as [|m IH]; [lia|]. destruct (Nat.eq_dec i m) as [->|N]; [reflexivity|].
  transitivity (hist b a m i); [|apply IH; lia]. cbn [hist]. apply Nat.eqb_neq in N. rewrite N. reflexivity.
Qed.
Lemma impulse_resp_exists b a : vpad a 0 <> 0 -> impulse_resp b a (fun n => hist b a (S n) n).
Proof.
  intros H0 n. rewrite (filter_sum_vpad a (fun n => hist b a (S n) n)). rewrite rsum_S_l. cbn beta.
  rewrite Nat.sub_0_r, hist_last.
  rewrite (rsum_ext n (fun j => vpad a (S j) * hist b a (S (n - S j)) (n - S j))
             (fun j => vpad a (S j) * hist b a n (n - 1 - j)%nat)).
  - field. exact H0.
  - intros j Hj. replace (n - 1 - j)%nat with (n - S j)%nat by lia. rewrite <- (hist_stable b a (n - S j) n) by lia. reflexivity.
Qed.
Lemma impulse_resp_unique b a h h' : vpad a 0 <> 0 -> impulse_resp b a h -> impulse_resp b a h' -> forall n, h n = h' n.
Proof.
  intros H0 H H' n. induction n as [n IH] using lt_wf_ind.
  assert (K := H n). assert (K' := H' n). rewrite filter_sum_vpad, rsum_S_l in K, K'. cbn beta in K, K'. rewrite Nat.sub_0_r in K, K'.
  rewrite (rsum_ext n (fun j => vpad a (S j) * h' (n - S j)%nat) (fun j => vpad a (S j) * h (n - S j)%nat)) in K'
    by (intros j Hj; rewrite IH by lia; reflexivity).
  apply Rmult_eq_reg_l with (vpad a 0); auto. lra.
Qed.

(** ** Residues of conjugate poles *)
Definition wprod (p : list C) (u : C) : C :=
  fold_right (fun v q => cmul (if C_dec u v then C1 else csub u v) q) C1 p.
Lemma wprod_perm u p p' : Permutation p p' -> wprod p u = wprod p' u.
Proof.
  induction 1; unfold wprod in *; cbn [fold_right]; auto.
  - now rewrite IHPermutation.
  - rewrite !cmul_assoc. f_equal. apply cmul_comm.
  - congruence.
Qed.
Lemma wprod_neq u p : wprod p u <> C0.
Proof.
  induction p as [|v p IH]; unfold wprod in *; cbn [fold_right].
  - intros E. apply (f_equal fst) in E. cbn in E. lra.
  - intros E. apply cmul_eq_0 in E. destruct E as [E|E]; [|contradiction].
    destruct (C_dec u v) as [->|N].
    + apply (f_equal fst) in E. cbn in E. lra.
    + apply N, csub_eq_0, E.
Qed.
Lemma lin_prod_cons v p z : lin_prod (v :: p) z = cmul (csub z v) (lin_prod p z).
Proof. reflexivity. Qed.
Lemma wprod_lin u p : ~ In u p -> lin_prod p u = wprod p u.
Proof.
  induction p as [|v p IH]; intros H; [reflexivity|]. rewrite lin_prod_cons. unfold wprod in *. cbn [fold_right].
  destruct (C_dec u v) as [->|N]; [exfalso; apply H; now left|]. rewrite IH; auto. intros I. apply H. now right.
Qed.
Lemma pf_num_at : forall p r u y, NoDup p -> length r = length p -> In (y, u) (combine r p) ->
  pf_num r p u = cmul y (wprod p u).
Proof.
  induction p as [|p0 p IH]; intros [|r0 r] u y ND HL HI; try discriminate; try contradiction.
  inversion ND as [|? ? N0 ND']; subst. cbn [pf_num]. unfold wprod. cbn [fold_right]. fold (wprod p u).
  cbn [combine] in HI. destruct HI as [E|HI].
  - injection E as -> ->. destruct (C_dec u u) as [_|N]; [|contradiction].
    rewrite csub_diag, wprod_lin by auto. set (w := wprod p u). cfield.
  - assert (Iu : In u p) by (eapply in_combine_r; exact HI).
    destruct (C_dec u p0) as [->|N]; [contradiction|].
    rewrite (proj2 (lin_prod_zero p u) Iu). rewrite (IH r u y) by (auto; cbn in HL; lia).
    set (w := wprod p u). cfield.
Qed.
Lemma lin_prod_conj p z : lin_prod (map cconj p) z = cconj (lin_prod p (cconj z)).
Proof.
  induction p as [|v p IH]; [symmetry; apply cconj_1|]. cbn [map]. rewrite !lin_prod_cons.
  rewrite IH, cconj_mul, cconj_sub, cconj_invol. reflexivity.
Qed.
Lemma pf_num_conj : forall p r z, length r = length p -> pf_num (map cconj r) (map cconj p) z = cconj (pf_num r p (cconj z)).
Proof.
  induction p as [|p0 p IH]; intros [|r0 r] z HL; try discriminate; cbn [map pf_num]; [now rewrite cconj_0|].
  rewrite IH by (cbn in HL; lia). rewrite lin_prod_conj, cconj_add, !cconj_mul, cconj_sub, cconj_invol. reflexivity.
Qed.
Lemma ceval_real_conj b z : ceval (real_poly b) (cconj z) = cconj (ceval (real_poly b) z).
Proof.
  assert (T : forall i, cmul (real_poly b i) (cpow (cconj z) (alen b - 1 - i)) = cconj (cmul (real_poly b i) (cpow z (alen b - 1 - i)))).
  { intros i. rewrite cpow_conj, cconj_mul. f_equal. symmetry. apply cconj_real. reflexivity. }
  unfold ceval. change (alen (real_poly b)) with (alen b). unfold csum. cbn [cconj fst snd].
  apply C_eq; cbn [cconj fst snd].
  - apply rsum_ext. intros i _. rewrite T. reflexivity.
  - rewrite <- rsum_opp. apply rsum_ext. intros i _. rewrite T. reflexivity.
Qed.
Lemma combine_map2 (r p : list C) : combine (map cconj r) (map cconj p) = map (fun rp => (cconj (fst rp), cconj (snd rp))) (combine r p).
Proof. revert p. induction r as [|r0 r IH]; intros [|p0 p]; auto. cbn. now rewrite IH. Qed.
Lemma NoDup_combine_r {A B} : forall (r : list A) (p : list B), NoDup p -> NoDup (combine r p).
Proof.
  induction r as [|r0 r IH]; intros [|p0 p] H; cbn; try constructor.
  - inversion H; subst. intros I. apply in_combine_r in I. contradiction.
  - apply IH. now inversion H.
Qed.
Lemma in_combine_ex {A B} : forall (r : list A) (p : list B) u, length r = length p -> In u p -> exists y, In (y, u) (combine r p).
Proof.
  induction r as [|r0 r IH]; intros [|p0 p] u HL HI; try discriminate; [contradiction|].
  destruct HI as [->|HI]; [exists r0; now left|]. destruct (IH p u ltac:(cbn in HL; lia) HI) as [y Y]. exists y. now right.
Qed.
(** The residues of a real rational function with distinct poles are conjugate at conjugate poles. *)
Lemma residues_conj b a r p : partial_fractions b a r p -> NoDup p -> conj_closed r p.
Proof.
  intros [HL [lead [Hl [Ea Eb]]]] ND.
  assert (HE : exact_roots a p) by (exists lead; auto).
  assert (PP := real_roots_conj a p HE).
  assert (ND' : NoDup (map cconj p)) by (eapply Permutation_NoDup; [exact PP|exact ND]).
  assert (HL' : length (map cconj r) = length (map cconj p)) by (now rewrite !map_length).
  assert (Q : forall z, pf_num (map cconj r) (map cconj p) z = pf_num r p z).
  { intros z. rewrite pf_num_conj by auto.
    assert (K := Eb (cconj z)). rewrite ceval_real_conj, Eb in K. apply (f_equal cconj) in K. rewrite cconj_invol in K.
    apply C_eq; [apply (f_equal fst) in K|apply (f_equal snd) in K]; unfold cscal, cconj in *; cbn [fst snd] in *;
      apply Rmult_eq_reg_l with lead; auto; lra. }
  assert (U : forall x y u, In (x, u) (combine (map cconj r) (map cconj p)) -> In (y, u) (combine r p) -> x = y).
  { intros x y u I1 I2. assert (E := Q u). rewrite (pf_num_at _ _ u x ND' HL' I1), (pf_num_at _ _ u y ND HL I2) in E.
    rewrite <- (wprod_perm u _ _ PP) in E. apply csub_eq_0.
    assert (Z : cmul (csub x y) (wprod p u) = C0).
    { replace (cmul (csub x y) (wprod p u)) with (csub (cmul x (wprod p u)) (cmul y (wprod p u))) by cfield. rewrite E. apply csub_diag. }
    apply cmul_eq_0 in Z. destruct Z as [Z|Z]; [exact Z|]. exfalso. eapply wprod_neq, Z. }
  unfold conj_closed. rewrite <- combine_map2. apply NoDup_Permutation.
  - now apply NoDup_combine_r. - now apply NoDup_combine_r.
  - intros [x u]. split; intros I.
    + assert (Iu : In u (map cconj p)) by (eapply Permutation_in; [exact PP|eapply in_combine_r, I]).
      destruct (in_combine_ex _ _ u HL' Iu) as [y Y]. rewrite <- (U y x u Y I). exact Y.
    + assert (Iu : In u p) by (eapply Permutation_in; [apply Permutation_sym, PP|eapply in_combine_r, I]).
      destruct (in_combine_ex _ _ u HL Iu) as [y Y]. rewrite (U x y u I Y). exact Y.
Qed.
