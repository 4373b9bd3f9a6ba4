(** Derivative rules in applied form and a structural tactic. *)
From Coq Require Import Reals Arith Lia Lra Psatz.
From Verif Require Import Base Stats S_Jac P_Jac.
Open Scope R_scope.

Lemma dl_eq f x a b : derivable_pt_lim f x a -> a = b -> derivable_pt_lim f x b.
Proof. now intros H <-. Qed.
Lemma dl_id x : derivable_pt_lim (fun t => t) x 1.
Proof. exact (derivable_pt_lim_id x). Qed.
Lemma dl_const c x : derivable_pt_lim (fun _ => c) x 0.
Proof. exact (derivable_pt_lim_const c x). Qed.
Lemma dl_plus f g x a b : derivable_pt_lim f x a -> derivable_pt_lim g x b ->
  derivable_pt_lim (fun t => f t + g t) x (a + b).
Proof. exact (derivable_pt_lim_plus f g x a b). Qed.
Lemma dl_minus f g x a b : derivable_pt_lim f x a -> derivable_pt_lim g x b ->
  derivable_pt_lim (fun t => f t - g t) x (a - b).
Proof. exact (derivable_pt_lim_minus f g x a b). Qed.
Lemma dl_mult f g x a b : derivable_pt_lim f x a -> derivable_pt_lim g x b ->
  derivable_pt_lim (fun t => f t * g t) x (a * g x + f x * b).
Proof. exact (derivable_pt_lim_mult f g x a b). Qed.
Lemma dl_opp f x a : derivable_pt_lim f x a -> derivable_pt_lim (fun t => - f t) x (- a).
Proof. exact (derivable_pt_lim_opp f x a). Qed.
Lemma dl_div f g x a b : g x <> 0 -> derivable_pt_lim f x a -> derivable_pt_lim g x b ->
  derivable_pt_lim (fun t => f t / g t) x ((a * g x - b * f x) / (g x * g x)).
Proof. intros H Hf Hg. exact (derivable_pt_lim_div f g x a b Hf Hg H). Qed.
Lemma dl_comp f g x a b : derivable_pt_lim f x a -> derivable_pt_lim g (f x) b ->
  derivable_pt_lim (fun t => g (f t)) x (b * a).
Proof. intros H1 H2. exact (derivable_pt_lim_comp f g x a b H1 H2). Qed.
Lemma dl_sin f x a : derivable_pt_lim f x a -> derivable_pt_lim (fun t => sin (f t)) x (cos (f x) * a).
Proof. intros H. apply (dl_comp f sin); [exact H | apply derivable_pt_lim_sin]. Qed.
Lemma dl_cos f x a : derivable_pt_lim f x a -> derivable_pt_lim (fun t => cos (f t)) x (- sin (f x) * a).
Proof. intros H. apply (dl_comp f cos); [exact H | apply derivable_pt_lim_cos]. Qed.
Lemma dl_exp f x a : derivable_pt_lim f x a -> derivable_pt_lim (fun t => exp (f t)) x (exp (f x) * a).
Proof. intros H. apply (dl_comp f exp); [exact H | apply derivable_pt_lim_exp]. Qed.
Lemma dl_sqrt f x a : 0 < f x -> derivable_pt_lim f x a ->
  derivable_pt_lim (fun t => sqrt (f t)) x (/ (2 * sqrt (f x)) * a).
Proof. intros Hp H. apply (dl_comp f sqrt); [exact H | now apply derivable_pt_lim_sqrt]. Qed.
Lemma dl_atan f x a : derivable_pt_lim f x a ->
  derivable_pt_lim (fun t => atan (f t)) x (/ (1 + f x ^ 2) * a).
Proof.
  intros H. apply (dl_comp f atan); [exact H|].
  eapply dl_eq; [apply derivable_pt_lim_atan|]. unfold Rsqr. repeat f_equal; ring.
Qed.
Lemma dl_pow f x a n : derivable_pt_lim f x a ->
  derivable_pt_lim (fun t => f t ^ n) x (INR n * f x ^ pred n * a).
Proof. intros H. apply (dl_comp f (fun y => y ^ n)); [exact H | apply derivable_pt_lim_pow]. Qed.
Lemma dl_ext f g x a : (forall t, f t = g t) -> derivable_pt_lim f x a -> derivable_pt_lim g x a.
Proof. intros H. apply derivable_pt_lim_ext. exact H. Qed.

(** Solves [derivable_pt_lim (fun t => e) x ?l] up to side conditions (non-zero
    denominators, positive radicands). *)
Ltac dl1 :=
  first [ apply dl_const | apply dl_id
        | eapply dl_plus | eapply dl_minus | eapply dl_div | eapply dl_mult | eapply dl_opp
        | eapply dl_sqrt | eapply dl_atan | eapply dl_sin | eapply dl_cos | eapply dl_exp
        | eapply dl_pow ].
Ltac dl :=
  lazymatch goal with
  | |- derivable_pt_lim _ _ _ => dl1; cbv beta; dl
  | _ => idtac
  end.

Lemma is_jac_ext n m G G' s J :
  (forall s i, (i < n)%nat -> G s i = G' s i) -> is_jac n m G s J -> is_jac n m G' s J.
Proof. intros H HJ i j Hi Hj. eapply dl_ext; [|apply HJ; assumption]. intros t. now apply H. Qed.

Lemma is_jac_any_sandwich n m G s K U :
  is_jac n m G s K ->
  forall J, is_jac n m G s J ->
  forall i j, (i < n)%nat -> (j < n)%nat -> sandwich m J U J i j = sandwich m K U K i j.
Proof.
  intros HK J HJ i j Hi Hj. apply (sandwich_ext n m); auto;
    intros; eapply is_jac_unique; eauto.
Qed.
