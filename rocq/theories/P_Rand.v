(** Lemmas on repeated independent draws: the sample mean and the sample covariance are
    unbiased. *)
From Coq Require Import Reals List Arith Lra Lia.
From Verif Require Import Base Sums Stats StatsFacts S_MC S_Rand P_MC.
Import ListNotations.
Open Scope R_scope.
Local Notation length := Datatypes.length.

Lemma Ex_ext_in {A} (d : dist A) f g : (forall p a, In (p, a) d -> f a = g a) -> Ex d f = Ex d g.
Proof.
  induction d as [|[p a] d IH]; intros H; [reflexivity|]. cbn [Ex]. rewrite (H p a) by (left; reflexivity).
  rewrite IH; [reflexivity|]. intros q b Hb. apply (H q b). right. exact Hb.
Qed.
Lemma Ex_tot {A I} (D : dist A) (h : I -> A -> R) (l : list I) :
  Ex D (fun w => tot (map (fun k => h k w) l)) = tot (map (fun k => Ex D (h k)) l).
Proof.
  induction l as [|k l IH]; cbn [map tot]; [apply Ex_zero|]. rewrite Ex_plus, IH. reflexivity.
Qed.
Lemma tot_mult {I} (f g : I -> R) (l m : list I) :
  tot (map f l) * tot (map g m) = tot (map (fun k => tot (map (fun j => f k * g j) m)) l).
Proof.
  induction l as [|k l IH]; cbn [map tot]; [ring|]. rewrite <- IH, Rmult_plus_distr_r. f_equal.
  clear IH. induction m as [|j m IH]; cbn [map tot]; [ring|]. rewrite <- IH. ring.
Qed.
Lemma tot_pick (k : nat) u v l : NoDup l -> In k l ->
  tot (map (fun j => if Nat.eq_dec k j then u else v) l) = u + (INR (length l) - 1) * v.
Proof.
  induction l as [|j l IH]; [intros _ []|]. intros Hn Hk. inversion Hn as [|? ? Hj Hl]; subst.
  cbn [map tot]. change (length (j :: l)) with (S (length l)). rewrite S_INR.
  destruct (Nat.eq_dec k j) as [->|Ne].
  - rewrite (tot_ext (fun i => if Nat.eq_dec j i then u else v) (fun _ => v)).
    + rewrite tot_const. ring.
    + intros i Hi. destruct (Nat.eq_dec j i) as [->|]; [contradiction|reflexivity].
  - destruct Hk as [->|Hk]; [contradiction|]. rewrite IH by auto. ring.
Qed.
Lemma scatter_raw {I} (f g : I -> R) (l : list I) : l <> [] ->
  scatter f g l = tot (map (fun k => f k * g k) l) - tot (map f l) * tot (map g l) / INR (length l).
Proof.
  intros H. pose proof (scatter_about f g 0 0 l H) as E. pose proof (avg_tot f l H) as Ef.
  pose proof (avg_tot g l H) as Eg.
  assert (N : INR (length l) <> 0). { destruct l; [congruence|]. apply not_0_INR. discriminate. }
  rewrite (tot_ext (fun a => (f a - 0) * (g a - 0)) (fun k => f k * g k)) in E by (intros; ring).
  unfold avg in *. rewrite E. field. exact N.
Qed.

Section Draws.
  Context {A : Type}.
  Variables (s r : nat) (D : dist (nat -> A)) (d : dist A).
  Hypothesis HI : iid s r D d.
  Variable l : list nat.
  Hypothesis Hl : forall k, In k l -> (s <= k < s + r)%nat.

  Lemma iid_mean f : l <> [] -> Ex D (fun w => avg (fun k => f (w k)) l) = Ex d f.
  Proof.
    intros Hne. destruct HI as (_ & _ & H1 & _). unfold avg.
    assert (N : INR (length l) <> 0). { destruct l; [congruence|]. apply not_0_INR. discriminate. }
    unfold Rdiv. rewrite Ex_scal_r, (Ex_tot D (fun k w => f (w k))).
    rewrite (tot_ext _ (fun _ => Ex d f)) by (intros k Hk; apply H1; auto).
    rewrite tot_const. field. exact N.
  Qed.
  Lemma iid_scatter f g : NoDup l -> l <> [] ->
    Ex D (fun w => scatter (fun k => f (w k)) (fun k => g (w k)) l) = (INR (length l) - 1) * Cov d f g.
  Proof.
    intros Hn Hne. destruct HI as (_ & Hd & H1 & H2).
    assert (N : INR (length l) <> 0). { destruct l; [congruence|]. apply not_0_INR. discriminate. }
    rewrite (Ex_ext D _ (fun w => tot (map (fun k => f (w k) * g (w k)) l)
      - tot (map (fun k => tot (map (fun j => f (w k) * g (w j)) l)) l) * / INR (length l))).
    2:{ intros w. rewrite scatter_raw, tot_mult by exact Hne. reflexivity. }
    rewrite Ex_minus, Ex_scal_r, (Ex_tot D (fun k w => f (w k) * g (w k))),
      (Ex_tot D (fun k w => tot (map (fun j => f (w k) * g (w j)) l))).
    rewrite (tot_ext _ (fun _ => Ex d (fun a => f a * g a)))
      by (intros k Hk; apply (H1 k (fun a => f a * g a)); auto).
    rewrite (tot_ext (fun k => Ex D (fun w => tot (map (fun j => f (w k) * g (w j)) l)))
      (fun _ => Ex d (fun a => f a * g a) + (INR (length l) - 1) * (Ex d f * Ex d g))).
    2:{ intros k Hk. rewrite (Ex_tot D (fun j w => f (w k) * g (w j))).
        rewrite <- (tot_pick k (Ex d (fun a => f a * g a)) (Ex d f * Ex d g) l Hn Hk).
        apply tot_ext. intros j Hj. destruct (Nat.eq_dec k j) as [<-|Ne].
        - apply (H1 k (fun a => f a * g a)). auto.
        - apply H2; auto. }
    rewrite !tot_const, Cov_alt by exact Hd. field. exact N.
  Qed.
  Lemma iid_sample_cov f g : NoDup l -> (2 <= length l)%nat ->
    Ex D (fun w => sample_cov (fun k => f (w k)) (fun k => g (w k)) l) = Cov d f g.
  Proof.
    intros Hn H2. unfold sample_cov, Rdiv. rewrite Ex_scal_r, iid_scatter; [|exact Hn|intros ->; cbn in H2; lia].
    apply (le_INR 2) in H2. cbn in H2. field. lra.
  Qed.
End Draws.

(** Such sequences exist for every distribution and every number of draws. *)
Lemma Ex_repeated_S {A} a0 (d : dist A) m (F : (nat -> A) -> R) :
  Ex (repeated a0 d (S m)) F
  = Ex (repeated a0 d m) (fun w => Ex d (fun a => F (fun k => if (k =? m)%nat then a else w k))).
Proof.
  cbn [repeated].
  pose proof (Ex_indep (repeated a0 d m) d (fun q => F (fun k => if (k =? m)%nat then snd q else fst q k))) as E.
  cbn [fst snd] in E. rewrite <- E. clear E.
  induction (indep (repeated a0 d m) d) as [|[p [w a]] l IH]; [reflexivity|].
  cbn [map Ex fst snd]. rewrite IH. reflexivity.
Qed.
Lemma repeated_prob {A} a0 (d : dist A) m : is_prob d -> is_prob (repeated a0 d m).
Proof.
  intros Hd. induction m as [|m IH].
  - split; [intros p a [H|[]]; injection H as <- <-; lra|cbn; ring].
  - split.
    + intros p w H. cbn [repeated] in H. apply in_map_iff in H. destruct H as ([q [w' a]] & E & H).
      injection E as <- _. apply (proj1 (indep_prob _ _ IH Hd)) in H. exact H.
    + rewrite Ex_repeated_S. rewrite (Ex_ext _ _ (fun _ => 1)); [apply IH|]. intros w. apply Hd.
Qed.
Theorem repeated_iid {A} a0 (d : dist A) r : is_prob d -> iid 0 r (repeated a0 d r) d.
Proof.
  intros Hd. split; [apply repeated_prob; exact Hd|]. split; [exact Hd|].
  induction r as [|m [H1 H2]].
  - split; intros; lia.
  - assert (One : forall f, Ex (repeated a0 d m) (fun _ => Ex d f) = Ex d f).
    { intros f. apply Ex_const. apply repeated_prob. exact Hd. }
    split.
    + intros k f Hk. rewrite Ex_repeated_S. destruct (Nat.eqb_spec k m) as [->|Ne].
      * apply One.
      * rewrite (Ex_ext _ _ (fun w => f (w k))); [apply H1; lia|]. intros w. apply Ex_const. exact Hd.
    + intros k l f g Hk Hl Hne. rewrite Ex_repeated_S.
      destruct (Nat.eqb_spec k m) as [->|Nk], (Nat.eqb_spec l m) as [->|Nl]; [lia| | |].
      * rewrite (Ex_ext _ _ (fun w => Ex d f * g (w l))); [rewrite Ex_scal, H1 by lia; reflexivity|].
        intros w. apply Ex_scal_r.
      * rewrite (Ex_ext _ _ (fun w => f (w k) * Ex d g)); [rewrite Ex_scal_r, H1 by lia; reflexivity|].
        intros w. apply Ex_scal.
      * rewrite (Ex_ext _ _ (fun w => f (w k) * g (w l))); [apply H2; lia|]. intros w. apply Ex_const. exact Hd.
Qed.
Lemma repeated_in {A} (P : A -> Prop) a0 (d : dist A) r : P a0 -> (forall p a, In (p, a) d -> P a) ->
  forall p w, In (p, w) (repeated a0 d r) -> forall k, P (w k).
Proof.
  intros H0 Hd. induction r as [|m IH]; intros p w H.
  - destruct H as [H|[]]. injection H as _ <-. intros; exact H0.
  - cbn [repeated] in H. apply in_map_iff in H. destruct H as ([q [w' a]] & E & H). cbn [fst snd] in E.
    injection E as <- <-. unfold indep in H. apply in_flat_map in H. destruct H as ([p1 w1] & Hw & H).
    apply in_map_iff in H. destruct H as ([p2 a2] & E & Ha). cbn [fst snd] in E. injection E as <- <- <-.
    intros k. cbv beta. destruct (k =? m)%nat; [apply (Hd _ _ Ha)|apply (IH _ _ Hw)].
Qed.
