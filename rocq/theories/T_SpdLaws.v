(** make_semiposdef: repetition, units and order of the quantities (C192).
    Model: M_Tools.v.  Vocabulary: Stats.v, S_Tools.v. *)
From Coq Require Import Reals List Arith ZArith Bool Lra Lia Psatz.
From Verif Require Import Base M_MC Sums Stats StatsFacts M_Tools S_Tools P_Tools T_Tools.
Import ListNotations.
Open Scope R_scope.

(** [p] names the quantities 0, ..., n-1 in another order, [q] is the way back. *)
Definition reordering (n : nat) (p q : nat -> nat) : Prop :=
  forall i, (i < n)%nat -> (p i < n)%nat /\ (q i < n)%nat /\ q (p i) = i /\ p (q i) = i.

Lemma rsum_reorder n p q g : reordering n p q -> rsum n (fun i => g (p i)) = rsum n g.
Proof.
  intros H. rewrite (rsum_ext n (fun i => g (p i)) (fun i => rsum n (fun k => if (k =? p i)%nat then g k else 0))).
  - rewrite rsum_swap. apply rsum_ext. intros k Hk. rewrite (rsum_single n (q k)).
    + destruct (H k Hk) as [_ [_ [_ ->]]]. now rewrite Nat.eqb_refl.
    + now apply H.
    + intros i Hi Hne. destruct (Nat.eqb_spec k (p i)) as [->|]; [|reflexivity].
      exfalso. apply Hne. destruct (H i Hi) as [_ [_ [-> _]]]. reflexivity.
  - intros i Hi. symmetry. apply (rsum_delta n (p i) g). now apply H.
Qed.
Lemma min_eig_reorder n p q k (S S' : nat -> nat -> R) e : reordering n p q -> 0 < k ->
  (forall i j, (i < n)%nat -> (j < n)%nat -> S' i j = k * S (p i) (p j)) ->
  is_min_eig n S e -> is_min_eig n S' (k * e).
Proof.
  intros H Hk HS [[v [[i0 [Hi0 Hv]] Hev]] Hq]. split.
  - exists (fun i => v (p i)). split.
    + exists (q i0). destruct (H i0 Hi0) as [_ [B [_ E]]]. split; [exact B|]. now rewrite E.
    + intros i Hi. rewrite (rsum_ext n _ (fun j => k * (S (p i) (p j) * v (p j)))) by (intros; rewrite HS by assumption; ring).
      rewrite rsum_scal, (rsum_reorder n p q (fun j => S (p i) j * v j) H), Hev by now apply H. ring.
  - intros w. specialize (Hq (fun i => w (q i))).
    replace (sqnorm n w) with (sqnorm n (fun i => w (q i))).
    + replace (quad n S' w) with (k * quad n S (fun i => w (q i))); [nra|].
      unfold quad. rewrite <- (rsum_reorder n p q _ H), <- rsum_scal. apply rsum_ext. intros i Hi.
      rewrite <- (rsum_reorder n p q _ H), <- rsum_scal. apply rsum_ext. intros j Hj.
      destruct (H i Hi) as [_ [_ [-> _]]]. destruct (H j Hj) as [_ [_ [-> _]]]. rewrite HS by assumption. ring.
    + unfold sqnorm. rewrite <- (rsum_reorder n p q _ H). apply rsum_ext. intros i Hi.
      destruct (H i Hi) as [_ [_ [-> _]]]. reflexivity.
Qed.

(** What is added to the diagonal for the smallest eigenvalue e. *)
Definition lift (sparse : bool) (e tol : R) : R :=
  if Rlt_dec e tol
  then if sparse then Rabs e + tol else (Rabs e + tol) + (Rabs (e + (Rabs e + tol)) + tol)
  else 0.
Definition passes (sparse : bool) (e tol : R) : nat :=
  if Rlt_dec e tol then if sparse then 1%nat else 2%nat else 0%nat.
Lemma lift_scale sparse k e tol : 0 < k -> lift sparse (k * e) (k * tol) = k * lift sparse e tol /\
  passes sparse (k * e) (k * tol) = passes sparse e tol.
Proof.
  intros Hk. unfold lift, passes.
  assert (A : forall x, Rabs (k * x) = k * Rabs x) by (intros; rewrite Rabs_mult, (Rabs_right k) by lra; reflexivity).
  destruct (Rlt_dec e tol) as [L|L]; destruct (Rlt_dec (k * e) (k * tol)) as [L'|L'].
  - split; [|reflexivity]. destruct sparse; [rewrite A; ring|].
    rewrite A. replace (k * e + (k * Rabs e + k * tol)) with (k * (e + (Rabs e + tol))) by ring. rewrite A. ring.
  - exfalso. apply L'. now apply Rmult_lt_compat_l.
  - exfalso. apply L. now apply (Rmult_lt_reg_l k).
  - split; [ring|reflexivity].
Qed.
Lemma semiposdef_closed eigmin n sparse (M : mat) maxiter tol fuel :
  exact_eig n eigmin -> mrows M = n -> mcols M = n -> (sparse = true -> (8 <= n)%nat) ->
  0 <= tol -> (1 <= maxiter)%Z -> (2 <= fuel)%nat ->
  let e := eigmin (symmetrised M) in
  exists M', make_semiposdef eigmin fuel sparse M maxiter tol = Some (Ok (M', passes sparse e tol)) /\
    mrows M' = n /\ mcols M' = n /\ is_min_eig n (symmetrised M) e /\
    forall i j, M' i j = (M i j + M j i) / 2 + (if (i =? j)%nat then lift sparse e tol else 0).
Proof.
  intros Hex Hr Hc Hsp Ht Hm Hf e.
  assert (HS : is_min_eig n (symmetrised M) e) by (apply Hex; auto using symm_symmetrised).
  unfold make_semiposdef. rewrite Hr, Hc, Nat.eqb_refl. cbn [negb]. unfold lift, passes. destruct sparse.
  - specialize (Hsp eq_refl). rewrite (proj2 (Nat.leb_gt (n - 1) 6)) by lia.
    rewrite (sparse_loop_run eigmin n Hex) by (auto using symm_symmetrised; lia). fold e.
    destruct (Rlt_dec e tol); eexists; (split; [reflexivity|]); (split; [exact Hr|]); (split; [exact Hc|]); (split; [exact HS|]);
      intros i j; cbn [mget add_eye symmetrised]; destruct (i =? j)%nat; field.
  - rewrite (dense_loop_run eigmin n Hex) by (auto using symm_symmetrised; lia). fold e.
    destruct (Rlt_dec e tol); eexists; (split; [reflexivity|]); (split; [exact Hr|]); (split; [exact Hc|]); (split; [exact HS|]);
      intros i j; cbn [mget add_eye symmetrised]; destruct (i =? j)%nat; field.
Qed.

(** ** C192 *)
(** Quantities in another order and another unit (the tolerance in the same unit). *)
Theorem C192_order_and_units : forall eigmin n sparse (M N : mat) maxiter tol fuel k p q,
  exact_eig n eigmin -> mrows M = n -> mcols M = n -> mrows N = n -> mcols N = n -> (sparse = true -> (8 <= n)%nat) ->
  0 <= tol -> (1 <= maxiter)%Z -> (2 <= fuel)%nat -> 0 < k -> reordering n p q ->
  (forall i j, (i < n)%nat -> (j < n)%nat -> N i j = k * M (p i) (p j)) ->
  exists M' N' it, make_semiposdef eigmin fuel sparse M maxiter tol = Some (Ok (M', it)) /\
    make_semiposdef eigmin fuel sparse N maxiter (k * tol) = Some (Ok (N', it)) /\
    mrows N' = n /\ mcols N' = n /\
    forall i j, (i < n)%nat -> (j < n)%nat -> N' i j = k * M' (p i) (p j).
Proof.
  intros eigmin n sparse M N maxiter tol fuel k p q Hex Mr Mc Nr Nc Hsp Ht Hm Hf Hk Hp HN.
  destruct (semiposdef_closed eigmin n sparse M maxiter tol fuel) as [M' [E [_ [_ [H V]]]]]; auto.
  destruct (semiposdef_closed eigmin n sparse N maxiter (k * tol) fuel) as [N' [E' [R' [C' [H' V']]]]]; auto; [nra|].
  set (e := eigmin (symmetrised M)) in *. set (e' := eigmin (symmetrised N)) in *.
  assert (Ee : e' = k * e).
  { apply (min_eig_unique n (symmetrised N)); [exact H'|].
    apply (min_eig_reorder n p q k (symmetrised M)); auto.
    intros i j Hi Hj. cbn [mget symmetrised]. rewrite !HN by assumption. field. }
  destruct (lift_scale sparse k e tol Hk) as [Lf Ps].
  exists M', N', (passes sparse e tol). split; [exact E|]. split; [rewrite E', Ee, Ps; reflexivity|].
  split; [exact R'|]. split; [exact C'|]. intros i j Hi Hj. rewrite V, V', !HN, Ee, Lf by assumption.
  replace (p i =? p j)%nat with (i =? j)%nat; [destruct (i =? j)%nat; field|].
  destruct (Nat.eqb_spec i j) as [->|Hne]; [now rewrite Nat.eqb_refl|]. symmetry. apply Nat.eqb_neq. intros Hpp. apply Hne.
  destruct (Hp i Hi) as [_ [_ [<- _]]]. destruct (Hp j Hj) as [_ [_ [<- _]]]. now rewrite Hpp.
Qed.
(** Rows and columns exchanged. *)
Theorem C192_transposed : forall eigmin n sparse (M N : mat) maxiter tol fuel,
  exact_eig n eigmin -> mrows M = n -> mcols M = n -> mrows N = n -> mcols N = n -> (sparse = true -> (8 <= n)%nat) ->
  0 <= tol -> (1 <= maxiter)%Z -> (2 <= fuel)%nat ->
  (forall i j, (i < n)%nat -> (j < n)%nat -> N i j = M j i) ->
  exists M' N' it, make_semiposdef eigmin fuel sparse M maxiter tol = Some (Ok (M', it)) /\
    make_semiposdef eigmin fuel sparse N maxiter tol = Some (Ok (N', it)) /\ meq N' M'.
Proof.
  intros eigmin n sparse M N maxiter tol fuel Hex Mr Mc Nr Nc Hsp Ht Hm Hf HN.
  destruct (semiposdef_closed eigmin n sparse M maxiter tol fuel) as [M' [E [R1 [C1 [H V]]]]]; auto.
  destruct (semiposdef_closed eigmin n sparse N maxiter tol fuel) as [N' [E' [R' [C' [H' V']]]]]; auto.
  set (e := eigmin (symmetrised M)) in *. set (e' := eigmin (symmetrised N)) in *.
  assert (Ee : e' = e).
  { apply (min_eig_unique n (symmetrised N)); [exact H'|].
    replace e with (1 * e) by ring.
    apply (min_eig_reorder n (fun i => i) (fun i => i) 1 (symmetrised M)); auto; [intros i Hi; auto|lra|].
    intros i j Hi Hj. cbn [mget symmetrised]. rewrite !HN by assumption. field. }
  exists M', N', (passes sparse e tol). split; [exact E|]. split; [rewrite E', Ee; reflexivity|].
  split; [congruence|]. split; [congruence|]. rewrite R', C'. intros i j Hi Hj. rewrite V, V', !HN, Ee by assumption. field.
Qed.
(** A second call changes nothing and needs no pass. *)
Theorem C192_twice : forall eigmin n sparse (M : mat) maxiter tol fuel,
  exact_eig n eigmin -> mrows M = n -> mcols M = n -> (sparse = true -> (8 <= n)%nat) ->
  0 <= tol -> (1 <= maxiter)%Z -> (2 <= fuel)%nat ->
  exists M' it M'', make_semiposdef eigmin fuel sparse M maxiter tol = Some (Ok (M', it)) /\
    make_semiposdef eigmin fuel sparse M' maxiter tol = Some (Ok (M'', 0%nat)) /\ meq M'' M'.
Proof.
  intros eigmin n sparse M maxiter tol fuel Hex Mr Mc Hsp Ht Hm Hf.
  destruct (semiposdef_closed eigmin n sparse M maxiter tol fuel) as [M' [E [R1 [C1 [H V]]]]]; auto.
  destruct (semiposdef_closed eigmin n sparse M' maxiter tol fuel) as [M'' [E2 [R2 [C2 [H2 V2]]]]]; auto.
  set (e := eigmin (symmetrised M)) in *. set (e' := eigmin (symmetrised M')) in *.
  assert (Ee : e' = e + lift sparse e tol).
  { apply (min_eig_unique n (symmetrised M')); [exact H2|].
    pose proof (min_eig_add_eye n (symmetrised M) (lift sparse e tol) e H) as H3.
    replace (e + lift sparse e tol) with (1 * (e + lift sparse e tol)) by ring.
    apply (min_eig_reorder n (fun i => i) (fun i => i) 1 (add_eye (symmetrised M) (lift sparse e tol))); auto; [intros i Hi; auto|lra|].
    intros i j Hi Hj. cbn [mget symmetrised add_eye]. rewrite !V, (Nat.eqb_sym j i). destruct (i =? j)%nat; field. }
  assert (Hge : tol <= e').
  { rewrite Ee. unfold lift. destruct (Rlt_dec e tol) as [L|L]; [|lra].
    pose proof (Rabs_pos e). pose proof (Rabs_pos (e + (Rabs e + tol))). pose proof (Rle_abs (- e)) as A. rewrite Rabs_Ropp in A.
    destruct sparse; lra. }
  exists M', (passes sparse e tol), M''. split; [exact E|].
  unfold passes in E2. unfold lift in V2. destruct (Rlt_dec e' tol) as [L|L]; [lra|].
  split; [exact E2|]. split; [congruence|]. split; [congruence|]. rewrite R2, C2. intros i j Hi Hj. rewrite V2, !V.
  rewrite (Nat.eqb_sym j i). destruct (i =? j)%nat; field.
Qed.

(** The matrix ((1, 2), (2, 1)) with the smallest eigenvalue -1. *)
Example C192_example : exists M' it M'', make_semiposdef eig2 2 false indef 10 (1/1000) = Some (Ok (M', it)) /\
  make_semiposdef eig2 2 false M' 10 (1/1000) = Some (Ok (M'', 0%nat)) /\ meq M'' M'.
Proof. apply (C192_twice eig2 2); try reflexivity; try lia; try lra; try exact eig2_exact; discriminate. Qed.
Example C192_order_example : exists M' N' it,
  make_semiposdef eig2 2 false (of_rows [[1; 3]; [3; 2]]) 10 (1/1000) = Some (Ok (M', it)) /\
  make_semiposdef eig2 2 false (of_rows [[8; 12]; [12; 4]]) 10 (4 * (1/1000)) = Some (Ok (N', it)) /\
  mrows N' = 2%nat /\ mcols N' = 2%nat /\
  forall i j, (i < 2)%nat -> (j < 2)%nat -> N' i j = 4 * M' (1 - i)%nat (1 - j)%nat.
Proof.
  apply (C192_order_and_units eig2 2 false _ _ 10 (1/1000) 2 4 (fun i => 1 - i)%nat (fun i => 1 - i)%nat);
    try reflexivity; try exact eig2_exact; try lia; try lra; try discriminate.
  - intros i Hi. repeat split; lia.
  - intros [|[|i]] [|[|j]] Hi Hj; try lia; cbn; ring.
Qed.
Print Assumptions C192_order_and_units.
Print Assumptions C192_transposed.
Print Assumptions C192_twice.
