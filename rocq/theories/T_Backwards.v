(** Interpolation is local and the same when time is read backwards (C163).  Model: M_Interp.v.  Vocabulary: S_Interp.v, right_node (T_Interp.v). *)
From Coq Require Import Reals List Arith ZArith Bool Lra Lia Psatz.
From Verif Require Import Base Sums Stats StatsFacts M_Interp S_Interp P_Interp P_Interp2 T_Interp T_Lines T_Twice.
Import ListNotations.
Open Scope R_scope.

(** The last entry first. *)
Definition backwards (y : vec) : vec := mkArr (alen y) (fun i => y (alen y - 1 - i)%nat).
Definition negated (t : vec) : vec := mkArr (alen t) (fun i => - t i).

Lemma backwards_inc n (t : vec) : alen t = n -> increasing n t -> increasing n (negated (backwards t)).
Proof.
  intros L I i j Hij Hj. cbn [negated backwards aget alen]. apply Ropp_lt_contravar. apply I; lia.
Qed.
(** Linear interpolation of the data in reverse order, the time axis with the opposite sign. *)
Theorem C163_linear : forall t_new t_new' t y uy be fv fu rC be' fv' fu' rC' o o' n k k',
  alen t = n -> (2 <= n)%nat -> increasing n t ->
  interp1d_unc t_new t y uy KLinear be fv fu true rC = Ok o ->
  interp1d_unc t_new' (negated (backwards t)) (backwards y) (backwards uy) KLinear be' fv' fu' true rC' = Ok o' ->
  (k < alen t_new)%nat -> (k' < alen t_new')%nat -> t_new' k' = - t_new k -> t 0%nat <= t_new k <= t (n - 1)%nat ->
  io_y o' k' = io_y o k /\ io_u o' k' = io_u o k.
Proof.
  intros t_new t_new' t y uy be fv fu rC be' fv' fu' rC' o o' n k k' L Hn I E E' Hk Hk' Ev Hin.
  destruct (interp_inv _ _ _ _ _ _ _ _ _ _ E) as (Ly & Lu & _).
  destruct (segment_exists n t (t_new k) Hn Hin) as [i Si].
  assert (I' : increasing n (negated (backwards t))) by (apply backwards_inc; auto).
  assert (L' : alen (negated (backwards t)) = n) by exact L.
  destruct Si as [Hi Hv].
  assert (S' : in_segment n (negated (backwards t)) (n - 2 - i) (t_new' k')).
  { split; [lia|]. cbn [negated backwards aget alen]. rewrite L, Ev.
    replace (n - 1 - (n - 2 - i))%nat with (S i) by lia. replace (n - 1 - S (n - 2 - i))%nat with i by lia. lra. }
  assert (P : t i < t (S i)) by (apply I; lia).
  destruct (C40_linear_law _ _ _ _ _ _ _ _ _ _ k i L Hn I E Hk (conj Hi Hv)) as (_ & _ & _ & Y & _).
  destruct (C40_linear_law _ _ _ _ _ _ _ _ _ _ k' _ L' Hn I' E' Hk' S') as (_ & _ & _ & Y' & _).
  rewrite Y, Y', (linear_u _ _ _ _ _ _ _ _ _ _ k i L Hn I E Hk (conj Hi Hv)), (linear_u _ _ _ _ _ _ _ _ _ _ k' _ L' Hn I' E' Hk' S').
  assert (Ly' : alen y = n) by congruence. assert (Lu' : alen uy = n) by congruence.
  split; f_equal.
  - unfold chord. cbn [negated backwards aget alen]. rewrite L, Ly', Ev.
    replace (n - 1 - (n - 2 - i))%nat with (S i) by lia. replace (n - 1 - S (n - 2 - i))%nat with i by lia. field; repeat split; lra.
  - f_equal. unfold seg_var. cbn [negated backwards aget alen]. rewrite L, Lu', Ev.
    replace (n - 1 - (n - 2 - i))%nat with (S i) by lia. replace (n - 1 - S (n - 2 - i))%nat with i by lia. field; repeat split; lra.
Qed.
(** The last node before becomes the first node after. *)
Theorem C163_lookup_partial : forall t_new t_new' t y uy kd be fv fu rC be' fv' fu' rC' o o' n k k',
  kd = KPrevious \/ kd = KNext \/ kd = KNearest -> alen t = n -> increasing n t ->
  interp1d_unc t_new t y uy kd be fv fu true rC = Ok o ->
  interp1d_unc t_new' (negated (backwards t)) (backwards y) (backwards uy)
    (match kd with KPrevious => KNext | KNext => KPrevious | x => x end) be' fv' fu' true rC' = Ok o' ->
  (k < alen t_new)%nat -> (k' < alen t_new')%nat -> t_new' k' = - t_new k -> t 0%nat <= t_new k <= t (n - 1)%nat ->
  (kd = KNearest -> forall i, (S i < n)%nat -> t_new k <> (t i + t (S i)) / 2) ->
  io_y o' k' = io_y o k /\ io_u o' k' = io_u o k.
Proof.
  intros t_new t_new' t y uy kd be fv fu rC be' fv' fu' rC' o o' n k k' Hkd L I E E' Hk Hk' Ev Hin Tie.
  destruct (interp_inv _ _ _ _ _ _ _ _ _ _ E) as (Ly & Lu & Hn1 & _).
  assert (I' : increasing n (negated (backwards t))) by (apply backwards_inc; auto).
  assert (L' : alen (negated (backwards t)) = n) by exact L.
  destruct (C42_lookup_kinds _ _ _ _ _ _ _ _ _ _ _ k Hkd L I E Hk Hin) as (i & Hi & Ri & Yi & Ui).
  remember (match kd with KPrevious => KNext | KNext => KPrevious | x => x end) as kd' eqn:Ekd'.
  assert (Hkd' : kd' = KPrevious \/ kd' = KNext \/ kd' = KNearest) by (rewrite Ekd'; destruct Hkd as [->|[->| ->]]; auto).
  destruct (C42_lookup_kinds _ _ _ _ _ _ _ _ _ _ _ k' Hkd' L' I' E' Hk') as (j & Hj & Rj & Yj & Uj).
  { cbn [negated backwards aget alen]. rewrite L, Ev. replace (n - 1 - (n - 1))%nat with 0%nat by lia. rewrite Nat.sub_0_r. lra. }
  assert (Same : forall p q, (p < n)%nat -> (q < n)%nat -> t p = t q -> p = q).
  { intros p q Hp Hq Epq. destruct (Nat.lt_trichotomy p q) as [H|[H|H]]; auto; specialize (I _ _ H ltac:(lia)); lra. }
  assert (Neg : forall p, (p < n)%nat -> negated (backwards t) p = - t (n - 1 - p)%nat).
  { intros p Hp. cbn [negated backwards aget alen]. rewrite L. reflexivity. }
  assert (K : (n - 1 - j)%nat = i).
  { destruct Hkd as [-> | [-> | ->]]; cbn in Ekd'; subst kd'; cbn [right_node] in Ri, Rj.
    - destruct Ri as [R1 R2]. destruct Rj as [R3 R4]. rewrite Ev, Neg in * by auto.
      apply Same; [lia|lia|]. apply Rle_antisym.
      + apply R2; [lia|lra].
      + specialize (R4 (n - 1 - i)%nat ltac:(lia)). rewrite Neg in R4 by lia. replace (n - 1 - (n - 1 - i))%nat with i in R4 by lia. lra.
    - destruct Ri as [R1 R2]. destruct Rj as [R3 R4]. rewrite Ev, Neg in * by auto.
      apply Same; [lia|lia|]. apply Rle_antisym.
      + specialize (R4 (n - 1 - i)%nat ltac:(lia)). rewrite Neg in R4 by lia. replace (n - 1 - (n - 1 - i))%nat with i in R4 by lia. lra.
      + apply R2; [lia|lra].
    - specialize (Tie eq_refl). set (v := t_new k) in *. set (m := (n - 1 - j)%nat).
      assert (Q1 : Rabs (t i - v) <= Rabs (t m - v)) by (apply Ri; lia).
      assert (Q2 : Rabs (t m - v) <= Rabs (t i - v)).
      { specialize (Rj (n - 1 - i)%nat ltac:(lia)). rewrite !Neg, Ev in Rj by lia. replace (n - 1 - (n - 1 - i))%nat with i in Rj by lia.
        fold m in Rj. rewrite <- (Rabs_Ropp (t m - v)), <- (Rabs_Ropp (t i - v)).
        replace (- (t m - v)) with (- t m - - v) by ring. replace (- (t i - v)) with (- t i - - v) by ring. exact Rj. }
      destruct (Nat.eq_dec m i) as [|Nmi]; auto. exfalso.
      (* equidistant from two nodes: they are neighbours and v is between them *)
      assert (M : t m + t i = 2 * v).
      { assert (t m <> t i) by (intros X; apply Nmi; apply Same; lia || auto).
        unfold Rabs in Q1, Q2. destruct (Rcase_abs (t i - v)), (Rcase_abs (t m - v)); lra. }
      assert (G : forall p q, (p < q)%nat -> (q < n)%nat -> t p + t q = 2 * v -> (forall r, (r < n)%nat -> Rabs (t p - v) <= Rabs (t r - v)) -> False).
      { intros p q Hpq Hq Hm R. assert (Tpq : t p < t q) by (apply I; lia).
        destruct (Nat.eq_dec q (S p)) as [->|Nq].
        - apply (Tie p); [lia|lra].
        - assert (A : t p < t (S p)) by (apply I; lia). assert (B : t (S p) < t q) by (apply I; lia).
          specialize (R (S p) ltac:(lia)). unfold Rabs in R. destruct (Rcase_abs (t p - v)), (Rcase_abs (t (S p) - v)); lra. }
      destruct (Nat.lt_trichotomy m i) as [H|[H|H]]; [|contradiction|].
      + apply (G m i H Hi); [lra|]. intros r Hr. eapply Rle_trans; [exact Q2|]. apply Ri. exact Hr.
      + apply (G i m H ltac:(lia)); [lra|]. intros r Hr. apply Ri. exact Hr. }
  rewrite Yi, Ui, Yj, Uj. cbn [backwards aget]. rewrite Ly, Lu, L, K. auto.
Qed.
(** Half-way between two nodes "nearest" takes the earlier one, so that reading backwards makes a difference. *)
Theorem C163_nearest_refuted : exists t y uy o o',
  increasing (alen t) t /\
  interp1d_unc (of_list [1/2]) t y uy KNearest None (FFloat None) (FFloat None) true false = Ok o /\
  interp1d_unc (of_list [-(1/2)]) (negated (backwards t)) (backwards y) (backwards uy) KNearest None (FFloat None) (FFloat None) true false = Ok o' /\
  io_y o 0%nat = Some 3 /\ io_y o' 0%nat = Some 5 /\ io_u o 0%nat = Some 1 /\ io_u o' 0%nat = Some 2.
Proof.
  set (t := of_list [0; 1]).
  assert (It : increasing 2 t) by (intros [|[|i]] [|[|j]] ? ?; try lia; cbn; lra).
  exists t, (of_list [3; 5]), (of_list [1; 2]).
  assert (S1 : forall s v y : vec, alen s = 2%nat -> alen y = 2%nat -> s 0%nat <= v 0%nat <= s 1%nat -> alen v = 1%nat -> scipy_interp1d s y KNearest None (FFloat None) v
     = Ok (mkArr 1 (fun i => scipy_val s y KNearest (FFloat None) (v i)))).
  { intros s v y Hs Hy Hv Lv. rewrite <- Lv. apply scipy_ok; auto; try discriminate; try congruence; [lia|].
    intros _ k Hk; destruct k as [|k]; [|lia]. apply inside_flags. rewrite Hs. exact Hv. }
  assert (E : forall s v y u : vec, alen s = 2%nat -> alen y = 2%nat -> alen u = 2%nat -> s 0%nat <= v 0%nat <= s 1%nat -> alen v = 1%nat ->
    interp1d_unc v s y u KNearest None (FFloat None) (FFloat None) true false =
    Ok (mkInterp v (mkArr 1 (fun i => scipy_val s y KNearest (FFloat None) (v i))) (mkArr 1 (fun i => scipy_val s u KNearest (FFloat None) (v i))) None)).
  { intros s v y u Hs Hy Hu Hv Lv. unfold interp1d_unc. cbn [bind]. rewrite Hy, Hu. cbn [Nat.eqb negb bind]. rewrite !S1 by auto. reflexivity. }
  eexists _, _. split; [exact It|]. split; [apply E; auto; cbn; lra|]. split; [apply E; auto; cbn; lra|].
  cbn [io_y io_u aget].
  assert (V : forall (s y : vec) v, alen s = 2%nat -> s 0%nat <= v <= s 1%nat -> s 1%nat / 2 + s 0%nat / 2 = v ->
     scipy_val s y KNearest (FFloat None) v = Some (y 0%nat)).
  { intros s y v Hs Hv Hm. unfold scipy_val. destruct (inside_flags s v) as [P Q]; [rewrite Hs; exact Hv|]. rewrite P, Q. f_equal. f_equal.
    unfold node_index, search_left. rewrite Hs. cbn [alen Nat.sub count aget]. rewrite Hm. unfold rltb. destruct (Rlt_dec v v); [lra|]. reflexivity. }
  repeat split; (rewrite V; [|reflexivity|cbn; lra|cbn; lra]); reflexivity.
Qed.

(** Only the nodes at both ends of the segment matter: other data, also of another number, with the same two nodes next to the instant give the same result. *)
Theorem C163_local : forall t_new t_new' t y uy s z uz be fv fu rC be' fv' fu' rC' o o' n m k k' i j,
  alen t = n -> (2 <= n)%nat -> increasing n t -> alen s = m -> (2 <= m)%nat -> increasing m s ->
  interp1d_unc t_new t y uy KLinear be fv fu true rC = Ok o ->
  interp1d_unc t_new' s z uz KLinear be' fv' fu' true rC' = Ok o' ->
  (k < alen t_new)%nat -> (k' < alen t_new')%nat -> t_new' k' = t_new k ->
  in_segment n t i (t_new k) -> in_segment m s j (t_new k) ->
  s j = t i -> s (S j) = t (S i) -> z j = y i -> z (S j) = y (S i) -> uz j = uy i -> uz (S j) = uy (S i) ->
  io_y o' k' = io_y o k /\ io_u o' k' = io_u o k.
Proof.
  intros t_new t_new' t y uy s z uz be fv fu rC be' fv' fu' rC' o o' n m k k' i j Ln Hn In Lm Hm Im E E' Hk Hk' Ev Si Sj T0 T1 Z0 Z1 U0 U1.
  rewrite <- Ev in Sj.
  destruct (C40_linear_law _ _ _ _ _ _ _ _ _ _ k i Ln Hn In E Hk Si) as (_ & _ & _ & Y & _).
  destruct (C40_linear_law _ _ _ _ _ _ _ _ _ _ k' j Lm Hm Im E' Hk' Sj) as (_ & _ & _ & Y' & _).
  rewrite Y, Y', (linear_u _ _ _ _ _ _ _ _ _ _ k i Ln Hn In E Hk Si), (linear_u _ _ _ _ _ _ _ _ _ _ k' j Lm Hm Im E' Hk' Sj).
  unfold chord, seg_var. rewrite T0, T1, Z0, Z1, U0, U1, Ev. auto.
Qed.

Definition uneven : vec := of_list [0; 1; 3].
Lemma uneven_inc : increasing 3 uneven.
Proof. intros [|[|[|i]]] [|[|[|j]]] ? ?; try lia; cbn; lra. Qed.
Example C163_linear_example : exists o o',
  interp1d_unc (of_list [3/2]) uneven (of_list [4; 2; 6]) (of_list [3; 1; 2]) KLinear None (FFloat None) (FFloat None) true false = Ok o /\
  interp1d_unc (of_list [-(3/2)]) (negated (backwards uneven)) (backwards (of_list [4; 2; 6])) (backwards (of_list [3; 1; 2])) KLinear None (FFloat None) (FFloat None) true false = Ok o' /\
  io_y o 0%nat = Some 3 /\ io_y o' 0%nat = Some 3 /\ io_u o' 0%nat = io_u o 0%nat /\
  negated (backwards uneven) 0%nat = -3 /\ backwards (of_list [4; 2; 6]) 0%nat = 6.
Proof.
  destruct (C40_linear_returns (of_list [3/2]) uneven (of_list [4; 2; 6]) (of_list [3; 1; 2]) None (FFloat None) (FFloat None) 3) as [o E]; auto; try lia; try discriminate; try apply uneven_inc.
  { intros k Hk. cbn in Hk. assert (k = 0)%nat by lia. subst. cbn. lra. }
  destruct (C40_linear_returns (of_list [-(3/2)]) (negated (backwards uneven)) (backwards (of_list [4; 2; 6])) (backwards (of_list [3; 1; 2])) None (FFloat None) (FFloat None) 3) as [o' E'];
    auto; try lia; try discriminate; try (apply backwards_inc; [reflexivity|apply uneven_inc]).
  { intros k Hk. cbn in Hk. assert (k = 0)%nat by lia. subst. cbn. lra. }
  destruct (C163_linear _ _ _ _ _ _ _ _ _ _ _ _ _ o o' 3 0 0 (eq_refl : alen uneven = 3%nat) ltac:(lia) uneven_inc E E' ltac:(cbn; lia) ltac:(cbn; lia) eq_refl ltac:(cbn; lra)) as [A B].
  destruct (C40_linear_law _ _ _ _ _ _ _ _ _ 3 0 1 (eq_refl : alen uneven = 3%nat) ltac:(lia) uneven_inc E ltac:(cbn; lia)) as (_ & _ & _ & Y & _); [split; [lia|cbn; lra]|].
  exists o, o'. split; [exact E|]. split; [exact E'|]. split; [|split; [|split; [exact B|split; reflexivity]]].
  - rewrite Y. f_equal. unfold chord. cbn. field.
  - rewrite A, Y. f_equal. unfold chord. cbn. field.
Qed.
(** Between the nodes 1 and 3 the instant 3/2 has 1 before it, 3 after it and is not half-way. *)
Example C163_lookup_example : right_node KPrevious 3 uneven 1 (3/2) /\ right_node KNext 3 (negated (backwards uneven)) 1 (-(3/2)) /\
  (forall i, (S i < 3)%nat -> 3/2 <> (uneven i + uneven (S i)) / 2).
Proof.
  split; [|split].
  - cbn. split; [lra|]. intros [|[|[|j]]] H K; try lia; cbn in *; lra.
  - cbn. split; [lra|]. intros [|[|[|j]]] H K; try lia; cbn in *; lra.
  - intros [|[|j]] H; try lia; cbn; lra.
Qed.
(** The segment from 1 to 3 is the last of these three nodes and the first of other three. *)
Example C163_local_example : in_segment 3 uneven 1 (3/2) /\ in_segment 3 (of_list [1; 3; 10]) 0 (3/2) /\ increasing 3 (of_list [1; 3; 10]).
Proof.
  split; [split; [lia|cbn; lra]|]. split; [split; [lia|cbn; lra]|].
  intros [|[|[|i]]] [|[|[|j]]] ? ?; try lia; cbn; lra.
Qed.
Print Assumptions C163_linear.
Print Assumptions C163_lookup_partial.
Print Assumptions C163_nearest_refuted.
Print Assumptions C163_local.
