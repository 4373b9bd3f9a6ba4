(** Theorems on test signals built from parts (misc/testsignals.py): C194. *)
From Coq Require Import Reals String List Arith Lra Lia Permutation.
From Verif Require Import Base Sums Stats M_Interp P_Interp Cplx M_Noise.
Import ListNotations.
Open Scope R_scope.

Lemma rltb_cases x y : (rltb x y = true /\ x < y) \/ (rltb x y = false /\ y <= x).
Proof. unfold rltb. destruct (Rlt_dec x y); [left|right]; split; auto; lra. Qed.

(** Two rectangles of the same height side by side are one rectangle: added up, and when
    the second one is built on the first one by the argument noise. *)
Theorem C194_rect_tiles : forall (time z : vec) t0 t1 t2 h, t0 <= t1 <= t2 ->
  exists a b c, rect time t0 t1 h (RnFloat 0) z = Ok a /\ rect time t1 t2 h (RnFloat 0) z = Ok b /\
    rect time t0 t2 h (RnFloat 0) z = Ok c /\ alen c = alen time /\
    (forall i, (i < alen time)%nat -> a i + b i = c i) /\
    exists c', rect time t1 t2 h (RnVec a) z = Ok c' /\ alen c' = alen time /\ forall i, (i < alen time)%nat -> c' i = c i.
Proof.
  intros time z t0 t1 t2 h H. assert (R0 : rltb 0 0 = false) by (destruct (rltb_cases 0 0) as [[_ ?]|[-> _]]; [lra|auto]).
  unfold rect. rewrite R0. do 3 eexists. do 3 (split; [reflexivity|]). split; [reflexivity|]. split.
  - intros i _. cbn [aget].
    destruct (rltb_cases t0 (time i)) as [[-> ?]|[-> ?]]; destruct (rltb_cases t1 (time i)) as [[-> ?]|[-> ?]];
      destruct (rltb_cases t2 (time i)) as [[-> ?]|[-> ?]]; lra.
  - cbn [alen]. rewrite Nat.eqb_refl. eexists. split; [reflexivity|]. split; [reflexivity|]. intros i _. cbn [aget].
    destruct (rltb_cases t0 (time i)) as [[-> ?]|[-> ?]]; destruct (rltb_cases t1 (time i)) as [[-> ?]|[-> ?]];
      destruct (rltb_cases t2 (time i)) as [[-> ?]|[-> ?]]; lra.
Qed.
Print Assumptions C194_rect_tiles.

(** Heights add up. *)
Lemma square_add (time : vec) h1 h2 w k : exists x y u, square_loop time h1 w k = Ok x /\ square_loop time h2 w k = Ok y /\
  square_loop time (h1 + h2) w k = Ok u /\ alen x = alen time /\ alen y = alen time /\ alen u = alen time /\
  forall i, (i < alen time)%nat -> u i = x i + y i.
Proof.
  assert (R0 : rltb 0 0 = false) by (destruct (rltb_cases 0 0) as [[_ ?]|[-> _]]; [lra|auto]).
  induction k as [|k IH].
  - do 3 eexists. do 3 (split; [reflexivity|]). do 3 (split; [reflexivity|]). intros i _. cbn. ring.
  - destruct IH as [x [y [u [E1 [E2 [E3 [L1 [L2 [L3 V]]]]]]]]]. cbn [square_loop]. rewrite E1, E2, E3. cbn [bind].
    unfold rect. rewrite R0. cbn [bind]. do 3 eexists. do 3 (split; [reflexivity|]).
    do 3 (split; [first [reflexivity|assumption]|]).
    intros i Hi. cbn [aget]. rewrite V by auto. repeat destruct (rltb _ _); ring.
Qed.
Theorem C194_heights_add : forall (time z : vec) t0 t1 sigma h1 h2 numpulse, (1 <= alen time)%nat -> sigma <> 0 ->
  (forall i, GaussianPulse time t0 (h1 + h2) sigma 0 z i = GaussianPulse time t0 h1 sigma 0 z i + GaussianPulse time t0 h2 sigma 0 z i) /\
  (forall i, shocklikeGaussian time t0 (h1 + h2) sigma 0 z i = shocklikeGaussian time t0 h1 sigma 0 z i + shocklikeGaussian time t0 h2 sigma 0 z i) /\
  (exists a b c, rect time t0 t1 h1 (RnFloat 0) z = Ok a /\ rect time t0 t1 h2 (RnFloat 0) z = Ok b /\
     rect time t0 t1 (h1 + h2) (RnFloat 0) z = Ok c /\ forall i, (i < alen time)%nat -> c i = a i + b i) /\
  (exists a b c, squarepulse time h1 numpulse 0 z = Ok a /\ squarepulse time h2 numpulse 0 z = Ok b /\
     squarepulse time (h1 + h2) numpulse 0 z = Ok c /\ alen c = alen time /\ forall i, (i < alen time)%nat -> c i = a i + b i) /\
  (forall freq, freq <> 0 -> exists a b c, sine time h1 freq 0 z = Ok a /\ sine time h2 freq 0 z = Ok b /\
     sine time (h1 + h2) freq 0 z = Ok c /\ alen c = alen time /\ forall i, (i < alen time)%nat -> c i = a i + b i).
Proof.
  intros time z t0 t1 sigma h1 h2 numpulse Hn Hs.
  assert (R0 : rltb 0 0 = false) by (destruct (rltb_cases 0 0) as [[_ ?]|[-> _]]; [lra|auto]).
  split; [|split; [|split; [|split]]].
  - intros i. cbn [aget GaussianPulse]. rewrite !R0. unfold pulse_at. ring.
  - intros i. cbn [aget shocklikeGaussian]. rewrite !R0. unfold shock_at. unfold Rdiv. ring.
  - unfold rect. rewrite R0. do 3 eexists. do 3 (split; [reflexivity|]). intros i _. cbn [aget].
    repeat destruct (rltb _ _); ring.
  - unfold squarepulse. destruct (Nat.eqb_spec (alen time) 0); [lia|]. cbv zeta.
    destruct (square_add time h1 h2 ((time (alen time - 1)%nat - time 0%nat) / (2 * INR numpulse + 1)) numpulse)
      as [x [y [u [E1 [E2 [E3 [L1 [L2 [L3 V]]]]]]]]].
    rewrite E1, E2, E3. cbn [bind]. rewrite R0. exists x, y, u. repeat split; auto.
  - intros freq Hf. unfold sine. destruct (Req_EM_T freq 0); [contradiction|]. rewrite R0.
    do 3 eexists. do 3 (split; [reflexivity|]). split; [reflexivity|]. intros i _. cbn [aget]. ring.
Qed.
Print Assumptions C194_heights_add.

(** Multi-sines: lists joined give the sum, the order does not matter, two sines of the
    same frequency act like one. *)
Definition lines_at (l : list (R * R)) (t : R) : R := fold_right (fun af s => fst af * sin (snd af * t) + s) 0 l.
Lemma fold_lines t l : forall a, fold_left (fun acc af => acc + fst af * sin (snd af * t)) l a = a + lines_at l t.
Proof. unfold lines_at. induction l as [|x l IH]; intros a; cbn; [ring|]. rewrite IH. ring. Qed.
Lemma multi_at (time z : vec) amps freqs noise i :
  multi_sine time amps freqs noise z i = lines_at (combine amps freqs) (time i) + z i * noise ^ 2.
Proof. unfold multi_sine. cbn [aget]. rewrite fold_lines. ring. Qed.
Lemma combine_app' {A B} (a : list A) (b : list B) a' b' : Datatypes.length a = Datatypes.length b ->
  combine (a ++ a')%list (b ++ b')%list = (combine a b ++ combine a' b')%list.
Proof. revert b. induction a as [|x a IH]; intros [|y b] E; cbn in E; try discriminate; auto. cbn. rewrite IH; auto. Qed.
Lemma lines_app l l' t : lines_at (l ++ l')%list t = lines_at l t + lines_at l' t.
Proof. unfold lines_at. induction l as [|x l IH]; cbn; [ring|]. rewrite IH. ring. Qed.
Lemma lines_perm l l' t : Permutation l l' -> lines_at l t = lines_at l' t.
Proof. unfold lines_at. intros P. induction P; cbn; try lra. Qed.

Theorem C194_multi_sine : forall (time z z' z'' : vec) amps freqs amps' freqs' i,
  Datatypes.length amps = Datatypes.length freqs -> (i < alen time)%nat ->
  multi_sine time (amps ++ amps')%list (freqs ++ freqs')%list 0 z i =
    multi_sine time amps freqs 0 z' i + multi_sine time amps' freqs' 0 z'' i /\
  (forall noise, Permutation (combine amps freqs) (combine amps' freqs') ->
    multi_sine time amps freqs noise z i = multi_sine time amps' freqs' noise z i) /\
  (forall a b w noise, multi_sine time (a :: b :: amps) (w :: w :: freqs) noise z i =
    multi_sine time ((a + b) :: amps) (w :: freqs) noise z i) /\
  (forall a freq, freq <> 0 -> exists x, sine time a freq 0 z = Ok x /\ x i = multi_sine time [a] [2 * PI / freq] 0 z' i).
Proof.
  intros time z z' z'' amps freqs amps' freqs' i L Hi. split; [|split; [|split]].
  - rewrite !multi_at, combine_app', lines_app by auto. ring.
  - intros noise P. rewrite !multi_at, (lines_perm _ _ _ P). auto.
  - intros a b w noise. rewrite !multi_at. cbn [combine lines_at fold_right fst snd]. fold (lines_at (combine amps freqs) (time i)). ring.
  - intros a freq Hf. assert (R0 : rltb 0 0 = false) by (destruct (rltb_cases 0 0) as [[_ ?]|[-> _]]; [lra|auto]).
    unfold sine. destruct (Req_EM_T freq 0); [contradiction|]. rewrite R0.
    eexists. split; [reflexivity|]. rewrite multi_at. cbn. ring.
Qed.
Print Assumptions C194_multi_sine.

(** Non-trivial cases. *)
Example C194_example :
  (exists a b c, rect (of_list [0; 1; 2; 3]) 0 1 5 (RnFloat 0) (of_list []) = Ok a /\
     rect (of_list [0; 1; 2; 3]) 1 2 5 (RnFloat 0) (of_list []) = Ok b /\
     rect (of_list [0; 1; 2; 3]) 0 2 5 (RnFloat 0) (of_list []) = Ok c /\ a 1%nat = 5 /\ b 1%nat = 0 /\ c 1%nat = 5 /\ c 2%nat = 5 /\ c 3%nat = 0) /\
  Permutation (combine [1; 2] [3; 4]) (combine [2; 1] [4; 3]) /\
  multi_sine (of_list [PI / 2]) [1; 2] [1; 3] 0 (of_list [7]) 0%nat = -1.
Proof.
  assert (R : forall x y, x < y -> rltb x y = true) by (intros x y; destruct (rltb_cases x y) as [[-> ?]|[-> ?]]; auto; lra).
  assert (F : forall x y, y <= x -> rltb x y = false) by (intros x y; destruct (rltb_cases x y) as [[-> ?]|[-> ?]]; auto; lra).
  split; [|split; [cbn; apply perm_swap|]].
  - unfold rect. rewrite (F 0 0) by lra. do 3 eexists. do 3 (split; [reflexivity|]). cbn [aget of_list nth].
    rewrite (R 0 1), (F 1 1), (F 2 1), (R 0 2), (F 2 2), (R 2 3) by lra. auto.
  - rewrite multi_at. cbn -[sin PI pow]. replace (3 * (PI / 2)) with (PI + PI / 2) by field.
    rewrite (Rplus_comm PI), neg_sin. rewrite !Rmult_1_l, !sin_PI2. ring.
Qed.
