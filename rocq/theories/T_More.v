(** Theorems about sos_absphase (C114), db (C115), print_vec and print_mat (C116) and the
    deprecated entry points (C117). *)
From Coq Require Import Reals String Ascii List Arith ZArith Bool Lra Lia Permutation.
From Verif Require Import Base Sums Cplx M_DFT M_Noise M_FilterStuff M_Fit M_More.
From Verif Require Import S_Noise S_MC S_Poly S_Fit S_Som P_LinAlg P_Poly P_FStuff P_MC P_Signals P_Fit2 T_Signals T_FilterStuff T_Fit T_FitIIR T_Som.
Import ListNotations.
Local Notation length := Datatypes.length.
Open Scope R_scope.

(** ** C114: sos_absphase *)
Lemma avg_plus {A} (f : A -> R) c l : l <> [] -> avg (fun a => f a + c) l = avg f l + c.
Proof.
  intros Hl. unfold avg.
  assert (E : tot (map (fun a => f a + c) l) = tot (map f l) + INR (length l) * c).
  { clear Hl. induction l as [|a l IH]; cbn [map tot length]; [cbn; ring|]. rewrite IH, S_INR. ring. }
  rewrite E. field. apply not_0_INR. destruct l; [congruence|cbn; lia].
Qed.
Lemma sample_cov_plus {A} (f g : A -> R) c d l : l <> [] ->
  sample_cov (fun a => f a + c) (fun a => g a + d) l = sample_cov f g l.
Proof.
  intros Hl. unfold sample_cov, scatter. rewrite !avg_plus by auto. f_equal. apply tot_ext. intros a _. ring.
Qed.

Lemma absphase_steps : forall S_ d f0 uS ud uf0 f runs zS zd zf (rho theta : nat -> nat -> R),
  (2 <= runs)%nat ->
  (forall i k, (i < alen f)%nat -> (k < runs)%nat -> 0 < rho i k /\
     drawn_response S_ d f0 uS ud uf0 zS zd zf (f i) k (cscal (rho i k) (cis (theta i k)))) ->
  (forall i k, (i < alen f)%nat -> (S k < runs)%nat -> Rabs (theta i (S k) - theta i k) < PI) ->
  exists m U, sos_absphase S_ d f0 uS ud uf0 f runs zS zd zf = Some (m, U) /\
    let n := alen f in
    let part := fun i k => if (i <? n)%nat then rho i k else theta (i - n)%nat k in
    alen m = n /\ mrows U = (2 * n)%nat /\ mcols U = (2 * n)%nat /\
    (forall i, (i < n)%nat ->
       Re (m i) = avg (fun k => rho i k * cos (theta i k)) (seq 0 runs) /\
       Im (m i) = avg (fun k => rho i k * sin (theta i k)) (seq 0 runs)) /\
    (forall i j, (i < 2 * n)%nat -> (j < 2 * n)%nat -> U i j = sample_cov (part i) (part j) (seq 0 runs)).
Proof.
  intros S_ d f0 uS ud uf0 f runs zS zd zf rho theta Hr Hd Hs. unfold sos_absphase. cbv zeta.
  set (SMC := sos_draw S_ uS zS) in *. set (dMC := sos_draw d ud zd) in *. set (fMC := sos_draw f0 uf0 zf) in *.
  assert (He : forall i k, (i < alen f)%nat -> (k < runs)%nat ->
    sos_entry (SMC k) (dMC k) (fMC k) (f i) = Some (cscal (rho i k) (cis (theta i k)))).
  { intros i k Hi Hk. destruct (Hd i k Hi Hk) as [_ D]. unfold drawn_response in D.
    replace (S_ + uS * zS k) with (SMC k) in D by (cbn; ring). replace (d + ud * zd k) with (dMC k) in D by (cbn; ring).
    replace (f0 + uf0 * zf k) with (fMC k) in D by (cbn; ring).
    apply (C70_physical (SMC k) (dMC k) (fMC k) f i) in D. cbn [sos_FreqResp aget] in D.
    rewrite sos_entry_scalar. exact D. }
  match goal with |- exists m U, (if (?b || _)%bool then _ else _) = _ /\ _ => destruct b eqn:Bad end.
  { exfalso. apply existsb_exists in Bad. destruct Bad as (i & Hi & Bad). apply existsb_exists in Bad.
    destruct Bad as (k & Hk & Bad). apply in_seq in Hi. apply in_seq in Hk. rewrite He in Bad by lia. discriminate. }
  destruct (Nat.leb_spec runs 1) as [|_]; [lia|]. cbn [orb].
  eexists _, _. split; [reflexivity|]. cbn [alen mrows mcols mget aget].
  split; [reflexivity|]. split; [reflexivity|]. split; [reflexivity|]. split.
  - intros i Hi. rewrite !avg_seq. unfold Re, Im. cbn [fst snd].
    split; f_equal; apply rsum_ext; intros k Hk; rewrite He by auto; reflexivity.
  - set (H := fun i k => match sos_entry (SMC k) (dMC k) (fMC k) (f i) with Some h => h | None => C0 end).
    set (row := fun i k => if (i <? alen f)%nat then cabs (H i k) else ua (mkArr runs (H (i - alen f)%nat)) k).
    change (forall i j, (i < 2 * alen f)%nat -> (j < 2 * alen f)%nat ->
       rsum runs (fun k => (row i k - rsum runs (row i) / INR runs) * (row j k - rsum runs (row j) / INR runs)) / INR (runs - 1)
       = sample_cov (fun k => if (i <? alen f)%nat then rho i k else theta (i - alen f)%nat k)
                    (fun k => if (j <? alen f)%nat then rho j k else theta (j - alen f)%nat k) (seq 0 runs)).
    assert (K : forall i, (i < 2 * alen f)%nat -> exists c, forall k, (k < runs)%nat ->
       row i k = (if (i <? alen f)%nat then rho i k else theta (i - alen f)%nat k) + c).
    { intros i Hi. unfold row. destruct (Nat.ltb_spec i (alen f)).
      - exists 0. intros k Hk. unfold H. rewrite He by auto. destruct (Hd i k ltac:(auto) Hk) as [P _].
        rewrite cscal_mul, cabs_mul, cabs_real, Rabs_right by lra. rewrite cabs_cis. ring.
      - destruct (C103_recovers (mkArr runs (H (i - alen f)%nat)) (rho (i - alen f)%nat) (theta (i - alen f)%nat) (runs - 1)) as [z Hz].
        + intros k Hk. destruct (Hd (i - alen f)%nat k ltac:(lia) ltac:(lia)) as [P _]. split; [exact P|].
          cbn [aget]. unfold H. rewrite He by lia. reflexivity.
        + intros k Hk. apply Hs; lia.
        + exists (2 * PI * IZR z). intros k Hk. apply Hz. lia. }
    intros i j Hi Hj. rewrite <- sample_cov_seq by lia.
    destruct (K i Hi) as [c Hc]. destruct (K j Hj) as [e Hej].
    rewrite (sample_cov_ext (row i) (fun k => (if (i <? alen f)%nat then rho i k else theta (i - alen f)%nat k) + c)
              (row j) (fun k => (if (j <? alen f)%nat then rho j k else theta (j - alen f)%nat k) + e)).
    + apply sample_cov_plus. destruct runs; [lia|discriminate].
    + intros k Hk. apply in_seq in Hk. apply Hc. lia.
    + intros k Hk. apply in_seq in Hk. apply Hej. lia.
Qed.
(** When the phases of the drawn systems scatter by less than pi at every frequency:
    the average response and the sample covariance of amplitudes and phases. *)
Theorem C114_absphase_partial : forall S_ d f0 uS ud uf0 f runs zS zd zf (rho theta : nat -> nat -> R),
  (2 <= runs)%nat ->
  (forall i k, (i < alen f)%nat -> (k < runs)%nat -> 0 < rho i k /\
     drawn_response S_ d f0 uS ud uf0 zS zd zf (f i) k (cscal (rho i k) (cis (theta i k)))) ->
  (forall i k l, (i < alen f)%nat -> (k < runs)%nat -> (l < runs)%nat -> Rabs (theta i k - theta i l) < PI) ->
  exists m U, sos_absphase S_ d f0 uS ud uf0 f runs zS zd zf = Some (m, U) /\
    let n := alen f in
    let part := fun i k => if (i <? n)%nat then rho i k else theta (i - n)%nat k in
    alen m = n /\ mrows U = (2 * n)%nat /\ mcols U = (2 * n)%nat /\
    (forall i, (i < n)%nat ->
       Re (m i) = avg (fun k => rho i k * cos (theta i k)) (seq 0 runs) /\
       Im (m i) = avg (fun k => rho i k * sin (theta i k)) (seq 0 runs)) /\
    (forall i j, (i < 2 * n)%nat -> (j < 2 * n)%nat -> U i j = sample_cov (part i) (part j) (seq 0 runs)).
Proof.
  intros S_ d f0 uS ud uf0 f runs zS zd zf rho theta Hr Hd Hs.
  apply absphase_steps; auto. intros i k Hi Hk. apply Hs; auto; lia.
Qed.
Example C114_ex : forall i k, (i < alen (of_list [1%R]))%nat -> (k < 2)%nat ->
  0 < 2 + 1 * of_list [1; -1] k /\
  drawn_response 2 (1 / 2) 1 1 0 0 (of_list [1; -1]) (of_list [0%R; 0%R]) (of_list [0%R; 0%R]) (of_list [1] i) k
    (cscal (2 + 1 * of_list [1; -1] k) (cis (- (PI / 2)))) /\
  Rabs (- (PI / 2) - - (PI / 2)) < PI.
Proof.
  intros i k Hi Hk. cbn in Hi. assert (i = 0%nat) by lia. subst i. pose proof PI_RGT_0 as HP.
  split; [destruct k as [|[|k]]; [| |lia]; cbn; lra|]. split.
  2:{ replace (- (PI / 2) - - (PI / 2)) with 0 by ring. rewrite Rabs_R0. auto. }
  unfold drawn_response, second_order. replace (1 / 2 + 0 * of_list [0; 0] k) with (1 / 2) by ring.
  replace (1 + 0 * of_list [0; 0] k) with 1 by ring. set (rho := 2 + 1 * of_list [1; -1] k).
  replace (of_list [1] 0%nat) with 1 by reflexivity.
  unfold cis, cscal, cmul, C0. cbn [fst snd]. rewrite cos_neg, sin_neg, cos_PI2, sin_PI2. split.
  - intros E. injection E as _ E. assert (0 < 2 * (1 / 2) * (2 * PI * 1) * (2 * PI * 1)) by nra. lra.
  - apply C_eq; cbn [fst snd]; field.
Qed.

(** The phases are unwrapped from run to run, so that the result depends on the order of the
    draws once they scatter more. *)
Definition drawn (l : list (R * R * R)) : vec * vec * vec :=
  (of_list (map (fun t => fst (fst t)) l), of_list (map (fun t => snd (fst t)) l), of_list (map snd l)).
Lemma phase_var l (rho theta : nat -> R) :
  length l = 3%nat ->
  (forall k, (k < 3)%nat -> 0 < rho k /\
     second_order (1 + 1 * fst (fst (drawn l)) k) (0 + 1 * snd (fst (drawn l)) k) (1 + 1 * snd (drawn l) k) 1
       (cscal (rho k) (cis (theta k)))) ->
  Rabs (theta 1%nat - theta 0%nat) < PI -> Rabs (theta 2%nat - theta 1%nat) < PI ->
  exists m U, sos_absphase 1 0 1 1 1 1 (of_list [1]) 3 (fst (fst (drawn l))) (snd (fst (drawn l))) (snd (drawn l)) = Some (m, U) /\
    U 1%nat 1%nat = sample_cov theta theta (seq 0 3).
Proof.
  intros Hl Hd H1 H2.
  destruct (absphase_steps 1 0 1 1 1 1 (of_list [1]) 3 (fst (fst (drawn l))) (snd (fst (drawn l))) (snd (drawn l))
              (fun _ => rho) (fun _ => theta)) as (m & U & E & _ & _ & _ & _ & HU); auto.
  - intros i k Hi Hk. cbn in Hi. assert (i = 0%nat) by lia. subst i. apply Hd. auto.
  - intros i k _ Hk. destruct k as [|[|k]]; [auto|auto|lia].
  - exists m, U. split; [exact E|]. rewrite HU by (cbn; lia). reflexivity.
Qed.
Lemma so_a : second_order 1 0 2 1 (cscal (4 / 3) (cis 0)).
Proof.
  pose proof PI_RGT_0. unfold second_order, cis, cscal, cmul, C0. cbn [fst snd]. rewrite cos_0, sin_0. split.
  - intros E. injection E as E _. nra.
  - apply C_eq; cbn [fst snd]; field.
Qed.
Lemma sqrt2_sq : sqrt 2 * sqrt 2 = 2. Proof. apply sqrt_sqrt. lra. Qed.
Lemma so_b : second_order (-1) (3 / 4) 2 1 (cscal (2 / 3 * sqrt 2) (cis (3 * (PI / 4)))).
Proof.
  pose proof PI_RGT_0. pose proof sqrt2_sq. assert (0 < sqrt 2) by (apply sqrt_lt_R0; lra).
  unfold second_order, cis, cscal, cmul, C0. cbn [fst snd]. rewrite cos_3PI4, sin_3PI4. split.
  - intros E. injection E as E _. nra.
  - assert (E : 2 / 3 * sqrt 2 * (-1 / sqrt 2) = - (2 / 3)) by (field; lra).
    assert (E' : 2 / 3 * sqrt 2 * (1 / sqrt 2) = 2 / 3) by (field; lra).
    rewrite E, E'. apply C_eq; cbn [fst snd]; field.
Qed.
Lemma so_c : second_order 1 (3 / 4) (1 / 2) 1 (cscal (sqrt 2 / 6) (cis (5 * (PI / 4)))) /\
  second_order 1 (3 / 4) (1 / 2) 1 (cscal (sqrt 2 / 6) (cis (- (3 * (PI / 4))))).
Proof.
  pose proof PI_RGT_0. pose proof sqrt2_sq. assert (0 < sqrt 2) by (apply sqrt_lt_R0; lra).
  unfold second_order, cis, cscal, cmul, C0. cbn [fst snd]. rewrite cos_neg, sin_neg, cos_3PI4, sin_3PI4, cos_5PI4, sin_5PI4.
  assert (E : sqrt 2 / 6 * (-1 / sqrt 2) = - (1 / 6)) by (field; lra).
  assert (E' : sqrt 2 / 6 * - (1 / sqrt 2) = - (1 / 6)) by (field; lra).
  rewrite ?E, ?E'.
  split; (split; [intros Q; injection Q as Q _; nra|apply C_eq; cbn [fst snd]; field]).
Qed.
Theorem C114_order_refuted : exists (l l' : list (R * R * R)) m U m' U', Permutation l l' /\
  sos_absphase 1 0 1 1 1 1 (of_list [1]) 3 (fst (fst (drawn l))) (snd (fst (drawn l))) (snd (drawn l)) = Some (m, U) /\
  sos_absphase 1 0 1 1 1 1 (of_list [1]) 3 (fst (fst (drawn l'))) (snd (fst (drawn l'))) (snd (drawn l')) = Some (m', U') /\
  U 1%nat 1%nat <> U' 1%nat 1%nat.
Proof.
  pose (a := (0, 0, 1) : R * R * R). pose (b := (-2, 3 / 4, 1) : R * R * R). pose (c := (0, 3 / 4, - (1 / 2)) : R * R * R).
  pose proof PI_RGT_0 as HP. pose proof sqrt2_sq. assert (0 < sqrt 2) by (apply sqrt_lt_R0; lra).
  exists [a; b; c], [c; a; b].
  destruct (phase_var [a; b; c] (fun k => nth k [4 / 3; 2 / 3 * sqrt 2; sqrt 2 / 6] 0)
              (fun k => nth k [0; 3 * (PI / 4); 5 * (PI / 4)] 0)) as (m & U & E & V); [reflexivity| | | |].
  { intros k Hk. destruct k as [|[|[|k]]]; [| | |lia]; (split; [cbn; lra|]); cbn.
    - replace (1 + 1 * 0) with 1 by ring. replace (0 + 1 * 0) with 0 by ring. replace (1 + 1 * 1) with 2 by ring. apply so_a.
    - replace (1 + 1 * -2) with (-1) by ring. replace (0 + 1 * (3 / 4)) with (3 / 4) by ring. replace (1 + 1 * 1) with 2 by ring. apply so_b.
    - replace (1 + 1 * 0) with 1 by ring. replace (0 + 1 * (3 / 4)) with (3 / 4) by ring.
      replace (1 + 1 * - (1 / 2)) with (1 / 2) by field. apply so_c. }
  { cbn. apply Rabs_def1; lra. } { cbn. apply Rabs_def1; lra. }
  destruct (phase_var [c; a; b] (fun k => nth k [sqrt 2 / 6; 4 / 3; 2 / 3 * sqrt 2] 0)
              (fun k => nth k [- (3 * (PI / 4)); 0; 3 * (PI / 4)] 0)) as (m' & U' & E' & V'); [reflexivity| | | |].
  { intros k Hk. destruct k as [|[|[|k]]]; [| | |lia]; (split; [cbn; lra|]); cbn.
    - replace (1 + 1 * 0) with 1 by ring. replace (0 + 1 * (3 / 4)) with (3 / 4) by ring.
      replace (1 + 1 * - (1 / 2)) with (1 / 2) by field. apply so_c.
    - replace (1 + 1 * 0) with 1 by ring. replace (0 + 1 * 0) with 0 by ring. replace (1 + 1 * 1) with 2 by ring. apply so_a.
    - replace (1 + 1 * -2) with (-1) by ring. replace (0 + 1 * (3 / 4)) with (3 / 4) by ring. replace (1 + 1 * 1) with 2 by ring. apply so_b. }
  { cbn. apply Rabs_def1; lra. } { cbn. apply Rabs_def1; lra. }
  exists m, U, m', U'. split; [apply Permutation_sym; apply (Permutation_cons_append [a; b] c)|].
  split; [exact E|]. split; [exact E'|]. rewrite V, V'.
  assert (X : sample_cov (fun k => nth k [0; 3 * (PI / 4); 5 * (PI / 4)] 0) (fun k => nth k [0; 3 * (PI / 4); 5 * (PI / 4)] 0) (seq 0 3)
              = 114 / 288 * PI ^ 2).
  { unfold sample_cov, scatter, avg. cbn. field. }
  assert (Y : sample_cov (fun k => nth k [- (3 * (PI / 4)); 0; 3 * (PI / 4)] 0) (fun k => nth k [- (3 * (PI / 4)); 0; 3 * (PI / 4)] 0) (seq 0 3)
              = 9 / 16 * PI ^ 2).
  { unfold sample_cov, scatter, avg. cbn. field. }
  rewrite X, Y. assert (0 < PI ^ 2) by nra. lra.
Qed.
Print Assumptions C114_absphase_partial.
Print Assumptions C114_order_refuted.

(** ** C115: db *)
Theorem C115_decibel : forall (vals : arr C) i,
  alen (db vals) = alen vals /\
  match db vals i with
  | Some L => vals i <> C0 /\ cabs (vals i) = Rpower 10 (L / 20)
  | None => vals i = C0
  end.
Proof.
  intros vals i. split; [reflexivity|]. cbn [db aget].
  assert (Z : cabs (vals i) = 0 <-> vals i = C0).
  { split; intros H.
    - apply cnorm2_zero. rewrite <- cabs_sq, H. ring.
    - rewrite H. unfold cabs, cnorm2, C0. cbn [fst snd]. replace (0 * 0 + 0 * 0) with 0 by ring. apply sqrt_0. }
  destruct (Req_EM_T (cabs (vals i)) 0) as [E|E]; [apply Z; auto|].
  split; [intros Q; apply E, Z; auto|].
  assert (0 < ln 10) by (rewrite <- ln_1; apply ln_increasing; lra).
  pose proof (cabs_nonneg (vals i)). unfold Rpower.
  replace (20 * (ln (cabs (vals i)) / ln 10) / 20 * ln 10) with (ln (cabs (vals i))) by (field; lra).
  symmetry. apply exp_ln. lra.
Qed.
Theorem C115_product : forall (v w : arr C) i a b, db v i = Some a -> db w i = Some b ->
  db (mkArr (alen v) (fun i => cmul (v i) (w i))) i = Some (a + b).
Proof.
  intros v w i a b. cbn [db aget]. rewrite cabs_mul.
  destruct (Req_EM_T (cabs (v i)) 0) as [|E]; [discriminate|].
  destruct (Req_EM_T (cabs (w i)) 0) as [|E']; [discriminate|]. intros [= <-] [= <-].
  destruct (Req_EM_T (cabs (v i) * cabs (w i)) 0) as [Z|_].
  { apply Rmult_integral in Z. tauto. }
  pose proof (cabs_nonneg (v i)). pose proof (cabs_nonneg (w i)). rewrite ln_mult by lra. f_equal.
  assert (0 < ln 10) by (rewrite <- ln_1; apply ln_increasing; lra). field. lra.
Qed.
Example C115_ex : db (mkArr 1 (fun _ => (0, 10))) 0%nat = Some 20.
Proof.
  cbn [db aget]. assert (E : cabs (0, 10) = 10).
  { unfold cabs, cnorm2. cbn [fst snd]. replace (0 * 0 + 10 * 10) with (10 * 10) by ring. apply sqrt_square. lra. }
  rewrite E. destruct (Req_EM_T 10 0); [lra|]. f_equal.
  assert (0 < ln 10) by (rewrite <- ln_1; apply ln_increasing; lra). field. lra.
Qed.
Print Assumptions C115_decibel.
Print Assumptions C115_product.

(** ** C116: print_vec, print_mat *)
(** Pieces of a text between the separators c. *)
Fixpoint split_on (c : ascii) (s : string) : list string :=
  match s with
  | EmptyString => [EmptyString]
  | String a r => if (a =? c)%char then EmptyString :: split_on c r
                  else match split_on c r with [] => [] | h :: t => String a h :: t end
  end.
Fixpoint lacks (c : ascii) (s : string) : Prop :=
  match s with EmptyString => True | String a r => a <> c /\ lacks c r end.
Lemma split_ne c s : split_on c s <> [].
Proof.
  induction s as [|a r IH]; cbn; [discriminate|]. destruct (a =? c)%char; [discriminate|].
  destruct (split_on c r); [auto|discriminate].
Qed.
Lemma split_piece c u r : lacks c u -> split_on c (u ++ String c r)%string = u :: split_on c r.
Proof.
  induction u as [|a u IH]; cbn.
  - intros _. rewrite Ascii.eqb_refl. reflexivity.
  - intros [N L]. destruct (Ascii.eqb_spec a c); [contradiction|]. rewrite IH by auto. reflexivity.
Qed.
Lemma lacks_app c u v : lacks c u -> lacks c v -> lacks c (u ++ v)%string.
Proof. induction u; cbn; [tauto|]. intros [? ?] ?. auto. Qed.
Lemma app_assoc_s (a b c : string) : ((a ++ b) ++ c = a ++ (b ++ c))%string.
Proof. induction a; cbn; congruence. Qed.
Lemma concat_cons a l : String.concat "" (a :: l) = (a ++ String.concat "" l)%string.
Proof.
  destruct l as [|b l]; [|reflexivity]. cbn. induction a; cbn; congruence.
Qed.
Lemma split_concat {A} c (u : A -> string) l : (forall a, lacks c (u a)) ->
  split_on c (String.concat "" (map (fun a => u a ++ String c "")%string l)) = (map u l ++ [""%string])%list.
Proof.
  intros H. induction l as [|a l IH]; [reflexivity|]. cbn [map]. rewrite concat_cons, app_assoc_s.
  cbn [String.append]. rewrite split_piece by auto. rewrite IH. reflexivity.
Qed.
Lemma lacks_concat c l : (forall s, In s l -> lacks c s) -> lacks c (String.concat "" l).
Proof.
  induction l as [|a l IH]; intros H; [exact I|]. rewrite concat_cons. apply lacks_app; [apply H; left; auto|].
  apply IH. intros s Hs. apply H. right. auto.
Qed.
Definition plain (fmt : Z -> R -> string) : Prop :=
  forall p v, lacks tab (fmt p v) /\ lacks newline (fmt p v).
(** The entries in order, each followed by a blank, separated by tabs or newlines. *)
Theorem C116_vector : forall fmt v prec vertical, plain fmt ->
  exists s, print_vec fmt v prec true vertical = Returned s /\
    print_vec fmt v prec false vertical = Printed (s ++ String newline "") /\
    split_on (if vertical then newline else tab) s
    = (map (fun i => fmt prec (v i) ++ " ")%string (seq 0 (alen v)) ++ [""%string])%list.
Proof.
  intros fmt v prec vertical Hf. unfold print_vec. eexists. split; [reflexivity|]. split; [reflexivity|].
  unfold vec_text. set (c := if vertical then newline else tab).
  rewrite (map_ext _ (fun i => (fmt prec (v i) ++ " ") ++ String c "")%string) by (intros; rewrite app_assoc_s; reflexivity).
  apply split_concat. intros i. apply lacks_app.
  - unfold c. destruct vertical; apply Hf.
  - unfold c. destruct vertical; cbn; (split; [discriminate|exact I]).
Qed.
(** One line for each row (column if vertical), the entries of a line separated by tabs. *)
Theorem C116_matrix : forall fmt M prec vertical, plain fmt ->
  exists s lines, print_mat fmt M prec vertical true = Returned s /\
    print_mat fmt M prec vertical false = Printed (s ++ String newline "") /\
    split_on newline s = (lines ++ [""%string])%list /\
    length lines = (if vertical then mcols M else mrows M) /\
    forall i, (i < length lines)%nat ->
      split_on tab (nth i lines ""%string)
      = (map (fun j => fmt prec (if vertical then M j i else M i j) ++ " ")%string
             (seq 0 (if vertical then mrows M else mcols M)) ++ [""%string])%list.
Proof.
  intros fmt M prec vertical Hf. unfold print_mat. cbv zeta. set (M' := if vertical then transp M else M).
  set (line := fun k => vec_text fmt (mkArr (mcols M') (fun j => M' k j)) prec false).
  eexists _, (map line (seq 0 (mrows M'))). split; [reflexivity|]. split; [reflexivity|]. split; [|split].
  - apply (split_concat newline line). intros k. unfold line, vec_text. apply lacks_concat.
    intros s Hs. apply in_map_iff in Hs. destruct Hs as (i & <- & _). apply lacks_app; [apply Hf|].
    cbn. repeat split; discriminate.
  - rewrite map_length, seq_length. unfold M'. destruct vertical; reflexivity.
  - intros i Hi. rewrite map_length, seq_length in Hi.
    rewrite (nth_indep _ ""%string (line 0%nat)) by (rewrite map_length, seq_length; auto).
    rewrite map_nth, seq_nth by auto. cbn [Nat.add].
    destruct (C116_vector fmt (mkArr (mcols M') (fun j => M' i j)) prec false Hf) as (s & E & _ & Sp).
    unfold print_vec in E. injection E as <-. unfold line. rewrite Sp. cbn [alen aget].
    unfold M'. destruct vertical; reflexivity.
Qed.
Example C116_ex : plain (fun _ _ => "1.5"%string) /\
  print_mat (fun _ v => if Rle_dec v 0 then "0" else "1")%string (of_rows [[0; 1]; [1; 1]]%R) 5 true true
  = Returned (String.concat "" ["0 "; String tab ""; "1 "; String tab ""; String newline ""; "1 "; String tab ""; "1 "; String tab ""; String newline ""])%string.
Proof.
  split.
  - intros p v. cbn. repeat split; discriminate.
  - unfold print_mat, vec_text. cbn. destruct (Rle_dec 0 0); [|lra]. destruct (Rle_dec 1 0); [lra|]. reflexivity.
Qed.
Print Assumptions C116_vector.
Print Assumptions C116_matrix.

(** ** C117: deprecated entry points *)
Theorem C117_deconvolution_fir : forall lstsq (H : arr C) N tau f Fs (h : vec),
  exact_lstsq lstsq -> alen H = alen f -> alen h = S N -> determines f Fs (S N) ->
  (forall i, (i < alen f)%nat -> cmul (H i) (freq_resp h (radf f Fs i)) = cis (- (radf f Fs i * tau))) ->
  (exists b, deconv_LSFIR lstsq H N tau f Fs WtNone = Ok b /\ veq b h) /\
  (forall mvn svd UH runs Hc, response_form H UH f Hc -> svd_for svd f Fs (S N) ->
     (forall i, (i < alen f)%nat -> cmul (Hc i) (freq_resp h (radf f Fs i)) = cis (- (radf f Fs i * tau))) ->
     exists b Ub, deconv_LSFIR_unc mvn svd H UH N tau f Fs None None runs = Ok (b, Ub) /\ veq b h) /\
  (forall (mvn : vec -> mat -> nat -> nat -> vec) UH runs,
     mrows UH = (alen f + alen f)%nat -> mcols UH = (alen f + alen f)%nat -> (1 <= runs)%nat ->
     (forall RI k i, mvn RI UH runs k i = RI i) ->
     exists b Ub, deconv_LSFIR_uncMC mvn lstsq H UH N tau f Fs runs = Ok (b, Ub) /\ veq b h /\
       forall i j, (i < S N)%nat -> (j < S N)%nat -> Ub i j = 0).
Proof.
  intros lstsq H N tau f Fs h X L Lh D Hh. split; [|split].
  - exact (C71_exact_inverse lstsq H N tau f Fs h X L Lh D Hh).
  - intros mvn svd UH runs Hc RF SV HH. exact (C71_unc_exact_inverse mvn svd H UH N tau f Fs runs Hc h RF SV Lh D HH).
  - intros mvn UH runs Er Ec Hr Hm. exact (C105_no_uncertainty mvn lstsq H UH N tau f Fs runs h X L Er Ec Hr Hm Lh D Hh).
Qed.
Theorem C117_deconvolution_iir : forall lstsq roots (H : arr C) Nb Na f Fs tau t (h g : vec),
  exact_lstsq lstsq -> alen H = alen f -> iir_target true H f Fs tau t ->
  iir_determines f Fs t Nb Na -> alen h = S Nb -> alen g = S Na -> g 0%nat = 1 ->
  (forall i, (i < alen f)%nat -> cmul (t i) (freq_resp g (radf f Fs i)) = freq_resp h (radf f Fs i)) ->
  (forall fuel, exists b a, deconv_LSIIR lstsq roots fuel H Nb Na f Fs tau true = Some (Ok (b, a, None)) /\ veq b h /\ veq a g) /\
  (forall (mvn : vec -> mat -> nat -> nat -> vec) UH runs,
     mrows UH = (alen f + alen f)%nat -> mcols UH = (alen f + alen f)%nat -> (1 <= runs)%nat ->
     (forall RI k i, mvn RI UH runs k i = RI i) ->
     exists b a t' b' a' U, deconv_LSIIR lstsq roots 50 H Nb Na f Fs tau false = Some (Ok (b, a, Some t')) /\
       deconv_LSIIR_unc mvn lstsq roots H UH Nb Na f Fs tau runs = Ok (b', a', t', U) /\
       veq b' b /\ veq a' a /\ forall i j, (i < Na + S Nb)%nat -> (j < Na + S Nb)%nat -> U i j = 0).
Proof.
  intros lstsq roots H Nb Na f Fs tau t h g X L T D Lh Lg G0 E. split.
  - intros fuel. exact (C106_inverse_exact_recovery lstsq roots fuel H Nb Na f Fs tau t h g X L T D Lh Lg G0 E).
  - intros mvn UH runs Er Ec Hr Hm. exact (C107_no_uncertainty mvn lstsq roots H UH Nb Na f Fs tau runs X L Er Ec Hr Hm).
Qed.
Theorem C117_identification : forall solve inv mvn z runs0 (f H : vec) wgt v MCruns scaling S0 delta f0,
  exact_solve solve -> alen H = (alen f + alen f)%nat -> two_frequencies f -> scaling <> 0 ->
  plain_weights (alen f) wgt v -> (forall r, (r < alen f + alen f)%nat -> 0 < v r) ->
  0 < S0 -> 0 < f0 ->
  (forall i, (i < alen f)%nat -> som_response S0 delta f0 (f i) (resp (alen f) H i)) ->
  exists p, fit_sos solve inv mvn z runs0 f H SuNone wgt MCruns scaling = Ok (SomFit p None) /\ is_triple p S0 delta f0.
Proof. exact C76_exact. Qed.
Example C117_ex roots fuel solve inv mvn z runs0 : exact_solve solve ->
  (exists b, deconv_LSFIR lstsq_ref (mkArr 1 (fun _ => cinv (1, - / 2))) 1 0 (of_list [1]) 4 WtNone = Ok b /\ veq b (of_list [1; / 2])) /\
  (exists b a, deconv_LSIIR lstsq_ref roots fuel (mkArr 1 (fun _ => (1, / 2))) 0 1 (of_list [1]) 4 0 true = Some (Ok (b, a, None)) /\
     veq b (of_list [1]) /\ veq a (of_list [1; - / 2])) /\
  (exists p, fit_sos solve inv mvn z runs0 f12 (H12 3) SuNone (SwArr (of_list [1; 2; 1; 2])) None (/ 10) = Ok (SomFit p None) /\
     is_triple p 3 1 (/ (2 * PI))).
Proof.
  intros S. split; [exact C71_ex|]. split; [|exact (C76_ex solve inv mvn z runs0 S)].
  apply (C117_deconvolution_iir lstsq_ref roots (mkArr 1 (fun _ => (1, / 2))) 0 1 (of_list [1]) 4 0 (fun _ => cinv (1, / 2))
           (of_list [1]) (of_list [1; - / 2])); auto.
  - apply lstsq_ref_exact.
  - intros i Hi. cbn [aget]. rewrite Rmult_0_r, Ropp_0. rewrite cmul_inv_r.
    + unfold cis. rewrite cos_0, sin_0. reflexivity.
    + intros E. apply (f_equal fst) in E. cbn in E. lra.
  - apply determines_ex.
  - intros i Hi. cbn in Hi. assert (i = 0%nat) by lia. subst.
    rewrite freq_quarter.
    unfold freq_resp. change (csum (alen (of_list [1])) ?g) with (cadd C0 (g 0%nat)). cbv beta. change (INR 0) with 0.
    rewrite Rmult_0_r, Ropp_0. unfold cis. rewrite cos_0, sin_0.
    unfold cinv, cnorm2. apply C_eq; cbn; field.
Qed.
Print Assumptions C117_deconvolution_fir.
Print Assumptions C117_deconvolution_iir.
Print Assumptions C117_identification.
