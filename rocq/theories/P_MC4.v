(** The MC loop; existence of results of UMC. *)
From Coq Require Import Reals List Arith ZArith Bool Lra Lia Permutation.
From Verif Require Import Base Sums M_Filter M_Interp M_MC S_MC S_MC2 P_Interp P_MC P_MC2 P_MC3.
Import ListNotations.
Open Scope R_scope.

(** The simulated signal of run k. *)
Definition mc_x (x : vec) (Ux : mcunc) (zk : vec) : vec :=
  match Ux with
  | McFloat u => mkArr (alen x) (fun i => x i + zk i * u)
  | McVec v => mkArr (alen x) (fun i => x i + zk i * v i)
  | _ => zk
  end.
Lemma mc_inputs_eq me x Ux z k : fits (alen x) Ux -> proper me (alen x) Ux ->
  mc_inputs me x Ux z k = Ok (mc_x x Ux (z k)).
Proof.
  intros H Hp. destruct Ux as [u|v|m|]; cbn in H; [| | |tauto]; unfold mc_inputs, normal_zerocorr; cbn [np_size1 alen].
  - destruct (Nat.eqb_spec (alen x) 1) as [E|E]; cbn [andb negb].
    + cbn [bind fst snd nzc_rvs alen mget aget]. unfold mc_x. f_equal.
    + rewrite Nat.eqb_refl. cbn [bind fst snd nzc_rvs alen mget aget andb negb]. reflexivity.
  - rewrite H, Nat.eqb_refl. cbn [bind fst snd nzc_rvs alen mget aget]. reflexivity.
  - destruct H as [H1 H2]. rewrite H1, H2, !Nat.eqb_refl. destruct Hp as (_ & (_ & E & _) & Hd). specialize (E Hd).
    unfold rltb. destruct (Rlt_dec (me m) 0), (Rlt_dec 0 (me m)); try lra. reflexivity.
Qed.
Lemma mc_scalar_proper me x Ux : proper me (alen x) Ux -> mc_scalar x Ux = false.
Proof. destruct Ux; cbn; auto. intros [H _]. apply Nat.eqb_neq. exact H. Qed.
Lemma mc_x_length x Ux zk : (forall m, Ux = McMat m -> alen zk = alen x) -> Ux <> McOther ->
  alen (mc_x x Ux zk) = alen x.
Proof. intros H Ho. destruct Ux; cbn; auto. eapply H; reflexivity. congruence. Qed.
Lemma mc_x_draw x Ux zk : fits (alen x) Ux -> alen zk = alen x -> input_draw x Ux zk (mc_x x Ux zk).
Proof.
  intros H Hz. split.
  - apply mc_x_length; auto. intros ->. exact H.
  - destruct Ux; cbn in *; auto.
    + intros; ring.
    + split; auto. intros; ring.
    + destruct H; auto.
Qed.

Definition mc_low (blow alow : option vec) (xk : vec) : vec :=
  match blow with
  | None => xk
  | Some bl => lfilter0 bl (match alow with Some al => al | None => one_vec end) xk
  end.
Definition mc_y (na nb : nat) (blow alow : option vec) (th xk : vec) : vec :=
  lfilter0 (drawn_b na nb th) (drawn_a na th) (mc_low blow alow xk).
Lemma mc_run_eq stable na nb blow alow th xk : alen th = (na - 1 + nb)%nat ->
  mc_run stable na blow alow th xk =
  if stable (drawn_b na nb th) (drawn_a na th) then Some (mc_y na nb blow alow th xk) else None.
Proof.
  intros H. unfold mc_run, mc_y, mc_low.
  assert (E : slice th (na - 1) (alen th) = drawn_b na nb th).
  { unfold slice, drawn_b. rewrite Nat.min_id. replace (alen th - (na - 1))%nat with nb by lia. reflexivity. }
  rewrite E. fold (drawn_a na th). reflexivity.
Qed.
Lemma mc_low_length blow alow xk : alen (mc_low blow alow xk) = alen xk.
Proof. unfold mc_low. destruct blow; reflexivity. Qed.
Lemma mc_y_length na nb blow alow th xk : alen (mc_y na nb blow alow th xk) = alen xk.
Proof. unfold mc_y. apply mc_low_length. Qed.

Lemma mc_loop_eq stable me x Ux na nb blow alow theta z : fits (alen x) Ux -> proper me (alen x) Ux ->
  (forall k, alen (theta k) = (na - 1 + nb)%nat) -> (forall k, alen (z k) = alen x) ->
  forall todo k0,
  mc_loop stable me x Ux na blow alow theta z todo k0 =
  Ok (map (fun k => if stable (drawn_b na nb (theta k)) (drawn_a na (theta k))
                    then Some (mc_y na nb blow alow (theta k) (mc_x x Ux (z k))) else None) (seq k0 todo)).
Proof.
  intros HU Hp Ht Hz. induction todo as [|t IH]; intros k0; [reflexivity|].
  cbn [mc_loop seq map]. rewrite mc_inputs_eq by auto. cbn [bind].
  rewrite (mc_run_eq _ _ nb) by auto. rewrite IH. rewrite (mc_scalar_proper me) by auto. cbn [bind andb].
  destruct (stable (drawn_b na nb (theta k0)) (drawn_a na (theta k0))); auto.
  rewrite mc_y_length, mc_x_length, Nat.eqb_refl; auto.
  intros ->. exact HU.
Qed.
Lemma somes_map {A} (p : nat -> bool) (f : nat -> A) l :
  somes (map (fun k => if p k then Some (f k) else None) l) = map f (filter p l).
Proof. unfold somes. induction l as [|k l IH]; cbn; auto. destruct (p k); cbn; rewrite IH; reflexivity. Qed.

Lemma MC_eq stable me x Ux b a Uab runs blow alow rs shift theta z :
  fits (alen x) Ux -> proper me (alen x) Ux -> mrows Uab = (alen a - 1 + alen b)%nat -> mcols Uab = (alen a - 1 + alen b)%nat ->
  (forall k, alen (theta k) = (alen a - 1 + alen b)%nat) -> (forall k, alen (z k) = alen x) ->
  let p := fun k => stable (drawn_b (alen a) (alen b) (theta k)) (drawn_a (alen a) (theta k)) in
  let ys := fun k => mc_y (alen a) (alen b) blow alow (theta k) (mc_x x Ux (z k)) in
  let st := map (fun k => roll (ys k) shift) (filter p (seq 0 runs)) in
  MC stable me x Ux b a Uab runs blow alow rs shift theta z =
  Ok (if rs then McSamples (map (fun k => roll (if p k then ys k else mkArr (alen x) (fun _ => 0)) shift) (seq 0 runs))
      else McMoments (if (length st =? 0)%nat then None else Some (rows_mean (alen x) st))
                     (np_cov_rows (alen x) st)).
Proof.
  intros HU Hp H1 H2 Ht Hz p ys st. unfold MC. rewrite H1, H2, Nat.eqb_refl. cbn [andb negb].
  rewrite mc_inputs_eq by auto. cbn [bind].
  rewrite (mc_loop_eq _ _ _ _ _ (alen b)) by auto. cbn [bind]. fold p ys.
  destruct rs.
  - f_equal. f_equal. rewrite map_map. apply map_ext. intros k. unfold p, ys.
    destruct (stable _ _); reflexivity.
  - rewrite (somes_map p ys), map_map. reflexivity.
Qed.

(** ** UMC *)
Lemma UMCevaluate_length nbb x Delta bl al smp : alen (UMCevaluate nbb x Delta bl al smp) = alen x.
Proof. destruct smp as [[th e] u]. reflexivity. Qed.

Section UMCf.
Variable draw : nat -> nat -> list (vec * vec * vec).
Variable order : nat -> list vec -> list vec.
Hypothesis draw_len : forall c n, length (draw c n) = n.
Hypothesis order_perm : forall c l, Permutation (order c l) l.

Lemma umc_hists runs bs ri nbins rs o (ev : (vec * vec * vec) -> vec) :
  UMC_generic draw ev order runs bs ri nbins rs = Ok o -> map h_bins (u_h o) = nodup Nat.eq_dec nbins.
Proof.
  intros H. destruct (umc_generic_inv draw ev order draw_len order_perm runs bs ri nbins rs o H)
    as (B & r0 & init & s & _ & _ & _ & _ & _ & _ & I & _ & ->).
  cbn [u_h]. rewrite (inv_h _ _ _ _ _ _ _ _ _ _ I), !map_map.
  rewrite <- (map_id (nodup Nat.eq_dec nbins)) at 2. apply map_ext. intros n. cbn [hist_close h_bins].
  rewrite hist_after_bins. reflexivity.
Qed.

(** UMC runs UMC_generic with 100 bins. *)
Lemma UMC_inv x b a runs bs blow alow Delta ri nbins cred o :
  UMC draw order x b a runs bs blow alow Delta ri nbins cred = Ok o ->
  exists bl al g h,
    (bl, al) = (if Req_EM_T (alow 0%nat) 1 then (blow, alow)
                else (vmap (fun v => v / alow 0%nat) blow, vmap (fun v => v / alow 0%nat) alow)) /\
    UMC_generic draw (UMCevaluate (alen b) x Delta bl al) order runs bs ri [100%nat] false = Ok g /\
    u_h g = [h] /\ h_bins h = 100%nat /\ uf_h o = [h] /\ uf_y o = u_y g /\ uf_U o = u_U g /\
    cred_rows [h] ((1 - cred) / 2) (alen x) (length nbins) = Ok (uf_low o) /\
    cred_rows [h] ((1 + cred) / 2) (alen x) (length nbins) = Ok (uf_high o).
Proof.
  unfold UMC. destruct (Nat.eqb_spec (alen alow) 0); [discriminate|]. cbv zeta.
  match goal with |- (let '(bl, al) := ?p in _) = _ -> _ => destruct p as [bl al] eqn:Ep end.
  destruct (UMC_generic draw (UMCevaluate (alen b) x Delta bl al) order runs bs ri [100%nat] false) as [g|] eqn:Eg;
    cbn [bind]; [|discriminate].
  pose proof (umc_hists _ _ _ _ _ _ _ Eg) as Eh.
  destruct (u_h g) as [|h [|h' hs]] eqn:Eu; try discriminate. cbn [map nodup in_dec list_rec list_rect] in Eh.
  destruct (cred_rows [h] ((1 - cred) / 2) (alen x) (length nbins)) as [lo|] eqn:El; cbn [bind]; [|discriminate].
  destruct (cred_rows [h] ((1 + cred) / 2) (alen x) (length nbins)) as [hi|] eqn:Er; cbn [bind]; [|discriminate].
  intros H. injection H as <-. exists bl, al, g, h. cbn [uf_h uf_y uf_U uf_low uf_high].
  split; [first [exact (eq_sym Ep) | reflexivity]|]. repeat (split; [solve [auto | congruence]|]). auto.
Qed.
Lemma cred_rows_one h q n rows r : cred_rows [h] q n (S rows) = Ok r ->
  exists l, cred_row h q (seq 0 n) = Ok l /\ r = l :: repeat (repeat (Some 0) n) rows.
Proof.
  cbn [cred_rows]. destruct (cred_row h q (seq 0 n)) as [l|]; cbn [bind]; [|discriminate].
  intros H. injection H as <-. eauto.
Qed.

Lemma UMC_ok x b a runs bs blow alow Delta ri nbins cred :
  (0 < runs)%nat -> (0 < bs)%nat -> (0 < ri)%nat -> (1 <= alen alow)%nat -> nbins <> [] -> 0 <= cred <= 1 ->
  exists o, UMC draw order x b a runs bs blow alow Delta ri nbins cred = Ok o.
Proof.
  intros Hr Hb Hi Ha Hn Hc. unfold UMC. destruct (Nat.eqb_spec (alen alow) 0); [lia|]. cbv zeta.
  match goal with |- exists o, (let '(bl, al) := ?p in _) = _ => destruct p as [bl al] end.
  destruct (umc_generic_ok draw (UMCevaluate (alen b) x Delta bl al) order draw_len order_perm
              runs bs ri [100%nat] false (alen x)) as [g Eg]; auto; [apply UMCevaluate_length|discriminate|].
  rewrite Eg. cbn [bind].
  pose proof (umc_hists _ _ _ _ _ _ _ Eg) as Eh.
  destruct (u_h g) as [|h [|h' hs]] eqn:Eu; try discriminate. cbn [map nodup in_dec list_rec list_rect] in Eh.
  injection Eh as Eh.
  assert (K : forall q, 0 <= q <= 1 -> exists r, cred_rows [h] q (alen x) (length nbins) = Ok r).
  { intros q Hq. destruct nbins as [|n1 nb]; [congruence|]. cbn [length cred_rows].
    destruct (cred_row_ok h q (seq 0 (alen x))) as [l ->].
    - intros k _. destruct (umc_hist_shape draw (UMCevaluate (alen b) x Delta bl al) order draw_len order_perm
        runs bs ri [100%nat] false g h Eg) with (k := k) as [M1 M2].
      + rewrite Eu. left; reflexivity.
      + rewrite Eh. lia.
      + apply cred_bound_ok; auto. rewrite Eh. lia.
    - cbn [bind]. eexists; reflexivity. }
  destruct (K ((1 - cred) / 2)) as [lo ->]; [lra|]. cbn [bind].
  destruct (K ((1 + cred) / 2)) as [hi ->]; [lra|]. cbn [bind]. eexists; reflexivity.
Qed.
End UMCf.
