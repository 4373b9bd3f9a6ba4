(** Lists as arguments: C127. *)
From Coq Require Import Reals List Arith ZArith Bool Lia Lra String.
From Verif Require Import Base M_Interp M_MC M_Tools M_More M_Seq S_Interp P_Interp T_Interp T_Tools.
Import ListNotations.
Open Scope R_scope.

(** ** C127: a list has the effect of the array with the same entries
    It holds for the kinds previous, next and nearest, and for the linear kind if no point
    lies within the range of the data; *)
Theorem C127_interp_partial : forall t_new t y uy k be fv fu srt rC,
  (k <> KLinear \/ forall i, (i < alen t_new)%nat -> t_new i < np_min t \/ np_max t < t_new i) ->
  interp1d_unc_seq true t_new t y uy k be fv fu srt rC = interp1d_unc t_new t y uy k be fv fu srt rC.
Proof.
  intros t_new t y uy k be fv fu srt rC H. unfold interp1d_unc_seq.
  destruct (interp1d_unc t_new t y uy k be fv fu srt rC) as [r|e]; [|reflexivity]. cbn [bind].
  destruct k; try reflexivity. destruct H as [H|H]; [contradiction|]. cbn [andb].
  destruct (existsb _ _) eqn:E; [|reflexivity]. apply existsb_exists in E. destruct E as (i & Ii & Ei).
  apply in_seq in Ii. destruct (H i ltac:(lia)) as [L|L]; unfold rltb in Ei.
  - destruct (Rlt_dec (t_new i) (np_min t)); [discriminate|lra].
  - destruct (Rlt_dec (np_max t) (t_new i)); [|lra]. rewrite orb_true_r in Ei. discriminate.
Qed.
(** but one point within the range is enough to raise an exception. *)
Theorem C127_linear_partial : forall t_new t y uy be fv fu srt rC o i,
  (i < alen t_new)%nat -> np_min t <= t_new i <= np_max t ->
  interp1d_unc_seq true t_new t y uy KLinear be fv fu srt rC <> Ok o.
Proof.
  intros t_new t y uy be fv fu srt rC o i Hi H. unfold interp1d_unc_seq.
  destruct (interp1d_unc t_new t y uy KLinear be fv fu srt rC) as [r|e]; [|discriminate]. cbn [bind andb].
  replace (existsb _ _) with true; [discriminate|]. symmetry. apply existsb_exists. exists i.
  split; [apply in_seq; lia|]. unfold rltb.
  destruct (Rlt_dec (t_new i) (np_min t)); [lra|]. destruct (Rlt_dec (np_max t) (t_new i)); [lra|]. reflexivity.
Qed.
Theorem C127_interp_refuted : exists t_new t y uy o,
  interp1d_unc_seq false t_new t y uy KLinear None (FFloat None) (FFloat None) true false = Ok o /\
  interp1d_unc_seq true t_new t y uy KLinear None (FFloat None) (FFloat None) true false = Err TypeError.
Proof.
  destruct (C40_linear_returns (of_list [1/2]) (of_list [0; 1]) (of_list [0; 2])
    (of_list [1; 1]) None (FFloat None) (FFloat None) 2) as [o E]; auto; try discriminate.
  { intros [|[|i]] [|[|j]] ? ?; try lia; cbn; lra. }
  { intros [|k] Hk; cbn in *; [lra|lia]. }
  exists (of_list [1/2]), (of_list [0; 1]), (of_list [0; 2]), (of_list [1; 1]), o.
  unfold interp1d_unc_seq. rewrite E. cbn [bind andb]. split; [reflexivity|].
  cbn. unfold rltb. replace (Rmin 0 1) with 0 by (symmetry; apply Rmin_left; lra).
  replace (Rmax 0 1) with 1 by (symmetry; apply Rmax_right; lra).
  destruct (Rlt_dec (1 / 2) 0); [lra|]. destruct (Rlt_dec 1 (1 / 2)); [lra|]. reflexivity.
Qed.
(** Unc of FreqResp2RealImag, the matrix of make_semiposdef and of print_mat: a list always
    raises an exception, the array does not (C21_means_partial, C19_semiposdef, C116). *)
Theorem C127_matrices_partial :
  (forall mvn Abs Phase Unc runs o, FreqResp2RealImag_seq true mvn Abs Phase Unc runs <> Ok o) /\
  (forall eigmin fuel M maxiter tol, make_semiposdef_seq true eigmin fuel M maxiter tol = Some (Err AttributeError)) /\
  (forall fmt M prec vertical retS, print_mat_seq true fmt M prec vertical retS = Err AttributeError) /\
  (forall mvn Abs Phase Unc runs, FreqResp2RealImag_seq false mvn Abs Phase Unc runs = FreqResp2RealImag mvn Abs Phase Unc runs).
Proof.
  split; [|split; [reflexivity|split; [reflexivity|]]].
  - intros mvn Abs Phase Unc runs o. unfold FreqResp2RealImag_seq. destruct (_ || _)%bool; discriminate.
  - intros mvn Abs Phase Unc runs. unfold FreqResp2RealImag_seq, FreqResp2RealImag. destruct (_ || _)%bool; reflexivity.
Qed.
Theorem C127_matrices_refuted : exists (mvn : vec -> mat -> nat -> nat -> vec) Abs Phase Unc runs o,
  FreqResp2RealImag_seq false mvn Abs Phase Unc runs = Ok o /\
  FreqResp2RealImag_seq true mvn Abs Phase Unc runs = Err AttributeError.
Proof.
  exists (fun mean _ _ _ => mean), (of_list [1]), (of_list [0]), (FrVec (of_list [1; 1])), 2%nat. eexists.
  split; reflexivity.
Qed.
Example C127_ex :
  (exists o, interp1d_unc_seq true (of_list [0]) (of_list [0; 1]) (of_list [0; 2]) (of_list [1; 1]) KPrevious None
     (FFloat None) (FFloat None) true false = Ok o) /\
  interp1d_unc_seq true (of_list [1/2; 2]) (of_list [0; 1]) (of_list [0; 2]) (of_list [1; 1]) KLinear None
     (FFloat None) (FFloat None) true false = Err ValueError.
Proof.
  split.
  - rewrite C127_interp_partial by (left; discriminate). unfold interp1d_unc, scipy_interp1d. cbn.
    unfold rltb. destruct (Rlt_dec 0 0), (Rlt_dec 1 0); try lra. cbn. eexists. reflexivity.
  - unfold interp1d_unc_seq, interp1d_unc, scipy_interp1d. cbn. unfold rltb.
    destruct (Rlt_dec (1/2) 0), (Rlt_dec 1 (1/2)), (Rlt_dec 2 0), (Rlt_dec 1 2); try lra. reflexivity.
Qed.
Print Assumptions C127_interp_partial.
Print Assumptions C127_linear_partial.
Print Assumptions C127_interp_refuted.
Print Assumptions C127_matrices_partial.
Print Assumptions C127_matrices_refuted.
