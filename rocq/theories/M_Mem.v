(** Model of the branches of PyDynamic/uncertainty/propagate_DFT.py that are taken when the
    covariance matrix cannot be assembled for lack of memory (330-341, 1021-1028).

    [fits]: whether np.vstack/np.hstack of the blocks (lines 327-329, 1019) find enough memory.
    MemoryErrors anywhere else are not modelled; print() is dropped.  The code before these
    lines is that of M_DFT.v, repeated here with the other result type. *)
From Coq Require Import Reals List Arith ZArith Bool String.
From Verif Require Import Base M_DFT.
Import ListNotations.
Open Scope R_scope.

(** An array, or the tuple (A, B, C) of blocks. *)
Inductive mem_unc := MArr (u : funcert) | MBlocks (A B D : mat).

(** ** propagate_DFT.py:189-346 GUM_DFT *)
Definition GUM_DFT_mem (fits : bool) (x : vec) (Ux : sunc) (N : option Z) (window : option vec)
           (CxCos CxSin : option mat) (returnC : bool) (mask : option (arr bool))
  : res (vec * mem_unc * option (option mat * option mat)) :=
  (* 253-254 *)
  do (x, Ux) <- match window with
                 | Some w => apply_window x Ux w
                 | None => Ok (x, Ux)
                 end ;;
  (* 255-268 zero padding *)
  do (xp, L) <- match N with
                 | Some z =>
                     if (z <? Z.of_nat (alen x))%Z then Err ValueError
                     else let L := (Z.to_nat z - alen x)%nat in
                          Ok (cat x (mkArr L (fun _ => 0)), L)
                 | None => Ok (x, 0%nat)
                 end ;;
  let n := alen xp in
  let M := if Nat.even n then (n + 2)%nat else (n + 1)%nat in   (* 270-273 *)
  do (re, im) <- rfft xp ;;
  (* 275-291 *)
  do idx <- match mask with
            | Some m => if (alen m =? alen re)%nat then Ok (true_idx m) else Err IndexError
            | None => Ok (seq 0 (alen re))
            end ;;
  let F := cat (take_list re idx) (take_list im idx) in
  let nx := (n - L)%nat in
  match Ux with
  | SuFloat u =>
      (* 304-317 *)
      let UF := cat (take_list (fun k => rsum nx (fun m => u * Cxkc n k m ^ 2)) idx)
                    (take_list (fun k => rsum nx (fun m => u * Cxks n k m ^ 2)) idx) in
      Ok (F, MArr (FuVec UF), if returnC then Some (CxCos, CxSin) else None)
  | _ =>
      (* 318-330 *)
      let U := match Ux with SuMat U => U | SuVec v => diagm v | SuFloat _ => zeros2 0 0 end in
      do (cc, cs) <- match CxCos with
        | None =>
            Ok (mkMat (List.length idx) nx (fun i m => Cxkc n (nth i idx 0%nat) m),
                mkMat (List.length idx) nx (fun i m => Cxks n (nth i idx 0%nat) m))
        | Some cc => match CxSin with Some cs => Ok (cc, cs) | None => Err AttributeError end
        end ;;
      do t1 <- dot U (transp cc) ;; do UFCC <- dot cc t1 ;;
      do t2 <- dot U (transp cs) ;; do UFCS <- dot cc t2 ;;
      do UFSS <- dot cs t2 ;;
      (* 326-341 *)
      do UF <- (if fits then do UF <- stack4 UFCC UFCS (transp UFCS) UFSS ;; Ok (MArr (FuMat UF))
                else Ok (MBlocks UFCC UFCS UFSS)) ;;
      Ok (F, UF, if returnC then Some (Some cc, Some cs) else None)
  end.

(** ** propagate_DFT.py:923-1030 DFT_deconv *)
Definition DFT_deconv_mem (fits : bool) (H Y : vec) (UH UY : apunc) : res (vec * mem_unc) :=
  if negb (alen H =? alen Y)%nat then Err ValueError
  else
    match UH with
    | ApDia _ => Err TypeError
    | _ =>
      if Nat.odd (ap_len UH) then Err ValueError
      else if negb match UY with
                   | ApVec v => (alen v =? alen Y)%nat
                   | ApMat m => (mrows m =? alen Y)%nat && (mcols m =? alen Y)%nat
                   | ApDia d => (2 * dia_half d =? alen Y)%nat
                   end then Err ValueError
      else if negb match UH with
                   | ApVec v => (alen v =? alen H)%nat
                   | ApMat m => (mrows m =? alen H)%nat && (mcols m =? alen H)%nat
                   | ApDia d => (2 * dia_half d =? alen H)%nat
                   end then Err ValueError
      else
        let h := (alen H / 2)%nat in
        let rH := slice H 0 h in let iH := slice H h (alen H) in
        let rY := slice Y 0 h in let iY := slice Y h (alen Y) in
        let norm := mkArr h (fun k => rH k ^ 2 + iH k ^ 2) in
        (* 993-995: complex quotient *)
        let X := cat (mkArr h (fun k => (rY k * rH k + iY k * iH k) / (rH k ^ 2 + iH k ^ 2)))
                     (mkArr h (fun k => (iY k * rH k - rY k * iH k) / (rH k ^ 2 + iH k ^ 2))) in
        let RY := cat (mkArr h (fun k => rH k / norm k)) (mkArr h (fun k => iH k / norm k)) in
        let IY := cat (mkArr h (fun k => - iH k / norm k)) (mkArr h (fun k => rH k / norm k)) in
        let RH := cat
          (mkArr h (fun k => (- rY k * rH k ^ 2 + rY k * iH k ^ 2 - 2 * iY k * iH k * rH k) / norm k ^ 2))
          (mkArr h (fun k => (iY k * rH k ^ 2 - iH k * iH k ^ 2 - 2 * rY k * rH k * iH k) / norm k ^ 2)) in
        let IH := cat
          (mkArr h (fun k => (- iY k * rH k ^ 2 + iY k * iH k ^ 2 + 2 * rY k * iH k * rH k) / norm k ^ 2))
          (mkArr h (fun k => (- rY k * rH k ^ 2 + rY k * iH k ^ 2 - 2 * iY k * rH k * iH k) / norm k ^ 2)) in
        do a <- matprod UY RY RY ;; do a' <- matprod UH RH RH ;; do URRX <- add2 a a' ;;
        do b <- matprod UY RY IY ;; do b' <- matprod UH RH IH ;; do URIX <- add2 b b' ;;
        do c <- matprod UY IY IY ;; do c' <- matprod UH IH IH ;; do UIIX <- add2 c c' ;;
        (* 1018-1028 *)
        do UX <- (if fits then do UX <- stack4 URRX URIX (transp URIX) UIIX ;; Ok (MArr (FuMat UX))
                  else Ok (MBlocks URRX URIX UIIX)) ;;
        Ok (X, UX)
    end.

(** ** Functions that take the covariance.  Their first access is UF.shape (line 408 of
    GUM_iDFT; line 542 of DFT2AmpPhase, after amplitudes and phases have been calculated,
    lines 533-541, which fails only for an F of odd length whose two halves cannot be
    broadcast): a tuple has no such attribute. *)
Definition GUM_iDFT_mem (F : vec) (UF : mem_unc) (Nx : option nat) (Cc Cs : option mat) :=
  match UF with
  | MArr u => GUM_iDFT F u Nx Cc Cs
  | MBlocks _ _ _ => Err AttributeError
  end.
Definition DFT2AmpPhase_mem (F : vec) (UF : mem_unc) (keep_sparse : bool) : res (vec * vec * cunc2) :=
  match UF with
  | MArr u => DFT2AmpPhase F u keep_sparse
  | MBlocks _ _ _ => do _ <- bdim (alen F / 2) (alen F - alen F / 2) ;; Err AttributeError
  end.
(** ** propagate_DFT.py:714-738 Time2AmpPhase *)
Definition Time2AmpPhase_mem (fits : bool) (x : vec) (Ux : sunc) : res (vec * vec * cunc2) :=
  do (F, UF, C) <- GUM_DFT_mem fits x Ux None None None None false None ;;
  DFT2AmpPhase_mem F UF false.
