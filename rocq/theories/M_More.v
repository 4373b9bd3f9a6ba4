(** Remaining functions: misc/SecondOrderSystem.py sos_absphase, misc/filterstuff.py db,
    misc/tools.py print_vec, print_mat, and the deprecated entry points in
    PyDynamic/deconvolution and PyDynamic/identification. *)
From Coq Require Import Reals String Ascii List Arith ZArith Bool.
From Verif Require Import Base Cplx M_DFT M_Noise M_FilterStuff M_Fit.
Import ListNotations.
Local Notation length := Datatypes.length.
Open Scope R_scope.

(** SecondOrderSystem.py:147-186 sos_absphase, with ua of line 22 (numpy.unwrap works along
    the last axis: the runs).  [z*]: values handed out by randn; one run or a vanishing
    denominator: nan, [None]. *)
Definition sos_absphase (S_ d f0 uS ud uf0 : R) (f : vec) (runs : nat) (zS zd zf : vec)
  : option (arr C * mat) :=
  let SMC := sos_draw S_ uS zS in
  let dMC := sos_draw d ud zd in
  let fMC := sos_draw f0 uf0 zf in
  let H := fun i k => match sos_entry (SMC k) (dMC k) (fMC k) (f i) with Some h => h | None => C0 end in
  let bad := existsb (fun i => existsb (fun k =>
               match sos_entry (SMC k) (dMC k) (fMC k) (f i) with Some _ => false | None => true end)
               (seq 0 runs)) (seq 0 (alen f)) in
  if (bad || (runs <=? 1)%nat)%bool then None
  else
    let n := alen f in
    let row := fun i k => if (i <? n)%nat then cabs (H i k) else ua (mkArr runs (H (i - n)%nat)) k in
    let mu := fun i => rsum runs (row i) / INR runs in
    Some (mkArr n (fun i => (rsum runs (fun k => fst (H i k)) / INR runs,
                             rsum runs (fun k => snd (H i k)) / INR runs)),
          mkMat (2 * n) (2 * n) (fun i j =>
            rsum runs (fun k => (row i k - mu i) * (row j k - mu j)) / INR (runs - 1))).

(** filterstuff.py:35-37 db: 20 log10 |x|, [None] for minus infinity. *)
Definition db (vals : arr C) : arr (option R) :=
  mkArr (alen vals) (fun i => let m := cabs (vals i) in
                              if Req_EM_T m 0 then None else Some (20 * (ln m / ln 10))).

(** tools.py:102-129 print_vec, 132-164 print_mat.  [fmt prec v]: the text of "%1.*g" % (prec, v).
    retS: the string is returned, otherwise printed (followed by a newline). *)
Inductive text_out := Returned (s : string) | Printed (s : string).
Definition tab : ascii := "009"%char.
Definition newline : ascii := "010"%char.
Definition vec_text (fmt : Z -> R -> string) (v : vec) (prec : Z) (vertical : bool) : string :=
  String.concat "" (map (fun i => fmt prec (v i) ++ " " ++ String (if vertical then newline else tab) "")%string
                        (seq 0 (alen v))).
Definition print_vec (fmt : Z -> R -> string) (v : vec) (prec : Z) (retS vertical : bool) : text_out :=
  let s := vec_text fmt v prec vertical in
  if retS then Returned s else Printed (s ++ String newline "")%string.
Definition print_mat (fmt : Z -> R -> string) (M : mat) (prec : Z) (vertical retS : bool) : text_out :=
  let M' := if vertical then transp M else M in
  let s := String.concat "" (map (fun k => vec_text fmt (mkArr (mcols M') (fun j => M' k j)) prec false
                                           ++ String newline "")%string
                                 (seq 0 (mrows M'))) in
  if retS then Returned s else Printed (s ++ String newline "")%string.

(** deconvolution/fit_filter.py:63-103: keyword arguments are passed on by name. *)
Definition deconv_LSFIR lstsq H N tau f Fs Wt := invLSFIR lstsq H N tau f Fs Wt.
Definition deconv_LSFIR_unc mvn svd H UH N tau f Fs wt trunc_svd_tol runs :=
  invLSFIR_unc mvn svd H UH N tau f Fs wt trunc_svd_tol runs.
Definition deconv_LSFIR_uncMC mvn lstsq H UH N tau f Fs runs :=
  invLSFIR_uncMC mvn lstsq H UH N tau f Fs runs.
Definition deconv_LSIIR lstsq roots fuel Hvals Nb Na f Fs tau justFit :=
  invLSIIR lstsq roots fuel Hvals Nb Na f Fs tau justFit.
Definition deconv_LSIIR_unc mvn lstsq roots H UH Nb Na f Fs tau runs :=
  invLSIIR_unc mvn lstsq roots H UH Nb Na f Fs tau runs.
(** identification/fit_transfer.py:32-34 *)
Definition fit_sos solve inv mvn z runs0 f H UH weighting MCruns scaling :=
  fit_som solve inv mvn z runs0 f H UH weighting MCruns scaling.
