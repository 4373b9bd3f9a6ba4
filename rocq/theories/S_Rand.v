(** Specification vocabulary: repeated independent draws (no model definition is used). *)
From Coq Require Import Reals List Arith.
From Verif Require Import Base Stats.
Import ListNotations.
Open Scope R_scope.

(** [D] is a random sequence of outcomes.  The draws number s, ..., s+r-1 all follow the
    distribution [d] and any two of them are independent. *)
Definition iid {A} (s r : nat) (D : dist (nat -> A)) (d : dist A) : Prop :=
  is_prob D /\ is_prob d /\
  (forall k (f : A -> R), (s <= k < s + r)%nat -> Ex D (fun w => f (w k)) = Ex d f) /\
  (forall k l (f g : A -> R), (s <= k < s + r)%nat -> (s <= l < s + r)%nat -> k <> l ->
     Ex D (fun w => f (w k) * g (w l)) = Ex d f * Ex d g).

(** Every sequence of r draws from d that can occur, with its probability; a0 fills up. *)
Fixpoint repeated {A} (a0 : A) (d : dist A) (r : nat) : dist (nat -> A) :=
  match r with
  | O => [(1, fun _ => a0)]
  | S m => map (fun q => (fst q, fun k => if (k =? m)%nat then snd (snd q) else fst (snd q) k))
               (indep (repeated a0 d m) d)
  end.
