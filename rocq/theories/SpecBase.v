(** Specification for C88. *)
From Coq Require Import Reals ZArith List.
From Verif Require Import Res Vec Sva JointM MultiBodyM.
Import ListNotations.

(** Two states whose joints other than the roots have the same q. *)
Definition same_inside (mb : MultiBody) (m m' : MBC) : Prop :=
  forall i, (i < nrBodies mb)%nat -> nth_error (mb_pred mb) i <> Some (-1)%Z -> nth i (q m) [] = nth i (q m') [].
(** With neither gravity nor external forces. *)
Definition weightless (mb : MultiBody) (m : MBC) : Prop :=
  gravity m = v0 /\ forall i, (i < nrBodies mb)%nat -> nth i (force m) sv0 = sv0.
