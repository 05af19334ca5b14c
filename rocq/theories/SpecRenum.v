(** One robot whose bodies are numbered in two ways: body and joint [i] of the first are number [s i] of the second. *)
From Coq Require Import Reals String ZArith Bool Arith List.
From Verif Require Import Res Vec Sva Mat JointM MultiBodyM Spec.
Import ListNotations.
Open Scope R_scope.

Record renumbered (s : nat -> nat) (mb mb' : MultiBody) : Prop := {
  rn_n : nrBodies mb' = nrBodies mb;
  rn_in : forall i, (i < nrBodies mb)%nat -> (s i < nrBodies mb)%nat;
  rn_inj : forall i j, (i < nrBodies mb)%nat -> (j < nrBodies mb)%nat -> s i = s j -> i = j;
  rn_body : forall i, (i < nrBodies mb)%nat -> nth_error (mb_bodies mb') (s i) = nth_error (mb_bodies mb) i;
  rn_joint : forall i, (i < nrBodies mb)%nat -> nth_error (mb_joints mb') (s i) = nth_error (mb_joints mb) i;
  rn_Xt : forall i, (i < nrBodies mb)%nat -> nth_error (mb_Xt mb') (s i) = nth_error (mb_Xt mb) i;
  rn_root : forall i, (i < nrBodies mb)%nat -> nth_error (mb_pred mb) i = Some (-1)%Z -> nth_error (mb_pred mb') (s i) = Some (-1)%Z;
  rn_pred : forall i p, (i < nrBodies mb)%nat -> nth_error (mb_pred mb) i = Some (Z.of_nat p) -> nth_error (mb_pred mb') (s i) = Some (Z.of_nat (s p))
}.
(** The same state. *)
Record renumbered_state (s : nat -> nat) (mb : MultiBody) (m m' : MBC) : Prop := {
  rs_q : forall i, (i < nrBodies mb)%nat -> nth (s i) (q m') [] = nth i (q m) [];
  rs_alpha : forall i, (i < nrBodies mb)%nat -> nth (s i) (alpha m') [] = nth i (alpha m) [];
  rs_alphaD : forall i, (i < nrBodies mb)%nat -> nth (s i) (alphaD m') [] = nth i (alphaD m) [];
  rs_force : forall i, (i < nrBodies mb)%nat -> nth (s i) (force m') sv0 = nth i (force m) sv0;
  rs_gravity : gravity m' = gravity m
}.
