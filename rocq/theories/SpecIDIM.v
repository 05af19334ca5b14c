(** Vocabulary for the statements about the identification model. *)
From Coq Require Import Reals String ZArith Bool Arith List.
From Verif Require Import Res Vec Sva Mat JointM MultiBodyM Spec SpecDyn.
Import ListNotations.
Open Scope R_scope.

(** Y is the matrix of an IDIM object of mb: the entries of the joints that do not move body i
    are zero in the ten columns of body i; the other entries are arbitrary. *)
Record idim_of (mb : MultiBody) (Y : Mat) : Prop := {
  io_rows : mrows Y = mb_nrDof mb;
  io_cols : mcols Y = (nrBodies mb * 10)%nat;
  io_zero : forall i j a c, (i < nrBodies mb)%nat -> (j < nrBodies mb)%nat -> ~ anc mb j i ->
     (a < dofi mb j)%nat -> (c < 10)%nat -> ment Y (pos mb j + a) (i * 10 + c) = 0
}.
(** The same robot with other inertial parameters. *)
Definition with_bodies (bs : list Body) (mb : MultiBody) : MultiBody :=
  mkMB bs (mb_joints mb) (mb_pred mb) (mb_succ mb) (mb_parent mb) (mb_Xt mb) (mb_bodyInd mb) (mb_jointInd mb)
       (mb_posParam mb) (mb_posDof mb) (mb_nrParams mb) (mb_nrDof mb).
