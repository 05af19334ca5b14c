(** Vocabulary for statements about the derivatives of the torques of inverse statics. *)
From Coq Require Import Reals String ZArith Bool Arith List.
From Verif Require Import Res Vec Sva Mat JointM MultiBodyM KinM JacM MomM ISM Spec SpecDyn.
Import ListNotations.
Open Scope R_scope.

(** The Jacobians of the external forces given to one call: one per body, empty or with six rows
    and N columns. The first columns are for the configuration; N is the number of degrees of
    freedom unless some Jacobian has further columns, for further variables of the forces. *)
Definition force_jacobians (mb : MultiBody) (N : nat) (jacs : list Mat) : Prop :=
  length jacs = nrBodies mb /\ (mb_nrDof mb <= N)%nat /\
  (forall JF, In JF jacs -> mcols JF = 0%nat \/ mrows JF = 6%nat /\ mcols JF = N) /\
  (N = mb_nrDof mb \/ exists JF, In JF jacs /\ mcols JF = N).
(** The states an object can reach: constructed, then called any number of times, after forward
    kinematics and velocity, with Jacobians of the same width. *)
Inductive is_object (mb : MultiBody) (N : nat) : ISd -> Prop :=
| iso_new g gf s : ISd_ctor g gf mb = Ok s -> is_object mb N s
| iso_call m0 m jacs s s' m' : is_object mb N s -> mbc_ok mb m0 -> config_ok mb m0 -> after_kinematics mb m0 m ->
    force_jacobians mb N jacs -> computeTorqueJacobianJoint mb m jacs s = Ok (s', m') -> is_object mb N s'.
(** Every joint that connects two bodies turns about one axis or is fixed. The joints that connect
    a body to the world may be of any type. *)
Definition inner_revolute (mb : MultiBody) : Prop :=
  forall i j p, nth_error (mb_joints mb) i = Some j -> nth_error (mb_pred mb) i = Some p -> p <> (-1)%Z -> jtyp j = Rev \/ jtyp j = Fixed.
(** Every body is found under its name: the names are distinct and the map of names is the one of
    the constructor. *)
Definition names_found (mb : MultiBody) : Prop :=
  forall i b, nth_error (mb_bodies mb) i = Some b -> sBodyIndexByName mb (bname b) = Ok (Z.of_nat i).
