(** Vocabulary for the statements about multibodies and configurations as containers. *)
From Coq Require Import Reals String ZArith Bool Arith List.
From Verif Require Import Res Vec Sva Mat JointM MultiBodyM Spec.
Import ListNotations.
Open Scope nat_scope.

(** The intervals [pos_i, pos_i + size_i) follow one another and cover [0, total). *)
Definition tiles (pos size : list nat) (total : nat) : Prop :=
  length pos = length size /\
  (forall i, i < length size -> nth i pos 0 + nth i size 0 <= total) /\
  (forall i k, i < k < length size -> nth i pos 0 + nth i size 0 <= nth k pos 0) /\
  (forall p, p < total -> exists i, i < length size /\ nth i pos 0 <= p < nth i pos 0 + nth i size 0).

(** A call that either throws domain_error or returns: no undefined behaviour. *)
Definition defined {A} (r : res A) : Prop := r = Throw DomainError \/ exists a, r = Ok a.

(** A multibody obtained from the public constructor with one joint per body. *)
Definition constructed (mb : MultiBody) : Prop :=
  exists bodies joints pred succ parent Xt, length joints = length bodies /\
    MultiBody_ctor bodies joints pred succ parent Xt = Ok mb.
Definition joint_names (mb : MultiBody) : list string := map jname (mb_joints mb).
Definition body_names (mb : MultiBody) : list string := map bname (mb_bodies mb).
Definition distinct_names (mb : MultiBody) : Prop := NoDup (joint_names mb) /\ NoDup (body_names mb).
(** A configuration with one entry per joint and per body; the sizes of the entries are free. *)
Definition shaped (mb : MultiBody) (m : MBC) : Prop :=
  length (q m) = nrJoints mb /\ length (alpha m) = nrJoints mb /\ length (alphaD m) = nrJoints mb /\
  length (force m) = nrBodies mb.
