(** Vocabulary for the statements about inverse statics and the ZMP. *)
From Coq Require Import Reals String ZArith Bool Arith List.
From Verif Require Import Res Vec Sva Mat JointM MultiBodyM Spec.
Import ListNotations.
Open Scope R_scope.

(** Zero for every degree of freedom. *)
Definition zero_dofs (mb : MultiBody) : list (list R) := map (fun j => repeat 0 (jdof j)) (mb_joints mb).

(** p is at the altitude h, and the moment about p of the force F applied at c, plus the couple
    C, has no horizontal component. *)
Definition zero_moment_point (c F C : V3) (h : R) (p : V3) : Prop :=
  vz p = h /\ vx (vadd (vcross (vsub c p) F) C) = 0 /\ vy (vadd (vcross (vsub c p) F) C) = 0.
