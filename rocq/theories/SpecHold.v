(** Two robots that differ only by some joints, which are fixed in the second, and states of the two in which the
    first does not use these joints. *)
From Coq Require Import Reals String ZArith Bool Arith List.
From Verif Require Import Res Vec Sva Mat JointM MultiBodyM Spec.
Import ListNotations.
Open Scope R_scope.

(** The same bodies, the same tree and the same placements of the joints. *)
Record same_tree (mb mb' : MultiBody) : Prop := {
  st_bodies : mb_bodies mb' = mb_bodies mb;
  st_pred : mb_pred mb' = mb_pred mb;
  st_Xt : mb_Xt mb' = mb_Xt mb
}.
(** A joint with its position, velocity and acceleration, and what stands in its place. *)
Inductive kept_or_held (j : Joint) (qj aj dj : list R) (j' : Joint) (qj' aj' dj' : list R) : Prop :=
| kept : j' = j -> qj' = qj -> aj' = aj -> dj' = dj -> kept_or_held j qj aj dj j' qj' aj' dj'
| held : jtyp j' = Fixed -> pose j qj = Ok ptid -> (forall x, In x aj -> x = 0) -> (forall x, In x dj -> x = 0) ->
    kept_or_held j qj aj dj j' qj' aj' dj'.
Definition held_state (mb : MultiBody) (m : MBC) (mb' : MultiBody) (m' : MBC) : Prop :=
  gravity m' = gravity m /\ force m' = force m /\
  forall i, (i < nrBodies mb)%nat ->
    kept_or_held (nth i (mb_joints mb) jd) (nth i (q m) []) (nth i (alpha m) []) (nth i (alphaD m) [])
                 (nth i (mb_joints mb') jd) (nth i (q m') []) (nth i (alpha m') []) (nth i (alphaD m') []).
