(** Two robots that differ only by the direction of some joints, and states of the two in which the coordinates of
    these joints have opposite signs. *)
From Coq Require Import Reals String ZArith Bool Arith List.
From Verif Require Import Res Vec Sva Mat JointM MultiBodyM Spec SpecHold.
Import ListNotations.
Open Scope R_scope.

(** A joint with its position, velocity and acceleration, and what stands in its place; [t] tells if it is turned. *)
Inductive same_or_turned (t : bool) (j : Joint) (qj aj dj : list R) (j' : Joint) (qj' aj' dj' : list R) : Prop :=
| not_turned : t = false -> j' = j -> qj' = qj -> aj' = aj -> dj' = dj -> same_or_turned t j qj aj dj j' qj' aj' dj'
| turned : t = true -> jtyp j = Rev \/ jtyp j = Prism \/ jtyp j = Cylindrical ->
    j' = set_forward j (negb (jfwd j)) -> qj' = map Ropp qj -> aj' = map Ropp aj -> dj' = map Ropp dj ->
    same_or_turned t j qj aj dj j' qj' aj' dj'.
Definition turned_state (t : nat -> bool) (mb : MultiBody) (m : MBC) (mb' : MultiBody) (m' : MBC) : Prop :=
  gravity m' = gravity m /\ force m' = force m /\
  forall i, (i < nrBodies mb)%nat ->
    same_or_turned (t i) (nth i (mb_joints mb) jd) (nth i (q m) []) (nth i (alpha m) []) (nth i (alphaD m) [])
                   (nth i (mb_joints mb') jd) (nth i (q m') []) (nth i (alpha m') []) (nth i (alphaD m') []).
(** The sign of the coordinates of a joint. *)
Definition sgn (t : bool) : R := if t then -1 else 1.
(** The signs of the columns of a matrix over the joints of a path, and such a matrix with its columns so multiplied. *)
Definition path_signs (t : nat -> bool) (mb : MultiBody) (path : list nat) : list R :=
  concat (map (fun k => repeat (sgn (t k)) (jdof (nth k (mb_joints mb) jd))) path).
Definition columns_times (s : list R) (M : list SV) : list SV := map (fun e => svscale (fst e) (snd e)) (combine s M).
