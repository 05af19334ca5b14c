(** Vocabulary for numerical integration. *)
From Coq Require Import Reals List.
From Verif Require Import Res Vec Sva JointM MultiBodyM IntegM Spec SpecDeriv.
Import ListNotations.
Open Scope R_scope.

(** x' is where x gets after the time h with initial rate v and constant acceleration a, one
    number at a time. *)
Definition drift (h : R) (x v a x' : list R) : Prop :=
  length x' = length x /\ forall k, (k < length x)%nat -> co x' k = co x k + co v k * h + co a k * (h * h) / 2.
(** v + h a, one number at a time. *)
Definition speed_up (h : R) (v a v' : list R) : Prop :=
  length v' = length v /\ forall k, (k < length v)%nat -> co v' k = co v k + co a k * h.
(** Joint types with several rotation axes, or with a rotation and a translation in the rotated frame. *)
Definition curved (t : jtype) : Prop := t = Planar \/ t = Spherical \/ t = Free.
(** Only q and alpha may differ. *)
Definition only_q_alpha (m m' : MBC) : Prop := m' = with_alpha (alpha m') (with_q (q m') m).
(** Joints for which velocity a + t d at time t moves around, or along, directions that do not
    turn: rotation about a fixed axis, and no translation of a frame that turns. *)
Definition ang (a : list R) : V3 := mkV3 (co a 0) (co a 1) (co a 2).
Definition lin (a : list R) : V3 := mkV3 (co a 3) (co a 4) (co a 5).
Definition steady (t : jtype) (a d : list R) : Prop :=
  match t with
  | Rev | Prism | Cylindrical | Fixed => True
  | Spherical => vcross (ang a) (ang d) = v0
  | Planar => (co a 0 = 0 /\ co d 0 = 0) \/ (co a 1 = 0 /\ co a 2 = 0 /\ co d 1 = 0 /\ co d 2 = 0)
  | Free => vcross (ang a) (ang d) = v0 /\ ((ang a = v0 /\ ang d = v0) \/ (lin a = v0 /\ lin d = v0))
  end.

(** A simulation: before each call of integration the caller chooses the acceleration. *)
Fixpoint simulate (fuel : nat) (mb : MultiBody) (prec : R) (l : list (R * list (list R))) (m : MBC) : res MBC :=
  match l with
  | [] => Ok m
  | (h, d) :: l => m' <- integration fuel mb (with_alphaD d m) h prec ;; simulate fuel mb prec l m'
  end.
(** The step is not negative, or no joint turns a frame while it translates it. *)
Definition step_fits (mb : MultiBody) (h : R) : Prop := 0 <= h \/ forall j, In j (mb_joints mb) -> jtyp j <> Planar /\ jtyp j <> Free.
