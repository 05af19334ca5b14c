(** Specification for C89: the precision of integration. *)
From Coq Require Import Reals List.
From Verif Require Import Res Vec Sva JointM MultiBodyM Spec SpecDeriv SpecInteg.
Import ListNotations.
Open Scope R_scope.

(** The length of a vector. *)
Definition len (a : V3) : R := sqrt (vx a * vx a + vy a * vy a + vz a * vz a).
(** Where a joint with parameters q puts the origin of its body, in the frame before the joint: a free joint gives
    the position itself, a planar one gives it in the turned frame. *)
Definition place (t : jtype) (q : list R) : V3 :=
  match t with
  | Free => mkV3 (co q 4) (co q 5) (co q 6)
  | Planar => mkV3 (cos (co q 0) * co q 1 - sin (co q 0) * co q 2) (sin (co q 0) * co q 1 + cos (co q 0) * co q 2) 0
  | _ => v0
  end.
(** The motion of a joint that is at q at time 0 and has velocity a + t d at every time t. *)
Definition true_motion (j : Joint) (q a d : list R) (c : R -> list R) : Prop :=
  c 0 = q /\ (forall t, length (c t) = jparams j) /\
  forall t a', speed_up t a d a' -> follows j c t a'.
(** The axis of the rotation does not turn (planar joints have one axis only). *)
Definition one_axis (t : jtype) (a d : list R) : Prop :=
  match t with Spherical | Free => vcross (ang a) (ang d) = v0 | _ => True end.
(** The joint turns with constant angular velocity. *)
Definition steady_turn (t : jtype) (d : list R) : Prop :=
  match t with Spherical | Free => ang d = v0 | Planar => co d 0 = 0 | _ => True end.
(** p5 is the fifth derivative of p. *)
Definition fifth (p p5 : R -> V3) : Prop :=
  exists p1 p2 p3 p4, forall t, derivV p t (p1 t) /\ derivV p1 t (p2 t) /\ derivV p2 t (p3 t) /\ derivV p3 t (p4 t) /\ derivV p4 t (p5 t).
(** During the step the fifth derivative of the position is at no time longer than at the beginning and at the end. *)
Definition bent_at_ends (t : jtype) (c : R -> list R) (h : R) : Prop :=
  exists p5, fifth (fun s => place t (c s)) p5 /\
    forall s, 0 <= s <= h -> len (p5 s) <= len (p5 0) \/ len (p5 s) <= len (p5 h).
(** The same orientation, and a distance of at most prec; all parameters equal for joints that do not turn a translation. *)
Definition within (prec : R) (t : jtype) (x y : list R) : Prop :=
  match t with
  | Free => (forall k, (k < 4)%nat -> co x k = co y k) /\ len (vsub (place Free x) (place Free y)) <= prec
  | Planar => co x 0 = co y 0 /\ len (vsub (place Planar x) (place Planar y)) <= prec
  | _ => x = y
  end.
