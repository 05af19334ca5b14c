(** One robot and one state written in two systems of units of time and mass: numbers of masses are [c] times, numbers of
    velocities [k] times, and numbers of accelerations [k * k] times as large. *)
From Coq Require Import Reals String ZArith Bool Arith List.
From Verif Require Import Res Vec Sva Mat JointM MultiBodyM Spec.
Import ListNotations.
Open Scope R_scope.

Definition sym_times (c : R) (I : Sym3) : Sym3 := mkSym (c * sxx I) (c * sxy I) (c * sxz I) (c * syy I) (c * syz I) (c * szz I).
Definition body_times (c : R) (b : Body) : Body :=
  mkBody (mkRBI (c * imass (binertia b)) (vscale c (imom (binertia b))) (sym_times c (iine (binertia b)))) (bname b).
Definition numbers_times (k : R) (v : list (list R)) : list (list R) := map (map (Rmult k)) v.
Record other_units (k c : R) (mb : MultiBody) (m : MBC) (mb' : MultiBody) (m' : MBC) : Prop := {
  ou_bodies : mb_bodies mb' = map (body_times c) (mb_bodies mb);
  ou_joints : mb_joints mb' = mb_joints mb;
  ou_pred : mb_pred mb' = mb_pred mb;
  ou_Xt : mb_Xt mb' = mb_Xt mb;
  ou_q : q m' = q m;
  ou_alpha : alpha m' = numbers_times k (alpha m);
  ou_alphaD : alphaD m' = numbers_times (k * k) (alphaD m);
  ou_gravity : gravity m' = vscale (k * k) (gravity m);
  ou_force : force m' = map (svscale (c * (k * k))) (force m)
}.
