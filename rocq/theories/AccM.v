(** Model of the indexed accessors and of the setters of src/RBDyn/RBDyn/MultiBody.h that take
    an int, and of the python accessors of src/RBDyn/MultiBodyConfig.cpp. The vectors of a
    multibody are indexed by an int cast to size_t: a negative int becomes a huge index. *)
From Coq Require Import Reals String ZArith Bool Arith List.
From Verif Require Import Res SMap Vec Sva Mat JointM MultiBodyM.
Import ListNotations.
Open Scope R_scope.

(** MultiBody.h 74-77, 92-95, 104-107, 116-119, 128-131, 146-149, 182-191: body, joint,
    predecessor, successor, parent, transform, jointPosInParam and jointPosInDof, without
    check. *)
Definition body (mb : MultiBody) (i : Z) : res Body := getz (mb_bodies mb) i.
Definition joint (mb : MultiBody) (i : Z) : res Joint := getz (mb_joints mb) i.
Definition predecessor (mb : MultiBody) (i : Z) : res Z := getz (mb_pred mb) i.
Definition successor (mb : MultiBody) (i : Z) : res Z := getz (mb_succ mb) i.
Definition parent (mb : MultiBody) (i : Z) : res Z := getz (mb_parent mb) i.
Definition transform (mb : MultiBody) (i : Z) : res PT := getz (mb_Xt mb) i.
Definition jointPosInParam (mb : MultiBody) (i : Z) : res nat := getz (mb_posParam mb) i.
Definition jointPosInDof (mb : MultiBody) (i : Z) : res nat := getz (mb_posDof mb) i.

(** MultiBody.h 80-83 and 152-155: body(num, b) and transform(num, Xt), without check. *)
Definition put_body (mb : MultiBody) (i : Z) (b : Body) : res MultiBody :=
  if (i <? 0)%Z then UB else set_body mb (Z.to_nat i) b.
Definition put_transform (mb : MultiBody) (i : Z) (X : PT) : res MultiBody :=
  if (i <? 0)%Z then UB else set_transform mb (Z.to_nat i) X.

(** [v.at(i) = x] with an int index cast to size_t. *)
Definition at_set {A} (l : list A) (i : Z) (x : A) : res (list A) :=
  if (i <? 0)%Z then Throw OutOfRange
  else if (Z.to_nat i <? length l)%nat then set l (Z.to_nat i) x else Throw OutOfRange.
(** MultiBody.h 244-247 and 306-309: sBody(num, b) and sTransform(num, Xt). *)
Definition sPutBody (mb : MultiBody) (i : Z) (b : Body) : res MultiBody :=
  bs <- at_set (mb_bodies mb) i b ;; Ok (mb_with_bodies mb bs).
Definition sPutTransform (mb : MultiBody) (i : Z) (X : PT) : res MultiBody :=
  xs <- at_set (mb_Xt mb) i X ;; Ok (mb_with_Xt mb xs).

(** MultiBodyConfig.cpp 59-69, python_motionSubspace(): each 6 x n matrix as a dynamic one. *)
Definition smat_to_mat (M : list SV) : Mat :=
  mkMat 6 (length M)
    (fun r c => let s := nth c M sv0 in
       match r with
       | 0%nat => vx (sang s) | 1%nat => vy (sang s) | 2%nat => vz (sang s)
       | 3%nat => vx (slin s) | 4%nat => vy (slin s) | _ => vz (slin s) end).
Definition python_getMotionSubspace (m : MBC) : list Mat := map smat_to_mat (motionSubspace m).
(** MultiBodyConfig.cpp 71-78, python_motionSubspace(v): assigning a dynamic matrix to one
    with six rows is an assertion of Eigen on the number of rows, undefined otherwise. *)
Definition mat_to_smat (M : Mat) : res (list SV) :=
  if (mrows M =? 6)%nat
  then Ok (map (fun c => mkSV (mkV3 (ment M 0 c) (ment M 1 c) (ment M 2 c))
                              (mkV3 (ment M 3 c) (ment M 4 c) (ment M 5 c))) (seq 0 (mcols M)))
  else UB.
Definition python_setMotionSubspace (v : list Mat) (m : MBC) : res MBC :=
  ms <- map_res mat_to_smat v ;; Ok (with_motionSubspace ms m).
