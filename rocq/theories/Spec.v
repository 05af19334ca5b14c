(** The vocabulary used by the statements of the properties: what a well-formed
    multibody and a well-shaped configuration are, root paths, sums. Nothing here
    depends on how the algorithms work. *)
From Coq Require Import Reals String ZArith Bool Arith List.
From Verif Require Import Res Vec Sva Mat JointM MultiBodyM.
Import ListNotations.
Open Scope R_scope.

(** Default value for out-of-range joint and body indices; never meets an in-range statement. *)
Definition jd : Joint := mkJfixed EmptyString.
Definition bd : Body := mkBody rbi0 EmptyString.

(** ** Joints obtainable through the public interface (constructors, makeMimic,
    forward(bool)), with the axis they were built with. *)
Inductive built (a : V3) : Joint -> Prop :=
| built_ctor t fwd nm : built a (mkJ t a fwd nm)
| built_mimic j nm mul off : built a j -> built a (makeMimic j nm mul off)
| built_forward j fwd : built a j -> built a (set_forward j fwd).

Definition joint_ok (j : Joint) : Prop := exists a, built a j.
(** ... with an axis of unit length. *)
Definition joint_unit (j : Joint) : Prop := exists a, vdot a a = 1 /\ built a j.

(** A parameter vector of the right size whose quaternion, if any, is a unit one. *)
Definition quat_unit (q : list R) : Prop :=
  nth 0 q 0 * nth 0 q 0 + nth 1 q 0 * nth 1 q 0 + nth 2 q 0 * nth 2 q 0 + nth 3 q 0 * nth 3 q 0 = 1.
Definition q_ok (j : Joint) (q : list R) : Prop :=
  length q = jparams j /\
  match jtyp j with Spherical | Free => quat_unit q | _ => True end.

(** ** Well-formed multibody: one joint per body, the predecessor of a joint is a
    body of smaller index or none (-1), the successor of joint i is body i. *)
Record wf_mb (mb : MultiBody) : Prop := {
  wf_joints : length (mb_joints mb) = nrBodies mb;
  wf_pred_len : length (mb_pred mb) = nrBodies mb;
  wf_succ_len : length (mb_succ mb) = nrBodies mb;
  wf_parent_len : length (mb_parent mb) = nrBodies mb;
  wf_Xt_len : length (mb_Xt mb) = nrBodies mb;
  wf_pred : forall i, (i < nrBodies mb)%nat ->
      nth i (mb_pred mb) 0%Z = (-1)%Z \/ (0 <= nth i (mb_pred mb) 0%Z < Z.of_nat i)%Z;
  wf_succ : forall i, (i < nrBodies mb)%nat -> nth i (mb_succ mb) 0%Z = Z.of_nat i;
  wf_parent : mb_parent mb = mb_pred mb;
  wf_joint_ok : forall j, In j (mb_joints mb) -> joint_ok j;
  wf_posDof : forall i, (i < nrBodies mb)%nat ->
      nth_error (mb_posDof mb) i = Some (list_sum (map jdof (firstn i (mb_joints mb))));
  wf_posParam : forall i, (i < nrBodies mb)%nat ->
      nth_error (mb_posParam mb) i = Some (list_sum (map jparams (firstn i (mb_joints mb))));
  wf_nrDof : mb_nrDof mb = list_sum (map jdof (mb_joints mb));
  wf_nrParams : mb_nrParams mb = list_sum (map jparams (mb_joints mb))
}.

(** Joint axes are unit vectors and joint placements are rigid. *)
Definition rigid_mb (mb : MultiBody) : Prop :=
  (forall j, In j (mb_joints mb) -> joint_unit j) /\
  (forall X, In X (mb_Xt mb) -> SO3 (rotE X)).

(** ** Configurations with the sizes given by MultiBodyConfig(mb). *)
Definition sized {A} (mb : MultiBody) (f : Joint -> nat) (v : list (list A)) : Prop :=
  map (@length A) v = map f (mb_joints mb).
Record mbc_ok (mb : MultiBody) (m : MBC) : Prop := {
  ok_q : sized mb jparams (q m);
  ok_alpha : sized mb jdof (alpha m);
  ok_alphaD : sized mb jdof (alphaD m);
  ok_force : length (force m) = nrBodies mb;
  ok_jointConfig : length (jointConfig m) = nrJoints mb;
  ok_jointVelocity : length (jointVelocity m) = nrJoints mb;
  ok_jointTorque : sized mb jdof (jointTorque m);
  ok_motionSubspace : sized mb jdof (motionSubspace m);
  ok_bodyPosW : length (bodyPosW m) = nrBodies mb;
  ok_parentToSon : length (parentToSon m) = nrBodies mb;
  ok_bodyVelW : length (bodyVelW m) = nrBodies mb;
  ok_bodyVelB : length (bodyVelB m) = nrBodies mb;
  ok_bodyAccB : length (bodyAccB m) = nrBodies mb
}.

(** Every joint has an admissible parameter vector. *)
Definition config_ok (mb : MultiBody) (m : MBC) : Prop :=
  forall i j qi, nth_error (mb_joints mb) i = Some j -> nth_error (q m) i = Some qi -> q_ok j qi.

(** ** The path from the root to body i, root first. *)
Inductive root_path (mb : MultiBody) : nat -> list nat -> Prop :=
| rp_root i : nth_error (mb_pred mb) i = Some (-1)%Z -> root_path mb i [i]
| rp_step i p l : nth_error (mb_pred mb) i = Some (Z.of_nat p) ->
    root_path mb p l -> root_path mb i (l ++ [i]).

(** Body k is body i or one of its ancestors. *)
Inductive anc (mb : MultiBody) : nat -> nat -> Prop :=
| anc_refl i : anc mb i i
| anc_step k p i : nth_error (mb_pred mb) i = Some (Z.of_nat p) -> anc mb k p -> anc mb k i.

(** Sum of spatial vectors. *)
Definition svsum (n : nat) (f : nat -> SV) : SV := fold_right (fun i s => svadd (f i) s) sv0 (seq 0 n).

(** Composition of transforms along a path given root first: P_last * ... * P_first. *)
Definition chain (P : nat -> PT) (path : list nat) : PT :=
  fold_left (fun X k => ptmul (P k) X) path ptid.
(** Sum of spatial vectors along a path. *)
Definition path_sum (f : nat -> SV) (path : list nat) : SV :=
  fold_left (fun s k => svadd s (f k)) path sv0.
(** Coordinate change from body k to body i when the bodies are placed by W. *)
Definition relX (W : list PT) (i k : nat) : PT :=
  ptmul (nth i W ptid) (ptinv (nth k W ptid)).
