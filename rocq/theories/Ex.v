(** A concrete robot used to show that the hypotheses of the theorems can be met:
    a floating base carrying an arm (revolute then prismatic joint) and a head on a
    reversed spherical joint. *)
From Coq Require Import Reals String ZArith Bool Arith Lia Lra List.
From Verif Require Import Res ResP SMap Vec VecP Sva SvaP Mat JointM MultiBodyM Spec JointP KinP MbP.
Import ListNotations.
Open Scope R_scope.

Definition ex_bodies : list Body :=
  [ mkBody (mkRBI 10 (mkV3 0 1 0) (mkSym 2 0 0 3 0 4)) "base"%string;
    mkBody (mkRBI 2 (mkV3 1 0 0) (mkSym 1 0 0 2 0 2)) "arm"%string;
    mkBody (mkRBI 1 (mkV3 0 0 1) (mkSym 2 0 0 2 0 1)) "hand"%string;
    mkBody (mkRBI 1 v0 (mkSym 1 0 0 1 0 1)) "head"%string ].
Definition ex_joints : list Joint :=
  [ mkJz Free true "Root"%string;
    mkJ Rev unitZ true "shoulder"%string;
    mkJ Prism unitX true "slide"%string;
    mkJz Spherical false "neck"%string ].
Definition ex_pred : list Z := [-1; 0; 1; 0]%Z.
Definition ex_succ : list Z := [0; 1; 2; 3]%Z.
Definition ex_Xt : list PT :=
  [ ptid; mkPT (RotX 1) (mkV3 0 1 2); pttr (mkV3 1 0 0); mkPT (RotZ 2) (mkV3 0 0 3) ].

Definition ex_mb : MultiBody :=
  match MultiBody_ctor ex_bodies ex_joints ex_pred ex_succ ex_pred ex_Xt with
  | Ok mb => mb
  | _ => mkMB [] [] [] [] [] [] [] [] [] [] 0 0
  end.
Lemma ex_ctor : MultiBody_ctor ex_bodies ex_joints ex_pred ex_succ ex_pred ex_Xt = Ok ex_mb.
Proof. reflexivity. Qed.

Lemma unitZ_unit : vdot unitZ unitZ = 1. Proof. v3; ring. Qed.
Lemma unitX_unit : vdot unitX unitX = 1. Proof. v3; ring. Qed.

Lemma ex_joint_unit j : In j ex_joints -> joint_unit j.
Proof.
  intros [<-|[<-|[<-|[<-|[]]]]].
  - exists unitZ; split; [apply unitZ_unit|constructor].
  - exists unitZ; split; [apply unitZ_unit|constructor].
  - exists unitX; split; [apply unitX_unit|constructor].
  - exists unitZ; split; [apply unitZ_unit|constructor].
Qed.

Lemma ex_wf : wf_mb ex_mb.
Proof.
  apply (MultiBody_ctor_wf ex_bodies ex_joints ex_pred ex_succ ex_Xt); [|apply ex_ctor].
  constructor; try reflexivity.
  - intros i z. unfold ex_pred. intros H.
    do 4 (destruct i as [|i]; [simpl in H; injection H as <-; lia|]). destruct i; discriminate.
  - intros j H. apply joint_unit_ok. now apply ex_joint_unit.
Qed.

Lemma ex_rigid : rigid_mb ex_mb.
Proof.
  split.
  - exact ex_joint_unit.
  - intros X [<-|[<-|[<-|[<-|[]]]]]; simpl; auto using SO3_id, SO3_RotX, SO3_RotZ.
Qed.

Definition ex_garbage : Garbage := mkGarbage (fun _ _ => ptid) (fun _ _ => sv0).
(** A fresh configuration in which the caller has set q, alpha and alphaD. *)
Definition ex_m : MBC :=
  with_alphaD [[1; 0; 0; 0; 0; 2]; [3]; [-1]; [0; 1; 1]]
    (with_alpha [[0; 1; 0; 1; 0; 0]; [2]; [1]; [1; 2; 3]]
      (with_q [[3/5; 4/5; 0; 0; 1; 2; 3]; [1]; [2]; [0; 3/5; 0; 4/5]]
        (MBC_ctor ex_garbage ex_mb))).

Lemma ex_mbc_ok : mbc_ok ex_mb ex_m.
Proof.
  pose proof (MBC_ctor_ok ex_garbage ex_mb eq_refl) as H. destruct H.
  constructor; unfold ex_m; cbn [q alpha alphaD force jointConfig jointVelocity jointTorque
    motionSubspace bodyPosW parentToSon bodyVelW bodyVelB bodyAccB with_q with_alpha with_alphaD]; auto; reflexivity.
Qed.

Lemma ex_config : config_ok ex_mb ex_m.
Proof.
  intros i j qi Hj Hq. simpl in Hj. unfold ex_m in Hq; cbn [q with_q with_alpha with_alphaD] in Hq.
  do 4 (destruct i as [|i]; [simpl in Hj, Hq; injection Hj as <-; injection Hq as <-; split;
      [reflexivity| try exact Logic.I; unfold quat_unit; simpl; field]|]).
  destruct i; discriminate.
Qed.
