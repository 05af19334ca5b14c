(** The example robot with its shoulder and its slide turned around. *)
From Coq Require Import Reals String ZArith Bool Arith List Lia Lra.
From Verif Require Import Res ResP SMap Vec VecP Sva SvaP Mat JointM MultiBodyM KinM DynM JacM Spec SpecDyn SpecJac SpecHold SpecTurn
  JointP JointFinP KinP MbP Ex DynExP JacExP TurnP TurnTopP.
Import ListNotations.
Open Scope R_scope.

Definition ext_joints : list Joint :=
  [ mkJz Free true "Root"%string; mkJ Rev unitZ false "shoulder"%string; mkJ Prism unitX false "slide"%string; mkJz Spherical false "neck"%string ].
Definition ext_mb : MultiBody :=
  match MultiBody_ctor ex_bodies ext_joints ex_pred ex_succ ex_pred ex_Xt with
  | Ok mb => mb
  | _ => mkMB [] [] [] [] [] [] [] [] [] [] 0 0
  end.
Lemma ext_ctor : MultiBody_ctor ex_bodies ext_joints ex_pred ex_succ ex_pred ex_Xt = Ok ext_mb.
Proof. reflexivity. Qed.
Lemma ext_unit j : In j ext_joints -> joint_unit j.
Proof.
  intros [<-|[<-|[<-|[<-|[]]]]].
  - exists unitZ; split; [apply unitZ_unit|constructor].
  - exists unitZ; split; [apply unitZ_unit|constructor].
  - exists unitX; split; [apply unitX_unit|constructor].
  - exists unitZ; split; [apply unitZ_unit|constructor].
Qed.
Lemma ext_wf : wf_mb ext_mb.
Proof.
  apply (MultiBody_ctor_wf ex_bodies ext_joints ex_pred ex_succ ex_Xt); [|apply ext_ctor].
  constructor; try reflexivity.
  - intros i z. unfold ex_pred. intros H.
    do 4 (destruct i as [|i]; [simpl in H; injection H as <-; lia|]). destruct i; discriminate.
  - intros j H. apply joint_unit_ok. now apply ext_unit.
Qed.
Lemma ext_rigid : rigid_mb ext_mb.
Proof. split; [exact ext_unit|exact (proj2 ex_rigid)]. Qed.
Lemma ext_tree : same_tree ex_mb ext_mb.
Proof. constructor; reflexivity. Qed.
(** The robot moves all its joints. *)
Definition ext_m : MBC :=
  with_alphaD [[1; 0; 0; 0; 0; 2]; [3]; [-1]; [0; 1; 2]]
    (with_alpha [[0; 1; 0; 1; 0; 0]; [2]; [1]; [1; 0; 3]]
      (with_q [[3/5; 4/5; 0; 0; 1; 2; 3]; [1]; [2]; [1; 0; 0; 0]] (MBC_ctor ex_garbage ex_mb))).
Definition ext_m' : MBC :=
  with_alphaD [[1; 0; 0; 0; 0; 2]; [- 3]; [- -1]; [0; 1; 2]]
    (with_alpha [[0; 1; 0; 1; 0; 0]; [- 2]; [- 1]; [1; 0; 3]]
      (with_q [[3/5; 4/5; 0; 0; 1; 2; 3]; [- 1]; [- 2]; [1; 0; 0; 0]] (MBC_ctor ex_garbage ext_mb))).
Definition ext_t (i : nat) : bool := Nat.eqb i 1 || Nat.eqb i 2.
Lemma ext_ok : mbc_ok ex_mb ext_m.
Proof.
  pose proof (MBC_ctor_ok ex_garbage ex_mb eq_refl) as H. destruct H.
  constructor; unfold ext_m; cbn [q alpha alphaD force jointConfig jointVelocity jointTorque
    motionSubspace bodyPosW parentToSon bodyVelW bodyVelB bodyAccB with_q with_alpha with_alphaD]; auto; reflexivity.
Qed.
Lemma ext_ok' : mbc_ok ext_mb ext_m'.
Proof.
  pose proof (MBC_ctor_ok ex_garbage ext_mb eq_refl) as H. destruct H.
  constructor; unfold ext_m'; cbn [q alpha alphaD force jointConfig jointVelocity jointTorque
    motionSubspace bodyPosW parentToSon bodyVelW bodyVelB bodyAccB with_q with_alpha with_alphaD]; auto; reflexivity.
Qed.
Lemma ext_config : config_ok ex_mb ext_m.
Proof.
  intros i j qi Hj Hq. simpl in Hj. unfold ext_m in Hq; cbn [q with_q with_alpha with_alphaD] in Hq.
  do 4 (destruct i as [|i]; [simpl in Hj, Hq; injection Hj as <-; injection Hq as <-; split;
      [reflexivity| try exact Logic.I; unfold quat_unit; simpl; field]|]).
  destruct i; discriminate.
Qed.
Lemma ext_turned : turned_state ext_t ex_mb ext_m ext_mb ext_m'.
Proof.
  split; [reflexivity|]. split; [reflexivity|]. intros i Hi. change (nrBodies ex_mb) with 4%nat in Hi.
  assert (SF : forall t a nm, set_forward (mkJ t a true nm) false = mkJ t a false nm).
  { intros t a nm. unfold set_forward, mkJ. cbn [jtyp jS jfwd jparams jdof jname jmimic jmimicName jmimicMul jmimicOff Bool.eqb]. f_equal.
    rewrite map_map. apply map_ext. intro s. unfold dirR. svring. }
  destruct i as [|i]; [apply not_turned; reflexivity|].
  destruct i as [|i]; [apply turned; try reflexivity; [left; reflexivity|]; symmetry; exact (SF Rev unitZ "shoulder"%string)|].
  destruct i as [|i]; [apply turned; try reflexivity; [right; left; reflexivity|]; symmetry; exact (SF Prism unitX "slide"%string)|].
  destruct i as [|i]; [apply not_turned; reflexivity|]. lia.
Qed.
Lemma ext_moves : jfwd (nth 1 (mb_joints ex_mb) jd) = true /\ jfwd (nth 1 (mb_joints ext_mb) jd) = false /\ ext_t 1 = true /\ ext_t 3 = false.
Proof. repeat split. Qed.
Definition ext_f : MBC := with_jointTorque [[1; 2; 3; 4; 5; 6]; [7]; [8]; [1; 0; 2]] ext_m.
Definition ext_f' : MBC := with_jointTorque [[1; 2; 3; 4; 5; 6]; [- 7]; [- 8]; [1; 0; 2]] ext_m'.
Lemma ext_torque i : (i < nrBodies ex_mb)%nat -> nth i (jointTorque ext_f') [] = map (Rmult (sgn (ext_t i))) (nth i (jointTorque ext_f) []).
Proof.
  intro Hi. change (nrBodies ex_mb) with 4%nat in Hi.
  do 4 (destruct i as [|i]; [unfold sgn; cbn [nth jointTorque ext_f ext_f' with_jointTorque map ext_t Nat.eqb orb]; repeat (f_equal; try ring)|]). lia.
Qed.
Lemma ext_f_ok : mbc_ok ex_mb ext_f /\ mbc_ok ext_mb ext_f' /\ turned_state ext_t ex_mb ext_f ext_mb ext_f' /\ config_ok ex_mb ext_f.
Proof.
  split; [destruct ext_ok; constructor; auto; reflexivity|]. split; [destruct ext_ok'; constructor; auto; reflexivity|].
  split; [exact ext_turned|exact ext_config].
Qed.
Lemma ext_J : exists J', Jacobian_ctor (fun _ _ => sv0) ex_mb "hand"%string (mkV3 1 2 3) = Ok ex_J /\ jacobian_of ex_mb 2 (mkV3 1 2 3) ex_J /\
  Jacobian_ctor (fun _ _ => sv0) ext_mb "hand"%string (mkV3 1 2 3) = Ok J' /\ jacobian_of ext_mb 2 (mkV3 1 2 3) J' /\
  path_signs ext_t ex_mb (jc_path ex_J) = [1; 1; 1; 1; 1; 1; -1; -1].
Proof.
  exists (mkJac [0; 1; 2]%nat [1; 1; 1] (pttr (mkV3 1 2 3)) (map (fun _ => sv0) (seq 0 8)) (map (fun _ => sv0) (seq 0 8)) 2 0).
  split; [exact ex_J_ctor|]. split; [exact ex_J_of|]. split; [reflexivity|]. split; [|reflexivity].
  constructor; try reflexivity. cbn [jc_path]. change [0; 1; 2]%nat with (([0] ++ [1]) ++ [2])%nat.
  apply rp_step with 1%nat; [reflexivity|]. apply rp_step with 0%nat; [reflexivity|]. now apply rp_root.
Qed.
