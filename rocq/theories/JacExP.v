(** A Jacobian object of the example robots. *)
From Coq Require Import Reals String ZArith Bool Arith List Lia Lra.
From Verif Require Import Res Vec Sva Mat JointM MultiBodyM KinM DynM JacM Spec SpecDyn SpecJac Ex DynExP KinP MbP KinFinP DynP DynFinP DynFin2P SpecDeriv DerivTreeP DerivExP
  JacFinP JacTopP.
Import ListNotations.
Open Scope R_scope.

Definition ex_J : Jac :=
  mkJac [0; 1; 2]%nat [1; 1; 1] (pttr (mkV3 1 2 3)) (map (fun _ => sv0) (seq 0 8)) (map (fun _ => sv0) (seq 0 8)) 2 0.
Lemma ex_J_ctor : Jacobian_ctor (fun _ _ => sv0) ex_mb "hand"%string (mkV3 1 2 3) = Ok ex_J.
Proof. reflexivity. Qed.
Lemma ex_J_of : jacobian_of ex_mb 2 (mkV3 1 2 3) ex_J.
Proof.
  constructor; try reflexivity. change (jc_path ex_J) with (([0] ++ [1]) ++ [2])%nat.
  apply rp_step with 1%nat; [reflexivity|]. apply rp_step with 0%nat; [reflexivity|]. now apply rp_root.
Qed.
Lemma exd_J : exists J, Jacobian_ctor (fun _ _ => sv0) exd_mb "hand"%string (mkV3 1 2 3) = Ok J /\ jacobian_of exd_mb 2 (mkV3 1 2 3) J.
Proof.
  destruct (ctor_top (fun _ _ => sv0) exd_mb "hand"%string (mkV3 1 2 3) 2 exd_wf eq_refl) as (J & E & H & _).
  - apply Nat.ltb_lt. reflexivity.
  - eauto.
Qed.
Lemma ex_acc m : after_kinematics ex_mb ex_m m -> exists m3, forwardAcceleration ex_mb m sv0 = Ok m3.
Proof.
  intro A. pose proof (kin_run _ _ _ ex_wf ex_rigid ex_mbc_ok ex_config A) as R.
  destruct (FA_total ex_mb m sv0 ex_wf (r_ok _ _ _ R)) as (m3 & E & _). eauto.
Qed.

(** The example with another angle of the neck. *)
Definition ex_m2 : MBC := with_q [[3/5; 4/5; 0; 0; 1; 2; 3]; [1]; [2]; [0; 0; 1; 0]] ex_m.
Lemma ex_m2_ok : mbc_ok ex_mb ex_m2.
Proof.
  pose proof ex_mbc_ok as H. destruct H. constructor; unfold ex_m2; cbn [q alpha alphaD force jointConfig jointVelocity jointTorque
    motionSubspace bodyPosW parentToSon bodyVelW bodyVelB bodyAccB with_q]; auto; reflexivity.
Qed.
Lemma ex_m2_config : config_ok ex_mb ex_m2.
Proof.
  intros i j qi Hj Hq. simpl in Hj. unfold ex_m2 in Hq; cbn [q with_q] in Hq.
  do 4 (destruct i as [|i]; [simpl in Hj, Hq; injection Hj as <-; injection Hq as <-; split;
      [reflexivity| try exact Logic.I; unfold quat_unit; simpl; field]|]).
  destruct i; discriminate.
Qed.
Lemma ex_head_turned : exists ma ka kb, q ma <> q ex_m /\
  after_kinematics ex_mb ma ka /\ after_kinematics ex_mb ex_m kb /\
  nth_error (bodyPosW ka) 2 = nth_error (bodyPosW kb) 2.
Proof.
  destruct ex_kin as (kb & B).
  assert (A : exists ka, after_kinematics ex_mb ex_m2 ka).
  { destruct (FK_total ex_mb ex_m2 ex_wf ex_m2_ok) as (m1 & E1 & F).
    pose proof (FK_mbc_ok _ _ _ ex_wf ex_m2_ok F) as K1.
    destruct (FV_total ex_mb m1 ex_wf K1) as (m2 & E2 & _). exists m2, m1. auto. }
  destruct A as (ka & A). exists ex_m2, ka, kb. split; [|split; [exact A|split; [exact B|]]].
  - unfold ex_m2, ex_m. cbn [q with_q with_alpha with_alphaD]. intro E. injection E. lra.
  - refine (proj1 (path_indep ex_mb ex_wf ex_rigid ex_m2 ex_m ka kb ex_m2_ok ex_mbc_ok ex_m2_config ex_config A B 2%nat _ (jo_path _ _ _ _ ex_J_of) _)).
    intros k [<-|[<-|[<-|[]]]]; split; reflexivity.
Qed.

Lemma exd_jacobian_derivative : exists (K : R -> MBC) J (JW : R -> Jac), forall t, exists DW, jacobianDot exd_mb (K t) J = Ok DW /\
  forall c, derivS (fun s => nth c (jc_jac (JW s)) sv0) t (nth c (jc_dot DW) sv0).
Proof.
  destruct exd_kin as (K & HK). destruct exd_J as (J & _ & HJ).
  exists K, J, (fun s => match jacobian exd_mb (K s) J with Ok j => j | _ => J end). intro t.
  assert (E : forall s, exists J1 J2, jacobian exd_mb (K s) J = Ok J1 /\ bodyJacobian exd_mb (K s) J = Ok J2).
  { intro s. destruct (top_velocity _ _ (K s) exd_wf exd_rigid (exd_ok s) (exd_config s) (HK s) _ _ _ HJ)
      as (X & V & J1 & J2 & _ & _ & A & _ & B & _). eauto. }
  destruct (top_dot _ _ (K t) exd_wf exd_rigid (exd_ok t) (exd_config t) (HK t) _ _ _ HJ) as (D1 & D2 & _ & _ & A & _ & B & _).
  exists D1. split; [exact A|]. intro c.
  refine (proj1 (traj_jacobian _ _ K t exd_wf exd_rigid exd_regular exd_ok exd_config HK (exd_follows t) _ _ _ _
    (fun s => match bodyJacobian exd_mb (K s) J with Ok j => j | _ => J end) _ _ HJ _ _ A B c)).
  - intro s. destruct (E s) as (J1 & J2 & E1 & E2). now rewrite E1.
  - intro s. destruct (E s) as (J1 & J2 & E1 & E2). now rewrite E2.
Qed.
