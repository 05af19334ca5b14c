(** Examples for C87. *)
From Coq Require Import Reals String ZArith Bool Arith List Lia Lra.
From Verif Require Import Res ResP SMap Vec VecP Sva SvaP Mat JointM MultiBodyM KinM DynM JacM CoMM MomM CoriolisM IntegM SpecFrame Spec Ex DynExP IsExP ReuseExP FrameP.
Import ListNotations.
Open Scope R_scope.

Definition exw_X : PT := mkPT (RotZ (PI / 2)) (mkV3 1 2 3).
Lemma exw_rigid : rigid exw_X.
Proof. apply SO3_RotZ. Qed.
Lemma exw_ok : rigid exw_X /\ rotE exw_X <> mid /\ exists m, forwardKinematics ex_mb ex_m = Ok m.
Proof.
  split; [exact exw_rigid|]. split.
  - unfold exw_X, RotZ, mid. cbn [rotE]. rewrite sin_PI2, cos_PI2. intros E. injection E. lra.
  - apply is_ok_ex. vm_compute. reflexivity.
Qed.
Definition exw_fd : FD := FD_ctor (fun _ _ => 7) (fun _ _ => sv0) (fun _ => rbi0) exf_mb.
Definition exw_m : MBC := with_force [mkSV unitX unitZ] (exf_M 0).
Lemma exw_sim : exists r, simulate (fun _ b => b) 5 exf_mb 1 1 2 (exw_fd, exw_m) = Ok r.
Proof. apply is_ok_ex. vm_compute. reflexivity. Qed.
Lemma exw_jac : exists J m J', Jacobian_ctor (fun _ _ => sv0) ex_mb "hand"%string (mkV3 1 2 3) = Ok J /\
  forwardKinematics ex_mb ex_m = Ok m /\ (jc_ref J <= 0)%Z /\ jacobian ex_mb m J = Ok J'.
Proof.
  destruct (is_ok_ex (Jacobian_ctor (fun _ _ => sv0) ex_mb "hand"%string (mkV3 1 2 3))) as (J & EJ); [vm_compute; reflexivity|].
  destruct (is_ok_ex (forwardKinematics ex_mb ex_m)) as (m & Em); [vm_compute; reflexivity|].
  assert (E : is_ok (J <- Jacobian_ctor (fun _ _ => sv0) ex_mb "hand"%string (mkV3 1 2 3) ;; m <- forwardKinematics ex_mb ex_m ;; jacobian ex_mb m J) = true) by (vm_compute; reflexivity).
  rewrite EJ, Em in E. cbn [bind] in E. destruct (is_ok_ex _ E) as (J' & EJ').
  assert (E2 : jc_ref J = 0%Z).
  { assert (E2 : (J <- Jacobian_ctor (fun _ _ => sv0) ex_mb "hand"%string (mkV3 1 2 3) ;; Ok (jc_ref J)) = Ok 0%Z) by (vm_compute; reflexivity).
    rewrite EJ in E2. cbn [bind] in E2. now injection E2. }
  exists J, m, J'. split; [exact EJ|]. split; [exact Em|]. split; [lia|exact EJ'].
Qed.
Lemma exw_cor : exists c, Coriolis_ctor (fun _ _ _ => sv0) (fun _ _ => 7) (fun _ _ _ => 7) exf_mb = Ok c /\
  forall J, In J (co_jacs c) -> (jc_ref J <= 0)%Z.
Proof.
  eexists. split.
  - unfold Coriolis_ctor, for_up, exf_mb. cbn. unfold cor_init_step, Jacobian_ctor. cbn. reflexivity.
  - cbn. intros J [<-|[]]. cbn. lia.
Qed.
