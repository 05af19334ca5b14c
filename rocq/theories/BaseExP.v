(** Examples for C88: a free-flying robot at two places. *)
From Coq Require Import Reals String ZArith Bool Arith List Lia Lra.
From Verif Require Import Res ResP SMap Vec VecP Sva SvaP Mat JointM MultiBodyM KinM DynM Spec SpecDyn SpecBase MbP KinP Ex DynExP ReuseExP SolveP BaseP DynFinP DynFin2P.
Import ListNotations.
Open Scope R_scope.

Definition exb_m (root : list R) : MBC :=
  with_gravity v0 (with_force [sv0; sv0; sv0; sv0] (with_q [root; [1]; [2]; [0; 3/5; 0; 4/5]] ex_m)).
Definition exb_1 : MBC := exb_m [3/5; 4/5; 0; 0; 1; 2; 3].
Definition exb_2 : MBC := exb_m [0; 0; 1; 0; 7; -5; 0].
Lemma exb_ok root : length root = 7%nat -> mbc_ok ex_mb (exb_m root).
Proof.
  intros L. pose proof ex_mbc_ok as H. destruct H.
  constructor; unfold exb_m; cbn [q alpha alphaD force jointConfig jointVelocity jointTorque
    motionSubspace bodyPosW parentToSon bodyVelW bodyVelB bodyAccB with_q with_gravity with_force]; auto.
  unfold sized. simpl. now rewrite L.
Qed.
Lemma exb_config root : q_ok (mkJz Free true "Root"%string) root -> config_ok ex_mb (exb_m root).
Proof.
  intros Q i j qi Hj Hq. simpl in Hj. unfold exb_m in Hq; cbn [q with_q with_gravity with_force] in Hq.
  destruct i as [|i]; [simpl in Hj, Hq; injection Hj as <-; injection Hq as <-; exact Q|].
  do 3 (destruct i as [|i]; [simpl in Hj, Hq; injection Hj as <-; injection Hq as <-; split;
      [reflexivity| try exact Logic.I; unfold quat_unit; simpl; field]|]).
  destruct i; discriminate.
Qed.
Lemma exb_config1 : config_ok ex_mb exb_1.
Proof. apply exb_config. split; [reflexivity|]. unfold quat_unit; simpl; field. Qed.
Lemma exb_config2 : config_ok ex_mb exb_2.
Proof. apply exb_config. split; [reflexivity|]. unfold quat_unit; simpl; ring. Qed.
Lemma exb_kin root : exists m, after_kinematics ex_mb (exb_m [nth 0 root 0; nth 1 root 0; nth 2 root 0; nth 3 root 0; nth 4 root 0; nth 5 root 0; nth 6 root 0]) m.
Proof.
  set (m0 := exb_m _).
  destruct (is_ok_ex (m1 <- forwardKinematics ex_mb m0 ;; forwardVelocity ex_mb m1)) as (m & E); [vm_compute; reflexivity|].
  exists m. destruct (forwardKinematics ex_mb m0) as [m1| | |] eqn:E1; cbn [bind] in E; try discriminate. exists m1. split; auto.
Qed.
Lemma exb_same : same_inside ex_mb exb_1 exb_2.
Proof.
  intros i Hi N. destruct i as [|i]; [exfalso; apply N; reflexivity|]. reflexivity.
Qed.
Lemma exb_weightless root : weightless ex_mb (exb_m root).
Proof.
  split; [reflexivity|]. intros i Hi. do 4 (destruct i as [|i]; [reflexivity|]). destruct i; reflexivity.
Qed.
Lemma exb_two_places : exists m m', mbc_ok ex_mb exb_1 /\ config_ok ex_mb exb_1 /\ after_kinematics ex_mb exb_1 m /\
  mbc_ok ex_mb exb_2 /\ config_ok ex_mb exb_2 /\ after_kinematics ex_mb exb_2 m' /\
  same_inside ex_mb exb_1 exb_2 /\ alpha exb_1 = alpha exb_2 /\ alphaD exb_1 = alphaD exb_2 /\ jointTorque exb_1 = jointTorque exb_2 /\
  weightless ex_mb exb_1 /\ weightless ex_mb exb_2 /\ q exb_1 <> q exb_2.
Proof.
  destruct (exb_kin [3/5; 4/5; 0; 0; 1; 2; 3]) as (m & A). destruct (exb_kin [0; 0; 1; 0; 7; -5; 0]) as (m' & A').
  exists m, m'. split; [apply exb_ok; reflexivity|]. split; [exact exb_config1|]. split; [exact A|].
  split; [apply exb_ok; reflexivity|]. split; [exact exb_config2|]. split; [exact A'|]. split; [exact exb_same|].
  split; [reflexivity|]. split; [reflexivity|]. split; [reflexivity|]. split; [apply exb_weightless|]. split; [apply exb_weightless|].
  unfold exb_1, exb_2, exb_m. cbn [q with_q with_gravity with_force]. intros E. injection E. lra.
Qed.
Lemma exb_branches : ~ anc ex_mb 2 3 /\ ~ anc ex_mb 3 2 /\ (0 < dofi ex_mb 2)%nat /\ (0 < dofi ex_mb 3)%nat.
Proof.
  split; [intros A; pose proof (anc_le ex_mb 2 3 ex_wf)|]. 
  - inversion A as [|k p i E B]; subst. simpl in E. injection E as E.
    assert (p = 0)%nat by lia. subst p. apply anc_le in B; [lia|exact ex_wf|vm_compute; lia].
  - split; [intros A; apply anc_le in A; [lia|exact ex_wf|vm_compute; lia]|]. split; vm_compute; lia.
Qed.
