(** Derivatives for relative Jacobians, a concrete robot, and where the relative velocity is wrong. *)
From Coq Require Import Reals String ZArith Bool Arith List Lia Lra.
From Verif Require Import Res ResP SMap Vec VecP Sva SvaP Mat JointM MultiBodyM KinM DynM JacM Spec SpecDyn SpecJac SpecRel SpecIS
  JointP KinP KinPathP MbP Ex TreeP DynP DynCP ConvP KinFinP SpecDeriv DerivP DerivTreeP JacP JacFinP JacFin2P RelP RelTopP RelFinP.
Import ListNotations.
Open Scope R_scope.

Lemma point_moves X t V p : SO3 (rotE (X t)) -> moves X t V -> derivV (fun s => point_position (X s) p) t (slin (point_velocity (X t) p V)).
Proof.
  intros RX MV. destruct (moves_world X t V RX MV) as (A & B).
  unfold point_position. eapply derivV_eq; [apply derivV_add; [exact A|apply derivV_app; [exact B|apply derivV_const]]|].
  cbv beta. unfold point_velocity. cbn [slin]. rewrite mapp_v0, vadd_0_r, mapp_mmul, mapp_mcross.
  rewrite SO3_cross by (apply SO3_tr; auto). now rewrite mapp_add.
Qed.
Lemma rel_traj mb (M K : R -> MBC) t : wf_mb mb -> rigid_mb mb ->
  (forall j, In j (mb_joints mb) -> regular j) ->
  (forall s, mbc_ok mb (M s)) -> (forall s, config_ok mb (M s)) -> (forall s, after_kinematics mb (M s) (K s)) ->
  (forall i, (i < nrBodies mb)%nat ->
     follows (nth i (mb_joints mb) jd) (fun s => nth i (q (M s)) []) t (nth i (alpha (M t)) [])) ->
  forall b r, (b < nrBodies mb)%nat -> (r < nrBodies mb)%nat ->
  moves (fun s => relative_pose (nth b (bodyPosW (K s)) ptid) (nth r (bodyPosW (K s)) ptid)) t
    (relative_velocity (nth b (bodyPosW (K t)) ptid) (nth r (bodyPosW (K t)) ptid) (nth b (bodyVelB (K t)) sv0) (nth r (bodyVelB (K t)) sv0)).
Proof.
  intros W RM RG OK CO AK F b r Hb Hr.
  pose proof (follow_moves mb M t W RM OK CO RG F) as JM.
  pose proof (kin_run mb (M t) (K t) W RM (OK t) (CO t) (AK t)) as Ru.
  apply (relative_moves (fun s => nth b (bodyPosW (K s)) ptid) (fun s => nth r (bodyPosW (K s)) ptid)).
  - apply (r_rw _ _ _ Ru b Hb).
  - apply (r_rw _ _ _ Ru r Hr).
  - now apply (body_moves mb M K t W RM OK CO AK JM).
  - now apply (body_moves mb M K t W RM OK CO AK JM).
Qed.
Lemma rel_traj_point mb (M K : R -> MBC) t : wf_mb mb -> rigid_mb mb ->
  (forall j, In j (mb_joints mb) -> regular j) ->
  (forall s, mbc_ok mb (M s)) -> (forall s, config_ok mb (M s)) -> (forall s, after_kinematics mb (M s) (K s)) ->
  (forall i, (i < nrBodies mb)%nat ->
     follows (nth i (mb_joints mb) jd) (fun s => nth i (q (M s)) []) t (nth i (alpha (M t)) [])) ->
  one_root mb -> forall name ref b r p J J1, (b < nrBodies mb)%nat -> (r < nrBodies mb)%nat ->
  sBodyIndexByName mb name = Ok (Z.of_nat b) -> sBodyIndexByName mb ref = Ok (Z.of_nat r) -> built_relative mb name ref p J ->
  b <> r -> r <> 0%nat -> (anc mb b r -> b = 0%nat) -> joined mb b r -> jacobian mb (K t) J = Ok J1 ->
  derivV (fun s => point_position (relative_pose (nth b (bodyPosW (K s)) ptid) (nth r (bodyPosW (K s)) ptid)) p) t
    (slin (smul (jc_jac J1) (on_path (jc_path J) (alpha (K t))))).
Proof.
  intros W RM RG OK CO AK F O1 name ref b r p J J1 Hb Hr Eb Er HB NE NR AB HJ E.
  pose proof (kin_run mb (M t) (K t) W RM (OK t) (CO t) (AK t)) as Ru.
  destruct (rel_velocity mb (M t) (K t) W RM (OK t) (CO t) (AK t) O1 name ref b r p J Hb Hr Eb Er HB NE AB HJ) as (J1' & J2 & E1 & _ & _ & _ & _ & _ & EQ & _).
  rewrite E in E1. injection E1 as <-. replace (r =? 0)%nat with false in EQ by (symmetry; now apply Nat.eqb_neq). rewrite turn_id in EQ. rewrite EQ.
  apply (point_moves (fun s => relative_pose (nth b (bodyPosW (K s)) ptid) (nth r (bodyPosW (K s)) ptid))).
  - unfold relative_pose. cbn [ptmul rotE ptinv]. apply SO3_mul; [apply (r_rw _ _ _ Ru b Hb)|apply SO3_tr, (r_rw _ _ _ Ru r Hr)].
  - eapply rel_traj; eauto.
Qed.

(** ** When the bodies meet at the root only and the root moves *)
Lemma pv_add X p V U : point_velocity X p (svadd V U) = svadd (point_velocity X p V) (point_velocity X p U).
Proof.
  rewrite <- !at_world2. apply ptm_add.
Qed.
Lemma svadd_cancel a b : svadd a b = a -> b = sv0.
Proof. intro E. destruct a as [[? ? ?] [? ? ?]], b as [[? ? ?] [? ? ?]]. cbn in E. injection E as ? ? ? ? ? ?. unfold sv0, v0. do 2 f_equal; lra. Qed.
Lemma ptm_injective X v : rigid X -> ptm X v = sv0 -> v = sv0.
Proof. intros RX E. rewrite <- (ptm_id v), <- (ptinv_l X RX), ptm_mul by auto. rewrite E. apply ptm_sv0. Qed.
Lemma rel_root_wrong : forall mb m0 m, wf_mb mb -> rigid_mb mb -> mbc_ok mb m0 -> config_ok mb m0 -> after_kinematics mb m0 m -> one_root mb ->
  forall name ref b r p J, (b < nrBodies mb)%nat -> (r < nrBodies mb)%nat ->
  sBodyIndexByName mb name = Ok (Z.of_nat b) -> sBodyIndexByName mb ref = Ok (Z.of_nat r) -> built_relative mb name ref p J ->
  meets_root mb b r -> nth 0 (bodyVelB m) sv0 <> sv0 ->
  exists J1, jacobian mb m J = Ok J1 /\
    smul (jc_jac J1) (on_path (jc_path J) (alpha m)) <>
    point_velocity (relative_pose (nth b (bodyPosW m) ptid) (nth r (bodyPosW m) ptid)) p
      (relative_velocity (nth b (bodyPosW m) ptid) (nth r (bodyPosW m) ptid) (nth b (bodyVelB m) sv0) (nth r (bodyVelB m) sv0)).
Proof.
  intros mb m0 m W RM K0 C0 AK O1 name ref b r p J Hb Hr Eb Er HB HM NV.
  destruct (rel_velocity_root mb m0 m W RM K0 C0 AK O1 name ref b r p J Hb Hr Eb Er HB HM) as (J1 & E1 & _ & _ & EQ).
  pose proof (kin_run mb m0 m W RM K0 C0 AK) as Ru. exists J1. split; [exact E1|]. rewrite EQ, pv_add. intro E. apply svadd_cancel in E.
  rewrite <- at_world2 in E. apply NV. 
  assert (RB : rigid (nth b (bodyPosW m) ptid)) by (apply (r_rw _ _ _ Ru b Hb)).
  assert (RO : rigid (nth 0 (bodyPosW m) ptid)) by (apply (r_rw _ _ _ Ru 0%nat); lia).
  assert (RX : SO3 (rotE (relative_pose (nth b (bodyPosW m) ptid) (nth r (bodyPosW m) ptid)))).
  { unfold relative_pose. cbn [ptmul rotE ptinv]. apply SO3_mul; [exact RB|apply SO3_tr, (r_rw _ _ _ Ru r Hr)]. }
  apply ptm_injective in E; [|apply SO3_tr; exact RX].
  apply ptm_injective in E; [exact E|]. unfold relative_pose, rigid. cbn [ptmul rotE ptinv]. apply SO3_mul; [exact RB|apply SO3_tr; exact RO].
Qed.

(** ** A robot *)
Definition rex_bodies : list Body := [mkBody (mkRBI 1 v0 (mkSym 1 0 0 1 0 1)) "base"%string; mkBody (mkRBI 1 v0 (mkSym 1 0 0 1 0 1)) "trunk"%string;
  mkBody (mkRBI 1 v0 (mkSym 1 0 0 1 0 1)) "arm"%string; mkBody (mkRBI 1 v0 (mkSym 1 0 0 1 0 1)) "head"%string; mkBody (mkRBI 1 v0 (mkSym 1 0 0 1 0 1)) "leg"%string].
Definition rex_joints : list Joint := [mkJz Free true "Root"%string; mkJ Rev unitZ true "waist"%string; mkJ Rev unitZ true "shoulder"%string; mkJ Rev unitX true "neck"%string; mkJ Rev unitX true "hip"%string].
Definition rex_Xt : list PT := [ptid; ptid; pttr (mkV3 1 0 0); pttr (mkV3 0 0 2); pttr (mkV3 0 1 0)].
Definition rex_mb : MultiBody :=
  match MultiBody_ctor rex_bodies rex_joints [-1; 0; 1; 1; 0]%Z [0; 1; 2; 3; 4]%Z [-1; 0; 1; 1; 0]%Z rex_Xt with
  | Ok mb => mb
  | _ => mkMB [] [] [] [] [] [] [] [] [] [] 0 0
  end.
Lemma rex_joint_unit j : In j rex_joints -> joint_unit j.
Proof.
  intros [<-|[<-|[<-|[<-|[<-|[]]]]]].
  - exists unitZ; split; [apply unitZ_unit|constructor].
  - exists unitZ; split; [apply unitZ_unit|constructor].
  - exists unitZ; split; [apply unitZ_unit|constructor].
  - exists unitX; split; [apply unitX_unit|constructor].
  - exists unitX; split; [apply unitX_unit|constructor].
Qed.
Lemma rex_wf : wf_mb rex_mb.
Proof.
  apply (MultiBody_ctor_wf rex_bodies rex_joints [-1; 0; 1; 1; 0]%Z [0; 1; 2; 3; 4]%Z rex_Xt); [|reflexivity].
  constructor; try reflexivity.
  - intros i z H. do 5 (destruct i as [|i]; [simpl in H; injection H as <-; lia|]). destruct i; discriminate.
  - intros j H. apply joint_unit_ok. now apply rex_joint_unit.
Qed.
Lemma rex_rigid : rigid_mb rex_mb.
Proof. split; [exact rex_joint_unit|]. intros X [<-|[<-|[<-|[<-|[<-|[]]]]]]; simpl; apply SO3_id. Qed.
Lemma rex_root : one_root rex_mb.
Proof. intros i H. do 5 (destruct i as [|i]; [cbn in H; try reflexivity; discriminate|]). destruct i; discriminate. Qed.
Definition rex_m : MBC :=
  with_alpha [[0; 0; 0; 1; 0; 0]; [1]; [1]; [1]; [1]] (with_q [[1; 0; 0; 0; 0; 0; 0]; [0]; [0]; [0]; [0]] (MBC_ctor ex_garbage rex_mb)).
Lemma rex_ok : mbc_ok rex_mb rex_m.
Proof.
  pose proof (MBC_ctor_ok ex_garbage rex_mb eq_refl) as H. destruct H.
  constructor; unfold rex_m; cbn [q alpha alphaD force jointConfig jointVelocity jointTorque
    motionSubspace bodyPosW parentToSon bodyVelW bodyVelB bodyAccB with_q with_alpha with_force with_gravity]; auto; reflexivity.
Qed.
Lemma rex_config : config_ok rex_mb rex_m.
Proof.
  intros i j qi Hj Hq. simpl in Hj. unfold rex_m in Hq; cbn [q with_q with_alpha with_force with_gravity] in Hq.
  do 5 (destruct i as [|i]; [simpl in Hj, Hq; injection Hj as <-; injection Hq as <-; split; [reflexivity|try exact Logic.I; unfold quat_unit; simpl; field]|]).
  destruct i; discriminate.
Qed.
Lemma rex_kin : exists m, after_kinematics rex_mb rex_m m.
Proof.
  destruct (FK_total rex_mb rex_m rex_wf rex_ok) as (m1 & E1 & F). pose proof (FK_mbc_ok _ _ _ rex_wf rex_ok F) as OK1.
  destruct (FV_total rex_mb m1 rex_wf OK1) as (m2 & E2 & V). exists m2, m1. auto.
Qed.
Definition rg : nat -> nat -> SV := fun _ _ => sv0.
Lemma rex_ctor name ref p b r : In (name, b) [("base", 0%nat); ("trunk", 1%nat); ("arm", 2%nat); ("head", 3%nat); ("leg", 4%nat)]%string ->
  In (ref, r) [("base", 0%nat); ("trunk", 1%nat); ("arm", 2%nat); ("head", 3%nat); ("leg", 4%nat)]%string ->
  sBodyIndexByName rex_mb name = Ok (Z.of_nat b) /\ sBodyIndexByName rex_mb ref = Ok (Z.of_nat r) /\ (b < nrBodies rex_mb)%nat /\ (r < nrBodies rex_mb)%nat /\
  exists J, built_relative rex_mb name ref p J.
Proof.
  intros Hb Hr.
  assert (G : forall nm k, In (nm, k) [("base", 0%nat); ("trunk", 1%nat); ("arm", 2%nat); ("head", 3%nat); ("leg", 4%nat)]%string -> sBodyIndexByName rex_mb nm = Ok (Z.of_nat k) /\ (k < nrBodies rex_mb)%nat).
  { intros nm k [E|[E|[E|[E|[E|[]]]]]]; injection E as <- <-; (split; [reflexivity|apply Nat.ltb_lt; reflexivity]). }
  destruct (G _ _ Hb) as (Eb & Lb), (G _ _ Hr) as (Er & Lr). do 4 (split; [assumption|]).
  destruct (ref_ctor_ok rg rex_mb name ref p b r rex_wf rex_root Lb Lr Eb Er) as (J & dn & up & EC & _). exists J, rg, J. auto 10.
Qed.
Lemma rp0 : root_path rex_mb 0 [0%nat]. Proof. constructor. reflexivity. Qed.
Lemma rp1 : root_path rex_mb 1 [0; 1]%nat. Proof. apply (rp_step rex_mb 1 0 [0%nat]); [reflexivity|apply rp0]. Qed.
Lemma rp2 : root_path rex_mb 2 [0; 1; 2]%nat. Proof. apply (rp_step rex_mb 2 1 [0; 1]%nat); [reflexivity|apply rp1]. Qed.
Lemma rp3 : root_path rex_mb 3 [0; 1; 3]%nat. Proof. apply (rp_step rex_mb 3 1 [0; 1]%nat); [reflexivity|apply rp1]. Qed.
Lemma rp4 : root_path rex_mb 4 [0; 4]%nat. Proof. apply (rp_step rex_mb 4 0 [0%nat]); [reflexivity|apply rp0]. Qed.
Lemma rex_joined : joined rex_mb 2 3.
Proof. right. left. exists 1%nat. split; [lia|]. split; [apply (root_path_anc _ _ _ rex_wf rp2)|apply (root_path_anc _ _ _ rex_wf rp3)]; cbn; tauto. Qed.
Lemma rex_apart : anc rex_mb 2 3 -> 2%nat = 0%nat.
Proof. intro A. apply (root_path_anc _ _ _ rex_wf rp3) in A. cbn in A. lia. Qed.
Lemma rex_meets : meets_root rex_mb 2 4.
Proof.
  split; [intro A; apply (root_path_anc _ _ _ rex_wf rp2) in A; cbn in A; lia|]. intros c A1 A2.
  apply (root_path_anc _ _ _ rex_wf rp2) in A1. apply (root_path_anc _ _ _ rex_wf rp4) in A2. cbn in A1, A2. lia.
Qed.
Section X.
Variable m : MBC.
Hypothesis AK : after_kinematics rex_mb rex_m m.
Let RU : run rex_mb rex_m m := kin_run rex_mb rex_m m rex_wf rex_rigid rex_ok rex_config AK.
Let L0 : (0 < nrBodies rex_mb)%nat. Proof. apply Nat.ltb_lt; reflexivity. Qed.
Let L1 : (1 < nrBodies rex_mb)%nat. Proof. apply Nat.ltb_lt; reflexivity. Qed.
Let L2 : (2 < nrBodies rex_mb)%nat. Proof. apply Nat.ltb_lt; reflexivity. Qed.
Lemma rex_v0 : nth 0 (bodyVelB m) sv0 <> sv0.
Proof.
  rewrite (r_vb _ _ _ RU 0%nat L0). change (par rex_mb 0) with (@None nat). cbv iota. rewrite (r_vj _ _ _ RU 0%nat L0).
  cbn. intro E. apply (f_equal (fun v => vx (slin v))) in E. cbn in E. lra.
Qed.
Lemma rex_jc2 : nth 2 (jointConfig m) ptid = ptid.
Proof. pose proof (r_pose _ _ _ RU 2%nat L2) as P. cbn in P. injection P as <-. unfold ptrot, ptid. f_equal. unfold angleAxis. rewrite Ropp_0, cos_0, sin_0. v3ring. Qed.
Lemma rex_p2 : nth 2 (parentToSon m) ptid = pttr (mkV3 1 0 0).
Proof. rewrite (r_pts _ _ _ RU 2%nat L2), rex_jc2. unfold ptid, pttr, ptmul. cbn. f_equal; v3ring. Qed.
(** The trunk relative to the arm: the arm is the child of the trunk. *)
Lemma rex_rel : relative_pose (posW m 1) (posW m 2) = pttr (mkV3 (-1) 0 0).
Proof.
  rewrite (r_bp _ _ _ RU 2%nat L2). change (par rex_mb 2) with (Some 1%nat). cbv iota. rewrite rex_p2.
  pose proof (r_rw _ _ _ RU 1%nat L1) as R1. unfold relative_pose. generalize dependent (posW m 1). intros X R1.
  unfold ptmul, ptinv, pttr. cbn [rotE trR]. f_equal.
  - rewrite mmul_id_l. now apply SO3_r.
  - rewrite mmul_id_l, mtr_mtr. rewrite mapp_add, SO3_cancel_r by exact R1. generalize (mapp (rotE X) (trR X)). intro. v3ring.
Qed.
Lemma rex_relv : relative_velocity (posW m 1) (posW m 2) (vb m 1) (vb m 2) = mkSV (mkV3 0 0 (-1)) (mkV3 0 1 0).
Proof.
  unfold relative_velocity. rewrite rex_rel. unfold vb at 2. rewrite (r_vb _ _ _ RU 2%nat L2). change (par rex_mb 2) with (Some 1%nat). cbv iota. rewrite rex_p2.
  rewrite (r_vj _ _ _ RU 2%nat L2). unfold vb. generalize (nth 1 (bodyVelB m) sv0). intro V. cbn. svring.
Qed.
Definition rex_J : Jac := mkJac [2%nat] [-1] (pttr v0) [sv0] [sv0] 1 2.
Lemma rex_J_built : built_relative rex_mb "trunk" "arm" v0 rex_J.
Proof. exists rg, rex_J. split; [reflexivity|]. auto 10. Qed.
Lemma rex_J_obj : rel_object rex_mb 1 2 v0 [2%nat] [] rex_J.
Proof. unfold rel_object. auto 10. Qed.
Lemma rex_anc_wrong : exists J1, jacobian rex_mb m rex_J = Ok J1 /\
  slin (smul (jc_jac J1) (on_path (jc_path rex_J) (alpha m))) = v0.
Proof.
  assert (IN : forall k, In k ([2%nat] ++ []) -> (k < nrBodies rex_mb)%nat) by (intros k [<-|[]]; exact L2).
  unfold jacobian. change (back (jc_path rex_J)) with (Ok 2%nat). cbn [bind].
  rewrite (get_nth (bodyPosW m) 2 ptid) by (rewrite (ok_bodyPosW _ _ (r_ok _ _ _ RU)); exact L2). cbn [bind].
  rewrite (rel_jac_ rex_mb rex_m m rex_wf RU 1 2 v0 [2%nat] [] rex_J IN rex_J_obj). cbn [bind].
  unfold to_ref. cbn [with_jac jc_ref rex_J]. change (2 >? 0)%Z with true. cbv iota. rewrite (getz_nat _ 2), (get_nth (bodyPosW m) 2 ptid) by (rewrite (ok_bodyPosW _ _ (r_ok _ _ _ RU)); exact L2).
  cbn [bind]. eexists. split; [reflexivity|]. cbn [with_jac jc_jac jc_path rex_J jc_point].
  set (X := pttr (trR (ptmul (pttr v0) (posW m 2)))).
  change (map (fun c => mkSV (mapp (rotE (posW m 2)) (sang c)) (mapp (rotE (posW m 2)) (slin c))) (rel_cols rex_mb m [2%nat] [] X)) with (map (turn (rotE (posW m 2))) (rel_cols rex_mb m [2%nat] [] X)).
  rewrite (smul_lin (turn (rotE (posW m 2)))) by apply turn_linear.
  change [2%nat] with ([2%nat] ++ []) at 2.
  rewrite (rel_times rex_mb rex_m m rex_wf RU [2%nat] [] IN X _ (ok_alpha _ _ (r_ok _ _ _ RU))).
  subst X. unfold path_sum. cbn [fold_left]. rewrite svadd_0_l. unfold wvel. rewrite (r_a _ _ _ RU).
  set (u := smul (jS (nth 2 (mb_joints rex_mb) jd)) (nth 2 (alpha rex_m) [])).
  assert (Eu : slin u = v0) by (subst u; cbn; v3ring). clearbody u.
  replace (trR (ptmul (pttr v0) (posW m 2))) with (trR (posW m 2)) by (unfold ptmul, pttr; cbn [trR rotE]; rewrite mapp_v0; now rewrite vadd_0_r).
  pose proof (r_rw _ _ _ RU 2%nat L2) as R2. generalize dependent (posW m 2). intros X R2.
  unfold svsub, turn, ptm, ptinv, pttr. cbn [rotE trR sang slin]. rewrite Eu, mapp_id. 
  set (w := mapp (mtr (rotE X)) (sang u)).
  assert (E1 : mapp (mtr (rotE X)) (vsub v0 (vcross (vopp (mapp (rotE X) (trR X))) (sang u))) = vcross (trR X) w).
  { assert (E2 : vsub v0 (vcross (vopp (mapp (rotE X) (trR X))) (sang u)) = vcross (mapp (rotE X) (trR X)) (sang u)) by (generalize (mapp (rotE X) (trR X)); intro c; destruct u; cbn; v3ring).
    rewrite E2, <- SO3_cross by (now apply SO3_tr). now rewrite SO3_cancel_l. }
  rewrite E1. clearbody w. clear. assert (E3 : vsub (vsub v0 (vcross (trR X) w)) (vcross (trR X) (vsub v0 w)) = v0) by v3ring.
  cbn [sv0 sang slin]. rewrite E3. apply mapp_v0.
Qed.
End X.
Lemma ancestor_wrong : exists mb m0 m name ref b r p J J1,
  wf_mb mb /\ rigid_mb mb /\ mbc_ok mb m0 /\ config_ok mb m0 /\ after_kinematics mb m0 m /\ one_root mb /\
  (b < nrBodies mb)%nat /\ (r < nrBodies mb)%nat /\ sBodyIndexByName mb name = Ok (Z.of_nat b) /\ sBodyIndexByName mb ref = Ok (Z.of_nat r) /\
  built_relative mb name ref p J /\ b <> r /\ b <> 0%nat /\ r <> 0%nat /\ anc mb b r /\ jacobian mb m J = Ok J1 /\
  smul (jc_jac J1) (on_path (jc_path J) (alpha m)) <>
    point_velocity (relative_pose (nth b (bodyPosW m) ptid) (nth r (bodyPosW m) ptid)) p
      (relative_velocity (nth b (bodyPosW m) ptid) (nth r (bodyPosW m) ptid) (nth b (bodyVelB m) sv0) (nth r (bodyVelB m) sv0)).
Proof.
  destruct rex_kin as (m & AK). destruct (rex_anc_wrong m AK) as (J1 & E & EQ).
  exists rex_mb, rex_m, m, "trunk"%string, "arm"%string, 1%nat, 2%nat, v0, rex_J, J1.
  split; [exact rex_wf|]. split; [exact rex_rigid|]. split; [exact rex_ok|]. split; [exact rex_config|]. split; [exact AK|]. split; [exact rex_root|].
  do 2 (split; [apply Nat.ltb_lt; reflexivity|]). do 2 (split; [reflexivity|]). split; [exact rex_J_built|]. do 3 (split; [lia|]).
  split; [apply (root_path_anc _ _ _ rex_wf rp2); cbn; tauto|]. split; [exact E|].
  intro H. apply (f_equal slin) in H. rewrite EQ in H. 
  pose proof (rex_relv m AK) as E1. unfold vb in E1. rewrite E1, (rex_rel m AK) in H. apply (f_equal vy) in H. cbn in H. lra.
Qed.

Lemma root_wrong : exists mb m0 m name ref b r p J J1,
  wf_mb mb /\ rigid_mb mb /\ mbc_ok mb m0 /\ config_ok mb m0 /\ after_kinematics mb m0 m /\ one_root mb /\
  (b < nrBodies mb)%nat /\ (r < nrBodies mb)%nat /\ sBodyIndexByName mb name = Ok (Z.of_nat b) /\ sBodyIndexByName mb ref = Ok (Z.of_nat r) /\
  built_relative mb name ref p J /\ ~ anc mb b r /\ ~ anc mb r b /\ jacobian mb m J = Ok J1 /\
  smul (jc_jac J1) (on_path (jc_path J) (alpha m)) <>
    point_velocity (relative_pose (nth b (bodyPosW m) ptid) (nth r (bodyPosW m) ptid)) p
      (relative_velocity (nth b (bodyPosW m) ptid) (nth r (bodyPosW m) ptid) (nth b (bodyVelB m) sv0) (nth r (bodyVelB m) sv0)).
Proof.
  destruct rex_kin as (m & AK). destruct (rex_ctor "arm" "leg" v0 2 4) as (Eb & Er & Lb & Lr & J & HB); [cbn; tauto|cbn; tauto|].
  destruct (rel_root_wrong rex_mb rex_m m rex_wf rex_rigid rex_ok rex_config AK rex_root _ _ 2 4 v0 J Lb Lr Eb Er HB rex_meets (rex_v0 m AK)) as (J1 & E & NE).
  exists rex_mb, rex_m, m, "arm"%string, "leg"%string, 2%nat, 4%nat, v0, J, J1.
  split; [exact rex_wf|]. split; [exact rex_rigid|]. split; [exact rex_ok|]. split; [exact rex_config|]. split; [exact AK|]. split; [exact rex_root|].
  split; [exact Lb|]. split; [exact Lr|]. split; [exact Eb|]. split; [exact Er|]. split; [exact HB|].
  split; [intro A; apply (root_path_anc _ _ _ rex_wf rp4) in A; cbn in A; lia|]. split; [apply rex_meets|]. split; [exact E|exact NE].
Qed.
Lemma rel_traj_top : forall mb (M K : R -> MBC) t, wf_mb mb -> rigid_mb mb ->
  (forall j, In j (mb_joints mb) -> regular j) ->
  (forall s, mbc_ok mb (M s)) -> (forall s, config_ok mb (M s)) -> (forall s, after_kinematics mb (M s) (K s)) ->
  (forall i, (i < nrBodies mb)%nat ->
     follows (nth i (mb_joints mb) jd) (fun s => nth i (q (M s)) []) t (nth i (alpha (M t)) [])) ->
  one_root mb -> forall name ref b r p J J1, (b < nrBodies mb)%nat -> (r < nrBodies mb)%nat ->
  sBodyIndexByName mb name = Ok (Z.of_nat b) -> sBodyIndexByName mb ref = Ok (Z.of_nat r) -> built_relative mb name ref p J ->
  b <> r -> r <> 0%nat -> (anc mb b r -> b = 0%nat) -> joined mb b r -> jacobian mb (K t) J = Ok J1 ->
  moves (fun s => relative_pose (nth b (bodyPosW (K s)) ptid) (nth r (bodyPosW (K s)) ptid)) t
    (relative_velocity (nth b (bodyPosW (K t)) ptid) (nth r (bodyPosW (K t)) ptid) (nth b (bodyVelB (K t)) sv0) (nth r (bodyVelB (K t)) sv0)) /\
  derivV (fun s => point_position (relative_pose (nth b (bodyPosW (K s)) ptid) (nth r (bodyPosW (K s)) ptid)) p) t
    (slin (smul (jc_jac J1) (on_path (jc_path J) (alpha (K t))))).
Proof. intros. split; [eapply rel_traj; eauto|eapply rel_traj_point; eauto]. Qed.
