(** A robot that falls. *)
From Coq Require Import Reals String ZArith Bool Arith List Lia Lra.
From Verif Require Import Res ResP SMap Vec VecP Sva SvaP Mat JointM MultiBodyM KinM DynM JacM CoMM MomM Spec SpecDyn SpecJac SpecCoM SpecRel SpecDeriv SpecNewton
  JointP KinP KinPathP MbP TreeP DynP DynCP DynHP ConvP KinFinP DynFinP DynFin2P SolveP Ex DynExP DerivP DerivTreeP DerivExP JacP JacFinP JacTopP CoMP CoMTopP CoMExP MomP MomTopP NewtonP Newton2P Newton3P NewtonExP CorExP.
Import ListNotations.
Open Scope R_scope.

(** When the torques are those of the inverse dynamics, the forward dynamics return the
    accelerations. *)
Lemma FD_of_torques mb m0 m s f solve f' m' : wf_mb mb -> rigid_mb mb -> mbc_ok mb m0 -> config_ok mb m0 ->
  after_kinematics mb m0 m -> fd_ok mb s -> length f = nrBodies mb ->
  (forall b, In b (mb_bodies mb) -> inertia_pd (binertia b)) -> solver_ok solve ->
  inverseDynamics mb f m = Ok (f', m') -> jointTorque m' = jointTorque m ->
  exists s' m2, forwardDynamics solve mb m s = Ok (s', m2) /\ alphaD m2 = alphaD m.
Proof.
  intros W RM K0 C AK O1 Lf PD SO E3 ET. pose proof (after_kin_state _ _ _ W RM K0 C AK) as D.
  pose proof (ID_run _ _ _ _ _ W (ds_ok _ _ D) Lf E3) as P3.
  destruct (FD_run mb m s solve W RM D O1 PD SO) as (s1 & s2 & s' & m2 & E1 & E2 & P1 & P2 & E & O' & Fr & Sd & EH & EC & Hx).
  exists s', m2. split; auto.
  apply (flat_inj mb); auto. apply (ds_ok _ _ D).
  apply (spd_inj (mb_nrDof mb) (ment (fd_H s1)) _ _ (H_pd mb m s s1 W RM D P1 PD)).
  intros r Hr. rewrite Hx by auto. rewrite <- ET.
  rewrite (id_H_C mb m (fd_H s1) (fd_C s2) f' m' W D (hp_H _ _ _ _ P1) (cp_C _ _ _ _ P2) P3 r Hr). ring.
Qed.

(** The robot of DerivExP thrown sideways, falling with gravity g along z. *)
Definition exf_v (g s : R) : V3 := mapp (QuatToE (3/5) (4/5) 0 0) (mkV3 1 0 (- (s * g))).
Definition exf_a (g : R) : V3 := mapp (QuatToE (3/5) (4/5) 0 0) (mkV3 0 0 (- g)).
Definition exf_M (g s : R) : MBC :=
  with_gravity (mkV3 0 0 g)
  (with_alphaD [[0; 0; 0; vx (exf_a g); vy (exf_a g); vz (exf_a g)]; [0]; [0]; [0; 0; 0]]
    (with_alpha [[0; 0; 0; vx (exf_v g s); vy (exf_v g s); vz (exf_v g s)]; [0]; [0]; [0; 0; 0]]
      (with_q [[3/5; 4/5; 0; 0; s; 2; 3 - g / 2 * (s * s)]; [1]; [2]; [1; 2; 3]]
        (MBC_ctor ex_garbage exd_mb)))).
Lemma exf_ok g s : mbc_ok exd_mb (exf_M g s).
Proof.
  pose proof (MBC_ctor_ok ex_garbage exd_mb eq_refl) as H. destruct H.
  constructor; unfold exf_M; cbn [q alpha alphaD force jointConfig jointVelocity jointTorque
    motionSubspace bodyPosW parentToSon bodyVelW bodyVelB bodyAccB with_q with_alpha with_alphaD with_gravity]; auto; reflexivity.
Qed.
Lemma exf_config g s : config_ok exd_mb (exf_M g s).
Proof.
  intros i j qi Hj Hq. simpl in Hj. unfold exf_M in Hq; cbn [q with_q with_alpha with_alphaD with_gravity] in Hq.
  do 4 (destruct i as [|i]; [simpl in Hj, Hq; injection Hj as <-; injection Hq as <-; split;
      [reflexivity| try exact Logic.I; unfold quat_unit; simpl; field]|]).
  destruct i; discriminate.
Qed.
Lemma exf_quat w : mapp (mtr (QuatToE (3/5) (4/5) 0 0)) (mapp (QuatToE (3/5) (4/5) 0 0) w) = w.
Proof. destruct w. unfold QuatToE, mscale, mtr, mapp. cbn [m00 m01 m02 m10 m11 m12 m20 m21 m22 Vec.vx Vec.vy Vec.vz]. f_equal; field. Qed.
Lemma exf_follows g t i : (i < nrBodies exd_mb)%nat ->
  follows (nth i (mb_joints exd_mb) jd) (fun s => nth i (q (exf_M g s)) []) t (nth i (alpha (exf_M g t)) []).
Proof.
  intros L k Hk. change (nrBodies exd_mb) with 4%nat in L. pose proof (D_id t) as DI.
  unfold exf_M; cbn [q with_q with_alpha with_alphaD with_gravity alpha].
  destruct i as [|[|[|[|]]]]; [| | | |lia].
  - change (jtyp (nth 0 (mb_joints exd_mb) jd)) with Free. change (jparams (nth 0 (mb_joints exd_mb) jd)) with 7%nat in Hk.
    unfold qrate, co. cbn [nth app].
    replace (mkV3 (vx (exf_v g t)) (vy (exf_v g t)) (vz (exf_v g t))) with (exf_v g t) by (now destruct (exf_v g t)).
    unfold exf_v at 1 2 3. rewrite exf_quat. cbn [Vec.vx Vec.vy Vec.vz].
    do 7 (destruct k as [|k]; [cbn [nth]; dsolve; field|]). lia.
  - cbn in Hk |- *; unfold co; repeat (destruct k as [|k]; [cbn; dsolve; try field; try ring|try lia]).
  - cbn in Hk |- *; unfold co; repeat (destruct k as [|k]; [cbn; dsolve; try field; try ring|try lia]).
  - cbn in Hk |- *; unfold co; repeat (destruct k as [|k]; [cbn; dsolve; try field; try ring|try lia]).
Qed.
Lemma exf_alphaD g t i k : (i < nrBodies exd_mb)%nat -> (k < jdof (nth i (mb_joints exd_mb) jd))%nat ->
  D (fun s => co (nth i (alpha (exf_M g s)) []) k) t (co (nth i (alphaD (exf_M g t)) []) k).
Proof.
  intros L Hk. change (nrBodies exd_mb) with 4%nat in L. pose proof (D_id t) as DI.
  unfold exf_M; cbn [q with_q with_alpha with_alphaD with_gravity alpha alphaD].
  destruct i as [|[|[|[|]]]]; [| | | |lia].
  - change (jdof (nth 0 (mb_joints exd_mb) jd)) with 6%nat in Hk. unfold co, exf_v, exf_a, mapp. cbn [nth Vec.vx Vec.vy Vec.vz].
    do 6 (destruct k as [|k]; [dsolve; ring|]). lia.
  - cbn in Hk |- *; unfold co; repeat (destruct k as [|k]; [cbn; dsolve; try field; try ring|try lia]).
  - cbn in Hk |- *; unfold co; repeat (destruct k as [|k]; [cbn; dsolve; try field; try ring|try lia]).
  - cbn in Hk |- *; unfold co; repeat (destruct k as [|k]; [cbn; dsolve; try field; try ring|try lia]).
Qed.
Lemma exf_kin g : exists K, forall s, after_kinematics exd_mb (exf_M g s) (K s).
Proof.
  pose (K1 := fun s => match forwardKinematics exd_mb (exf_M g s) with Ok m => m | _ => exf_M g s end).
  pose (K := fun s => match forwardVelocity exd_mb (K1 s) with Ok m => m | _ => exf_M g s end).
  exists K. intros s. destruct (FK_total exd_mb (exf_M g s) exd_wf (exf_ok g s)) as (m1 & E1 & F).
  pose proof (FK_mbc_ok _ _ _ exd_wf (exf_ok g s) F) as O1.
  destruct (FV_total exd_mb m1 exd_wf O1) as (m2 & E2 & V).
  exists (K1 s). unfold K, K1. rewrite E1, E2. auto.
Qed.
Lemma exd_pd b : In b (mb_bodies exd_mb) -> inertia_pd (binertia b).
Proof. exact (ex_pd b). Qed.
Lemma exd_one_root : one_root exd_mb.
Proof. intros i E. destruct i as [|[|[|[|i]]]]; cbn in E; auto; try discriminate. destruct i; discriminate. Qed.
Lemma exd_floating : floating exd_mb.
Proof. eexists. split; [reflexivity|split; reflexivity]. Qed.
Lemma exf_frame g s m : after_kinematics exd_mb (exf_M g s) m ->
  alpha m = alpha (exf_M g s) /\ alphaD m = alphaD (exf_M g s) /\ force m = force (exf_M g s) /\
  jointTorque m = jointTorque (exf_M g s) /\ gravity m = gravity (exf_M g s) /\
  rotE (nth 0 (bodyPosW m) ptid) = QuatToE (3/5) (4/5) 0 0.
Proof.
  intro A. destruct (after_kin_posts _ _ _ exd_wf (exf_ok g s) A) as (m1 & F1 & K1 & V & K2).
  assert (EX : rotE (nth 0 (bodyPosW m1) ptid) = QuatToE (3/5) (4/5) 0 0).
  { assert (Z : (0 < nrBodies exd_mb)%nat) by (cbn; lia).
    rewrite (fk_bp _ _ _ F1 0%nat Z). change (par exd_mb 0) with (@None nat).
    rewrite (fk_pts _ _ _ F1 0%nat Z). pose proof (fk_jc _ _ _ F1 0%nat Z) as P.
    change (nth 0 (mb_Xt exd_mb) ptid) with ptid.
    remember (nth 0 (jointConfig m1) ptid) as Y eqn:EY. clear EY.
    unfold pose in P. change (jtyp (nth 0 (mb_joints exd_mb) jd)) with Free in P.
    change (jfwd (nth 0 (mb_joints exd_mb) jd)) with true in P.
    unfold exf_M in P; cbn [q with_q with_alpha with_alphaD with_gravity nth get nth_error bind] in P.
    injection P as <-. unfold ptmul, ptid. cbn [rotE]. now rewrite ?mmul_id_r. }
  assert (EP : bodyPosW m = bodyPosW m1) by (rewrite (fv_frame _ _ _ V); reflexivity).
  rewrite EP, EX. clear EX EP.
  rewrite (fv_frame _ _ _ V), (fk_frame _ _ _ F1). repeat split; reflexivity.
Qed.
Lemma zero_list (l : list R) k : length l = length k -> (forall x, In x l -> x = 0) -> (forall x, In x k -> x = 0) -> l = k.
Proof.
  revert k. induction l as [|a l IH]; intros [|b k] L H1 H2; try discriminate L; auto.
  rewrite (H1 a), (H2 b) by now left. f_equal. apply IH; [now injection L|intros; apply H1; now right|intros; apply H2; now right].
Qed.
Lemma exf_FD g t m : after_kinematics exd_mb (exf_M g t) m ->
  exists s' m', forwardDynamics lsolve exd_mb m exd_fd = Ok (s', m') /\ alphaD m' = alphaD (exf_M g t).
Proof.
  intro A. destruct (exf_frame g t m A) as (E1 & E2 & E3 & E4 & E5 & E6). rewrite <- E2.
  pose proof (after_kin_state _ _ _ exd_wf exd_rigid (exf_ok g t) (exf_config g t) A) as DS.
  destruct (ID_total exd_mb m ex_f exd_wf (ds_ok _ _ DS) eq_refl) as (f' & m' & EI & PI).
  apply (FD_of_torques exd_mb (exf_M g t) m exd_fd ex_f lsolve f' m' exd_wf exd_rigid (exf_ok g t) (exf_config g t) A exd_fd_ok eq_refl exd_pd lsolve_ok EI).
  assert (Z : forall i x, In x (nth i (jointTorque m') []) -> x = 0).
  { refine (fall_torques exd_mb m exd_wf exd_one_root exd_rigid exd_floating DS (exf_v g t) _ _ _ _ _ ex_f f' m' eq_refl EI).
    - rewrite E1. reflexivity.
    - rewrite E2, E5, E6. change (gravity (exf_M g t)) with (mkV3 0 0 g). unfold exf_M at 1. cbn [alphaD gravity with_gravity with_alphaD nth].
      replace (vopp (mapp (QuatToE (3/5) (4/5) 0 0) (mkV3 0 0 g))) with (exf_a g); [reflexivity|].
      unfold exf_a, mapp, vopp. cbn [Vec.vx Vec.vy Vec.vz]. f_equal; ring.
    - intros i x Hi. rewrite E1. change (nrBodies exd_mb) with 4%nat in Hi. unfold exf_M. cbn [alpha with_gravity with_alphaD with_alpha].
      destruct i as [|[|[|[|i]]]]; try lia; cbn [nth In]; tauto || (intros H; repeat destruct H as [H|H]; auto; tauto).
    - intros i x Hi. rewrite E2. change (nrBodies exd_mb) with 4%nat in Hi. unfold exf_M. cbn [alphaD with_gravity with_alphaD with_alpha].
      destruct i as [|[|[|[|i]]]]; try lia; cbn [nth In]; tauto || (intros H; repeat destruct H as [H|H]; auto; tauto).
    - intros i Hi. rewrite E3. change (nrBodies exd_mb) with 4%nat in Hi.
      destruct i as [|[|[|[|i]]]]; try lia; reflexivity. }
  pose proof (ok_jointTorque _ _ (ip_ok _ _ _ _ PI)) as S1. unfold sized in S1.
  change (map jdof (mb_joints exd_mb)) with [6; 1; 1; 3]%nat in S1.
  rewrite E4. change (jointTorque (exf_M g t)) with [[0;0;0;0;0;0];[0];[0];[0;0;0]].
  destruct (jointTorque m') as [|a0 [|a1 [|a2 [|a3 [|]]]]]; try discriminate S1. injection S1 as L0 L1 L2 L3.
  f_equal; [|f_equal; [|f_equal; [|f_equal]]]; (apply zero_list; [assumption| |intros x H; cbn [In] in H; intuition auto]).
  - exact (Z 0%nat).
  - exact (Z 1%nat).
  - exact (Z 2%nat).
  - exact (Z 3%nat).
Qed.

Lemma exf_power g s m : after_kinematics exd_mb (exf_M g s) m -> power exd_mb m = 0.
Proof.
  intro A. destruct (exf_frame g s m A) as (_ & _ & E3 & E4 & _). unfold power. rewrite E3, E4.
  rewrite !rsum_eq0; [ring| |].
  - intros i Hi. change (nrBodies exd_mb) with 4%nat in Hi.
    replace (nth i (force (exf_M g s)) sv0) with sv0; [apply svdot_0_l|].
    destruct i as [|[|[|[|i]]]]; try lia; reflexivity.
  - intros r Hr. change (jointTorque (exf_M g s)) with [[0;0;0;0;0;0];[0];[0];[0;0;0]].
    replace (flat [[0;0;0;0;0;0];[0];[0];[0;0;0]] r) with 0; [ring|]. unfold flat. cbn [concat app].
    change (mb_nrDof exd_mb) with 11%nat in Hr. do 11 (destruct r as [|r]; [reflexivity|]). lia.
Qed.
Lemma weight0 X I : weight v0 X I = sv0.
Proof. unfold weight. svring. Qed.
Lemma moved0 c : moved_to c (svadd sv0 sv0) = sv0.
Proof. unfold moved_to. svring. Qed.
Lemma svsum_all0 n f : (forall i, (i < n)%nat -> f i = sv0) -> svsum n f = sv0.
Proof.
  intro H. unfold svsum. assert (G : forall l, (forall i, In i l -> (i < n)%nat) -> fold_right (fun i s => svadd (f i) s) sv0 l = sv0).
  { induction l as [|a l IH]; intros L; [reflexivity|]. cbn [fold_right]. rewrite IH by (intros; apply L; now right). rewrite H by (apply L; now left). apply svadd_0_l. }
  apply G. intros i Hi. apply in_seq in Hi. lia.
Qed.
Lemma exf_no_force s m c : after_kinematics exd_mb (exf_M 0 s) m -> applied exd_mb m c = sv0.
Proof.
  intro A. destruct (exf_frame 0 s m A) as (_ & _ & E3 & _ & E5 & _). unfold applied.
  apply svsum_all0. intros i Hi. unfold applied_to. rewrite E3, E5.
  change (gravity (exf_M 0 s)) with v0. rewrite weight0.
  replace (nth i (force (exf_M 0 s)) sv0) with sv0; [apply moved0|].
  change (nrBodies exd_mb) with 4%nat in Hi. destruct i as [|[|[|[|i]]]]; try lia; reflexivity.
Qed.
Lemma vsum3_0 n f : (forall i, (i < n)%nat -> f i = v0) -> vsum3 n f = v0.
Proof.
  intro H. unfold vsum3. rewrite !rsum_eq0; [reflexivity| | |]; intros i Hi; now rewrite H.
Qed.
Lemma exf_forces_aux M E w : vadd (mapp (mtr E) (slin (sv_of [0;0;0;0;0;0]))) (vsub v0 (vscale M (mkV3 0 0 w))) = vscale M (mkV3 0 0 (- w)).
Proof. unfold sv_of. cbn [nth slin]. v3ring. Qed.
Lemma exf_forces g s mass : vadd (mapp (mtr (QuatToE (3/5) (4/5) 0 0)) (slin (sv_of (nth 0 (jointTorque (exf_M g s)) []))))
       (vsub (vsum3 (nrBodies exd_mb) (fun i => slin (nth i (force (exf_M g s)) sv0))) (vscale mass (gravity (exf_M g s)))) =
  vscale mass (mkV3 0 0 (- g)).
Proof.
  rewrite vsum3_0; [apply exf_forces_aux|]. intros i Hi. change (nrBodies exd_mb) with 4%nat in Hi.
  destruct i as [|[|[|[|i]]]]; try lia; reflexivity.
Qed.
Lemma com_acc_exists mb m0 m : wf_mb mb -> rigid_mb mb -> mbc_ok mb m0 -> config_ok mb m0 -> after_kinematics mb m0 m ->
  forall s solve s' m', fd_ok mb s -> (forall b, In b (mb_bodies mb) -> inertia_pd (binertia b)) -> solver_ok solve ->
  0 < total_mass_of mb -> forall p, com_of mb p -> forwardDynamics solve mb m s = Ok (s', m') ->
  exists m3 a, forwardAcceleration mb m' sv0 = Ok m3 /\ computeCoMAcceleration mb m3 = Ok a.
Proof.
  intros W RM K0 C0 AK s solve s' m' FO PD SO TM p CM E. pose proof (after_kin_state _ _ _ W RM K0 C0 AK) as DS.
  destruct (FD_run mb m s solve W RM DS FO PD SO) as (x1 & x2 & x3 & m1' & _ & _ & _ & _ & E1 & _ & Fr & Sd & _).
  rewrite E in E1. injection E1 as _ EM. subst m1'.
  pose proof (dyn_state_with_alphaD mb m (alphaD m') DS Sd) as D'. rewrite <- Fr in D'.
  destruct (FA_total mb m' sv0 W (ds_ok _ _ D')) as (m3 & E3 & _). exists m3.
  pose proof (after_kin_alphaD mb m0 m (alphaD m') AK) as AK'. rewrite <- Fr in AK'.
  assert (K0' : mbc_ok mb (with_alphaD (alphaD m') m0)) by (destruct K0; constructor; auto).
  eexists. split; [exact E3|].
  exact (top_coma mb (with_alphaD (alphaD m') m0) m' W RM K0' C0 AK' TM p sv0 m3 CM E3).
Qed.
Lemma exd_carried : exists m f' m' m3, after_kinematics exd_mb (exd_M 0) m /\
  inverseDynamics exd_mb ex_f m = Ok (f', m') /\ forwardAcceleration exd_mb m sv0 = Ok m3 /\
  forall k, (k < nrBodies exd_mb)%nat -> (Nat.eqb k 1 || Nat.eqb k 2)%bool = true <-> anc exd_mb 1 k.
Proof.
  destruct exd_kin as (K & HK). pose proof (after_kin_state _ _ _ exd_wf exd_rigid (exd_ok 0) (exd_config 0) (HK 0)) as DS.
  destruct (ID_total exd_mb (K 0) ex_f exd_wf (ds_ok _ _ DS) eq_refl) as (f' & m' & EI & _).
  destruct (FA_total exd_mb (K 0) sv0 exd_wf (ds_ok _ _ DS)) as (m3 & E3 & _).
  exists (K 0), f', m', m3. split; [exact (HK 0)|]. split; [exact EI|]. split; [exact E3|].
  assert (A0 : ~ anc exd_mb 1 0).
  { intro H. inversion H as [|k p i E A]; subst. cbn in E. injection E as E. lia. }
  intros k Hk. change (nrBodies exd_mb) with 4%nat in Hk. destruct k as [|[|[|[|k]]]]; [| | | |lia]; cbn [Nat.eqb orb].
  - split; [discriminate|intro H; exfalso; exact (A0 H)].
  - split; [intros _; constructor|auto].
  - split; [intros _; apply (anc_step exd_mb 1 1 2); [reflexivity|constructor]|auto].
  - split; [discriminate|]. intro H. exfalso. inversion H as [|k p i E A]; subst. cbn in E. injection E as E. assert (p = 0)%nat by lia. subst. exact (A0 A).
Qed.
