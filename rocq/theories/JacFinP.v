(** Proofs of the Jacobian properties. *)
From Coq Require Import Reals String ZArith Bool Arith List Lia Lra.
From Verif Require Import Res ResP SMap Vec VecP Sva SvaP Mat JointM MultiBodyM KinM DynM JacM Spec SpecDyn SpecJac
  JointP KinP KinPathP MbP TreeP DynP DynCP ConvP KinFinP SpecDeriv DerivP DerivTreeP JacP.
Import ListNotations.
Open Scope R_scope.

(** ** The constructor *)
Lemma path_dof_app mb l l' : path_dof mb (l ++ l') = (path_dof mb l + path_dof mb l')%nat.
Proof. unfold path_dof. now rewrite map_app, list_sum_app. Qed.
Lemma ones_app (l l' : list nat) : map (fun _ => 1) (l ++ l') = map (fun _ => 1) l ++ map (fun _ => 1) l'.
Proof. apply map_app. Qed.

Lemma walk_ok mb : wf_mb mb -> forall i fuel path sign dof, (i < nrBodies mb)%nat -> (i + 2 <= fuel)%nat ->
  exists l, root_path mb i l /\
    jac_walk mb fuel (Z.of_nat i) path sign dof =
    Ok (l ++ path, map (fun _ => 1) l ++ sign, (dof + path_dof mb l)%nat).
Proof.
  intros W i. induction i as [i IH] using lt_wf_ind. intros fuel path sign dof L F.
  pose proof (wf_nrJoints _ W) as NJ. pose proof (wf_pred_len _ W) as Lp.
  destruct fuel as [|fuel]; [lia|]. cbn [jac_walk].
  replace (Z.of_nat i =? -1)%Z with false by (symmetry; apply Z.eqb_neq; lia).
  rewrite (wf_parent _ W).
  rewrite !getz_nat, (get_nth (mb_joints mb) i jd) by (fold (nrJoints mb); lia). cbn [bind].
  destruct (wf_get_pred mb i W L) as [[Ep Pp]|(p & Ep & Hp & Pp)]; rewrite Ep; cbn [bind]; rewrite Nat2Z.id.
  - exists [i]. split; [constructor; now apply get_Ok|].
    destruct fuel as [|fuel]; [lia|]. cbn [jac_walk]. rewrite Z.eqb_refl. cbn [app map].
    unfold path_dof. cbn [map list_sum fold_right]. now rewrite Nat.add_0_r.
  - destruct (IH p Hp fuel (i :: path) (1 :: sign) (dof + jdof (nth i (mb_joints mb) jd))%nat) as (l & RP & E); [lia|lia|].
    exists (l ++ [i]). split; [eapply rp_step; eauto; now apply get_Ok|].
    rewrite E. rewrite path_dof_app, ones_app, <- !app_assoc. cbn [app map].
    unfold path_dof at 3. cbn [map list_sum fold_right]. do 2 f_equal. lia.
Qed.
Lemma garbage_length {A} (g : nat -> A) n : length (map g (seq 0 n)) = n.
Proof. now rewrite map_length, seq_length. Qed.

Lemma ctor_ok g mb name p i : wf_mb mb -> sBodyIndexByName mb name = Ok (Z.of_nat i) -> (i < nrBodies mb)%nat ->
  exists J, Jacobian_ctor g mb name p = Ok J /\ jacobian_of mb i p J.
Proof.
  intros W E L. unfold Jacobian_ctor. rewrite E. cbn [bind]. pose proof (wf_nrJoints _ W) as NJ.
  destruct (walk_ok mb W i (S (nrJoints mb)) [] [] 0 L ltac:(lia)) as (l & RP & Ew). rewrite Ew. cbn [bind].
  rewrite !app_nil_r. eexists. split; [reflexivity|].
  constructor; cbn [jc_path jc_sign jc_point jc_jac jc_dot jc_body jc_ref]; auto; rewrite garbage_length; reflexivity.
Qed.
Lemma ctor_absent g mb name p e : sBodyIndexByName mb name = Throw e -> Jacobian_ctor g mb name p = Throw e.
Proof. intro E. unfold Jacobian_ctor. now rewrite E. Qed.

Lemma root_path_increasing mb i l : wf_mb mb -> root_path mb i l -> NoDup l.
Proof.
  intros W H. induction H as [i H|i p l H R IH].
  - repeat constructor. auto.
  - destruct (root_path_lt _ _ _ W R) as (Lp & B).
    assert (Hi : (i < nrBodies mb)%nat).
    { rewrite <- (wf_pred_len _ W). apply nth_error_Some. congruence. }
    pose proof (par_lt mb i p W Hi (pred_par _ _ _ H)) as P.
    apply NoDup_rev in IH. rewrite <- (rev_involutive (l ++ [i])). apply NoDup_rev.
    rewrite rev_app_distr. cbn. constructor; auto. rewrite <- in_rev. intro I. apply B in I. lia.
Qed.
Lemma root_path_in mb i l : wf_mb mb -> root_path mb i l -> forall k, In k l -> (k < nrBodies mb)%nat.
Proof. intros W H k I. destruct (root_path_lt _ _ _ W H) as (A & B). apply B in I. lia. Qed.

(** ** Only the joints of the path matter *)
Lemma path_indep mb : wf_mb mb -> rigid_mb mb -> forall ma mb0 ka kb,
  mbc_ok mb ma -> mbc_ok mb mb0 -> config_ok mb ma -> config_ok mb mb0 ->
  after_kinematics mb ma ka -> after_kinematics mb mb0 kb ->
  forall i l, root_path mb i l ->
  (forall k, In k l -> nth_error (q ma) k = nth_error (q mb0) k /\ nth_error (alpha ma) k = nth_error (alpha mb0) k) ->
  nth_error (bodyPosW ka) i = nth_error (bodyPosW kb) i /\
  nth_error (bodyVelB ka) i = nth_error (bodyVelB kb) i /\
  nth_error (bodyVelW ka) i = nth_error (bodyVelW kb) i.
Proof.
  intros W RM ma mc ka kb Ka Kb Ca Cb Aa Ab i l RP Q.
  pose proof (kin_run _ _ _ W RM Ka Ca Aa) as Ra. pose proof (kin_run _ _ _ W RM Kb Cb Ab) as Rb.
  assert (B : nth i (bodyPosW ka) ptid = nth i (bodyPosW kb) ptid /\ nth i (bodyVelB ka) sv0 = nth i (bodyVelB kb) sv0).
  { assert (Qn : forall k, In k l -> nth k (q ma) [] = nth k (q mc) [] /\ nth k (alpha ma) [] = nth k (alpha mc) []).
    { intros k Hk. destruct (Q k Hk) as (A & B).
      split; [generalize (q ma), (q mc), A|generalize (alpha ma), (alpha mc), B];
        intros u v X; destruct (nth_error u k) eqn:U;
        [erewrite (nth_error_nth u), (nth_error_nth v); eauto|
         rewrite !nth_overflow; auto; apply nth_error_None; congruence|
         erewrite (nth_error_nth u), (nth_error_nth v); eauto|
         rewrite !nth_overflow; auto; apply nth_error_None; congruence]. }
    clear Q. induction RP as [i H|i p l H RP IH].
    - assert (Hi : (i < nrBodies mb)%nat) by (rewrite <- (wf_pred_len _ W); apply nth_error_Some; congruence).
      pose proof (pred_par_none _ _ H) as Pn. destruct (Qn i ltac:(now left)) as (Q1 & Q2).
      rewrite (r_bp _ _ _ Ra), (r_bp _ _ _ Rb), (r_vb _ _ _ Ra), (r_vb _ _ _ Rb), Pn by auto.
      rewrite (r_pts _ _ _ Ra), (r_pts _ _ _ Rb), (r_vj _ _ _ Ra), (r_vj _ _ _ Rb) by auto.
      pose proof (r_pose _ _ _ Ra i Hi) as P1. pose proof (r_pose _ _ _ Rb i Hi) as P2.
      rewrite Q1, P2 in P1. injection P1 as ->. now rewrite Q2.
    - assert (Hi : (i < nrBodies mb)%nat) by (rewrite <- (wf_pred_len _ W); apply nth_error_Some; congruence).
      pose proof (pred_par _ _ _ H) as Pn. destruct (Qn i ltac:(apply in_app_iff; right; now left)) as (Q1 & Q2).
      rewrite (r_bp _ _ _ Ra), (r_bp _ _ _ Rb), (r_vb _ _ _ Ra), (r_vb _ _ _ Rb), Pn by auto.
      rewrite (r_pts _ _ _ Ra), (r_pts _ _ _ Rb), (r_vj _ _ _ Ra), (r_vj _ _ _ Rb) by auto.
      destruct IH as (I1 & I2). { intros k Hk. apply Qn. apply in_app_iff. now left. }
      pose proof (r_pose _ _ _ Ra i Hi) as P1. pose proof (r_pose _ _ _ Rb i Hi) as P2.
      rewrite Q1, P2 in P1. injection P1 as ->. now rewrite Q2, I1, I2. }
  destruct B as (B1 & B2). destruct (root_path_lt _ _ _ W RP) as (Hi & _).
  pose proof (r_ok _ _ _ Ra) as Oa. pose proof (r_ok _ _ _ Rb) as Ob.
  assert (NE : forall A (u v : list A) d, length u = nrBodies mb -> length v = nrBodies mb -> nth i u d = nth i v d ->
     nth_error u i = nth_error v i).
  { intros A u v d Lu Lv E. rewrite !(nth_error_nth' _ d) by lia. now rewrite E. }
  split; [|split].
  - apply (NE _ _ _ ptid); [apply (ok_bodyPosW _ _ Oa)|apply (ok_bodyPosW _ _ Ob)|auto].
  - apply (NE _ _ _ sv0); [apply (ok_bodyVelB _ _ Oa)|apply (ok_bodyVelB _ _ Ob)|auto].
  - apply (NE _ _ _ sv0); [apply (ok_bodyVelW _ _ Oa)|apply (ok_bodyVelW _ _ Ob)|].
    rewrite (r_vw _ _ _ Ra), (r_vw _ _ _ Rb), B1, B2 by auto. reflexivity.
Qed.

(** ** Algebra of a run *)
Lemma run_placed mb m0 m : run mb m0 m -> placed mb m.
Proof.
  intros R i L. split; [apply (r_rx _ _ _ R); auto|]. split; [apply (r_rw _ _ _ R); auto|]. now apply (r_bp _ _ _ R).
Qed.
Lemma jo_path_ok mb m0 m i p J : wf_mb mb -> run mb m0 m -> jacobian_of mb i p J -> path_ok mb m J.
Proof.
  intros W R H. pose proof (r_ok _ _ _ R) as K. constructor.
  - apply (root_path_in _ _ _ W (jo_path _ _ _ _ H)).
  - rewrite (jo_sign _ _ _ _ H). apply map_length.
  - apply (jo_jac _ _ _ _ H).
  - apply (jo_dot _ _ _ _ H).
  - apply (ok_bodyPosW _ _ K).
  - apply (ok_motionSubspace _ _ K).
Qed.
Lemma jo_with_jac mb i p J v : jacobian_of mb i p J -> length v = length (jc_jac J) -> jacobian_of mb i p (with_jac v J).
Proof. intros H L. destruct H as [H1 H2 H3 H4 H5 H6 H7]. constructor; cbn [with_jac with_dot jc_path jc_sign jc_point jc_jac jc_dot jc_body jc_ref]; auto; now rewrite L. Qed.
Lemma jo_with_dot mb i p J v : jacobian_of mb i p J -> length v = length (jc_dot J) -> jacobian_of mb i p (with_dot v J).
Proof. intros H L. destruct H as [H1 H2 H3 H4 H5 H6 H7]. constructor; cbn [with_jac with_dot jc_path jc_sign jc_point jc_jac jc_dot jc_body jc_ref]; auto; now rewrite L. Qed.

Section Run.
Variables (mb : MultiBody) (m0 m : MBC).
Hypothesis W : wf_mb mb.
Hypothesis R : run mb m0 m.

Let K := r_ok _ _ _ R.

(** The columns for a forward path. *)
Definition fcols (X : PT) (k : nat) : list SV :=
  map (ptm (ptmul X (ptinv (posW m k)))) (jS (nth k (mb_joints mb) jd)).

Lemma jcols_fwd i p J X : jacobian_of mb i p J ->
  map (jcols m X J) (seq 0 (length (jc_path J))) = map (fcols X) (jc_path J).
Proof.
  intro H. rewrite <- (map_seq_nth (fcols X) (jc_path J) 0%nat). apply map_ext_in. intros idx I. apply in_seq in I.
  unfold jcols, fcols. rewrite (jo_sign _ _ _ _ H). rewrite (nth_map_lt _ _ _ 0%nat) by lia.
  rewrite (r_ms _ _ _ R) by (apply (root_path_in _ _ _ W (jo_path _ _ _ _ H)), nth_In; lia).
  apply map_ext. intro c. now rewrite svscale_1.
Qed.
Lemma fwd_jacobian_ i p J X : jacobian_of mb i p J ->
  jacobian_ mb m X J = Ok (with_jac (concat (map (fcols X) (jc_path J))) J).
Proof.
  intro H. rewrite jacobian__ok by (eauto using jo_path_ok). now rewrite (jcols_fwd i p).
Qed.
Lemma S_len k : (k < nrBodies mb)%nat -> length (jS (nth k (mb_joints mb) jd)) = dofi mb k.
Proof. intro L. apply joint_ok_S_length. now apply wf_joint_nth. Qed.
Lemma fcols_length i p J X : jacobian_of mb i p J ->
  length (concat (map (fcols X) (jc_path J))) = length (jc_jac J).
Proof.
  intro H. rewrite (jo_jac _ _ _ _ H). apply concat_map_length. intros k I. unfold fcols. rewrite map_length.
  apply S_len. eapply root_path_in; eauto. apply (jo_path _ _ _ _ H).
Qed.
Lemma on_path_length {A} (v : list (list A)) i l : root_path mb i l -> sized mb jdof v ->
  length (on_path l v) = path_dof mb l.
Proof.
  intros H S. unfold on_path, path_dof. apply concat_map_length. intros k I. apply (sized_nth _ _ _ _ S).
  rewrite (wf_nrJoints _ W). eapply root_path_in; eauto.
Qed.

(** The product with a vector of rates. *)
Lemma fcols_times i p J X a : jacobian_of mb i p J -> sized mb jdof a ->
  smul (concat (map (fcols X) (jc_path J))) (on_path (jc_path J) a) =
  ptm (ptmul X (ptinv (posW m i)))
      (path_sum (fun k => ptm (relX (bodyPosW m) i k) (smul (jS (nth k (mb_joints mb) jd)) (nth k a []))) (jc_path J)).
Proof.
  intros H S. unfold on_path.
  pose proof (jo_path _ _ _ _ H) as RP. pose proof (root_path_in _ _ _ W RP) as IN.
  destruct (root_path_lt _ _ _ W RP) as (Hi & _).
  rewrite smul_concat.
  - rewrite ptm_path_sum. apply path_sum_ext. intros k Hk. unfold fcols. rewrite smul_ptm.
    pose proof (r_rw _ _ _ R) as RW.
    rewrite !ptm_mul by (apply rigid_inv; auto). f_equal. unfold relX.
    rewrite ptm_mul by (apply rigid_inv; auto).
    rewrite <- (ptm_mul (ptinv (posW m i))) by auto. rewrite ptinv_l by auto. now rewrite ptm_id.
  - intros k Hk. unfold fcols. rewrite map_length, S_len by auto. symmetry. apply (sized_nth _ _ _ _ S).
    rewrite (wf_nrJoints _ W). auto.
Qed.
Lemma vb_closed i l : root_path mb i l ->
  vb m i = path_sum (fun k => ptm (relX (bodyPosW m) i k) (smul (jS (nth k (mb_joints mb) jd)) (nth k (alpha m) []))) l.
Proof.
  intro RP. unfold vb.
  rewrite (forward_closed mb m (fun i => nth i (bodyVelB m) sv0) sv0 (fun k => nth k (jointVelocity m) sv0)
             W (run_placed _ _ _ R)) with (l := l); auto.
  - rewrite ptm_sv0, svadd_0_l. apply path_sum_ext. intros k Hk. rewrite (r_vj _ _ _ R), (r_a _ _ _ R); auto.
    eapply root_path_in; eauto.
  - intros j Hj. rewrite (r_vb _ _ _ R) by auto. destruct (par mb j); auto. now rewrite ptm_sv0, svadd_0_l.
Qed.

(** Transport from the body to a point, in world axes and in body axes. *)
Lemma at_world X p V : rigid X ->
  ptm (ptmul (pttr (trR (ptmul (pttr p) X))) (ptinv X)) V = point_velocity X p V.
Proof.
  intro RX. unfold point_velocity. unfold ptmul, pttr, ptinv, ptm. cbn [rotE trR].
  rewrite !mmul_id_l. apply SV_ext; cbn [sang slin]; auto. f_equal.
  rewrite mtr_mtr. rewrite mapp_add, SO3_cancel_r by auto.
  generalize (mapp (rotE X) (trR X)). intro. destruct V as [a b]. cbn [sang slin]. v3ring.
Qed.
Lemma at_body X p V : rigid X -> ptm (ptmul (ptmul (pttr p) X) (ptinv X)) V = body_point_velocity p V.
Proof.
  intro RX. rewrite <- ptmul_assoc, ptinv_r, ptmul_id_r by auto. unfold body_point_velocity. svring.
Qed.
Lemma at_point p V : ptm (pttr p) V = body_point_velocity p V.
Proof. unfold body_point_velocity. svring. Qed.
Lemma at_world2 X p V : ptm (mkPT (mtr (rotE X)) p) V = point_velocity X p V.
Proof. unfold point_velocity. svring. Qed.

(** ** Jacobian * rates *)
Lemma jacobian_run i p J : jacobian_of mb i p J ->
  jacobian mb m J = Ok (with_jac (concat (map (fcols (pttr (trR (ptmul (pttr p) (posW m i))))) (jc_path J))) J).
Proof.
  intro H. unfold jacobian. rewrite (root_path_back _ _ _ (jo_path _ _ _ _ H)). cbn [bind].
  destruct (root_path_lt _ _ _ W (jo_path _ _ _ _ H)) as (Hi & _).
  rewrite (get_nth (bodyPosW m) i ptid) by (rewrite (ok_bodyPosW _ _ K); auto). cbn [bind].
  rewrite (jo_point _ _ _ _ H), (fwd_jacobian_ i p) by auto. cbn [bind].
  unfold to_ref. cbn [jc_ref with_jac]. rewrite (jo_ref _ _ _ _ H). reflexivity.
Qed.
Lemma jacobian_at_run i p J X : jacobian_of mb i p J ->
  jacobian_at mb m X J = Ok (with_jac (concat (map (fcols X) (jc_path J))) J).
Proof.
  intro H. unfold jacobian_at. rewrite (fwd_jacobian_ i p) by auto. cbn [bind].
  unfold to_ref. cbn [jc_ref with_jac]. rewrite (jo_ref _ _ _ _ H). reflexivity.
Qed.
Lemma bodyJacobian_run i p J : jacobian_of mb i p J ->
  bodyJacobian mb m J = Ok (with_jac (concat (map (fcols (ptmul (pttr p) (posW m i))) (jc_path J))) J).
Proof.
  intro H. unfold bodyJacobian. rewrite (root_path_back _ _ _ (jo_path _ _ _ _ H)). cbn [bind].
  destruct (root_path_lt _ _ _ W (jo_path _ _ _ _ H)) as (Hi & _).
  rewrite (get_nth (bodyPosW m) i ptid) by (rewrite (ok_bodyPosW _ _ K); auto). cbn [bind].
  rewrite (jo_point _ _ _ _ H). now rewrite (fwd_jacobian_ i p) by auto.
Qed.
End Run.
