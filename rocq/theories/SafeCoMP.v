(** The safe versions of the functions about centres of mass, momenta, statics and
    identification. *)
From Coq Require Import Reals String ZArith Bool Arith List Lia Lra.
From Verif Require Import Res ResP SMap Vec VecP Sva SvaP Mat JointM MultiBodyM KinM DynM JacM CoMM MomM ISM IDIMM Spec SpecDyn SpecJac SpecCoM SpecIDIM SpecConf SpecRel SpecSafe
  JointP KinP KinPathP MbP TreeP DynP DynCP ConvP KinFinP ConfFinP DerivTreeP JacP JacFinP JacFin2P JacBlkP RelP CoMP CoMLoopP CoMCtorP SafeP SafeTopP IDIMP ISP.
Import ListNotations.
Open Scope nat_scope.

Section Robot.
Variables (mb : MultiBody) (m : MBC).
Hypothesis W : wf_mb mb.

Lemma gX i : pos_sized mb m -> i < nrBodies mb -> get (bodyPosW m) i = Ok (nth i (bodyPosW m) ptid).
Proof. intros P H. apply get_nth. unfold pos_sized in P. lia. Qed.
Lemma gVB i : vel_sized mb m -> i < nrBodies mb -> get (bodyVelB m) i = Ok (nth i (bodyVelB m) sv0).
Proof. intros (_ & P) H. apply get_nth. lia. Qed.
Lemma gVW i : vel_sized mb m -> i < nrBodies mb -> get (bodyVelW m) i = Ok (nth i (bodyVelW m) sv0).
Proof. intros (P & _) H. apply get_nth. lia. Qed.
Lemma gA i : acc_sized mb m -> i < nrBodies mb -> get (bodyAccB m) i = Ok (nth i (bodyAccB m) sv0).
Proof. intros P H. apply get_nth. unfold acc_sized in P. lia. Qed.
Lemma gl {A} (l : list A) d i : length l = nrBodies mb -> i < nrBodies mb -> get l i = Ok (nth i l d).
Proof. intros L H. apply get_nth. lia. Qed.

(** A loop that returns in every step returns. *)
Lemma loop_total {St} (f : nat -> St -> res St) n s (P : nat -> St -> Prop) : P 0 s ->
  (forall i s, i < n -> P i s -> exists s', f i s = Ok s' /\ P (S i) s') -> exists s', for_up n f s = Ok s' /\ P n s'.
Proof. intros H0 HS. destruct (for_up_inv P f n s H0 HS) as (s' & E & H). eauto. Qed.
Lemma loop_any {St} (f : nat -> St -> res St) n s : (forall i s, i < n -> exists s', f i s = Ok s') -> exists s', for_up n f s = Ok s'.
Proof. intro H. destruct (loop_total f n s (fun _ _ => True)) as (s' & E & _); eauto. intros i x Hi _. destruct (H i x Hi) as (x' & E). eauto. Qed.

Lemma mean_total (step : nat -> R * V3 -> res (R * V3)) : (0 < total_mass_of mb)%R ->
  (forall i s, i < nrBodies mb -> exists v, step i s = Ok ((fst s + mass_of mb i)%R, v)) ->
  exists v, (s <- for_up (nrBodies mb) step (0%R, v0) ;; vdiv_mass (snd s) (fst s)) = Ok v.
Proof.
  intros TM H. destruct (loop_total step (nrBodies mb) (0%R, v0) (fun i s => fst s = rsum i (mass_of mb))) as ((t & v) & E & Et).
  - reflexivity.
  - intros i s Hi Hs. destruct (H i s Hi) as (v & E). rewrite E. eexists. split; [reflexivity|]. cbn [fst]. rewrite Hs. reflexivity.
  - rewrite E. cbn [bind fst snd] in *. unfold vdiv_mass. rewrite Et. change (rsum (nrBodies mb) (mass_of mb)) with (total_mass_of mb).
    destruct (Rlt_dec 0 (total_mass_of mb)); [eauto|contradiction].
Qed.
Lemma com_total : (0 < total_mass_of mb)%R -> pos_sized mb m -> exists v, computeCoM mb m = Ok v.
Proof.
  intros TM P. apply mean_total; auto. intros i s Hi. unfold com_step. rewrite get_body by auto. cbn [bind]. rewrite gX by auto. cbn [bind]. eexists. reflexivity.
Qed.
Lemma comv_total : (0 < total_mass_of mb)%R -> pos_sized mb m -> vel_sized mb m -> exists v, computeCoMVelocity mb m = Ok v.
Proof.
  intros TM P V. apply mean_total; auto. intros i s Hi. unfold comv_step. rewrite get_body by auto. cbn [bind]. rewrite gX, gVB by auto. cbn [bind]. eexists. reflexivity.
Qed.
Lemma coma_total : (0 < total_mass_of mb)%R -> pos_sized mb m -> vel_sized mb m -> acc_sized mb m -> exists v, computeCoMAcceleration mb m = Ok v.
Proof.
  intros TM P V A. apply mean_total; auto. intros i s Hi. unfold coma_step. rewrite get_body by auto. cbn [bind]. rewrite gX, gVB, gVW, gA by auto. cbn [bind]. eexists. reflexivity.
Qed.
Lemma cmom_total com : pos_sized mb m -> vel_sized mb m -> exists v, computeCentroidalMomentum mb m com = Ok v.
Proof. intros P V. apply loop_any. intros i s Hi. rewrite get_body by auto. cbn [bind]. rewrite gX, gVB by auto. cbn [bind]. eauto. Qed.
Lemma cmomd_total com cd : pos_sized mb m -> vel_sized mb m -> acc_sized mb m -> exists v, computeCentroidalMomentumDot mb m com cd = Ok v.
Proof. intros P V A. apply loop_any. intros i s Hi. rewrite gX, gVB, gA by auto. cbn [bind]. rewrite get_body by auto. cbn [bind]. eauto. Qed.

(** ** CoMJacobianDummy *)
Lemma fullJ_shape J jac r : jac_fits mb J -> mcols jac = path_dof mb (jc_path J) -> mrows jac <= mrows r -> mcols r = mb_nrDof mb ->
  exists M, fullJacobian mb J jac r = Ok M /\ mrows M = mrows r /\ mcols M = mcols r.
Proof.
  intros F C R C'. unfold fullJacobian, set_block. rewrite (proj2 (andb_true_iff _ _)) by (split; apply Nat.leb_le; lia). cbn [bind].
  rewrite addFull_blocks by (auto; apply F).
  match goal with |- exists M, addFullJacobian_compact ?bs _ ?r0 = _ /\ _ => destruct (addC_ok bs jac r0) as (M & E & A & B & _) end.
  - cbn [mcols]. rewrite C, C'. apply (pblocks_fits mb (jc_path J) 0); auto. apply F.
  - cbn [mrows]. lia.
  - eauto.
Qed.
Lemma comd_loop (c : CoMD) (call : Jac -> res Jac) (cols : Jac -> list SV) M : comd_fits mb c -> three_rows mb M ->
  (forall J, jac_fits mb J -> exists J', call J = Ok J' /\ jac_fits mb J') ->
  (forall J, jac_fits mb J -> length (cols J) = path_dof mb (jc_path J)) ->
  exists vec full jac, for_up (nrBodies mb) (comd_step mb (cd_weight c) call cols) (cd_vec c, cd_full c, mat_clear M) = Ok (vec, full, jac) /\
    three_rows mb full /\ three_rows mb jac /\ length vec = nrBodies mb /\ forall J, In J vec -> jac_fits mb J.
Proof.
  intros F TM HC HL.
  destruct (loop_total (comd_step mb (cd_weight c) call cols) (nrBodies mb) (cd_vec c, cd_full c, mat_clear M)
    (fun _ s => three_rows mb (snd (fst s)) /\ three_rows mb (snd s) /\ length (fst (fst s)) = nrBodies mb /\ forall J, In J (fst (fst s)) -> jac_fits mb J)) as (((vec & full) & jac) & E & H).
  - cbn [fst snd]. do 3 (split; [apply F || exact TM|]). apply F.
  - intros i ((vec & full) & jac) Hi ((F1 & F2) & (J1 & J2) & L & V). cbn [fst snd] in *. unfold comd_step.
    destruct (nth_error vec i) as [J|] eqn:EJ; [|apply nth_error_None in EJ; lia]. unfold get at 1. rewrite EJ. cbn [bind].
    destruct (HC J (V J (nth_error_In _ _ EJ))) as (J' & -> & FJ'). cbn [bind]. rewrite set_ok by lia. cbn [bind].
    destruct (fullJ_shape J' (lin_rows (cols J')) full FJ' (HL J' FJ')) as (full' & -> & A & B); [cbn; lia|lia|]. cbn [bind].
    rewrite get_body by auto. cbn [bind]. rewrite (gl (cd_weight c) 0%R) by (auto; apply F). cbn [bind].
    unfold mat_addscaled. rewrite A, F1, J1, B, F2, J2, !Nat.eqb_refl. cbn [andb bind].
    eexists. split; [reflexivity|]. cbn [fst snd]. split; [split; congruence|]. split; [split; cbn; auto|]. split; [now rewrite upd_length|].
    intros K I. apply In_nth_error in I. destruct I as (k & I). destruct (Nat.eq_dec i k) as [->|NE].
    + rewrite nth_error_upd_eq in I by lia. injection I as <-. auto.
    + rewrite nth_error_upd_neq in I by auto. apply V. eapply nth_error_In; eauto.
  - exists vec, full, jac. cbn [fst snd] in H. tauto.
Qed.
Lemma comd_jac_total c : comd_fits mb c -> pos_sized mb m -> subspace_sized mb m -> exists c', comd_jacobian mb m c = Ok c' /\ comd_fits mb c'.
Proof.
  intros F P M. unfold comd_jacobian. destruct (comd_loop c (jacobian mb m) jc_jac (cd_jac c) F) as (vec & full & jac & -> & A & B & L & V).
  - apply F.
  - intros J FJ. now apply jacobian_total.
  - intros J FJ. apply FJ.
  - cbn [bind]. destruct (Rlt_dec 0 (cd_mass c)) as [H|H]; [|exfalso; apply H; apply F]. eexists. split; [reflexivity|]. destruct F. constructor; auto.
Qed.
Lemma comd_dot_total c : comd_fits mb c -> pos_sized mb m -> vel_sized mb m -> subspace_sized mb m -> exists c', comd_jacobianDot mb m c = Ok c' /\ comd_fits mb c'.
Proof.
  intros F P U M. unfold comd_jacobianDot. destruct (comd_loop c (jacobianDot mb m) jc_dot (cd_dot c) F) as (vec & full & jac & -> & A & B & L & V).
  - apply F.
  - intros J FJ. now apply jacobianDot_total.
  - intros J FJ. apply FJ.
  - cbn [bind]. destruct (Rlt_dec 0 (cd_mass c)) as [H|H]; [|exfalso; apply H; apply F]. eexists. split; [reflexivity|]. destruct F. constructor; auto.
Qed.

(** ** CoMJacobian *)
Lemma each_total {A St} (f : A -> St -> res St) l (Q : St -> Prop) : forall s, Q s -> (forall a s, In a l -> Q s -> exists s', f a s = Ok s' /\ Q s') ->
  exists s', for_each l f s = Ok s' /\ Q s'.
Proof.
  induction l as [|a l IH]; intros s Hs H; cbn [for_each]; [eauto|]. destruct (H a s (or_introl eq_refl) Hs) as (s' & -> & Hs'). cbn [bind].
  apply IH; auto. intros; apply H; auto. now right.
Qed.
Lemma comj_loop_total c (pre : nat -> PT -> Z -> res (SV -> V3)) M : comj_fits mb c -> three_rows mb M -> pos_sized mb m -> subspace_sized mb m ->
  (forall i X b, i < nrBodies mb -> b < nrBodies mb -> exists f, pre i X (Z.of_nat b) = Ok f) ->
  exists s, for_up (nrJoints mb) (comj_step mb m c pre) (0, mat_clear M) = Ok s /\ three_rows mb (snd s).
Proof.
  intros F TM P MS HP. pose proof (wf_nrJoints mb W) as NJ.
  destruct (loop_total (comj_step mb m c pre) (nrJoints mb) (0, mat_clear M)
    (fun i s => fst s = list_sum (map jdof (firstn i (mb_joints mb))) /\ three_rows mb (snd s))) as (s & E & _ & H); [| |eauto].
  - split; auto.
  - intros i (cur & Mi) Hi (Ec & TMi). cbn [fst snd] in *. unfold comj_step. assert (Hb : i < nrBodies mb) by lia.
    destruct (nth_error (cj_sub c) i) as [sub|] eqn:ES; [|apply nth_error_None in ES; rewrite (cf_sub_len _ _ F) in ES; lia].
    unfold get at 1. rewrite ES. cbn [bind]. rewrite gX by auto. cbn [bind]. rewrite get_joint by auto. cbn [bind fst snd].
    set (j := nth i (mb_joints mb) jd).
    assert (LE : cur + jdof j <= mb_nrDof mb).
    { pose proof (pos_le mb i W Hb) as PL. unfold j. change (jdof (nth i (mb_joints mb) jd)) with (dofi mb i). rewrite Ec.
      replace (list_sum (map jdof (firstn i (mb_joints mb)))) with (pos mb i) by reflexivity. exact PL. }
    match goal with |- context [for_each sub ?f Mi] => destruct (each_total f sub (three_rows mb) Mi TMi) as (M' & EM & TM') end.
    + intros z Mz Iz Tz. destruct (cf_sub _ _ F sub z (nth_error_In _ _ ES) Iz) as (b & -> & Hbb).
      destruct (HP i (ptinv (nth i (bodyPosW m) ptid)) b Hb Hbb) as (f & ->). cbn [bind].
      match goal with |- context [for_up (jdof j) ?g Mz] => destruct (loop_total g (jdof j) Mz (fun _ => three_rows mb)) as (Mr & ER & TR); auto end; [|eauto].
      intros d Md Hd (T1 & T2). rewrite (get_nth (motionSubspace m) i []) by (rewrite (sized_length _ _ _ MS); auto). cbn [bind].
      rewrite (get_nth _ d sv0) by (rewrite (sized_nth _ _ _ _ MS Hi); exact Hd). cbn [bind].
      rewrite getz_nat, (gl (cj_coeff c) 0%R) by (auto; apply F). cbn [bind].
      unfold add_col, add_block. rewrite T1, T2, (proj2 (andb_true_iff _ _)) by (split; apply Nat.leb_le; lia).
      eexists. split; [reflexivity|]. split; auto.
    + rewrite EM. cbn [bind]. eexists. split; [reflexivity|]. cbn [fst snd]. split; auto. rewrite Ec.
      rewrite (list_sum_firstn_S jdof (mb_joints mb) i jd) by exact Hi. reflexivity.
Qed.
Lemma comW_total c f : comj_fits mb c -> pos_sized mb m ->
  exists v, for_up (nrBodies mb) (fun i V => X <- get (bodyPosW m) i ;; C <- get (cj_com c) i ;; set V i (f C X)) (cj_comW c) = Ok v /\ length v = nrBodies mb.
Proof.
  intros F P. apply (loop_total _ _ _ (fun _ v => length v = nrBodies mb)). { apply F. }
  intros i v Hi L. rewrite gX by auto. cbn [bind]. rewrite (gl (cj_com c) ptid) by (auto; apply F). cbn [bind].
  rewrite set_ok by lia. eexists. split; [reflexivity|]. now rewrite upd_length.
Qed.
Lemma comj_jac_total c : comj_fits mb c -> pos_sized mb m -> subspace_sized mb m -> exists c', comj_jacobian mb m c = Ok c' /\ comj_fits mb c'.
Proof.
  intros F P MS. unfold comj_jacobian. destruct (comW_total c (fun C X => pttr (trR (ptmul C X))) F P) as (v & -> & L). cbn [bind].
  assert (F1 : comj_fits mb (with_comW v c)) by (destruct F; constructor; auto).
  destruct (comj_loop_total (with_comW v c) (fun _ X_i_0 b => W <- getz v b ;; Ok (ptm_lin (ptmul W X_i_0))) (cj_jac (with_comW v c)) F1) as (s & -> & T); auto.
  - apply F1.
  - intros i X b Hi Hb. rewrite getz_nat, (gl v ptid) by auto. cbn [bind]. eauto.
  - cbn [bind]. eexists. split; [reflexivity|]. destruct F1. constructor; auto.
Qed.
Lemma comj_dot_total c : comj_fits mb c -> pos_sized mb m -> vel_sized mb m -> subspace_sized mb m -> exists c', comj_jacobianDot mb m c = Ok c' /\ comj_fits mb c'.
Proof.
  intros F P V MS. unfold comj_jacobianDot.
  match goal with |- context [for_up (nrBodies mb) ?f (cj_comW c, cj_comV c)] =>
    destruct (loop_total f (nrBodies mb) (cj_comW c, cj_comV c) (fun _ s => length (fst s) = nrBodies mb /\ length (snd s) = nrBodies mb)) as ((w & u) & E & L1 & L2) end.
  - split; apply F.
  - intros i (w & u) Hi (L1 & L2). cbn [fst snd] in *. rewrite gX, gVB by auto. cbn [bind]. rewrite (gl (cj_com c) ptid) by (auto; apply F). cbn [bind].
    rewrite !set_ok by lia. cbn [bind]. eexists. split; [reflexivity|]. cbn [fst snd]. now rewrite !upd_length.
  - rewrite E. cbn [bind fst snd] in *. set (c1 := with_comV u (with_comW w c)).
    assert (F1 : comj_fits mb c1) by (destruct F; constructor; auto).
    match goal with |- context [comj_step mb m c1 ?p] => destruct (comj_loop_total c1 p (cj_dot c1) F1) as (s & -> & T); auto end.
    + apply F1.
    + intros i X b Hi Hb. rewrite !getz_nat, (gl w ptid), (gl u sv0) by auto. cbn [bind]. rewrite gX, gVB, gVW by auto. cbn [bind]. eauto.
    + cbn [bind]. eexists. split; [reflexivity|]. destruct F1. constructor; auto.
Qed.
Lemma comj_vel_total c : comj_fits mb c -> pos_sized mb m -> vel_sized mb m -> exists v, comj_velocity mb m c = Ok v.
Proof.
  intros F P V. apply loop_any. intros i s Hi. rewrite (gl (cj_com c) ptid), (gl (cj_coeff c) 0%R) by (auto; apply F). cbn [bind]. rewrite gX, gVB by auto. cbn [bind]. eauto.
Qed.
Lemma comj_npre_total c acc : comj_fits mb c -> pos_sized mb m -> vel_sized mb m -> length acc = nrBodies mb -> exists v, comj_normalAcceleration_pre mb m acc c = Ok v.
Proof.
  intros F P V L. apply loop_any. intros i s Hi. rewrite (gl (cj_com c) ptid), (gl (cj_coeff c) 0%R) by (auto; apply F). cbn [bind]. rewrite gX, gVB, gVW, (gl acc sv0) by auto. cbn [bind]. eauto.
Qed.
Lemma nacc_total acc : tree_sized mb m -> jvel_sized mb m -> length (bodyVelB m) = nrBodies mb -> length acc = nrBodies mb ->
  exists a, for_up (nrJoints mb) (nacc_step mb m) acc = Ok a /\ length a = nrBodies mb.
Proof.
  intros T JV V L. pose proof (wf_nrJoints mb W) as NJ. unfold tree_sized, jvel_sized in *.
  apply (loop_total _ _ _ (fun _ a => length a = nrBodies mb)); auto. intros i a Hi La. unfold nacc_step.
  rewrite (gl (parentToSon m) ptid), (gl (jointVelocity m) sv0), (gl (bodyVelB m) sv0) by lia. cbn [bind].
  rewrite (gl (mb_pred mb) 0%Z), (gl (mb_succ mb) 0%Z) by (rewrite ?(wf_pred_len _ W), ?(wf_succ_len _ W); lia). cbn [bind].
  rewrite (wf_succ _ W i) by lia. rewrite setz_nat.
  destruct (wf_pred _ W i ltac:(lia)) as [->|R1].
  - rewrite Z.eqb_refl. cbn [negb]. rewrite set_ok by lia. eexists. split; [reflexivity|]. now rewrite upd_length.
  - destruct (Z.eqb_spec (nth i (mb_pred mb) 0%Z) (-1)); [lia|]. cbn [negb].
    replace (nth i (mb_pred mb) 0%Z) with (Z.of_nat (Z.to_nat (nth i (mb_pred mb) 0%Z))) by lia. rewrite getz_nat, (gl a sv0) by lia. cbn [bind].
    rewrite setz_nat, set_ok by lia. eexists. split; [reflexivity|]. now rewrite upd_length.
Qed.
Lemma comj_nacc_total c : comj_fits mb c -> pos_sized mb m -> vel_sized mb m -> tree_sized mb m -> jvel_sized mb m ->
  exists r, comj_normalAcceleration mb m c = Ok r /\ comj_fits mb (snd r).
Proof.
  intros F P V T JV. unfold comj_normalAcceleration. destruct (nacc_total (cj_nacc c) T JV (proj2 V) (cf_nacc _ _ F)) as (a & -> & L). cbn [bind].
  assert (F1 : comj_fits mb (with_nacc a c)) by (destruct F; constructor; auto).
  destruct (comj_npre_total (with_nacc a c) a F1 P V L) as (v & ->). cbn [bind]. eexists. split; [reflexivity|]. exact F1.
Qed.
Lemma comj_upd_total c : comj_fits mb c -> total_mass_of mb <> 0%R -> exists c', updateInertialParameters mb c = Ok c' /\ comj_fits mb c'.
Proof.
  intros F Z. unfold updateInertialParameters. rewrite total_mass_ok. cbn [bind].
  destruct (loop_total (upd_step mb (cj_weight c) (total_mass_of mb)) (nrBodies mb) (cj_coeff c, cj_com c) (fun _ s => length (fst s) = nrBodies mb /\ length (snd s) = nrBodies mb)) as ((a & b) & E & L1 & L2).
  - split; apply F.
  - intros i (a & b) Hi (L1 & L2). cbn [fst snd] in *. unfold upd_step. rewrite get_body by auto. cbn [bind]. rewrite (gl (cj_weight c) 0%R) by (auto; apply F). cbn [bind].
    unfold rdiv. destruct (Req_EM_T (total_mass_of mb) 0); [contradiction|]. cbn [bind fst snd]. rewrite !set_ok by lia. cbn [bind].
    eexists. split; [reflexivity|]. cbn [fst snd]. now rewrite !upd_length.
  - rewrite E. cbn [bind fst snd] in *. eexists. split; [reflexivity|]. destruct F. constructor; auto.
Qed.

(** ** CentroidalMomentumMatrix *)
Definition vfits (blocks : list (list Block)) (vec : list Jac) : Prop :=
  length vec = nrBodies mb /\ length blocks = nrBodies mb /\
  forall i, i < nrBodies mb -> exists J bs, nth_error vec i = Some J /\ jac_fits mb J /\ nth_error blocks i = Some bs /\
     forall b, In b bs -> bl_jac b + bl_len b <= length (jc_jac J) /\ bl_dof b + bl_len b <= mb_nrDof mb.
Lemma vfits_upd blocks vec i J J' : vfits blocks vec -> nth_error vec i = Some J -> jac_fits mb J' -> length (jc_jac J') = length (jc_jac J) ->
  vfits blocks (upd vec i J').
Proof.
  intros (L & LB & H) EJ FJ EL. split; [now rewrite upd_length|]. split; auto. intros k Hk. destruct (H k Hk) as (K & bs & E1 & E2 & E3 & E4).
  destruct (Nat.eq_dec i k) as [->|NE].
  - exists J', bs. rewrite nth_error_upd_eq by lia. rewrite EJ in E1. injection E1 as <-. do 3 (split; auto). intros b Hb. rewrite EL. auto.
  - exists K, bs. rewrite nth_error_upd_neq by auto. auto.
Qed.
Lemma bodyJ_len J J' : bodyJacobian mb m J = Ok J' -> jac_fits mb J -> jac_fits mb J' -> pos_sized mb m -> subspace_sized mb m -> jc_path J' = jc_path J.
Proof.
  intros E F F' P M. unfold bodyJacobian in E. rewrite (backN mb J F) in E. cbn [bind] in E. rewrite gX in E by (auto; apply (N_in mb J F)). cbn [bind] in E.
  rewrite (jacobian__ok mb m _ J W (f_path mb m J F P M)) in E. injection E as <-. reflexivity.
Qed.
Lemma bodyJ_step J : jac_fits mb J -> pos_sized mb m -> subspace_sized mb m -> exists J', bodyJacobian mb m J = Ok J' /\ jac_fits mb J' /\ length (jc_jac J') = length (jc_jac J).
Proof.
  intros F P M. destruct (bodyJacobian_total mb m J W F P M) as (J' & E & F'). exists J'. split; auto. split; auto.
  rewrite (jf_jac _ _ F), (jf_jac _ _ F'). now rewrite (bodyJ_len J J' E F F' P M).
Qed.
Lemma bodyJd_step J : jac_fits mb J -> pos_sized mb m -> vel_sized mb m -> subspace_sized mb m -> exists J', bodyJacobianDot mb m J = Ok J' /\ jac_fits mb J' /\ length (jc_jac J') = length (jc_jac J) /\ length (jc_dot J') = length (jc_jac J').
Proof.
  intros F P V M. destruct (bodyJacobianDot_total mb m J W F P V M) as (J' & E & F'). exists J'. split; auto. split; auto.
  split; [|now rewrite (jf_jac _ _ F'), (jf_dot _ _ F')].
  unfold bodyJacobianDot in E. rewrite (backN mb J F) in E. cbn [bind] in E. rewrite gX, gVB in E by (auto; apply (N_in mb J F)). cbn [bind] in E.
  rewrite (dot_loop_ok mb m _ _ _ J W (f_path mb m J F P M) (proj2 V)) in E. injection E as <-. reflexivity.
Qed.
Lemma add6 bs jw M n : length jw = n -> (forall b, In b bs -> bl_jac b + bl_len b <= n /\ bl_dof b + bl_len b <= mb_nrDof mb) -> six_by_dof mb M ->
  exists M', addFullJacobian_compact bs (six_rows jw) M = Ok M' /\ six_by_dof mb M'.
Proof.
  intros L H (M6 & MC). destruct (addC_ok bs (six_rows jw) M) as (M' & E & A & B & _).
  - intros b Hb. cbn [six_rows mcols]. rewrite L, MC. auto.
  - cbn [six_rows mrows]. lia.
  - exists M'. split; auto. split; congruence.
Qed.
Definition cst (c : CMM) (s : list Jac * list (list SV) * Mat) : Prop :=
  vfits (cm_blocks c) (fst (fst s)) /\ length (snd (fst s)) = nrBodies mb /\ six_by_dof mb (snd s).
Lemma cst0 c M : cmm_fits mb c -> six_by_dof mb M -> cst c (cm_vec c, cm_work c, mat_clear M).
Proof. intros F T. split; [|split; [apply F|exact T]]. split; [apply F|]. split; [apply F|]. apply F. Qed.
Lemma cmm_mat_total c com : cmm_fits mb c -> pos_sized mb m -> subspace_sized mb m -> exists c', computeMatrix mb m com c = Ok c' /\ cmm_fits mb c'.
Proof.
  intros F P M. unfold computeMatrix.
  destruct (loop_total (cmm_step mb m com c) (nrBodies mb) (cm_vec c, cm_work c, mat_clear (cm_mat c)) (fun _ => cst c)) as (((vec & work) & Mt) & E & V & LW & T).
  - apply cst0; auto. apply F.
  - intros i ((vec & work) & Mi) Hi (V & LW & T). cbn [fst snd] in *. unfold cmm_step.
    destruct (proj2 (proj2 V) i Hi) as (J & bs & EJ & FJ & EB & HB). unfold get at 1. rewrite EJ. cbn [bind].
    destruct (bodyJ_step J FJ P M) as (J' & -> & FJ' & LJ). cbn [bind]. rewrite set_ok by (rewrite (proj1 V); auto). cbn [bind].
    rewrite gX, get_body, (gl (cm_weight c) 0%R) by (auto; apply F). cbn [bind]. rewrite set_ok by lia. cbn [bind]. unfold get at 1. rewrite EB. cbn [bind].
    match goal with |- context [six_rows ?jw] => destruct (add6 bs jw Mi (length (jc_jac J))) as (M' & -> & T') end; auto.
    { now rewrite map_length. }
    cbn [bind]. eexists. split; [reflexivity|]. split; [now apply (vfits_upd _ _ _ J)|]. split; auto. cbn. now rewrite upd_length.
  - rewrite E. cbn [bind fst snd] in *. eexists. split; [reflexivity|]. destruct F, V as (V1 & V2 & V3). constructor; auto.
Qed.
Lemma cols_plus_total A B J K : length J = length K -> exists l, cols_plus A B J K = Ok l /\ length l = length K.
Proof.
  intro E. unfold cols_plus. rewrite E, Nat.eqb_refl. eexists. split; [reflexivity|]. rewrite map_length, combine_length. lia.
Qed.
Lemma cmm_dot_total c com cd : cmm_fits mb c -> pos_sized mb m -> vel_sized mb m -> subspace_sized mb m -> exists c', computeMatrixDot mb m com cd c = Ok c' /\ cmm_fits mb c'.
Proof.
  intros F P U M. unfold computeMatrixDot.
  destruct (loop_total (cmm_dot_step mb m com cd c) (nrBodies mb) (cm_vec c, cm_work c, mat_clear (cm_dot c)) (fun _ => cst c)) as (((vec & work) & Mt) & E & V & LW & T).
  - apply cst0; auto. apply F.
  - intros i ((vec & work) & Mi) Hi (V & LW & T). cbn [fst snd] in *. unfold cmm_dot_step.
    destruct (proj2 (proj2 V) i Hi) as (J & bs & EJ & FJ & EB & HB). unfold get at 1. rewrite EJ. cbn [bind].
    destruct (bodyJ_step J FJ P M) as (J' & -> & FJ' & LJ). cbn [bind].
    destruct (bodyJd_step J' FJ' P U M) as (J2 & -> & FJ2 & LJ2 & LD2). cbn [bind]. rewrite set_ok by (rewrite (proj1 V); auto). cbn [bind].
    rewrite gX, get_body, (gl (cm_weight c) 0%R), gVB by (auto; apply F). cbn [bind].
    match goal with |- context [cols_plus ?a ?b _ _] => destruct (cols_plus_total a b _ _ LD2) as (jw & -> & LW2) end. cbn [bind].
    rewrite set_ok by lia. cbn [bind]. unfold get at 1. rewrite EB. cbn [bind].
    destruct (add6 bs jw Mi (length (jc_jac J))) as (M' & -> & T'); auto; [congruence|].
    cbn [bind]. eexists. split; [reflexivity|]. split; [apply (vfits_upd _ _ _ J); auto; congruence|]. split; auto. cbn. now rewrite upd_length.
  - rewrite E. cbn [bind fst snd] in *. eexists. split; [reflexivity|]. destruct F, V as (V1 & V2 & V3). constructor; auto.
Qed.
Lemma cmm_both_total c com cd : cmm_fits mb c -> pos_sized mb m -> vel_sized mb m -> subspace_sized mb m -> exists c', computeMatrixAndMatrixDot mb m com cd c = Ok c' /\ cmm_fits mb c'.
Proof.
  intros F P U M. unfold computeMatrixAndMatrixDot.
  destruct (loop_total (cmm_both_step mb m com cd c) (nrBodies mb) (cm_vec c, cm_work c, mat_clear (cm_mat c), mat_clear (cm_dot c))
     (fun _ s => cst c (fst s) /\ six_by_dof mb (snd s))) as ((((vec & work) & Mt) & Dt) & E & (V & LW & T) & T2).
  - split; [apply cst0; auto; apply F|]. apply F.
  - intros i (((vec & work) & Mi) & Di) Hi ((V & LW & T) & T2). cbn [fst snd] in *. unfold cmm_both_step.
    destruct (proj2 (proj2 V) i Hi) as (J & bs & EJ & FJ & EB & HB). unfold get at 1. rewrite EJ. cbn [bind].
    destruct (bodyJ_step J FJ P M) as (J' & -> & FJ' & LJ). cbn [bind].
    destruct (bodyJd_step J' FJ' P U M) as (J2 & -> & FJ2 & LJ2 & LD2). cbn [bind]. rewrite set_ok by (rewrite (proj1 V); auto). cbn [bind].
    rewrite gX, get_body, (gl (cm_weight c) 0%R), gVB by (auto; apply F). cbn [bind]. unfold get at 1. rewrite EB. cbn [bind].
    rewrite set_ok by lia. cbn [bind].
    match goal with |- context [six_rows ?jw] => destruct (add6 bs jw Mi (length (jc_jac J))) as (M' & -> & T') end; auto.
    { rewrite map_length. congruence. }
    cbn [bind].
    match goal with |- context [cols_plus ?a ?b _ _] => destruct (cols_plus_total a b _ _ LD2) as (jw & -> & LW2) end. cbn [bind].
    rewrite set_ok by (rewrite upd_length; lia). cbn [bind].
    destruct (add6 bs jw Di (length (jc_jac J))) as (D' & -> & TD'); auto; [congruence|].
    cbn [bind]. eexists. split; [reflexivity|]. cbn [fst snd]. split; auto. split; [apply (vfits_upd _ _ _ J); auto; congruence|]. split; auto. cbn. now rewrite !upd_length.
  - rewrite E. cbn [bind fst snd] in *. eexists. split; [reflexivity|]. destruct F, V as (V1 & V2 & V3). constructor; auto.
Qed.
Lemma cmm_mom_total c com : cmm_fits mb c -> pos_sized mb m -> vel_sized mb m -> exists v, cmm_momentum mb m com c = Ok v.
Proof.
  intros F P V. apply loop_any. intros i s Hi. rewrite get_body, gX, gVB, (gl (cm_weight c) 0%R) by (auto; apply F). cbn [bind]. eauto.
Qed.
Lemma cmm_npre_total c com cd acc : cmm_fits mb c -> pos_sized mb m -> vel_sized mb m -> length acc = nrBodies mb -> exists v, normalMomentumDot_pre mb m com cd acc c = Ok v.
Proof.
  intros F P V L. apply loop_any. intros i s Hi. rewrite get_body, gX, gVB, (gl acc sv0), (gl (cm_weight c) 0%R) by (auto; apply F). cbn [bind]. eauto.
Qed.
Lemma cmm_nmd_total c com cd : cmm_fits mb c -> pos_sized mb m -> vel_sized mb m -> tree_sized mb m -> jvel_sized mb m ->
  exists r, normalMomentumDot mb m com cd c = Ok r /\ cmm_fits mb (snd r).
Proof.
  intros F P V T JV. unfold normalMomentumDot. destruct (nacc_total (cm_nacc c) T JV (proj2 V) (mf_nacc _ _ F)) as (a & -> & L). cbn [bind].
  assert (F1 : cmm_fits mb (with_cm_nacc a c)) by (destruct F; constructor; auto).
  destruct (cmm_npre_total (with_cm_nacc a c) com cd a F1 P V L) as (v & ->). cbn [bind]. eexists. split; [reflexivity|]. exact F1.
Qed.
End Robot.
