(** Lemmas about forward kinematics, velocity and acceleration. *)
From Coq Require Import Reals String ZArith Bool Arith Lia List.
From Verif Require Import Res ResP Vec VecP Sva SvaP Mat JointM MultiBodyM KinM Spec JointP.
Import ListNotations.
Open Scope R_scope.

(** Parent index of body i, if any. *)
Definition par (mb : MultiBody) (i : nat) : option nat :=
  match nth_error (mb_pred mb) i with
  | Some z => if (z =? -1)%Z then None else Some (Z.to_nat z)
  | None => None
  end.

Lemma wf_get_pred mb i : wf_mb mb -> (i < nrBodies mb)%nat ->
  (get (mb_pred mb) i = Ok (-1)%Z /\ par mb i = None) \/
  (exists p, get (mb_pred mb) i = Ok (Z.of_nat p) /\ (p < i)%nat /\ par mb i = Some p).
Proof.
  intros W L. pose proof (wf_pred mb W i L) as H.
  assert (E : nth_error (mb_pred mb) i = Some (nth i (mb_pred mb) 0%Z)).
  { apply nth_error_nth'. rewrite (wf_pred_len mb W); auto. }
  unfold par, get. rewrite E. destruct H as [H|H].
  - left. rewrite H. simpl. auto.
  - right. exists (Z.to_nat (nth i (mb_pred mb) 0%Z)). repeat split.
    + rewrite Z2Nat.id by lia. auto.
    + lia.
    + destruct (Z.eqb_spec (nth i (mb_pred mb) 0%Z) (-1)); [lia|auto].
Qed.

Lemma par_lt mb i p : wf_mb mb -> (i < nrBodies mb)%nat -> par mb i = Some p -> (p < i)%nat.
Proof.
  intros W L H. destruct (wf_get_pred mb i W L) as [[_ E]|(p' & _ & L' & E)]; congruence.
Qed.

Lemma par_pred mb i p : par mb i = Some p -> wf_mb mb -> nth_error (mb_pred mb) i = Some (Z.of_nat p).
Proof.
  unfold par. intros H W. destruct (nth_error (mb_pred mb) i) as [z|] eqn:E; try discriminate.
  assert (i < nrBodies mb)%nat.
  { rewrite <- (wf_pred_len mb W). apply nth_error_Some. congruence. }
  pose proof (wf_pred mb W i H0) as Hp. rewrite (nth_error_nth _ _ _ E) in Hp.
  destruct (Z.eqb_spec z (-1)); try discriminate. injection H as <-. f_equal.
  rewrite Z2Nat.id by lia. auto.
Qed.
Lemma par_none mb i : par mb i = None -> (i < nrBodies mb)%nat -> wf_mb mb -> nth_error (mb_pred mb) i = Some (-1)%Z.
Proof.
  intros H L W. destruct (wf_get_pred mb i W L) as [[E _]|(p' & _ & _ & E)]; try congruence.
  now apply get_Ok.
Qed.
Lemma pred_par mb i p : nth_error (mb_pred mb) i = Some (Z.of_nat p) -> par mb i = Some p.
Proof.
  intros E. unfold par. rewrite E. destruct (Z.eqb_spec (Z.of_nat p) (-1)); [lia|].
  now rewrite Nat2Z.id.
Qed.
Lemma pred_par_none mb i : nth_error (mb_pred mb) i = Some (-1)%Z -> par mb i = None.
Proof. intros E. unfold par. now rewrite E. Qed.

Lemma wf_get_succ mb i : wf_mb mb -> (i < nrBodies mb)%nat -> get (mb_succ mb) i = Ok (Z.of_nat i).
Proof.
  intros W L. rewrite (get_nth _ _ 0%Z) by (rewrite (wf_succ_len mb W); auto).
  now rewrite (wf_succ mb W).
Qed.

Lemma sized_length {A} mb f (v : list (list A)) : sized mb f v -> length v = nrJoints mb.
Proof. unfold sized. intros H. apply (f_equal (@length nat)) in H. now rewrite !map_length in H. Qed.

Lemma sized_nth {A} mb f (v : list (list A)) i : sized mb f v -> (i < nrJoints mb)%nat ->
  length (nth i v []) = f (nth i (mb_joints mb) jd).
Proof.
  intros H L. pose proof (sized_length _ _ _ H) as Lv.
  unfold sized in H. apply (f_equal (fun l => nth i l 0%nat)) in H.
  rewrite (nth_indep _ 0%nat (length (@nil A))) in H by (rewrite map_length; lia).
  rewrite map_nth in H.
  rewrite (nth_indep _ 0%nat (f jd)) in H by (rewrite map_length; auto).
  now rewrite map_nth in H.
Qed.

Lemma sized_of_nth {A} mb f (v : list (list A)) : length v = nrJoints mb ->
  (forall i, (i < nrJoints mb)%nat -> length (nth i v []) = f (nth i (mb_joints mb) jd)) ->
  sized mb f v.
Proof.
  intros L H. unfold sized. apply (list_ext_nth _ _ 0%nat).
  - now rewrite !map_length.
  - rewrite map_length. intros i Hi.
    rewrite (nth_indep _ 0%nat (length (@nil A))) by (rewrite map_length; lia).
    rewrite map_nth.
    rewrite (nth_indep _ 0%nat (f jd)) by (rewrite map_length; unfold nrJoints in L; lia).
    rewrite map_nth. apply H. lia.
Qed.

Lemma wf_nrJoints mb : wf_mb mb -> nrJoints mb = nrBodies mb.
Proof. intros W. apply (wf_joints mb W). Qed.

Lemma wf_joint_nth mb i : wf_mb mb -> (i < nrBodies mb)%nat -> joint_ok (nth i (mb_joints mb) jd).
Proof. intros W L. apply (wf_joint_ok mb W). apply nth_In. rewrite (wf_joints mb W). auto. Qed.


(** ** Forward kinematics *)
Record fk_post (mb : MultiBody) (m m' : MBC) : Prop := {
  fk_frame : m' = with_bodyPosW (bodyPosW m') (with_motionSubspace (motionSubspace m')
                  (with_parentToSon (parentToSon m') (with_jointConfig (jointConfig m') m)));
  fk_jc_len : length (jointConfig m') = length (jointConfig m);
  fk_pts_len : length (parentToSon m') = length (parentToSon m);
  fk_ms_len : length (motionSubspace m') = length (motionSubspace m);
  fk_bp_len : length (bodyPosW m') = length (bodyPosW m);
  fk_jc : forall i, (i < nrBodies mb)%nat ->
      pose (nth i (mb_joints mb) jd) (nth i (q m) []) = Ok (nth i (jointConfig m') ptid);
  fk_pts : forall i, (i < nrBodies mb)%nat ->
      nth i (parentToSon m') ptid = ptmul (nth i (jointConfig m') ptid) (nth i (mb_Xt mb) ptid);
  fk_ms : forall i, (i < nrBodies mb)%nat -> nth i (motionSubspace m') [] = jS (nth i (mb_joints mb) jd);
  fk_bp : forall i, (i < nrBodies mb)%nat ->
      nth i (bodyPosW m') ptid =
      match par mb i with
      | Some p => ptmul (nth i (parentToSon m') ptid) (nth p (bodyPosW m') ptid)
      | None => nth i (parentToSon m') ptid
      end
}.

Ltac nthupd := repeat (rewrite nth_upd_eq by (rewrite ?upd_length; lia)) ; repeat (rewrite nth_upd_neq by lia).

Lemma FK_ok mb m : wf_mb mb ->
  sized mb jparams (q m) ->
  length (jointConfig m) = nrJoints mb ->
  length (motionSubspace m) = nrJoints mb ->
  length (bodyPosW m) = nrBodies mb ->
  length (parentToSon m) = nrBodies mb ->
  exists m', forwardKinematics mb m = Ok m' /\ fk_post mb m m'.
Proof.
  intros W Sq Lc Lms Lb Lp. pose proof (wf_nrJoints mb W) as NJ.
  pose (P := fun (i : nat) (m' : MBC) =>
     m' = with_bodyPosW (bodyPosW m') (with_motionSubspace (motionSubspace m')
                  (with_parentToSon (parentToSon m') (with_jointConfig (jointConfig m') m))) /\
     length (jointConfig m') = nrBodies mb /\ length (parentToSon m') = nrBodies mb /\
     length (motionSubspace m') = nrBodies mb /\ length (bodyPosW m') = nrBodies mb /\
     forall k, (k < i)%nat ->
       pose (nth k (mb_joints mb) jd) (nth k (q m) []) = Ok (nth k (jointConfig m') ptid) /\
       nth k (parentToSon m') ptid = ptmul (nth k (jointConfig m') ptid) (nth k (mb_Xt mb) ptid) /\
       nth k (motionSubspace m') [] = jS (nth k (mb_joints mb) jd) /\
       nth k (bodyPosW m') ptid =
         match par mb k with
         | Some p => ptmul (nth k (parentToSon m') ptid) (nth p (bodyPosW m') ptid)
         | None => nth k (parentToSon m') ptid
         end).
  destruct (for_up_inv P (fk_step mb) (nrJoints mb) m) as (m' & E & HP).
  - unfold P. repeat split; try lia. destruct m; reflexivity.
  - intros i s Hi (Es & L1 & L2 & L3 & L4 & HF).
    assert (Hb : (i < nrBodies mb)%nat) by lia.
    unfold fk_step.
    destruct (pose_total (nth i (mb_joints mb) jd) (nth i (q m) [])) as (X & EX).
    { now apply wf_joint_nth. }
    { rewrite (sized_nth _ _ _ _ Sq) by lia. auto. }
    rewrite wf_get_succ by auto.
    assert (Eq : q s = q m) by (rewrite Es; reflexivity).
    assert (Gj : get (mb_joints mb) i = Ok (nth i (mb_joints mb) jd)) by (apply get_nth; unfold nrJoints in *; lia).
    assert (Gq : get (q s) i = Ok (nth i (q m) [])).
    { rewrite Eq. apply get_nth. rewrite (sized_length _ _ _ Sq). auto. }
    assert (GX : get (mb_Xt mb) i = Ok (nth i (mb_Xt mb) ptid)) by (apply get_nth; rewrite (wf_Xt_len mb W); auto).
    destruct (wf_get_pred mb i W Hb) as [[Ep Pp]|(p & Ep & Hp & Pp)]; rewrite Ep; cbn [bind];
      rewrite Gj; cbn [bind]; rewrite Gq; cbn [bind]; rewrite EX; cbn [bind];
      rewrite set_ok by lia; cbn [bind]; rewrite GX; cbn [bind]; cbn [parentToSon with_jointConfig];
      rewrite set_ok by lia; cbn [bind]; cbn [motionSubspace with_jointConfig with_parentToSon];
      rewrite set_ok by lia; cbn [bind];
      cbn [parentToSon bodyPosW with_jointConfig with_parentToSon with_motionSubspace];
      rewrite get_upd_eq by lia; cbn [bind].
    + change (negb (-1 =? -1)%Z) with false. cbv iota.
      rewrite setz_nat, set_ok by lia; cbn [bind]. eexists; split; [reflexivity|].
      unfold P. cbn [parentToSon bodyPosW jointConfig motionSubspace with_bodyPosW with_jointConfig with_parentToSon with_motionSubspace].
      rewrite !upd_length. repeat split; auto.
      * rewrite Es. reflexivity.
      * destruct (Nat.eq_dec k i) as [->|]; nthupd; auto. apply HF; lia.
      * destruct (Nat.eq_dec k i) as [->|]; nthupd; auto. apply HF; lia.
      * destruct (Nat.eq_dec k i) as [->|]; nthupd; auto. apply HF; lia.
      * destruct (Nat.eq_dec k i) as [->|].
        -- rewrite Pp. nthupd. auto.
        -- nthupd. destruct (HF k) as (_ & _ & _ & HB); [lia|]. rewrite HB.
           destruct (par mb k) eqn:Pk; auto.
           pose proof (par_lt mb k n0 W ltac:(lia) Pk). rewrite (nth_upd_neq _ i n0) by lia. auto.
    + destruct (Z.eqb_spec (Z.of_nat p) (-1)); [lia|]. cbn [negb].
      rewrite getz_nat, (get_nth _ _ ptid) by lia. cbn [bind].
      rewrite setz_nat, set_ok by lia; cbn [bind]. eexists; split; [reflexivity|].
      unfold P. cbn [parentToSon bodyPosW jointConfig motionSubspace with_bodyPosW with_jointConfig with_parentToSon with_motionSubspace].
      rewrite !upd_length. repeat split; auto.
      * rewrite Es. reflexivity.
      * destruct (Nat.eq_dec k i) as [->|]; nthupd; auto. apply HF; lia.
      * destruct (Nat.eq_dec k i) as [->|]; nthupd; auto. apply HF; lia.
      * destruct (Nat.eq_dec k i) as [->|]; nthupd; auto. apply HF; lia.
      * destruct (Nat.eq_dec k i) as [->|].
        -- rewrite Pp. nthupd. auto.
        -- nthupd. destruct (HF k) as (_ & _ & _ & HB); [lia|]. rewrite HB.
           destruct (par mb k) eqn:Pk; auto.
           pose proof (par_lt mb k n1 W ltac:(lia) Pk). rewrite (nth_upd_neq _ i n1) by lia. auto.
  - exists m'. split; auto. destruct HP as (Em & L1 & L2 & L3 & L4 & HF). rewrite NJ in *.
    constructor; auto; try lia; intros; apply HF; auto.
Qed.

(** ** Forward velocity *)
Record fv_post (mb : MultiBody) (m m' : MBC) : Prop := {
  fv_frame : m' = with_bodyVelW (bodyVelW m') (with_bodyVelB (bodyVelB m')
                  (with_jointVelocity (jointVelocity m') m));
  fv_jv_len : length (jointVelocity m') = length (jointVelocity m);
  fv_vb_len : length (bodyVelB m') = length (bodyVelB m);
  fv_vw_len : length (bodyVelW m') = length (bodyVelW m);
  fv_jv : forall i, (i < nrBodies mb)%nat ->
      nth i (jointVelocity m') sv0 = smul (jS (nth i (mb_joints mb) jd)) (nth i (alpha m) []);
  fv_vb : forall i, (i < nrBodies mb)%nat ->
      nth i (bodyVelB m') sv0 =
      match par mb i with
      | Some p => svadd (ptm (nth i (parentToSon m) ptid) (nth p (bodyVelB m') sv0)) (nth i (jointVelocity m') sv0)
      | None => nth i (jointVelocity m') sv0
      end;
  fv_vw : forall i, (i < nrBodies mb)%nat ->
      nth i (bodyVelW m') sv0 =
      ptinvm (ptrot (rotE (nth i (bodyPosW m) ptid))) (nth i (bodyVelB m') sv0)
}.

Lemma FV_ok mb m : wf_mb mb ->
  sized mb jdof (alpha m) ->
  length (jointVelocity m) = nrJoints mb ->
  length (bodyPosW m) = nrBodies mb ->
  length (parentToSon m) = nrBodies mb ->
  length (bodyVelW m) = nrBodies mb ->
  length (bodyVelB m) = nrBodies mb ->
  exists m', forwardVelocity mb m = Ok m' /\ fv_post mb m m'.
Proof.
  intros W Sa Lj Lb Lp Lw Lv. pose proof (wf_nrJoints mb W) as NJ.
  pose (P := fun (i : nat) (m' : MBC) =>
     m' = with_bodyVelW (bodyVelW m') (with_bodyVelB (bodyVelB m')
                  (with_jointVelocity (jointVelocity m') m)) /\
     length (jointVelocity m') = nrBodies mb /\ length (bodyVelB m') = nrBodies mb /\
     length (bodyVelW m') = nrBodies mb /\
     forall k, (k < i)%nat ->
       nth k (jointVelocity m') sv0 = smul (jS (nth k (mb_joints mb) jd)) (nth k (alpha m) []) /\
       nth k (bodyVelB m') sv0 =
         match par mb k with
         | Some p => svadd (ptm (nth k (parentToSon m) ptid) (nth p (bodyVelB m') sv0)) (nth k (jointVelocity m') sv0)
         | None => nth k (jointVelocity m') sv0
         end /\
       nth k (bodyVelW m') sv0 =
         ptinvm (ptrot (rotE (nth k (bodyPosW m) ptid))) (nth k (bodyVelB m') sv0)).
  destruct (for_up_inv P (fv_step mb) (nrJoints mb) m) as (m' & E & HP).
  - unfold P. repeat split; try lia. destruct m; reflexivity.
  - intros i s Hi (Es & L1 & L2 & L3 & HF).
    assert (Hb : (i < nrBodies mb)%nat) by lia.
    unfold fv_step.
    assert (Em : motion (nth i (mb_joints mb) jd) (nth i (alpha m) []) =
                 Ok (smul (jS (nth i (mb_joints mb) jd)) (nth i (alpha m) []))).
    { apply motion_spec. now apply wf_joint_nth. rewrite (sized_nth _ _ _ _ Sa) by lia. auto. }
    set (vj := smul (jS (nth i (mb_joints mb) jd)) (nth i (alpha m) [])) in *.
    assert (Ea : alpha s = alpha m) by (rewrite Es; reflexivity).
    assert (Ept : parentToSon s = parentToSon m) by (rewrite Es; reflexivity).
    assert (Ebp : bodyPosW s = bodyPosW m) by (rewrite Es; reflexivity).
    assert (Gj : get (mb_joints mb) i = Ok (nth i (mb_joints mb) jd)) by (apply get_nth; unfold nrJoints in *; lia).
    assert (Ga : get (alpha s) i = Ok (nth i (alpha m) [])).
    { rewrite Ea. apply get_nth. rewrite (sized_length _ _ _ Sa). auto. }
    assert (GX : get (parentToSon s) i = Ok (nth i (parentToSon m) ptid)) by (rewrite Ept; apply get_nth; lia).
    set (X := nth i (parentToSon m) ptid) in *.
    set (vb := match par mb i with
               | Some p => svadd (ptm X (nth p (bodyVelB s) sv0)) vj
               | None => vj end).
    assert (G : forall z, get (mb_pred mb) i = Ok z ->
       (if negb (z =? -1)%Z
        then vp <- getz (bodyVelB s) z;; Ok (svadd (ptm X vp) vj) else Ok vj) = Ok vb).
    { intros z Ez. unfold vb.
      destruct (wf_get_pred mb i W Hb) as [[Ep Pp]|(p & Ep & Hp & Pp)]; rewrite Ep in Ez; injection Ez as <-;
        rewrite Pp.
      - reflexivity.
      - destruct (Z.eqb_spec (Z.of_nat p) (-1)); [lia|]. cbn [negb].
        rewrite getz_nat, (get_nth _ _ sv0) by lia. reflexivity. }
    destruct (get (mb_pred mb) i) as [z| | |] eqn:Ez;
      try (destruct (wf_get_pred mb i W Hb) as [[Ep Pp]|(p & Ep & Hp & Pp)]; congruence).
    specialize (G z eq_refl).
    rewrite wf_get_succ by auto. cbn [bind]. rewrite GX, Gj; cbn [bind]. rewrite Ga; cbn [bind].
    rewrite Em; cbn [bind]. rewrite set_ok by lia; cbn [bind].
    cbn [bodyVelB with_jointVelocity]. rewrite G. cbn [bind].
    rewrite setz_nat, set_ok by lia. cbn [bind].
    cbn [bodyPosW with_jointVelocity with_bodyVelB bodyVelW].
    rewrite getz_nat, Ebp, (get_nth _ _ ptid) by lia. cbn [bind].
    rewrite setz_nat, set_ok by lia. cbn [bind].
    eexists; split; [reflexivity|].
    unfold P. cbn [bodyVelB bodyVelW jointVelocity with_bodyVelW with_bodyVelB with_jointVelocity].
    rewrite !upd_length. repeat split; auto.
    + rewrite Es. reflexivity.
    + destruct (Nat.eq_dec k i) as [->|]; nthupd; auto. apply HF; lia.
    + destruct (Nat.eq_dec k i) as [->|].
      * nthupd. unfold vb. destruct (par mb i) eqn:Pk; auto.
        pose proof (par_lt mb i n W Hb Pk). rewrite (nth_upd_neq _ i n) by lia. auto.
      * nthupd. destruct (HF k) as (_ & HB & _); [lia|]. rewrite HB.
        destruct (par mb k) eqn:Pk; auto.
        pose proof (par_lt mb k n0 W ltac:(lia) Pk). rewrite (nth_upd_neq _ i n0) by lia. auto.
    + destruct (Nat.eq_dec k i) as [->|]; nthupd; auto. apply HF; lia.
  - exists m'. split; auto. destruct HP as (Em & L1 & L2 & L3 & HF). rewrite NJ in *.
    constructor; auto; try lia; intros; apply HF; auto.
Qed.

(** ** Forward acceleration *)
Record fa_post (mb : MultiBody) (A0 : SV) (m m' : MBC) : Prop := {
  fa_frame : m' = with_bodyAccB (bodyAccB m') m;
  fa_len : length (bodyAccB m') = length (bodyAccB m);
  fa_acc : forall i, (i < nrBodies mb)%nat ->
      nth i (bodyAccB m') sv0 =
      svadd (svadd (ptm (nth i (parentToSon m) ptid)
                        (match par mb i with Some p => nth p (bodyAccB m') sv0 | None => A0 end))
                   (smul (jS (nth i (mb_joints mb) jd)) (nth i (alphaD m) [])))
            (scross (nth i (bodyVelB m) sv0) (nth i (jointVelocity m) sv0))
}.

Lemma FA_ok mb m A0 : wf_mb mb ->
  sized mb jdof (alphaD m) ->
  length (jointVelocity m) = nrJoints mb ->
  length (parentToSon m) = nrBodies mb ->
  length (bodyVelB m) = nrBodies mb ->
  length (bodyAccB m) = nrBodies mb ->
  exists m', forwardAcceleration mb m A0 = Ok m' /\ fa_post mb A0 m m'.
Proof.
  intros W Sa Lj Lp Lv Lac. pose proof (wf_nrJoints mb W) as NJ.
  pose (P := fun (i : nat) (m' : MBC) =>
     m' = with_bodyAccB (bodyAccB m') m /\
     length (bodyAccB m') = nrBodies mb /\
     forall k, (k < i)%nat ->
      nth k (bodyAccB m') sv0 =
      svadd (svadd (ptm (nth k (parentToSon m) ptid)
                        (match par mb k with Some p => nth p (bodyAccB m') sv0 | None => A0 end))
                   (smul (jS (nth k (mb_joints mb) jd)) (nth k (alphaD m) [])))
            (scross (nth k (bodyVelB m) sv0) (nth k (jointVelocity m) sv0))).
  destruct (for_up_inv P (fa_step mb A0) (nrJoints mb) m) as (m' & E & HP).
  - unfold P. repeat split; try lia. destruct m; reflexivity.
  - intros i s Hi (Es & L1 & HF).
    assert (Hb : (i < nrBodies mb)%nat) by lia.
    unfold fa_step.
    assert (Em : tanAccel (nth i (mb_joints mb) jd) (nth i (alphaD m) []) =
                 Ok (smul (jS (nth i (mb_joints mb) jd)) (nth i (alphaD m) []))).
    { apply tanAccel_spec. now apply wf_joint_nth. rewrite (sized_nth _ _ _ _ Sa) by lia. auto. }
    assert (Gj : get (mb_joints mb) i = Ok (nth i (mb_joints mb) jd)) by (apply get_nth; unfold nrJoints in *; lia).
    assert (Ga : get (alphaD s) i = Ok (nth i (alphaD m) [])).
    { rewrite Es. apply get_nth. simpl. rewrite (sized_length _ _ _ Sa). auto. }
    assert (GX : get (parentToSon s) i = Ok (nth i (parentToSon m) ptid)) by (rewrite Es; apply get_nth; simpl; lia).
    assert (Gv : get (jointVelocity s) i = Ok (nth i (jointVelocity m) sv0)) by (rewrite Es; apply get_nth; simpl; lia).
    assert (Gb : get (bodyVelB s) i = Ok (nth i (bodyVelB m) sv0)) by (rewrite Es; apply get_nth; simpl; lia).
    set (ap := match par mb i with Some p => nth p (bodyAccB s) sv0 | None => A0 end).
    assert (G : forall z, get (mb_pred mb) i = Ok z ->
       (if negb (z =? -1)%Z then getz (bodyAccB s) z else Ok A0) = Ok ap).
    { intros z Ez. unfold ap.
      destruct (wf_get_pred mb i W Hb) as [[Ep Pp]|(p & Ep & Hp & Pp)]; rewrite Ep in Ez; injection Ez as <-;
        rewrite Pp.
      - reflexivity.
      - destruct (Z.eqb_spec (Z.of_nat p) (-1)); [lia|]. cbn [negb].
        rewrite getz_nat, (get_nth _ _ sv0) by lia. reflexivity. }
    destruct (get (mb_pred mb) i) as [z| | |] eqn:Ez;
      try (destruct (wf_get_pred mb i W Hb) as [[Ep Pp]|(p & Ep & Hp & Pp)]; congruence).
    specialize (G z eq_refl).
    rewrite wf_get_succ by auto. cbn [bind]. rewrite GX, Gv; cbn [bind]. rewrite Gj; cbn [bind]. rewrite Ga; cbn [bind].
    rewrite Em; cbn [bind]. rewrite Gb; cbn [bind]. rewrite G; cbn [bind].
    rewrite setz_nat, set_ok by lia; cbn [bind].
    eexists; split; [reflexivity|].
    unfold P. cbn [bodyAccB with_bodyAccB].
    rewrite !upd_length. repeat split; auto.
    + rewrite Es. reflexivity.
    + intros k Hk. destruct (Nat.eq_dec k i) as [->|].
      * nthupd. unfold ap. destruct (par mb i) eqn:Pk; auto.
        pose proof (par_lt mb i n W Hb Pk). rewrite (nth_upd_neq _ i n) by lia. auto.
      * nthupd. rewrite (HF k) by lia.
        destruct (par mb k) eqn:Pk; auto.
        pose proof (par_lt mb k n0 W ltac:(lia) Pk). rewrite (nth_upd_neq _ i n0) by lia. auto.
  - exists m'. split; auto. destruct HP as (Em & L1 & HF). rewrite NJ in *.
    constructor; auto; lia.
Qed.
