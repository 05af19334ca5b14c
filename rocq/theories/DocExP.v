(** Concrete documents for the statements about whole documents. *)
From Coq Require Import Reals String Ascii ZArith Bool Arith List Lra Lia Permutation.
From Verif Require Import Res ResP SMap Vec VecP Sva SvaP JointM JointP MultiBodyM KinM GraphM ParserM YamlM Spec SpecGraph SpecGraphOp SpecParser SpecDoc ParserP ParserRotP ParserRtP ParserBodyP ParserJointP ParserExP DocP DocReadP DocYamlP DocUrdfP DocWholeP DocRtP.
Import ListNotations.
Open Scope R_scope.

(** A base, an arm and a hand; the joint of the hand comes first. *)
Definition exdoc_p : PParams := mkPP false [] true true "" false "_spherical".
Definition exdoc_arm : Body := mkBody exp_I "arm".
Definition exdoc_u : URobot := mkUR (Some "robot"%string)
  [mkUL (Some "base"%string) None; mkUL (Some "hand"%string) None; wr_link exw exdoc_arm]
  [mkUJ (Some "slide"%string) (Some "prismatic"%string) (Some (Some "arm"%string)) (Some (Some "hand"%string)) (wr_origin exw exp_Y) (Some (Some [TNum 0; TNum 2; TNum 0])) None
        (Some (mkULim (Some [TNum (-1)]) (Some [TNum 2]) (Some [TNum 10]) (Some [TNum 3])));
   mkUJ (Some "turn"%string) (Some "continuous"%string) (Some (Some "base"%string)) (Some (Some "arm"%string)) (wr_origin exw exp_Y) None
        (Some (mkUM (Some "slide"%string) (Some [TNum 2]) None)) None].
Lemma exdoc_plain : plain exdoc_p. Proof. now repeat split. Qed.
Lemma exdoc_keeps : keeps_all exdoc_p. Proof. now repeat split. Qed.
Lemma uorigin_wr W X : uorigin_ok (wr_origin W X).
Proof. unfold wr_origin. destruct (isZero3 (trR X) && isZero3 _); [exact I|]. cbn [uorigin_ok uo_rpy]. destruct (isZero3 _); [exact I|]. unfold wr_vec3d. eexists _, _, _, []. split; [reflexivity|exact I]. Qed.
Lemma uinertial_wr : match wr_inertial exw exp_I with Some u => uorigin_ok (ui_origin u) /\ ui_mass u <> None /\ ui_inertia u <> None | None => True end.
Proof.
  unfold wr_inertial. destruct (has_inertial exp_I); [|exact I]. cbn [ui_origin ui_mass ui_inertia]. rewrite positive_true by (cbn; lra).
  destruct exp_I_ok as (_ & V & _). rewrite (visible_sym_Z _ V). split; [destruct (isZero3 _); exact I|]. split; discriminate.
Qed.
Definition exdoc_rank (n : string) : nat := if String.eqb n "base" then 0 else if String.eqb n "arm" then 1 else 2.
Lemma exdoc_u_names : tree_names (map ulink_name (ur_links exdoc_u)) (map ujoint_names (ur_joints exdoc_u)).
Proof.
  change (tree_names ["base"; "hand"; "arm"]%string [("slide", ("arm", "hand")); ("turn", ("base", "arm"))]%string).
  assert (ND : forall l : list string, (if list_eq_dec String.string_dec (nodup String.string_dec l) l then true else false) = true -> NoDup l).
  { intros l. destruct (list_eq_dec _ _ _) as [E|]; [|discriminate]. intros _. rewrite <- E. apply NoDup_nodup. }
  split; [discriminate|]. do 3 (split; [apply ND; reflexivity|]). split; [cbn; intuition|]. split; [intros j [<-|[<-|[]]]; cbn; auto|].
  exists exdoc_rank. intros j [<-|[<-|[]]]; apply Nat.ltb_lt; reflexivity.
Qed.
Lemma exdoc_u_ok : (forall l, In l (ur_links exdoc_u) -> ulink_ok l) /\ (forall u, In u (ur_joints exdoc_u) -> ujoint_ok u).
Proof.
  split.
  - intros l [<-|[<-|[<-|[]]]]; (split; [discriminate|]); [exact I|exact I|exact uinertial_wr].
  - intros u [<-|[<-|[]]]; (split; [discriminate|]); (split; [discriminate|]); (split; [eexists; reflexivity|]); (split; [eexists; reflexivity|]); (split; [apply uorigin_wr|]); [exact I|discriminate].
Qed.
Lemma exp_Y_urdf : urdf_able_frame eul exp_Y.
Proof.
  destruct exp_Y_ok as (H1 & H2 & H3). do 3 (split; [assumption|]). cbv zeta. unfold exp_Y at 1 2 3 4 5 6. cbn [rotE]. rewrite angleAxis_tr, eul_rotX by (pose proof PI2_1; lra).
  cbn [vx vy vz]. apply rpy_one. auto.
Qed.
Lemma exdoc_read : read_origin (wr_origin exw exp_Y) = Ok exp_Y.
Proof. destruct exw_ok as (H1 & H2). destruct exp_Y_urdf as (H3 & H4 & H5 & H6). apply urdf_frame_iff; auto. Qed.
Lemma norm_Y : normalized (mkV3 0 2 0) = unitY.
Proof.
  unfold normalized, vdot. cbn [vx vy vz]. replace (0 * 0 + 2 * 2 + 0 * 0) with (2 * 2) by ring. rewrite sqrt_square by lra.
  destruct (Rlt_dec 0 (2 * 2)) as [_|N]; [|exfalso; apply N; lra]. unfold vscale, unitY. cbn [vx vy vz]. f_equal; field.
Qed.
Definition exdoc_slide : Joint := mkJ Prism unitY true "slide".
Definition exdoc_turn : Joint := makeMimic (mkJ Rev unitZ true "turn") "slide" 2 0.
Lemma exdoc_u_able :
  (forall l, In l (ur_links exdoc_u) -> forall b, urdf_body_of exdoc_p l b -> urdf_able_body b) /\
  (forall u, In u (ur_joints exdoc_u) -> fst (ujoint_names u) <> "Root"%string /\
    forall lims k, urdf_link_of exdoc_p lims u k -> urdf_able_joint (pp_suffix exdoc_p) lims (dl_joint k) /\ urdf_able_frame (w_euler exw) (dl_X k)).
Proof.
  split.
  - intros l [<-|[<-|[<-|[]]]] b (_ & H).
    1,2: left; cbn [ulink_name ul_name ul_inertial text read_body] in H; rewrite body_mci_0 in H; injection H as <-; reflexivity.
    destruct exw_ok as (E & _). destruct exp_I_ok as (H1 & H2 & H3). pose proof (urdf_body exw exdoc_arm E H1 H2 H3) as H'.
    change (read_body true (bname exdoc_arm) (wr_inertial exw (binertia exdoc_arm)) = Ok b) in H. rewrite H' in H. injection H as <-. right. now split.
  - intros u [<-|[<-|[]]]; (split; [discriminate|]); intros lims k (_ & H & lo & up & ve & ef & HL & HR).
    + unfold read_joint in H. cbn [uj_name uj_type uj_origin uj_axis uj_parent uj_child uj_mimic deref bind] in H. rewrite exdoc_read in H. cbn [bind] in H.
      change (attrToVector (Some [TNum 0; TNum 2; TNum 0]) v0) with (mkV3 0 2 0) in H. rewrite norm_Y in H.
      destruct k as [j pa ch X]. cbn [dl_joint dl_parent dl_child dl_X] in *. pose proof (f_equal (fun r => match r with Ok a => jr_joint a | _ => jd end) H) as EJ. pose proof (f_equal (fun r => match r with Ok a => jr_X a | _ => ptid end) H) as EX.
      cbn in EJ, EX. subst j X. split; [|exact exp_Y_urdf].
      split; [exists unitY; split; [apply uY|apply built_ctor]|]. split; [reflexivity|]. split; [exact I|].
      cbn in HR. injection HR as <- <- <- <-. exists [Fin (-1)], [Fin 2], [Fin 3], [Fin 10]. split; [exact HL|].
      repeat split; try discriminate; intros d [<-|[]]; eauto.
    + unfold read_joint in H. cbn [uj_name uj_type uj_origin uj_axis uj_parent uj_child uj_mimic deref bind] in H. rewrite exdoc_read in H. cbn [bind] in H.
      destruct k as [j pa ch X]. cbn [dl_joint dl_parent dl_child dl_X] in *. pose proof (f_equal (fun r => match r with Ok a => jr_joint a | _ => jd end) H) as EJ. pose proof (f_equal (fun r => match r with Ok a => jr_X a | _ => ptid end) H) as EX.
      cbn in EJ, EX. subst j X. split; [|exact exp_Y_urdf].
      split; [exists unitZ; split; [apply uZ|apply built_mimic, built_ctor]|]. split; [reflexivity|]. split; [exact I|].
      cbn in HR. injection HR as <- <- <- <-. left. exact HL.
Qed.

(** The same robot in YAML; the names of the joints and the links of the first one are the default ones. *)
Definition exdoc_yarm : Body := mkBody exp_I "link2".
Definition exdoc_y : YRobot := mkYR (Some "robot"%string) (Some false)
  (Some [mkYL None None; yw_link exdoc_yarm; mkYL (Some "hand"%string) None])
  (Some [mkYJ None (Some "continuous"%string) None None (Some (YSeq [YNum 1; YNum 0; YNum 0])) (yw_frame eul exp_Y) None;
         mkYJ None (Some "prismatic"%string) None (Some "hand"%string) None (yw_frame eul exp_Y)
           (Some (mkYLim (Some (YNum (Fin (-1)))) (Some (YNum (Fin 2))) None (Some (YNum (Fin 3))) None))]).
Definition exdoc_ls : list YLink := match yr_links exdoc_y with Some l => l | None => [] end.
Definition exdoc_js : list YJoint := match yr_joints exdoc_y with Some l => l | None => [] end.
Lemma exdoc_y_names : tree_names (numbered ylink_name 1 exdoc_ls) (numbered yjoint_names 1 exdoc_js).
Proof.
  change (tree_names ["link1"; "link2"; "hand"]%string [("joint1", ("link1", "link2")); ("joint2", ("link2", "hand"))]%string).
  assert (ND : forall l : list string, (if list_eq_dec String.string_dec (nodup String.string_dec l) l then true else false) = true -> NoDup l).
  { intros l. destruct (list_eq_dec _ _ _) as [E|]; [|discriminate]. intros _. rewrite <- E. apply NoDup_nodup. }
  split; [discriminate|]. do 3 (split; [apply ND; reflexivity|]). split; [cbn; intuition|]. split; [intros j [<-|[<-|[]]]; cbn; auto|].
  exists (fun n => if String.eqb n "link1" then 0 else if String.eqb n "link2" then 1 else 2)%nat. intros j [<-|[<-|[]]]; apply Nat.ltb_lt; reflexivity.
Qed.
Lemma yframe_wr e X : yframe_ok (yw_frame e X).
Proof.
  unfold yw_frame. destruct (isZero3 (trR X) && isZero3 _); [exact I|]. split; cbn [yf_xyz yf_rpy]; destruct (isZero3 _); try exact I; cbn; eexists _, _, _; reflexivity.
Qed.
Lemma yinertial_wr : match yw_inertial exp_I with Some i => yframe_ok (yi_frame i) | None => True end.
Proof.
  unfold yw_inertial. destruct (has_inertial exp_I); [|exact I]. cbn [yi_frame]. destruct (isZero3 _); [exact I|]. split; [|exact I]. cbn. eexists _, _, _; reflexivity.
Qed.
Lemma exdoc_yread : yaml_pt false (yw_frame eul exp_Y) = Ok exp_Y.
Proof. destruct exp_Y_ok as (H1 & H2 & H3). apply yaml_frame_rt; auto. exact eul_ok. Qed.
Lemma exdoc_y_links : forall i l, nth_error exdoc_ls i = Some l -> ylink_ok l /\ forall b, yaml_body_of exdoc_p false (ylink_name (S i) l) l b -> yaml_able_body b.
Proof.
  intros [|[|[|i]]] l E; cbn in E; [| | |destruct i; discriminate]; injection E as <-; (split; [first [exact I|exact yinertial_wr]|]); intros b (_ & H).
  1,3: left; cbn [ylink_name yl_name yl_inertial text parseInertial] in H; rewrite body_mci_0 in H; injection H as <-; reflexivity.
  destruct exp_I_ok as (H1 & H2 & H3). pose proof (yaml_body exdoc_yarm (or_introl H1) H2 H3) as H'.
  change (parseInertial false true (bname exdoc_yarm) (yw_inertial (binertia exdoc_yarm)) = Ok b) in H. rewrite H' in H. injection H as <-. right. split; [left; exact H1|]. now split.
Qed.
Lemma exdoc_y_joints : forall i j, nth_error exdoc_js i = Some j -> yjoint_ok exdoc_p (fst (yjoint_names (S i) j)) j /\ fst (yjoint_names (S i) j) <> "Root"%string /\
  forall lims k, yaml_link_of exdoc_p false lims (yjoint_names (S i) j) j k -> yaml_able_joint lims (dl_joint k) /\ yaml_able_frame eul (dl_X k).
Proof.
  intros [|[|i]] j E; cbn in E; [| |destruct i; discriminate]; injection E as <-.
  - split; [split; [cbn; eexists _, _, _; reflexivity|]; split; [apply yframe_wr|]; right; exists 1%nat; split; [cbn; auto|exact I]|]. split; [discriminate|].
    intros lims k (_ & HX & t & c & a & HT & HA & HJ & lo & up & ve & ef & HL & HR). cbn [yj_frame yj_type yj_axis yj_limits] in *. rewrite exdoc_yread in HX. injection HX as <-. split; [|exact exp_Y_ok].
    cbn in HT. injection HT as <- <-. cbn in HA. injection HA as <-. rewrite HJ in *. cbn in HR. injection HR as <- <- <- <-.
    split; [exists unitX; split; [apply uX|apply built_ctor]|]. split; [reflexivity|]. split; [reflexivity|]. exists MInf, PInf, PInf, PInf. split; [exact HL|]. auto.
  - split; [split; [exact I|]; split; [apply yframe_wr|]; right; exists 1%nat; split; [cbn; auto|left; auto]|]. split; [discriminate|].
    intros lims k (_ & HX & t & c & a & HT & HA & HJ & lo & up & ve & ef & HL & HR). cbn [yj_frame yj_type yj_axis yj_limits] in *. rewrite exdoc_yread in HX. injection HX as <-. split; [|exact exp_Y_ok].
    cbn in HT. injection HT as <- <-. cbn in HA. injection HA as <-. rewrite HJ in *. cbn in HR. injection HR as <- <- <- <-.
    split; [exists unitZ; split; [apply uZ|apply built_ctor]|]. split; [reflexivity|]. split; [reflexivity|]. eexists _, _, _, _. exact HL.
Qed.
