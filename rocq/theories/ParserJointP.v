(** Proofs about the readers and writers: joints. *)
From Coq Require Import Reals String ZArith Bool Arith List Lra Lia.
From Verif Require Import Res ResP SMap Vec VecP Sva SvaP JointM JointP MultiBodyM GraphM ParserM YamlM Spec SpecParser EulerP ParserRotP ParserRtP.
Import ListNotations.
Open Scope R_scope.

Lemma unit_not_zero a : vdot a a = 1 -> isZero3 a = false.
Proof.
  intro U. destruct (isZero3 a) eqn:E; auto. exfalso. unfold isZero3 in E. apply andb_true_iff in E. destruct E as (E & E3). apply andb_true_iff in E. destruct E as (E1 & E2).
  assert (G : forall x, small x = true -> x * x <= 1 / 4).
  { intros x S. unfold small, prec in S. destruct (Rle_dec _ _) as [L|]; [|discriminate]. assert (Rabs x <= 1 / 2) by lra.
    pose proof (Rabs_pos x). rewrite <- (Rabs_right (x * x)) by nra. rewrite Rabs_mult. nra. }
  apply G in E1, E2, E3. unfold vdot in U. lra.
Qed.
Lemma normalized_unit a : vdot a a = 1 -> normalized a = a.
Proof. intro U. unfold normalized. rewrite U, sqrt_1. destruct (Rlt_dec 0 1); auto. rewrite Rinv_1. apply vscale_1. Qed.
Lemma neg_unit a : vdot a a = 1 -> vdot (vscale (-1) a) (vscale (-1) a) = 1.
Proof. destruct a as [x y z]. unfold vdot, vscale. cbn. lra. Qed.
Lemma one1 v : svscale 1 v = v. Proof. destruct v as [a l]. unfold svscale. cbn. now rewrite !vscale_1. Qed.
Lemma map_one l : map (svscale 1) l = l. Proof. induction l; cbn; [auto|]. now rewrite one1, IHl. Qed.
Lemma jS_1 a j : built a j -> vdot a a = 1 ->
  match jtyp j with
  | Rev => exists u, vdot u u = 1 /\ jS j = [mkSV u v0]
  | Prism => exists u, vdot u u = 1 /\ jS j = [mkSV v0 u]
  | Fixed => jS j = []
  | Free => jfwd j = true -> jS j = map (svscale 1) (baseS Free unitZ)
  | _ => True
  end.
Proof.
  intros B U. apply built_shape in B. destruct B as (E & _ & _). assert (N : vscale (dirR (jfwd j)) v0 = v0) by (unfold vscale, v0; cbn; f_equal; ring).
  assert (N1 : vdot (vscale (dirR (jfwd j)) a) (vscale (dirR (jfwd j)) a) = 1). { destruct (jfwd j); cbn [dirR]; [now rewrite vscale_1|now apply neg_unit]. }
  destruct (jtyp j); auto; cbn [baseS map] in E; unfold svscale in E; cbn [sang slin] in E; rewrite ?N in E; eauto.
  intro F. rewrite F in E. cbn [dirR] in E. rewrite !vscale_1 in E. rewrite E. cbn [baseS map]. unfold svscale. cbn [sang slin]. rewrite !vscale_1. reflexivity.
Qed.
Lemma built_mimic_fields a j : built a j -> jmimic j = false -> jmimicName j = EmptyString /\ jmimicMul j = 1 /\ jmimicOff j = 0.
Proof. intro B. induction B; cbn; auto. discriminate. Qed.
Lemma axis_of_spec a j : built a j -> vdot a a = 1 -> match jtyp j with Rev | Prism | Fixed | Free => exists v, axis_of j = Ok v /\
   (match jtyp j with Fixed | Free => v = v0 | _ => vdot v v = 1 end) /\ (match jtyp j with Rev => jS j = [mkSV v v0] | Prism => jS j = [mkSV v0 v] | _ => True end) | _ => True end.
Proof.
  intros B U. pose proof (jS_1 a j B U) as S. unfold axis_of. destruct (jtyp j); auto.
  - destruct S as (u & N & ->). cbn. eauto.
  - destruct S as (u & N & ->). cbn. eauto.
  - eauto.
  - eauto.
Qed.
Lemma read_axis W v : exact_text W -> vdot v v = 1 -> normalized (attrToVector (wr_vec3d W v) v0) = v.
Proof. intros ET U. unfold attrToVector, wr_vec3d. cbn [attrToList nums]. rewrite !ET, v3_eta. now apply normalized_unit. Qed.
(** What is read of the type and the axis that are written. *)
Lemma type_back l j ty suf : type_name l j = Ok ty ->
  match jtyp j with Rev | Prism | Fixed => rbdynFromUrdfJoint ty (ends_with (jname j) suf) = jtyp j
                  | Free => ends_with (jname j) suf = false -> rbdynFromUrdfJoint ty (ends_with (jname j) suf) = Free
                  | _ => True end.
Proof.
  unfold type_name. destruct (jtyp j); auto.
  - destruct (is_continuous l (jname j)) as [[|]| | |]; cbn; try discriminate; intro E; injection E as <-; reflexivity.
  - intro E. injection E as <-. reflexivity.
  - intro E. injection E as <-. intros ->. reflexivity.
  - intro E. injection E as <-. reflexivity.
Qed.
Lemma read_origin_ok W X : exists X', read_origin (wr_origin W X) = Ok X'.
Proof.
  unfold wr_origin. set (v := w_euler W (mtr (rotE X))). destruct (isZero3 (trR X)), (isZero3 v); cbn [andb read_origin uo_rpy wr_vec3d attrToList nums RPY_list bind]; eauto.
Qed.
Lemma first_some_ok W l : exists X', read_origin (first_some (fun a => wr_origin W (aX a)) l) = Ok X'.
Proof.
  induction l as [|a l IH]; cbn [first_some]; [eexists; reflexivity|]. destruct (wr_origin W (aX a)) eqn:E; [|exact IH]. rewrite <- E. apply read_origin_ok.
Qed.
Lemma joint_back W p r j u : exact_text W -> joint_unit j -> urdf_joint (pp_suffix p) j -> wr_joint W r j = Ok (Some u) ->
  exists jr, read_joint p u = Ok jr /\ same_joint (jr_joint jr) j /\ jfwd (jr_joint jr) = true.
Proof.
  intros ET (a & U & B) UJ H. unfold wr_joint in H.
  destruct (jointIndexByName (pr_mb r) (jname j)) as [idx| | |]; cbn [bind] in H; try discriminate. destruct (idx =? 0)%Z; [discriminate|].
  destruct (type_name (pr_limits r) j) as [ty| | |] eqn:T; cbn [bind] in H; try discriminate.
  destruct (ends_of (pr_mb r) idx) as [[pa ch]| | |] eqn:EO; cbn [bind fst snd] in H; try discriminate.
  destruct (nodeByName (bname pa) (pr_mbg r)) as [nd| | |]; cbn [bind] in H; try discriminate.
  destruct (axis_of j) as [ax| | |] eqn:AX; cbn [bind] in H; try discriminate.
  destruct (write_limits (pr_limits r) j) as [wl| | |]; cbn [bind] in H; try discriminate.
  injection H as <-. pose proof (type_back _ _ _ (pp_suffix p) T) as TB. pose proof (axis_of_spec a j B U) as AS. pose proof (jS_1 a j B U) as JS.
  pose proof (built_shape a j B) as (_ & BP & BD). pose proof (built_mimic_fields a j B) as BM.
  destruct (first_some_ok W (arcs_named (nArcs nd) (jname j))) as (X' & RO).
  unfold read_joint. cbn [uj_name uj_type uj_origin uj_axis uj_parent uj_child uj_mimic uj_limit deref bind]. rewrite RO. cbn [bind]. unfold urdf_joint in UJ.
  assert (FIN : forall axis type, type = jtyp j -> map (svscale 1) (baseS (jtyp j) axis) = jS j -> (jtyp j = Fixed -> jmimic j = false) ->
    exists jr, (jt <- (match (if jmimic j then Some (mkUM (Some (jmimicName j)) (wr_double W (jmimicMul j)) (wr_double W (jmimicOff j))) else None), type with
        | None, _ => Ok (mkJ type axis true (jname j))
        | Some _, Fixed => Ok (mkJ type axis true (jname j))
        | Some m, _ => mj <- deref (um_joint m) ;; Ok (makeMimic (mkJ type axis true (jname j)) mj (attrToDouble (um_mult m) 1) (attrToDouble (um_off m) 0))
        end) ;; Ok (mkJR jt ty (bname pa) (bname ch) X')) = Ok jr /\ same_joint (jr_joint jr) j /\ jfwd (jr_joint jr) = true).
  { intros axis type -> HS HF. destruct (jmimic j) eqn:MM.
    - assert (NF : jtyp j <> Fixed) by (intro Z; specialize (HF Z); discriminate).
      assert (SJ : same_joint (makeMimic (mkJ (jtyp j) axis true (jname j)) (jmimicName j) (jmimicMul j) (jmimicOff j)) j).
      { unfold same_joint, makeMimic, mkJ. cbn [jtyp jS jparams jdof jname jmimic jmimicName jmimicMul jmimicOff dirR]. rewrite HS, BP, BD, MM. repeat (split; [reflexivity|]). reflexivity. }
      assert (E : forall k : jtype, k <> Fixed -> forall A (x y : A), match k with Fixed => x | _ => y end = y) by (intros [] ? ? ? ?; auto; congruence).
      cbn [um_joint um_mult um_off deref bind wr_double attrToDouble]. rewrite E by auto. cbn [bind]. rewrite !ET. eexists. split; [reflexivity|]. split; [exact SJ|reflexivity].
    - destruct BM as (M1 & M2 & M3); auto. cbn [bind]. eexists. split; [reflexivity|]. split; [|reflexivity]. cbn [jr_joint].
      unfold same_joint, mkJ. cbn [jtyp jS jparams jdof jname jmimic jmimicName jmimicMul jmimicOff dirR]. rewrite HS, BP, BD, M1, M2, M3, MM. repeat (split; [reflexivity|]). reflexivity. }
  destruct (jtyp j) eqn:TY; try contradiction.
  - destruct AS as (v & E & V & S). rewrite AX in E. injection E as <-. rewrite (unit_not_zero _ V). rewrite (read_axis W ax ET V). apply FIN; auto; [|discriminate]. rewrite S, map_one. reflexivity.
  - destruct AS as (v & E & V & S). rewrite AX in E. injection E as <-. rewrite (unit_not_zero _ V). rewrite (read_axis W ax ET V). apply FIN; auto; try discriminate. rewrite S, map_one. reflexivity.
  - destruct AS as (v & E & V & _). rewrite AX in E. injection E as <-. rewrite V, isZero_v0. destruct UJ as (FW & EW). apply FIN; auto; try discriminate. symmetry. now apply JS.
  - destruct AS as (v & E & V & _). rewrite AX in E. injection E as <-. rewrite V, isZero_v0. apply FIN; auto; now rewrite JS.
Qed.
