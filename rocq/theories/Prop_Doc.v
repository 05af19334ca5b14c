(** Documents read as robots, and robots written and read back. *)
From Coq Require Import Reals String ZArith Bool Arith List Lia.
From Verif Require Import Res SMap Vec Sva JointM MultiBodyM KinM GraphM ParserM YamlM Spec SpecGraph SpecParser SpecDoc SpecElem ParserRotP ParserExP DocYamlP DocUrdfP DocWholeP DocRtP DocRefP DocExP ElemP RefBaseP.
Import ListNotations.
Open Scope nat_scope.

(** C75: a document that describes a tree is read as that tree. *)
Theorem C75_urdf_document : forall fuel g p rb name, keeps_all p -> ur_name rb = Some name ->
  (forall l, In l (ur_links rb) -> ulink_ok l) -> (forall u, In u (ur_joints rb) -> ujoint_ok u) ->
  tree_names (map ulink_name (ur_links rb)) (map ujoint_names (ur_joints rb)) -> List.length (ur_links rb) <= fuel ->
  exists r bodies links, from_urdf fuel g (Some rb) p = Ok r /\ pr_name r = name /\
    matched (fun _ => urdf_link_says p) 0 (ur_links rb) bodies /\ matched (fun _ => urdf_joint_says p (pr_limits r)) 0 (ur_joints rb) links /\
    robot_of bodies links (mkJ (if pp_fixed p then Fixed else Free) unitZ true "Root") (pr_mb r) /\ tree_robot g (pp_fixed p) r.
Proof. exact urdf_doc. Qed.
Print Assumptions C75_urdf_document.
Example C75_urdf_case : keeps_all exdoc_p /\ ur_name exdoc_u = Some "robot"%string /\ (forall l, In l (ur_links exdoc_u) -> ulink_ok l) /\ (forall u, In u (ur_joints exdoc_u) -> ujoint_ok u) /\
  tree_names (map ulink_name (ur_links exdoc_u)) (map ujoint_names (ur_joints exdoc_u)).
Proof. split; [exact exdoc_keeps|]. split; [reflexivity|]. split; [apply exdoc_u_ok|]. split; [apply exdoc_u_ok|exact exdoc_u_names]. Qed.

Theorem C75_yaml_document : forall fuel g p rb name deg ls js, keeps_all p ->
  yr_name rb = Some name -> yr_deg rb = Some deg -> yr_links rb = Some ls -> yr_joints rb = Some js ->
  (forall l, In l ls -> SpecDoc.ylink_ok l) -> (forall i j, nth_error js i = Some j -> yjoint_ok p (fst (yjoint_names (S i) j)) j) ->
  tree_names (numbered ylink_name 1 ls) (numbered yjoint_names 1 js) -> hd EmptyString (numbered ylink_name 1 ls) <> EmptyString -> List.length ls <= fuel ->
  exists r bodies links, from_yaml fuel g (Some rb) p = Ok r /\ pr_name r = name /\
    matched (fun i l => yaml_link_says p deg (ylink_name i l) l) 1 ls bodies /\
    matched (fun i j => yaml_joint_says p deg (pr_limits r) (yjoint_names i j) j) 1 js links /\
    robot_of bodies links (mkJ (if pp_fixed p then Fixed else Free) unitZ true "Root") (pr_mb r) /\ tree_robot g (pp_fixed p) r.
Proof. exact yaml_doc. Qed.
Print Assumptions C75_yaml_document.
Example C75_yaml_case : yr_links exdoc_y = Some exdoc_ls /\ yr_joints exdoc_y = Some exdoc_js /\
  (forall l, In l exdoc_ls -> SpecDoc.ylink_ok l) /\ (forall i j, nth_error exdoc_js i = Some j -> yjoint_ok exdoc_p (fst (yjoint_names (S i) j)) j) /\
  tree_names (numbered ylink_name 1 exdoc_ls) (numbered yjoint_names 1 exdoc_js) /\ hd EmptyString (numbered ylink_name 1 exdoc_ls) <> EmptyString.
Proof.
  split; [reflexivity|]. split; [reflexivity|]. split; [intros l H; apply In_nth_error in H; destruct H as (i & H); now apply (exdoc_y_links i)|].
  split; [intros i j H; now apply exdoc_y_joints|]. split; [exact exdoc_y_names|discriminate].
Qed.

(** C76: a robot that is written and read back is the same robot. Missing: what the two formats
    cannot describe (see the refutations of C59, C60 and C61). *)
Theorem C76_yaml_round_trip_partial : forall euler g p r, euler_ok euler -> plain p -> tree_robot g (pp_fixed p) r -> named r ->
  (forall b, In b (mb_bodies (pr_mb r)) -> yaml_able_body b) ->
  (forall i j, 0 < i -> nth_error (mb_joints (pr_mb r)) i = Some j -> yaml_able_joint (pr_limits r) j) ->
  (forall i X, 0 < i -> nth_error (mb_Xt (pr_mb r)) i = Some X -> yaml_able_frame euler X) ->
  exists d, to_yaml euler r = Ok d /\ forall fuel, nrBodies (pr_mb r) <= fuel ->
    exists r', from_yaml fuel g d p = Ok r' /\ pr_mb r' = pr_mb r /\ pr_mbc r' = pr_mbc r /\ pr_name r' = pr_name r /\
    forall i j, 0 < i -> nth_error (mb_joints (pr_mb r)) i = Some j -> same_limits (pr_limits r) (pr_limits r') (jname j).
Proof. exact yaml_round. Qed.
Print Assumptions C76_yaml_round_trip_partial.
Theorem C76_urdf_round_trip_partial : forall W g p r, exact_text W -> euler_ok (w_euler W) -> plain p -> tree_robot g (pp_fixed p) r -> named r ->
  (forall b, In b (mb_bodies (pr_mb r)) -> urdf_able_body b) ->
  (forall i j, 0 < i -> nth_error (mb_joints (pr_mb r)) i = Some j -> urdf_able_joint (pp_suffix p) (pr_limits r) j) ->
  (forall i X, 0 < i -> nth_error (mb_Xt (pr_mb r)) i = Some X -> urdf_able_frame (w_euler W) X) ->
  exists d, to_urdf W r = Ok d /\ forall fuel, nrBodies (pr_mb r) <= fuel ->
    exists r', from_urdf fuel g d p = Ok r' /\ pr_mb r' = pr_mb r /\ pr_mbc r' = pr_mbc r /\ pr_name r' = pr_name r /\
    forall i j, 0 < i -> nth_error (mb_joints (pr_mb r)) i = Some j -> same_limits (pr_limits r) (pr_limits r') (jname j).
Proof. exact urdf_round. Qed.
Print Assumptions C76_urdf_round_trip_partial.

(** The same for documents: reading, writing and reading again gives the robot of the document. *)
Theorem C76_urdf_reread_partial : forall fuel g p W rb name, exact_text W -> euler_ok (w_euler W) -> plain p -> ur_name rb = Some name ->
  (forall l, In l (ur_links rb) -> ulink_ok l /\ forall b, urdf_body_of p l b -> urdf_able_body b) ->
  (forall u, In u (ur_joints rb) -> ujoint_ok u /\ fst (ujoint_names u) <> "Root"%string /\
     forall lims k, urdf_link_of p lims u k -> urdf_able_joint (pp_suffix p) lims (dl_joint k) /\ urdf_able_frame (w_euler W) (dl_X k)) ->
  tree_names (map ulink_name (ur_links rb)) (map ujoint_names (ur_joints rb)) -> hd EmptyString (map ulink_name (ur_links rb)) <> EmptyString -> List.length (ur_links rb) <= fuel ->
  exists r d r', from_urdf fuel g (Some rb) p = Ok r /\ to_urdf W r = Ok d /\ from_urdf fuel g d p = Ok r' /\ pr_mb r' = pr_mb r /\ pr_mbc r' = pr_mbc r /\ pr_name r' = pr_name r /\
    forall i j, 0 < i -> nth_error (mb_joints (pr_mb r)) i = Some j -> same_limits (pr_limits r) (pr_limits r') (jname j).
Proof. exact urdf_reread. Qed.
Print Assumptions C76_urdf_reread_partial.
Example C76_urdf_case : forall g, exists r d r', from_urdf 3 g (Some exdoc_u) exdoc_p = Ok r /\ to_urdf exw r = Ok d /\ from_urdf 3 g d exdoc_p = Ok r' /\ pr_mb r' = pr_mb r.
Proof.
  intro g. destruct exw_ok as (E1 & E2). destruct exdoc_u_ok as (L1 & L2). destruct exdoc_u_able as (L3 & L4).
  destruct (C76_urdf_reread_partial 3 g exdoc_p exw exdoc_u "robot"%string E1 E2 exdoc_plain eq_refl) as (r & d & r' & H1 & H2 & H3 & H4 & _).
  - intros l Hl. split; [now apply L1|now apply L3].
  - intros u Hu. split; [now apply L2|now apply L4].
  - exact exdoc_u_names.
  - discriminate.
  - reflexivity.
  - exists r, d, r'. auto.
Qed.
Theorem C76_yaml_reread_partial : forall fuel g p euler rb name deg ls js, euler_ok euler -> plain p ->
  yr_name rb = Some name -> yr_deg rb = Some deg -> yr_links rb = Some ls -> yr_joints rb = Some js ->
  (forall i l, nth_error ls i = Some l -> SpecDoc.ylink_ok l /\ forall b, yaml_body_of p deg (ylink_name (S i) l) l b -> yaml_able_body b) ->
  (forall i j, nth_error js i = Some j -> yjoint_ok p (fst (yjoint_names (S i) j)) j /\ fst (yjoint_names (S i) j) <> "Root"%string /\
     forall lims k, yaml_link_of p deg lims (yjoint_names (S i) j) j k -> yaml_able_joint lims (dl_joint k) /\ yaml_able_frame euler (dl_X k)) ->
  tree_names (numbered ylink_name 1 ls) (numbered yjoint_names 1 js) -> hd EmptyString (numbered ylink_name 1 ls) <> EmptyString -> List.length ls <= fuel ->
  exists r d r', from_yaml fuel g (Some rb) p = Ok r /\ to_yaml euler r = Ok d /\ from_yaml fuel g d p = Ok r' /\ pr_mb r' = pr_mb r /\ pr_mbc r' = pr_mbc r /\ pr_name r' = pr_name r /\
    forall i j, 0 < i -> nth_error (mb_joints (pr_mb r)) i = Some j -> same_limits (pr_limits r) (pr_limits r') (jname j).
Proof. exact yaml_reread. Qed.
Print Assumptions C76_yaml_reread_partial.
Example C76_yaml_case : forall g, exists r d r', from_yaml 3 g (Some exdoc_y) exdoc_p = Ok r /\ to_yaml eul r = Ok d /\ from_yaml 3 g d exdoc_p = Ok r' /\ pr_mb r' = pr_mb r.
Proof.
  intro g. destruct (C76_yaml_reread_partial 3 g exdoc_p eul exdoc_y "robot"%string false exdoc_ls exdoc_js eul_ok exdoc_plain eq_refl eq_refl eq_refl eq_refl exdoc_y_links exdoc_y_joints exdoc_y_names) as (r & d & r' & H1 & H2 & H3 & H4 & _).
  - discriminate.
  - reflexivity.
  - exists r, d, r'. auto.
Qed.

(** Robots are written when their joints have types that the formats name, and the call throws otherwise. *)
Theorem C76_written : forall W euler g fixed r, tree_robot g fixed r -> named r -> proper r ->
  ((forall i j, 0 < i -> nth_error (mb_joints (pr_mb r)) i = Some j -> writable j) -> exists d d', to_urdf W r = Ok d /\ to_yaml euler r = Ok d') /\
  ((exists i j, 0 < i /\ nth_error (mb_joints (pr_mb r)) i = Some j /\ ~ writable j) -> to_urdf W r = Throw InvalidArgument /\ to_yaml euler r = Throw InvalidArgument).
Proof. exact written. Qed.
Print Assumptions C76_written.
Example C76_written_case : forall g fixed, exists r, tree_robot g fixed r /\ named r /\ proper r /\ exists j, nth_error (mb_joints (pr_mb r)) 1 = Some j /\ ~ writable j.
Proof. exact ball_case. Qed.

(** Refuted for the other robots: infinite limits are lost in URDF, ... *)
Theorem C76_urdf_infinite_limits_refuted : forall W g p fuel, exact_text W -> euler_ok (w_euler W) -> plain p -> 2 <= fuel ->
  exists r d r', two_of g (pp_fixed p) (mkJ Prism unitX true "j") ptid (lims1 [MInf] [PInf] [PInf] [PInf]) r /\
    to_urdf W r = Ok d /\ from_urdf fuel g d p = Ok r' /\ limits_at (pr_limits r') "j" [] [] [] [].
Proof. exact urdf_infinite. Qed.
Print Assumptions C76_urdf_infinite_limits_refuted.
(** ... planar joints come back fixed from URDF and are not read from YAML, ... *)
Theorem C76_planar_refuted : forall W euler g p fuel l, exact_text W -> euler_ok (w_euler W) -> euler_ok euler -> plain p -> 2 <= fuel ->
  (exists r d r' j, two_of g (pp_fixed p) (mkJ Planar unitZ true "j") ptid l r /\ to_urdf W r = Ok d /\ from_urdf fuel g d p = Ok r' /\ nth_error (mb_joints (pr_mb r')) 1 = Some j /\ jtyp j = Fixed) /\
  (exists r d, two_of g (pp_fixed p) (mkJ Planar unitZ true "j") ptid l r /\ to_yaml euler r = Ok d /\ from_yaml fuel g d p = Throw RuntimeError).
Proof. exact planar_both. Qed.
Print Assumptions C76_planar_refuted.
(** Nor when it was read with another base link: the frames that are written are those in the links of
    the document, not those of the robot, whose joints start elsewhere. *)
Theorem C76_other_base_refuted : forall W euler g p fuel, plain p -> 3 <= fuel -> exists r d d' r' r'',
  from_urdf fuel g (Some base_doc) (from_base p "arm") = Ok r /\ to_urdf W r = Ok d /\ to_yaml euler r = Ok d' /\
  from_urdf fuel g d p = Ok r' /\ from_yaml fuel g d' p = Ok r'' /\
  (exists i, bname (nth i (mb_bodies (pr_mb r)) bd) = "hand"%string /\ trR (nth i (mb_Xt (pr_mb r)) ptid) = mkV3 (-1) 0 0) /\
  (exists i, bname (nth i (mb_bodies (pr_mb r')) bd) = "hand"%string /\ trR (nth i (mb_Xt (pr_mb r')) ptid) = v0) /\
  (exists i, bname (nth i (mb_bodies (pr_mb r'')) bd) = "hand"%string /\ trR (nth i (mb_Xt (pr_mb r'')) ptid) = v0).
Proof. exact other_base_refuted. Qed.
Print Assumptions C76_other_base_refuted.
(** ... floating joints are written in YAML in a way that is not read, ... *)
Theorem C76_yaml_floating_refuted : forall euler g p fuel lo up ve ef, euler_ok euler -> plain p ->
  (forall v, In v [lo; up; ve; ef] -> List.length v = 6) -> ends_with "j" (pp_suffix p) = false ->
  exists r d, two_of g (pp_fixed p) (mkJ Free unitZ true "j") ptid (lims1 lo up ve ef) r /\ to_yaml euler r = Ok d /\ from_yaml fuel g d p = Throw RuntimeError.
Proof. exact yaml_floating. Qed.
Print Assumptions C76_yaml_floating_refuted.
(** ... mimic joints come back from YAML as ordinary ones, ... *)
Theorem C76_yaml_mimic_refuted : forall euler g p fuel, euler_ok euler -> plain p -> 2 <= fuel ->
  let j := makeMimic (mkJ Rev unitZ true "j") "k" 2%R 1%R in let l := lims1 [Fin 0] [Fin 1] [Fin 1] [Fin 1] in
  exists r d r' j', two_of g (pp_fixed p) j ptid l r /\ to_yaml euler r = Ok d /\ from_yaml fuel g d p = Ok r' /\ nth_error (mb_joints (pr_mb r')) 1 = Some j' /\ jmimic j' = false.
Proof. exact yaml_mimic. Qed.
Print Assumptions C76_yaml_mimic_refuted.
(** ... joints without end stops lose their velocity and torque limits in both formats, ... *)
Theorem C76_continuous_limits_refuted : forall W euler g p fuel x y, exact_text W -> euler_ok (w_euler W) -> euler_ok euler -> plain p -> 2 <= fuel ->
  let l := lims1 [MInf] [PInf] [Fin x] [Fin y] in let j := mkJ Rev unitZ true "j" in
  (exists r d r', two_of g (pp_fixed p) j ptid l r /\ to_urdf W r = Ok d /\ from_urdf fuel g d p = Ok r' /\ limits_at (pr_limits r') "j" [MInf] [PInf] [PInf] [PInf]) /\
  (exists r d r', two_of g (pp_fixed p) j ptid l r /\ to_yaml euler r = Ok d /\ from_yaml fuel g d p = Ok r' /\ limits_at (pr_limits r') "j" [MInf] [PInf] [PInf] [PInf]).
Proof. exact continuous_limits. Qed.
Print Assumptions C76_continuous_limits_refuted.
(** ... and writing a robot read from a document whose limits have no bounds is undefined behaviour. *)
Theorem C76_no_bounds_refuted : forall W euler g p fuel, plain p -> 2 <= fuel ->
  ujoint_ok ref_u /\ exists r, from_urdf fuel g (Some (ref_doc ref_u)) p = Ok r /\ to_urdf W r = UB /\ to_yaml euler r = UB.
Proof. exact no_bounds. Qed.
Print Assumptions C76_no_bounds_refuted.
Example C76_refuted_case : plain exdoc_p /\ exact_text exw /\ euler_ok (w_euler exw) /\ euler_ok eul /\ ends_with "j" (pp_suffix exdoc_p) = false.
Proof. destruct exw_ok as (E1 & E2). split; [exact exdoc_plain|]. split; [exact E1|]. split; [exact E2|]. split; [exact eul_ok|reflexivity]. Qed.
