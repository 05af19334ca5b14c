(** Documents read with links that are filtered or left out. *)
From Coq Require Import Reals String ZArith Bool Arith List Lia.
From Verif Require Import Res SMap Vec Sva JointM MultiBodyM KinM GraphM ParserM YamlM Spec SpecGraph SpecParser SpecDoc SpecElem SpecFilter DocYamlP DocExP FilterP PruneP FilterExP.
Import ListNotations.
Open Scope nat_scope.

(** C93: the parameters that filter links read the document that remains when the links are left out
    with their joints, or when their joints are fixed. *)
Theorem C93_urdf_filter : forall fuel g p rb, urdf_named rb ->
  from_urdf fuel g (Some rb) p = from_urdf fuel g (Some (urdf_edited p rb)) (no_filter p).
Proof. exact urdf_filter. Qed.
Print Assumptions C93_urdf_filter.
Theorem C93_yaml_filter : forall fuel g p rb, yaml_named rb ->
  from_yaml fuel g (Some rb) p = from_yaml fuel g (Some (yaml_edited p rb)) (no_filter p).
Proof. exact yaml_filter. Qed.
Print Assumptions C93_yaml_filter.

(** C93: when the document describes a tree whose first link is kept, it is read, and the robot is the
    part of the tree that the links that are kept still reach. *)
Theorem C93_urdf_pruned : forall fuel g p rb name, pp_base p = EmptyString -> ur_name rb = Some name ->
  (forall l, In l (ur_links rb) -> ulink_ok l) -> (forall u, In u (ur_joints rb) -> ujoint_ok u) ->
  tree_names (map ulink_name (ur_links rb)) (map ujoint_names (ur_joints rb)) ->
  (forall l, hd_error (ur_links rb) = Some l -> u_out p l = false) -> List.length (ur_links rb) <= fuel ->
  exists r bodies links, from_urdf fuel g (Some rb) p = Ok r /\ pr_name r = name /\
    matched (fun _ => urdf_link_says p) 0 (ur_links (urdf_edited p rb)) bodies /\
    matched (fun _ => urdf_joint_says p (pr_limits r)) 0 (ur_joints (urdf_edited p rb)) links /\
    reached_part bodies links (mkJ (if pp_fixed p then Fixed else Free) unitZ true "Root") (pr_mb r).
Proof. exact urdf_pruned. Qed.
Print Assumptions C93_urdf_pruned.
(** The arm is left out: the hand is no longer reached. The hand is filtered but kept: its joint is fixed. *)
Example C93_urdf_case : urdf_named exdoc_u /\ (forall l, hd_error (ur_links exdoc_u) = Some l -> u_out exf_p l = false) /\
  map ulink_name (ur_links (urdf_edited exf_p exdoc_u)) = ["base"; "hand"]%string /\ ur_joints (urdf_edited exf_p exdoc_u) = [] /\
  map uj_type (ur_joints (urdf_edited exf_k exdoc_u)) = [Some "fixed"; Some "continuous"]%string /\
  tree_names (map ulink_name (ur_links exdoc_u)) (map ujoint_names (ur_joints exdoc_u)).
Proof. exact exf_u. Qed.

Theorem C93_yaml_pruned : forall fuel g p rb name deg ls js,
  pp_base p = EmptyString -> yr_name rb = Some name -> yr_deg rb = Some deg -> yr_links rb = Some ls -> yr_joints rb = Some js ->
  yaml_named rb -> (forall l, In l ls -> SpecDoc.ylink_ok l) -> (forall j, In j js -> yjoint_ok p (fst (y_names j)) j) ->
  tree_names (map y_name ls) (map y_names js) -> (forall l, hd_error ls = Some l -> y_out p l = false /\ y_name l <> EmptyString) -> List.length ls <= fuel ->
  exists r bodies links ls' js', yr_links (yaml_edited p rb) = Some ls' /\ yr_joints (yaml_edited p rb) = Some js' /\
    from_yaml fuel g (Some rb) p = Ok r /\ pr_name r = name /\
    matched (fun _ l => yaml_link_says p deg (y_name l) l) 1 ls' bodies /\
    matched (fun _ j => yaml_joint_says p deg (pr_limits r) (y_names j) j) 1 js' links /\
    reached_part bodies links (mkJ (if pp_fixed p then Fixed else Free) unitZ true "Root") (pr_mb r).
Proof. exact yaml_pruned. Qed.
Print Assumptions C93_yaml_pruned.
Example C93_yaml_case : yaml_named exf_y /\ (forall l, hd_error exf_ls = Some l -> y_out exf_p l = false /\ y_name l <> EmptyString) /\
  (forall l, In l exf_ls -> SpecDoc.ylink_ok l) /\ (forall j, In j exf_js -> yjoint_ok exf_p (fst (y_names j)) j) /\
  tree_names (map y_name exf_ls) (map y_names exf_js) /\
  option_map (map y_name) (yr_links (yaml_edited exf_p exf_y)) = Some ["base"; "hand"]%string /\ yr_joints (yaml_edited exf_p exf_y) = Some [] /\
  option_map (map yj_type) (yr_joints (yaml_edited exf_k exf_y)) = Some [Some "fixed"; Some "revolute"]%string.
Proof. exact exf_y_case. Qed.
