(** Documents read with another base link. *)
From Coq Require Import Reals String ZArith Bool Arith List Lia.
From Verif Require Import Res SMap Vec Sva JointM MultiBodyM KinM GraphM ParserM YamlM Spec SpecGraph SpecParser SpecDoc SpecElem SpecReroot DocExP RerootP RerootExP.
Import ListNotations.
Open Scope nat_scope.

(** C94: a document that describes a tree is read with any of its links as the base, and the robot is
    the one read with the first link as the base, seen from another root. *)
Theorem C94_urdf_base_link : forall fuel g p rb name b, keeps_all (from_base p EmptyString) -> ur_name rb = Some name ->
  (forall l, In l (ur_links rb) -> ulink_ok l) -> (forall u, In u (ur_joints rb) -> ujoint_ok u /\ ~ urdf_axis (uj_axis u) v0) ->
  tree_names (map ulink_name (ur_links rb)) (map ujoint_names (ur_joints rb)) -> List.length (ur_links rb) <= fuel ->
  In b (map ulink_name (ur_links rb)) -> b <> EmptyString ->
  exists r0 r, from_urdf fuel g (Some rb) (from_base p EmptyString) = Ok r0 /\ from_urdf fuel g (Some rb) (from_base p b) = Ok r /\ rerooted fuel b r0 r.
Proof. exact urdf_reroot. Qed.
Print Assumptions C94_urdf_base_link.
Example C94_urdf_case : keeps_all (from_base exdoc_p EmptyString) /\ ur_name exdoc_u = Some "robot"%string /\
  (forall l, In l (ur_links exdoc_u) -> ulink_ok l) /\ (forall u, In u (ur_joints exdoc_u) -> ujoint_ok u /\ ~ urdf_axis (uj_axis u) v0) /\
  tree_names (map ulink_name (ur_links exdoc_u)) (map ujoint_names (ur_joints exdoc_u)) /\ In "hand"%string (map ulink_name (ur_links exdoc_u)).
Proof. exact exdoc_u_base. Qed.

Theorem C94_yaml_base_link : forall fuel g p rb name deg ls js b, keeps_all (from_base p EmptyString) ->
  yr_name rb = Some name -> yr_deg rb = Some deg -> yr_links rb = Some ls -> yr_joints rb = Some js ->
  (forall l, In l ls -> SpecDoc.ylink_ok l) -> (forall i j, nth_error js i = Some j -> yjoint_ok p (fst (yjoint_names (S i) j)) j /\ forall v, SpecElem.yaml_axis (yj_axis j) v -> vdot v v = 1%R) ->
  tree_names (numbered ylink_name 1 ls) (numbered yjoint_names 1 js) -> hd EmptyString (numbered ylink_name 1 ls) <> EmptyString -> List.length ls <= fuel ->
  In b (numbered ylink_name 1 ls) -> b <> EmptyString ->
  exists r0 r, from_yaml fuel g (Some rb) (from_base p EmptyString) = Ok r0 /\ from_yaml fuel g (Some rb) (from_base p b) = Ok r /\ rerooted fuel b r0 r.
Proof. exact yaml_reroot. Qed.
Print Assumptions C94_yaml_base_link.
Example C94_yaml_case : yr_links exdoc_y = Some exdoc_ls /\ yr_joints exdoc_y = Some exdoc_js /\ (forall l, In l exdoc_ls -> SpecDoc.ylink_ok l) /\
  (forall i j, nth_error exdoc_js i = Some j -> yjoint_ok exdoc_p (fst (yjoint_names (S i) j)) j /\ forall v, SpecElem.yaml_axis (yj_axis j) v -> vdot v v = 1%R) /\
  tree_names (numbered ylink_name 1 exdoc_ls) (numbered yjoint_names 1 exdoc_js) /\ hd EmptyString (numbered ylink_name 1 exdoc_ls) <> EmptyString /\
  In "link2"%string (numbered ylink_name 1 exdoc_ls).
Proof. exact exdoc_y_base. Qed.

(** C94: a base link the document does not have is rejected. *)
Theorem C94_urdf_unknown_base : forall fuel g p rb name b, keeps_all (from_base p EmptyString) -> ur_name rb = Some name ->
  (forall l, In l (ur_links rb) -> ulink_ok l) -> (forall u, In u (ur_joints rb) -> ujoint_ok u) ->
  tree_names (map ulink_name (ur_links rb)) (map ujoint_names (ur_joints rb)) -> List.length (ur_links rb) <= fuel ->
  ~ In b (map ulink_name (ur_links rb)) -> b <> EmptyString -> from_urdf fuel g (Some rb) (from_base p b) = Throw OutOfRange.
Proof. exact urdf_unknown. Qed.
Print Assumptions C94_urdf_unknown_base.
Theorem C94_yaml_unknown_base : forall fuel g p rb name deg ls js b, keeps_all (from_base p EmptyString) ->
  yr_name rb = Some name -> yr_deg rb = Some deg -> yr_links rb = Some ls -> yr_joints rb = Some js ->
  (forall l, In l ls -> SpecDoc.ylink_ok l) -> (forall i j, nth_error js i = Some j -> yjoint_ok p (fst (yjoint_names (S i) j)) j) ->
  tree_names (numbered ylink_name 1 ls) (numbered yjoint_names 1 js) -> hd EmptyString (numbered ylink_name 1 ls) <> EmptyString -> List.length ls <= fuel ->
  ~ In b (numbered ylink_name 1 ls) -> b <> EmptyString -> from_yaml fuel g (Some rb) (from_base p b) = Throw OutOfRange.
Proof. exact yaml_unknown. Qed.
Print Assumptions C94_yaml_unknown_base.
Example C94_unknown_case : ~ In "foot"%string (map ulink_name (ur_links exdoc_u)) /\ ~ In "foot"%string (numbered ylink_name 1 exdoc_ls).
Proof. split; (intros [H|[H|[H|[]]]]; discriminate H). Qed.
