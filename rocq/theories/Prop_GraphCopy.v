(** C49 and C50: copies of graphs and fixJoints. What a caller can see of a graph is [same_view]
    (SpecGraphOp). *)
From Coq Require Import Reals String ZArith Bool Arith List Lia.
From Verif Require Import Res SMap Vec Sva Mat JointM MultiBodyM KinM GraphM Spec SpecGraph SpecGraphOp
  Ex GraphApartP GraphFixP GraphExP GraphOpExP GraphCopyExP.
Import ListNotations.
Open Scope R_scope.
Local Open Scope nat_scope.

(** C49: calls on other graphs, copies included, change nothing that can be seen of a graph. *)
Theorem C49_independent : forall fuel fuel' os os' P P' k s, run_ops fuel os prog0 = Some P -> graph_st P k = Some s ->
  (forall o, In o os' -> target o <> Some k) -> run_ops fuel' os' P = Some P' ->
  exists s', graph_st P' k = Some s' /\ same_view s s' /\ (gok s -> gok s').
Proof. exact untouched. Qed.
Print Assumptions C49_independent.
(** The copy is cleared, the original is not touched, and the other way round. *)
Example C49_independent_applies : run_ops 5 (exg_ops ++ [OpCopy 0]) prog0 = Some exc_P /\ graph_st exc_P 1 = Some exc_s /\
  run_ops 5 [OpRemoveJoint 0 "head" "shoulder"; OpClear 0]%string exc_P = Some exc_P' /\
  body_names exc_s = ["base"; "arm"; "hand"; "head"]%string /\ exists s0, graph_st exc_P' 0 = Some s0 /\ body_names s0 = [].
Proof. split; [exact exc_run|]. split; [exact exc_st|]. split; [exact exc_run'|]. exact exc_diff. Qed.
(** The copy of a graph looks like the graph, when the links of its bodies lead to its bodies;
    after a fixJoints with fixAllJoints everything but jointByName is the same (see C50). *)
Theorem C49_copy_partial : forall fuel fuel' os P k s, run_ops fuel os prog0 = Some P -> graph_st P k = Some s -> links_inside s ->
  exists P' s', step fuel' (OpCopy k) P = PRet P' /\ graph_st P' (length (pGraphs P)) = Some s' /\ same_multibodies s s' /\
    (no_fix_all os -> same_view s s') /\ (gok s -> gok s').
Proof. exact copy_same. Qed.
Print Assumptions C49_copy_partial.
Theorem C49_assign_partial : forall fuel fuel' os P k l s t, run_ops fuel os prog0 = Some P -> k <> l ->
  graph_st P k = Some t -> graph_st P l = Some s -> links_inside s ->
  exists P' s', step fuel' (OpAssign k l) P = PRet P' /\ graph_st P' k = Some s' /\ same_multibodies s s' /\
    (no_fix_all os -> same_view s s') /\ (gok s -> gok s').
Proof. exact assign_same. Qed.
Print Assumptions C49_assign_partial.
Example C49_copy_applies : run_ops 5 exg_ops prog0 = Some exg_P /\ graph_st exg_P 0 = Some exg /\ links_inside exg /\ no_fix_all exg_ops /\ gok exg.
Proof.
  split; [exact exg_run|]. split; [exact exg_st|]. split; [exact (proj2 (gok_inside _ exg_gok))|]. split; [|exact exg_gok].
  intros k names H. cbn in H. repeat (destruct H as [H|H]; [discriminate|]). exact H.
Qed.
(** Self assignment. *)
Theorem C49_self : forall fuel P k s, graph_st P k = Some s -> step fuel (OpAssign k k) P = PRet P.
Proof. exact assign_self. Qed.
Print Assumptions C49_self.
(** C49 does not hold for the graph left by a removeJoint that threw (C43): makeMultiBody still
    works on it but its copy holds a null pointer. *)
Theorem C49_dangling_refuted : exists os P s, run_ops 5 os prog0 = Some P /\ graph_st P 0 = Some s /\
  (exists mb, makeMultiBody 5 "A" Fixed unitZ ptid ptid s = Ok mb) /\ step 5 (OpCopy 0) P = PUB.
Proof. exact exu_copy. Qed.
Print Assumptions C49_dangling_refuted.

(** C50: with a list of names, exactly the links with these names are fixed in every multibody;
    jointByName is unchanged. *)
Theorem C50_list_partial : forall (s : GSt) names, names_ok_g s -> links_inside s -> (forall n, In n names -> In n (joint_names s)) ->
  exists s', fixJoints (snd s) names false (fst s) = Ok s' /\ body_names s' = body_names s /\ joint_names s' = joint_names s /\
    (forall fuel root t axis X0 Xb mb, makeMultiBody fuel root t axis X0 Xb s = Ok mb ->
       exists mb', makeMultiBody fuel root t axis X0 Xb s' = Ok mb' /\ fixed_mb (fixed_in names) mb mb') /\
    (forall n, jointByName n s' = jointByName n s) /\ (gok s -> gok s').
Proof. exact fix_list. Qed.
Print Assumptions C50_list_partial.
Theorem C50_unknown : forall (s : GSt) names, names_ok_g s -> links_inside s -> (exists n, In n names /\ ~ In n (joint_names s)) ->
  fixJoints (snd s) names false (fst s) = Throw OutOfRange.
Proof. exact fix_unknown. Qed.
Print Assumptions C50_unknown.
(** With fixAllJoints and a list that is not empty, all the joints of every multibody are fixed. *)
Theorem C50_all_partial : forall (s : GSt) names, names_ok_g s -> links_inside s -> names <> [] ->
  exists s', fixJoints (snd s) names true (fst s) = Ok s' /\ body_names s' = body_names s /\ joint_names s' = joint_names s /\
    (forall fuel root t axis X0 Xb mb, makeMultiBody fuel root t axis X0 Xb s = Ok mb ->
       exists mb', makeMultiBody fuel root t axis X0 Xb s' = Ok mb' /\ fixed_mb (fun j j' => fixed_in [jname j] j j') mb mb') /\
    (forall p, In p (gJoints (snd s')) -> jtyp (joint_at (fst s') p) = Fixed).
Proof. exact fix_all. Qed.
Print Assumptions C50_all_partial.
Example C50_applies : names_ok_g exg /\ links_inside exg /\ In "neck"%string (joint_names exg) /\
  exists mb j, makeMultiBody 5 "base" Fixed unitZ ptid ptid exf_list = Ok mb /\ map jtyp (mb_joints mb) = [Fixed; Rev; Prism; Fixed] /\
    jointByName "neck" exf_list = Ok j /\ jtyp j = Spherical.
Proof. destruct (gok_inside _ exg_gok) as (A & B). split; [exact A|]. split; [exact B|]. split; [cbn; auto|]. exact exf_list_made. Qed.
(** C50 does not hold in full: with fixAllJoints and an empty list nothing is fixed in the
    multibodies, ... *)
Theorem C50_all_empty_refuted : exists s s' j mb, gok s /\ fixJoints (snd s) [] true (fst s) = Ok s' /\
  makeMultiBody 5 "base" Fixed unitZ ptid ptid s' = Ok mb /\ In j (tl (mb_joints mb)) /\ jtyp j <> Fixed.
Proof. exact fix_all_refuted. Qed.
Print Assumptions C50_all_empty_refuted.
(** ... jointByName still returns the joint that is not fixed, ... *)
Theorem C50_lookup_refuted : exists s s' j, gok s /\ fixJoints (snd s) ["neck"]%string false (fst s) = Ok s' /\
  jointByName "neck" s' = Ok j /\ jtyp j <> Fixed.
Proof. exact fix_lookup_refuted. Qed.
Print Assumptions C50_lookup_refuted.
(** ... and after fixAllJoints removeJoint on the result is undefined behaviour. *)
Theorem C50_further_refuted : exists s s', gok s /\ fixJoints (snd s) ["neck"]%string true (fst s) = Ok s' /\
  removeJoint 5 "head" "shoulder" s' = GUB.
Proof. exact fix_all_then_refuted. Qed.
Print Assumptions C50_further_refuted.
