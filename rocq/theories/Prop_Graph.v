(** C42, C44, C45, C46, C51: graphs of bodies and the multibodies made from them. *)
From Coq Require Import Reals String ZArith Bool Arith List Lia.
From Verif Require Import Res SMap Vec Sva Mat JointM MultiBodyM KinM GraphM Spec SpecDyn SpecCoM SpecGraph SpecGraphOp
  Ex GraphP GraphTreeP GraphUseP GraphTopP GraphPoseP GraphHistP GraphExP.
Import ListNotations.
Open Scope R_scope.
Local Open Scope nat_scope.

(** C42: after any history, names are unique, the lookups return the element of that name (and
    throw out_of_range for the other names), and a second element of the same name is refused
    with domain_error and leaves the graph as it was. *)
Theorem C42_unique_names : forall fuel os P k s, run_ops fuel os prog0 = Some P -> graph_st P k = Some s ->
  NoDup (body_names s) /\ NoDup (joint_names s) /\
  length (gNodes (snd s)) = length (body_names s) /\ length (gJoints (snd s)) = length (joint_names s) /\
  (forall n, In n (body_names s) -> exists nd, nodeByName n s = Ok nd /\ bname (nBody nd) = n) /\
  (forall n, ~ In n (body_names s) -> nodeByName n s = Throw OutOfRange) /\
  (forall n, In n (joint_names s) -> exists j, jointByName n s = Ok j /\ jname j = n) /\
  (forall n, ~ In n (joint_names s) -> jointByName n s = Throw OutOfRange) /\
  (forall B, In (bname B) (body_names s) <-> addBody B s = GExc DomainError s) /\
  (forall J, In (jname J) (joint_names s) <-> addJoint J s = GExc DomainError s).
Proof. exact graph_names. Qed.
Print Assumptions C42_unique_names.
Example C42_applies : exists P s, run_ops 5 exg_ops prog0 = Some P /\ graph_st P 0 = Some s /\ body_names s = ["base"; "arm"; "hand"; "head"]%string.
Proof. exists exg_P, exg. split; [exact exg_run|]. split; [exact exg_st|reflexivity]. Qed.

(** C44: makeMultiBody on a graph without cycles gives a multibody laid out from the graph
    (SpecGraph.mb_of_graph): body 0 is the root, parents come first, joint i is the link between
    parent(i) and body i, each body connected to the root appears once. *)
Theorem C44_tree : forall s root r t axis X0 Xb fuel, graph_ok s -> cycle_free (fst s) (snd s) ->
  mfind (gBody (snd s)) root = Some r -> length (gNodes (snd s)) <= fuel ->
  exists mb ord base, makeMultiBody fuel root t axis X0 Xb s = Ok mb /\
     mb_of_graph s r (mkJ t axis true (gRoot (snd s))) X0 Xb ord base mb /\
     (link_joints joint_ok s -> wf_mb mb /\ names_ok mb).
Proof. exact graph_tree. Qed.
Print Assumptions C44_tree.
Example C44_applies : graph_ok exg /\ cycle_free (fst exg) (snd exg) /\ link_joints joint_unit exg /\
  mfind (gBody (snd exg)) "hand" = Some 2 /\ length (gNodes (snd exg)) = 4.
Proof. split; [apply exg_gok|]. split; [apply exg_gok|]. split; [exact exg_joints|]. split; reflexivity. Qed.

(** C45: makeMultiBody returns on graphs without cycles, with a recursion no deeper than the
    number of bodies; when the root reaches a cycle of three bodies or more the recursion
    exceeds every depth. *)
Theorem C45_terminates : forall s root r t axis X0 Xb fuel, graph_ok s -> cycle_free (fst s) (snd s) ->
  mfind (gBody (snd s)) root = Some r -> length (gNodes (snd s)) <= fuel ->
  exists mb, makeMultiBody fuel root t axis X0 Xb s = Ok mb.
Proof. exact graph_returns. Qed.
Print Assumptions C45_terminates.
Theorem C45_cycle_diverges : forall s root r t axis X0 Xb c, graph_ok s ->
  mfind (gBody (snd s)) root = Some r -> cycle (adj (fst s)) c -> conn (fst s) r (hd 0 c) ->
  forall fuel, makeMultiBody fuel root t axis X0 Xb s = Diverge.
Proof. exact graph_diverges. Qed.
Print Assumptions C45_cycle_diverges.
Example C45_applies : graph_ok exr4 /\ cycle (adj (fst exr4)) [0; 1; 2] /\ conn (fst exr4) 0 (hd 0 [0; 1; 2]) /\ mfind (gBody (snd exr4)) "A" = Some 0.
Proof. split; [exact exr4_ok|]. split; [exact exr4_cycle|]. split; [apply Relation_Operators.rt_refl|reflexivity]. Qed.
(** C45 does not hold of two bodies linked by two joints, also a cycle: makeMultiBody returns a
    multibody in which the second body appears twice. *)
Theorem C45_double_link_refuted : exists s r b e1 e2, graph_ok s /\ mfind (gBody (snd s)) "A" = Some r /\
  In e1 (arcs_at (fst s) r) /\ In e2 (arcs_at (fst s) r) /\ aNext e1 = b /\ aNext e2 = b /\ r <> b /\ ajn e1 <> ajn e2 /\
  exists mb, makeMultiBody 2 "A" Fixed unitZ ptid ptid s = Ok mb /\ map bname (mb_bodies mb) = ["A"; "B"; "B"]%string.
Proof. exact double_link. Qed.
Print Assumptions C45_double_link_refuted.

(** C46: the same graph, two roots, the same joint positions: the relative pose of any two
    bodies is the same. *)
Theorem C46_root_independent : forall s root1 root2 t1 t2 ax1 ax2 X1 X2 Xb1 Xb2 fuel mb1 mb2 tm1 tm2 m1 m2 m1' m2' qn a b A1 B1 A2 B2,
  graph_ok s -> cycle_free (fst s) (snd s) -> graph_rigid s -> link_joints joint_unit s -> length (gNodes (snd s)) <= fuel ->
  vdot ax1 ax1 = 1%R -> vdot ax2 ax2 = 1%R -> SO3 (rotE X1) -> SO3 (rotE X2) -> SO3 (rotE Xb1) -> SO3 (rotE Xb2) ->
  makeMultiBody fuel root1 t1 ax1 X1 Xb1 s = Ok mb1 -> makeMultiBody fuel root2 t2 ax2 X2 Xb2 s = Ok mb2 ->
  bodiesBaseTransform fuel root1 Xb1 s = Ok tm1 -> bodiesBaseTransform fuel root2 Xb2 s = Ok tm2 ->
  mbc_ok mb1 m1 -> mbc_ok mb2 m2 -> config_ok mb1 m1 -> config_ok mb2 m2 -> joint_pos mb1 m1 qn -> joint_pos mb2 m2 qn ->
  forwardKinematics mb1 m1 = Ok m1' -> forwardKinematics mb2 m2 = Ok m2' ->
  body_pose mb1 m1' tm1 a A1 -> body_pose mb1 m1' tm1 b B1 -> body_pose mb2 m2' tm2 a A2 -> body_pose mb2 m2' tm2 b B2 ->
  ptmul B1 (ptinv A1) = ptmul B2 (ptinv A2).
Proof. exact relative_poses. Qed.
Print Assumptions C46_root_independent.
Example C46_applies : exists mb1 mb2 tm1 tm2 m1 m2 m1' m2' A1 B1 A2 B2,
  makeMultiBody 5 "base" Fixed unitZ ptid ptid exg = Ok mb1 /\ makeMultiBody 5 "hand" Rev unitX ptid (pttr (mkV3 1 2 3)) exg = Ok mb2 /\
  bodiesBaseTransform 5 "base" ptid exg = Ok tm1 /\ bodiesBaseTransform 5 "hand" (pttr (mkV3 1 2 3)) exg = Ok tm2 /\
  mbc_ok mb1 m1 /\ mbc_ok mb2 m2 /\ config_ok mb1 m1 /\ config_ok mb2 m2 /\ joint_pos mb1 m1 exg_q /\ joint_pos mb2 m2 exg_q /\
  forwardKinematics mb1 m1 = Ok m1' /\ forwardKinematics mb2 m2 = Ok m2' /\
  body_pose mb1 m1' tm1 "arm" A1 /\ body_pose mb1 m1' tm1 "head" B1 /\ body_pose mb2 m2' tm2 "arm" A2 /\ body_pose mb2 m2' tm2 "head" B2 /\
  ptmul B1 (ptinv A1) = ptmul B2 (ptinv A2).
Proof. exact exg_relative. Qed.

(** C51: predecessorJoint gives the joint through which makeMultiBody reaches the body,
    successorJoints the joints of the bodies whose parent it is, in the order of the arcs (mg_kids);
    bodiesBaseTransform the inverse of the frame used for the body. The other names are absent. *)
Theorem C51_maps : forall s root r t axis X0 Xb fuel, graph_ok s -> cycle_free (fst s) (snd s) ->
  mfind (gBody (snd s)) root = Some r -> length (gNodes (snd s)) <= fuel ->
  exists mb ord base tm pm sm, makeMultiBody fuel root t axis X0 Xb s = Ok mb /\
     mb_of_graph s r (mkJ t axis true (gRoot (snd s))) X0 Xb ord base mb /\
     bodiesBaseTransform fuel root Xb s = Ok tm /\ predecessorJoint fuel root s = Ok pm /\ successorJoints fuel root s = Ok sm /\
     (forall i, i < length ord ->
        mfind tm (bname (nth i (mb_bodies mb) bd)) = Some (ptinv (nth i base ptid)) /\
        mfind pm (bname (nth i (mb_bodies mb) bd)) = Some (jname (nth i (mb_joints mb) jd)) /\
        mfind sm (bname (nth i (mb_bodies mb) bd)) =
          Some (map (fun k => jname (nth k (mb_joints mb) jd)) (filter (fun k => (nth k (mb_parent mb) 0 =? Z.of_nat i)%Z) (seq 0 (length ord))))) /\
     (forall n, ~ In n (map bname (mb_bodies mb)) -> mfind tm n = None /\ mfind pm n = None /\ mfind sm n = None).
Proof. exact graph_maps. Qed.
Print Assumptions C51_maps.
Example C51_applies : exists pm sm, predecessorJoint 5 "hand" exg = Ok pm /\ successorJoints 5 "hand" exg = Ok sm /\
  mfind pm "base" = Some "shoulder"%string /\ mfind pm "hand" = Some "Root"%string /\ mfind sm "base" = Some ["neck"]%string /\ mfind sm "arm" = Some ["shoulder"]%string /\ mfind sm "head" = Some [].
Proof. exact exg_maps. Qed.
