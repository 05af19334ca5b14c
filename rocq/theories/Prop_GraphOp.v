(** C43, C47, C48: what the operations of a graph leave behind. [gok] is a consistent graph
    without cycles (SpecGraphOp). *)
From Coq Require Import Reals String ZArith Bool Arith List Lia.
From Verif Require Import Res SMap Vec Sva Mat JointM MultiBodyM KinM GraphM Spec SpecDyn SpecCoM SpecGraph SpecGraphOp
  Ex GraphExP GraphOpExP.
Import ListNotations.
Open Scope R_scope.
Local Open Scope nat_scope.

(** C43: addBody, addJoint and linkBodies that throw leave the graph as it was, in any state. *)
Theorem C43_build : forall (s : GSt) x s',
  (forall B, addBody B s = GExc x s' -> s' = s) /\ (forall J, addJoint J s = GExc x s' -> s' = s) /\
  (forall b1 t1 b2 t2 jn d, linkBodies b1 t1 b2 t2 jn d s = GExc x s' -> s' = s).
Proof. exact build_exc. Qed.
Print Assumptions C43_build.
Theorem C43_link_unknown : forall (s : GSt) b1 t1 b2 t2 jn d,
  mfind (gBody (snd s)) b1 = None \/ mfind (gBody (snd s)) b2 = None \/ mfind (gJoint (snd s)) jn = None ->
  linkBodies b1 t1 b2 t2 jn d s = GExc OutOfRange s.
Proof. exact link_unknown. Qed.
Print Assumptions C43_link_unknown.
Example C43_build_applies : addBody (exg_body 1 "arm") exg = GExc DomainError exg /\ linkBodies "arm" ptid "leg" ptid "neck" true exg = GExc OutOfRange exg.
Proof. split; [nf; reflexivity|]. apply link_unknown. right; left; reflexivity. Qed.
(** removeJoint and removeJoints throw only when the root is unknown, mergeSubBodies when the
    root is unknown or a position is missing or of the wrong size; the graph is as it was. *)
Theorem C43_remove_merge_partial : forall (s : GSt) root jn js pos fuel x s', gok s -> link_joints joint_ok s ->
  (forall r, mfind (gBody (snd s)) root = Some r -> root_name_free s r) -> length (gNodes (snd s)) <= fuel ->
  (removeJoint fuel root jn s = GExc x s' -> s' = s /\ ~ In root (body_names s)) /\
  (removeJoints fuel root js s = GExc x s' -> s' = s /\ ~ In root (body_names s)) /\
  (mergeSubBodies fuel root jn pos s = GExc x s' -> s' = s /\
     (In root (body_names s) -> forall r, mfind (gBody (snd s)) root = Some r -> ~ merge_pos_ok s r jn pos)).
Proof. exact remove_exc. Qed.
Print Assumptions C43_remove_merge_partial.
Example C43_remove_merge_applies : gok exg /\ link_joints joint_ok exg /\ (forall r, root_name_free exg r) /\
  removeJoint 5 "leg" "neck" exg = GExc OutOfRange exg /\
  mergeSubBodies 5 "head" "shoulder" [("shoulder"%string, [1%R])] exg = GExc OutOfRange exg /\
  mergeSubBodies 5 "head" "shoulder" [("slide", [1%R]); ("shoulder", [])]%string exg = GExc DomainError exg.
Proof. split; [exact exg_gok|]. split; [exact exg_jok|]. split; [exact exg_free|]. split; [nf; reflexivity|]. split; nf; reflexivity. Qed.
(** C43 does not hold when one joint was given to two links, which linkBodies accepts:
    removeJoint then throws after it has removed part of the graph. *)
Theorem C43_joint_used_twice_refuted : exists os P s s', run_ops 5 os prog0 = Some P /\ graph_st P 0 = Some s /\
  removeJoint 5 "A" "j1" s = GExc OutOfRange s' /\ In "j1"%string (joint_names s) /\ In "C"%string (body_names s) /\
  ~ In "j1"%string (joint_names s') /\ ~ In "C"%string (body_names s').
Proof. exact exu_throws. Qed.
Print Assumptions C43_joint_used_twice_refuted.

(** C47: the mass of the multibody is the sum of the masses of the bodies connected to the root
    ([l] lists them), ... *)
Theorem C47_total_mass : forall s root r t axis X0 Xb fuel l, gok s -> mfind (gBody (snd s)) root = Some r -> length (gNodes (snd s)) <= fuel ->
  NoDup l -> (forall b, In b l <-> conn (fst s) r b) ->
  exists mb, makeMultiBody fuel root t axis X0 Xb s = Ok mb /\ total_mass_of mb = lsum (fun b => imass (binertia (body_at (fst s) b))) l.
Proof. exact total_mass_graph. Qed.
Print Assumptions C47_total_mass.
(** ... so that it does not depend on the root, ... *)
Theorem C47_any_root : forall s root1 root2 r1 r2 t1 t2 ax1 ax2 X1 X2 Xb1 Xb2 fuel, gok s ->
  mfind (gBody (snd s)) root1 = Some r1 -> mfind (gBody (snd s)) root2 = Some r2 -> conn (fst s) r1 r2 -> length (gNodes (snd s)) <= fuel ->
  exists mb1 mb2, makeMultiBody fuel root1 t1 ax1 X1 Xb1 s = Ok mb1 /\ makeMultiBody fuel root2 t2 ax2 X2 Xb2 s = Ok mb2 /\ total_mass_of mb1 = total_mass_of mb2.
Proof. exact total_mass_root. Qed.
Print Assumptions C47_any_root.
(** ... and mergeSubBodies keeps it: the bodies behind the joint are taken away and their
    inertias, placed with the given positions, added to that of the body that carries the joint. *)
Theorem C47_merge : forall s root r jn pos fuel, gok s -> link_joints joint_ok s -> mfind (gBody (snd s)) root = Some r -> root_name_free s r ->
  length (gNodes (snd s)) <= fuel -> merge_pos_ok s r jn pos ->
  exists s', mergeSubBodies fuel root jn pos s = GRet tt s' /\ gok s' /\ cut r jn s s' /\
    (forall qn P, placement s r qn P -> (forall a, conn (fst s) r a -> SO3 (rotE (P a))) -> graph_rigid s ->
       (forall n, joint_behind (fst s) r jn n -> mfind pos n = Some (qn n)) -> merged s s' r jn P) /\
    (forall t axis X0 Xb, exists mb mb', makeMultiBody fuel root t axis X0 Xb s = Ok mb /\ makeMultiBody fuel root t axis X0 Xb s' = Ok mb' /\
       total_mass_of mb' = total_mass_of mb).
Proof. exact merge_ok. Qed.
Print Assumptions C47_merge.
Example C47_applies : gok exg /\ link_joints joint_ok exg /\ mfind (gBody (snd exg)) "head" = Some 3 /\ mfind (gBody (snd exg)) "hand" = Some 2 /\
  root_name_free exg 3 /\ merge_pos_ok exg 3 "shoulder" exg_pos /\
  exists P, placement exg 3 exg_q P /\ (forall a, conn (fst exg) 3 a -> SO3 (rotE (P a))) /\ graph_rigid exg /\
    (forall n, joint_behind (fst exg) 3 "shoulder" n -> mfind exg_pos n = Some (exg_q n)).
Proof.
  split; [exact exg_gok|]. split; [exact exg_jok|]. split; [reflexivity|]. split; [reflexivity|]. split; [apply exg_free|].
  split; [exact exg_pos_ok|]. exact exg_place.
Qed.

(** C48: removeJoint takes away what lies behind the joint, seen from the root, and nothing
    else; the lookup tables follow (gok). *)
Theorem C48_remove : forall s root r jn fuel, gok s -> mfind (gBody (snd s)) root = Some r -> root_name_free s r -> length (gNodes (snd s)) <= fuel ->
  exists s', removeJoint fuel root jn s = GRet tt s' /\ cut r jn s s' /\ bodies_same s s' /\ gok s' /\
    ((exists a e, conn (fst s) r a /\ In e (arcs_at (fst s) a) /\ ajn e = jn) -> ~ In jn (joint_names s')) /\
    (~ In jn (joint_names s) -> s' = s).
Proof. exact remove_ok. Qed.
Print Assumptions C48_remove.
Theorem C48_removes : forall s root r js fuel, gok s -> mfind (gBody (snd s)) root = Some r -> root_name_free s r -> length (gNodes (snd s)) <= fuel ->
  exists s', removeJoints fuel root js s = GRet tt s' /\ cuts r js s s' /\ gok s'.
Proof. exact removes_ok. Qed.
Print Assumptions C48_removes.
Example C48_applies : gok exg /\ mfind (gBody (snd exg)) "head" = Some 3 /\ root_name_free exg 3 /\ length (gNodes (snd exg)) = 4 /\
  removeJoint 5 "head" "shoulder" exg = GRet tt exg_rm /\ body_names exg_rm = ["base"; "head"]%string /\ joint_names exg_rm = ["neck"]%string.
Proof. split; [exact exg_gok|]. split; [reflexivity|]. split; [apply exg_free|]. split; [reflexivity|]. exact exg_removed. Qed.
(** C48 does not hold of a joint that no link reachable from the root uses: it stays. *)
Theorem C48_unlinked_refuted : exists s, gok s /\ In "A"%string (body_names s) /\
  exists s', removeJoint 5 "A" "j1" s = GRet tt s' /\ In "j1"%string (joint_names s) /\ In "j1"%string (joint_names s').
Proof. exists exr1. split; [exact exr1_gok|]. split; [cbn; auto|exact exr1_unlinked]. Qed.
Print Assumptions C48_unlinked_refuted.
(** C48 does not hold of a link of the root named like the root joint: it is never found. *)
Theorem C48_root_name_refuted : exists s r b, gok s /\ mfind (gBody (snd s)) "A" = Some r /\ removeJoint 5 "A" "Root" s = GRet tt s /\
  behind (fst s) r "Root" b /\ In b (gNodes (snd s)).
Proof. exists exn2, 0, 1. split; [exact exn2_gok|]. split; [reflexivity|]. exact exn2_kept. Qed.
Print Assumptions C48_root_name_refuted.
