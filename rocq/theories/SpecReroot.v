(** Specification for C94: the same document read with another base link. *)
From Coq Require Import Reals String ZArith List Permutation.
From Verif Require Import Res SMap Vec Sva JointM MultiBodyM KinM GraphM ParserM Spec SpecGraph.
Import ListNotations.
Open Scope nat_scope.

(** The pose of the body of that name. *)
Definition world_pose (mb : MultiBody) (m : MBC) (n : string) (X : PT) : Prop :=
  exists i, sBodyIndexByName mb n = Ok (Z.of_nat i) /\ nth_error (bodyPosW m) i = Some X.
(** [r] is [r0] with the base link [b]: the same name, limits, graph, bodies and joints, the body [b]
    first, and for the same joint positions the same relative poses of any two bodies. The bodies of
    [r] between [b] and the former base have frames of their own, given by bodiesBaseTransform. *)
Record rerooted (fuel : nat) (b : string) (r0 r : PResult) : Prop := {
  rr_name : pr_name r = pr_name r0;
  rr_limits : pr_limits r = pr_limits r0;
  rr_graph : pr_mbg r = pr_mbg r0;
  rr_wf : wf_mb (pr_mb r);
  rr_bodies : Permutation (map bname (mb_bodies (pr_mb r))) (map bname (mb_bodies (pr_mb r0)));
  rr_first : option_map bname (hd_error (mb_bodies (pr_mb r))) = Some b;
  rr_joints : Permutation (tl (map jname (mb_joints (pr_mb r)))) (tl (map jname (mb_joints (pr_mb r0))));
  rr_root : hd_error (mb_joints (pr_mb r)) = hd_error (mb_joints (pr_mb r0));
  rr_poses : exists tm, bodiesBaseTransform fuel b ptid (pr_mbg r) = Ok tm /\
    forall m0 m m0' m' qn a c A0 C0 A C,
      mbc_ok (pr_mb r0) m0 -> mbc_ok (pr_mb r) m -> config_ok (pr_mb r0) m0 -> config_ok (pr_mb r) m ->
      joint_pos (pr_mb r0) m0 qn -> joint_pos (pr_mb r) m qn ->
      forwardKinematics (pr_mb r0) m0 = Ok m0' -> forwardKinematics (pr_mb r) m = Ok m' ->
      In a (map bname (mb_bodies (pr_mb r0))) -> In c (map bname (mb_bodies (pr_mb r0))) ->
      world_pose (pr_mb r0) m0' a A0 -> world_pose (pr_mb r0) m0' c C0 -> body_pose (pr_mb r) m' tm a A -> body_pose (pr_mb r) m' tm c C ->
      ptmul C (ptinv A) = ptmul C0 (ptinv A0) }.
