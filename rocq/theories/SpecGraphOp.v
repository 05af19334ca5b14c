(** Vocabulary for what the operations that remove parts of a graph leave behind. *)
From Coq Require Import Reals String ZArith Bool Arith List.
From Verif Require Import Res SMap Vec Mat Sva JointM MultiBodyM KinM GraphM Spec SpecGraph.
Import ListNotations.
Open Scope R_scope.

(** A consistent graph without cycles. *)
Definition gok (s : GSt) : Prop := graph_ok s /\ cycle_free (fst s) (snd s).
(** A joint on a link of a body that lies behind [jn]. *)
Definition joint_behind (h : Heap) (r : nat) (jn n : string) : Prop :=
  exists a e, behind h r jn a /\ In e (arcs_at h a) /\ ajn e = n.
(** [s'] is what is left of [s] when the bodies behind the joint [jn], seen from the body [r],
    and the joints of their links are taken away: the others are kept, in the same order, with
    their links to kept bodies. The heap cells of the kept bodies and joints are the same. *)
Record cut (r : nat) (jn : string) (s s' : GSt) : Prop := {
  cut_root : gRoot (snd s') = gRoot (snd s);
  cut_bodies : exists keep,
    (forall a, In a (gNodes (snd s)) -> (keep a = true <-> ~ behind (fst s) r jn a)) /\
    gNodes (snd s') = filter keep (gNodes (snd s)) /\
    (forall a, In a (gNodes (snd s')) -> arcs_at (fst s') a = filter (fun e => keep (aNext e)) (arcs_at (fst s) a));
  cut_joints : exists keep,
    (forall p, In p (gJoints (snd s)) -> (keep p = true <-> ~ joint_behind (fst s) r jn (jname (joint_at (fst s) p)))) /\
    gJoints (snd s') = filter keep (gJoints (snd s));
  cut_joint : forall p, In p (gJoints (snd s')) -> joint_at (fst s') p = joint_at (fst s) p
}.
(** The bodies that are kept are unchanged. *)
Definition bodies_same (s s' : GSt) : Prop := forall a, In a (gNodes (snd s')) -> body_at (fst s') a = body_at (fst s) a.
(** Successive removals. *)
Inductive cuts (r : nat) : list string -> GSt -> GSt -> Prop :=
| cuts_nil s : cuts r [] s s
| cuts_cons jn js s s1 s2 : cut r jn s s1 -> bodies_same s s1 -> cuts r js s1 s2 -> cuts r (jn :: js) s s2.
(** No link of the body carries the name of the root joint. *)
Definition root_name_free (s : GSt) (r : nat) : Prop := forall e, In e (arcs_at (fst s) r) -> ajn e <> gRoot (snd s).

(** ** Merging. *)
(** Sum of spatial inertias. *)
Definition isum {A} (f : A -> RBI) (l : list A) : RBI := fold_right (fun a I => rbiadd (f a) I) rbi0 l.
(** A position of the right size is given for the joint of the link. *)
Definition pos_ok (pos : smap (list R)) (e : Arc) : Prop :=
  exists x, mfind pos (ajn e) = Some x /\ length x = jparams (aJoint e).
(** Positions are given for the joint and for all the joints behind it. *)
Definition merge_pos_ok (s : GSt) (r : nat) (jn : string) (pos : smap (list R)) : Prop :=
  forall a e, behind (fst s) r jn a -> In e (arcs_at (fst s) a) -> pos_ok pos e.
(** The bodies after a merge: the body that carries the joint has its own inertia plus those of
    the bodies behind the joint, each moved to where the placement [P] puts it; the other bodies
    that are kept are unchanged. [l] lists the bodies behind the joint. *)
Definition merged (s s' : GSt) (r : nat) (jn : string) (P : nat -> PT) : Prop :=
  forall l, NoDup l -> (forall x, In x l <-> behind (fst s) r jn x) ->
  forall b, In b (gNodes (snd s')) ->
    bname (body_at (fst s') b) = bname (body_at (fst s) b) /\
    ((exists e, In e (arcs_at (fst s) b) /\ ajn e = jn) ->
       binertia (body_at (fst s') b) =
       rbiadd (binertia (body_at (fst s) b)) (isum (fun x => pttransI (ptmul (P x) (ptinv (P b))) (binertia (body_at (fst s) x))) l)) /\
    ((forall e, In e (arcs_at (fst s) b) -> ajn e <> jn) -> body_at (fst s') b = body_at (fst s) b).

(** ** What a caller can see of a graph. *)
(** A body with its links: transform, joint and name of the body at the other end. *)
Definition node_view (n : string) (s : GSt) : res (Body * list (PT * Joint * string)) :=
  nd <- nodeByName n s ;; Ok (nBody nd, map (fun e => (aX e, aJoint e, bname (body_at (fst s) (aNext e)))) (nArcs nd)).
Record same_view (s s' : GSt) : Prop := {
  sv_root : gRoot (snd s') = gRoot (snd s);
  sv_bodies : body_names s' = body_names s;
  sv_joints : joint_names s' = joint_names s;
  sv_node : forall n, node_view n s' = node_view n s;
  sv_joint : forall n, jointByName n s' = jointByName n s;
  sv_make : forall fuel root t axis X0 Xb, makeMultiBody fuel root t axis X0 Xb s' = makeMultiBody fuel root t axis X0 Xb s;
  sv_base : forall fuel root Xb, bodiesBaseTransform fuel root Xb s' = bodiesBaseTransform fuel root Xb s;
  sv_succ : forall fuel root, successorJoints fuel root s' = successorJoints fuel root s;
  sv_pred : forall fuel root, predecessorJoint fuel root s' = predecessorJoint fuel root s
}.
(** The same without jointByName. *)
Record same_multibodies (s s' : GSt) : Prop := {
  sm_root : gRoot (snd s') = gRoot (snd s);
  sm_bodies : body_names s' = body_names s;
  sm_joints : joint_names s' = joint_names s;
  sm_node : forall n, node_view n s' = node_view n s;
  sm_make : forall fuel root t axis X0 Xb, makeMultiBody fuel root t axis X0 Xb s' = makeMultiBody fuel root t axis X0 Xb s;
  sm_base : forall fuel root Xb, bodiesBaseTransform fuel root Xb s' = bodiesBaseTransform fuel root Xb s;
  sm_succ : forall fuel root, successorJoints fuel root s' = successorJoints fuel root s;
  sm_pred : forall fuel root, predecessorJoint fuel root s' = predecessorJoint fuel root s
}.
(** The links of the bodies of the graph lead to bodies of the graph. *)
Definition links_inside (s : GSt) : Prop :=
  forall a e, In a (gNodes (snd s)) -> In e (arcs_at (fst s) a) -> In (aNext e) (gNodes (snd s)).
(** fixJoints was not called with fixAllJoints. *)
Definition no_fix_all (os : list gop) : Prop := forall k names, ~ In (OpFix k names true) os.

(** ** fixJoints. *)
(** The joint [j'] is [j] when its name is not in the list, and otherwise a fixed joint of the
    same name and direction. *)
Definition fixed_in (names : list string) (j j' : Joint) : Prop :=
  (In (jname j) names -> jtyp j' = Fixed /\ jdof j' = 0%nat /\ jparams j' = 0%nat /\ jname j' = jname j /\ jfwd j' = jfwd j) /\ (~ In (jname j) names -> j' = j).
(** The same multibody but for joints: the root joint is the same, the others are related by [Q]. *)
Record fixed_mb (Q : Joint -> Joint -> Prop) (mb mb' : MultiBody) : Prop := {
  fm_bodies : mb_bodies mb' = mb_bodies mb;
  fm_pred : mb_pred mb' = mb_pred mb;
  fm_succ : mb_succ mb' = mb_succ mb;
  fm_parent : mb_parent mb' = mb_parent mb;
  fm_Xt : mb_Xt mb' = mb_Xt mb;
  fm_root : hd_error (mb_joints mb') = hd_error (mb_joints mb);
  fm_joints : Forall2 Q (tl (mb_joints mb)) (tl (mb_joints mb'))
}.

(** ** Careful histories. *)
(** Calls on existing graphs; joints come from the constructors; a link uses a joint that is not
    on a link yet and joins two bodies that are not connected yet; removals and merges start from
    a body with no link named like the root joint (or from an unknown body); fixJoints is not
    called with fixAllJoints; the graph has no more bodies than the fuel. *)
Definition careful_call (fuel : nat) (P : Prog) (o : gop) : Prop :=
  match o with
  | OpNew _ => True
  | OpAddBody k _ | OpClear k | OpCopy k => (k < length (pGraphs P))%nat
  | OpAddJoint k J => (k < length (pGraphs P))%nat /\ joint_ok J
  | OpAssign k l => (k < length (pGraphs P))%nat /\ (l < length (pGraphs P))%nat
  | OpFix k _ all => (k < length (pGraphs P))%nat /\ all = false
  | OpLink k b1 _ b2 _ jn _ =>
      exists s, graph_st P k = Some s /\
        forall n1 n2, mfind (gBody (snd s)) b1 = Some n1 -> mfind (gBody (snd s)) b2 = Some n2 ->
          ~ conn (fst s) n1 n2 /\ link_joints (fun j => jname j <> jn) s
  | OpRemoveJoint k root _ | OpRemoveJoints k root _ | OpMerge k root _ _ =>
      exists s, graph_st P k = Some s /\ (length (gNodes (snd s)) <= fuel)%nat /\
        forall r, mfind (gBody (snd s)) root = Some r -> root_name_free s r
  end.
Fixpoint careful (fuel : nat) (os : list gop) (P : Prog) : Prop :=
  match os with
  | [] => True
  | o :: os => careful_call fuel P o /\ forall P', step fuel o P = PRet P' \/ (exists e, step fuel o P = PExc e P') -> careful fuel os P'
  end.
