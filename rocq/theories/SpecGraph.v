(** Vocabulary for the statements about MultiBodyGraph: links, connectedness, cycles, what a
    consistent graph is, and histories of operations on several graphs. *)
From Coq Require Import Reals String ZArith Bool Arith List Relations.
From Verif Require Import Res SMap Vec Mat Sva JointM MultiBodyM KinM GraphM Spec.
Import ListNotations.
Open Scope R_scope.

(** ** Reading a graph. *)
Definition arcs_at (h : Heap) (a : nat) : list Arc :=
  match nth_error (hNodes h) a with Some nd => nArcs nd | None => [] end.
Definition body_at (h : Heap) (a : nat) : Body :=
  match nth_error (hNodes h) a with Some nd => nBody nd | None => mkBody rbi0 EmptyString end.
Definition joint_at (h : Heap) (p : nat) : Joint := nth p (hJoints h) jd.
(** The names of the bodies and of the joints of a graph, in order of insertion. *)
Definition body_names (s : GSt) : list string := map (fun a => bname (body_at (fst s) a)) (gNodes (snd s)).
Definition joint_names (s : GSt) : list string := map (fun p => jname (joint_at (fst s) p)) (gJoints (snd s)).

(** ** Graph theory over the heap. *)
Definition adj (h : Heap) (a b : nat) : Prop := exists e, In e (arcs_at h a) /\ aNext e = b.
(** Two bodies joined by links. *)
Definition conn (h : Heap) : nat -> nat -> Prop := clos_refl_trans nat (adj h).
Fixpoint gwalk (R : nat -> nat -> Prop) (w : list nat) : Prop :=
  match w with a :: ((b :: _) as w') => R a b /\ gwalk R w' | _ => True end.
(** A cycle: at least three different bodies, each linked to the next and the last to the first. *)
Definition cycle (R : nat -> nat -> Prop) (c : list nat) : Prop :=
  (3 <= length c)%nat /\ NoDup c /\ gwalk R c /\ R (last c 0%nat) (hd 0%nat c).
(** No body linked to itself, no two links between the same bodies, no cycle. *)
Record cycle_free (h : Heap) (g : Graph) : Prop := {
  cf_self : forall a, In a (gNodes g) -> ~ adj h a a;
  cf_single : forall a, In a (gNodes g) -> NoDup (map aNext (arcs_at h a));
  cf_cycle : forall c, (forall a, In a c -> In a (gNodes g)) -> ~ cycle (adj h) c
}.

(** ** Consistent graph. *)
Record names_ok_g (s : GSt) : Prop := {
  ng_bodies : NoDup (body_names s);
  ng_joints : NoDup (joint_names s);
  ng_body : forall n a, mfind (gBody (snd s)) n = Some a <-> In a (gNodes (snd s)) /\ bname (body_at (fst s) a) = n;
  ng_joint : forall n p, mfind (gJoint (snd s)) n = Some p <-> In p (gJoints (snd s)) /\ jname (joint_at (fst s) p) = n;
  ng_node : forall a, In a (gNodes (snd s)) -> (a < length (hNodes (fst s)))%nat;
  ng_jnt : forall p, In p (gJoints (snd s)) -> (p < length (hJoints (fst s)))%nat
}.
(** Every link is seen from both its ends, with opposite directions, and uses one joint of the
    graph, which no other link uses. *)
Record graph_ok (s : GSt) : Prop := {
  gk_names : names_ok_g s;
  gk_next : forall a e, In a (gNodes (snd s)) -> In e (arcs_at (fst s) a) -> In (aNext e) (gNodes (snd s));
  gk_joint : forall a e, In a (gNodes (snd s)) -> In e (arcs_at (fst s) a) -> In (ajn e) (joint_names s);
  gk_pair : forall a e, In a (gNodes (snd s)) -> In e (arcs_at (fst s) a) ->
    exists e', In e' (arcs_at (fst s) (aNext e)) /\ aNext e' = a /\
               aJoint e' = set_forward (aJoint e) (negb (jfwd (aJoint e)));
  gk_once : forall a, In a (gNodes (snd s)) -> NoDup (map ajn (arcs_at (fst s) a));
  gk_link : forall a b e e', In a (gNodes (snd s)) -> In b (gNodes (snd s)) -> a <> b ->
    In e (arcs_at (fst s) a) -> In e' (arcs_at (fst s) b) -> ajn e = ajn e' -> aNext e = b /\ aNext e' = a
}.
(** A property of all the joints on the links. *)
Definition link_joints (P : Joint -> Prop) (s : GSt) : Prop :=
  forall a e, In a (gNodes (snd s)) -> In e (arcs_at (fst s) a) -> P (aJoint e).

(** ** Programs: several graphs over one heap, and what a caller can do with them. *)
Record Prog := mkProg { pHeap : Heap; pGraphs : list Graph }.
Definition prog0 : Prog := mkProg (mkHeap [] []) [].
Definition graph_st (P : Prog) (k : nat) : option GSt :=
  match nth_error (pGraphs P) k with Some g => Some (pHeap P, g) | None => None end.
Inductive gop :=
| OpNew (rootName : string)
| OpAddBody (k : nat) (B : Body)
| OpAddJoint (k : nat) (J : Joint)
| OpLink (k : nat) (b1 : string) (t1 : PT) (b2 : string) (t2 : PT) (jn : string) (b1to2 : bool)
| OpRemoveJoint (k : nat) (root jn : string)
| OpRemoveJoints (k : nat) (root : string) (js : list string)
| OpMerge (k : nat) (root jn : string) (pos : smap (list R))
| OpClear (k : nat)
| OpCopy (k : nat)
| OpAssign (k l : nat)
| OpFix (k : nat) (names : list string) (all : bool).
(** The graph an operation modifies; the others create a new one. *)
Definition target (o : gop) : option nat :=
  match o with
  | OpNew _ | OpCopy _ | OpFix _ _ _ => None
  | OpAddBody k _ | OpAddJoint k _ | OpLink k _ _ _ _ _ _ | OpRemoveJoint k _ _ | OpRemoveJoints k _ _
  | OpMerge k _ _ _ | OpClear k | OpAssign k _ => Some k
  end.
(** Outcome of a call on a program: it returns, it throws (and leaves a state behind), or the
    behaviour is undefined or the call does not return. *)
Inductive pout := PRet (P : Prog) | PExc (e : exn) (P : Prog) | PUB | PDiv.
Definition on_graph (P : Prog) (k : nat) (f : GM unit) : pout :=
  match nth_error (pGraphs P) k with
  | None => PUB
  | Some g =>
      match f (pHeap P, g) with
      | GRet _ s => PRet (mkProg (fst s) (upd (pGraphs P) k (snd s)))
      | GExc e s => PExc e (mkProg (fst s) (upd (pGraphs P) k (snd s)))
      | GUB => PUB
      | GDiv => PDiv
      end
  end.
(** A new graph; an exception thrown while it is built leaves the others as they were. *)
Definition new_graph (P : Prog) (r : res GSt) : pout :=
  match r with
  | Ok s => PRet (mkProg (fst s) (pGraphs P ++ [snd s]))
  | Throw e => PExc e P
  | UB => PUB
  | Diverge => PDiv
  end.
Definition of_graph (P : Prog) (k : nat) (f : Graph -> res GSt) : res GSt :=
  g <- get (pGraphs P) k ;; f g.
Definition step (fuel : nat) (o : gop) (P : Prog) : pout :=
  match o with
  | OpNew n => new_graph P (Ok (pHeap P, Graph_ctor n))
  | OpAddBody k B => on_graph P k (addBody B)
  | OpAddJoint k J => on_graph P k (addJoint J)
  | OpLink k b1 t1 b2 t2 jn d => on_graph P k (linkBodies b1 t1 b2 t2 jn d)
  | OpRemoveJoint k root jn => on_graph P k (removeJoint fuel root jn)
  | OpRemoveJoints k root js => on_graph P k (removeJoints fuel root js)
  | OpMerge k root jn pos => on_graph P k (mergeSubBodies fuel root jn pos)
  | OpClear k => on_graph P k clear
  | OpCopy k => new_graph P (of_graph P k (fun g => Graph_copy g (pHeap P)))
  | OpAssign k l =>
      if (k =? l)%nat then match nth_error (pGraphs P) k with Some _ => PRet P | None => PUB end
      else match nth_error (pGraphs P) l with Some g => on_graph P k (Graph_assign g) | None => PUB end
  | OpFix k names all => new_graph P (of_graph P k (fun g => fixJoints g names all (pHeap P)))
  end.
(** A history: the caller catches the exceptions and goes on. [None]: undefined behaviour or a
    call that does not return within the fuel. *)
Fixpoint run_ops (fuel : nat) (os : list gop) (P : Prog) : option Prog :=
  match os with
  | [] => Some P
  | o :: os => match step fuel o P with PRet P' | PExc _ P' => run_ops fuel os P' | _ => None end
  end.

(** ** Joints and bodies behind a joint: what can no longer be reached from the root when the
    link of that joint is taken away. *)
Definition adj_no (h : Heap) (jn : string) (a b : nat) : Prop :=
  exists e, In e (arcs_at h a) /\ aNext e = b /\ ajn e <> jn.
Definition conn_no (h : Heap) (jn : string) : nat -> nat -> Prop := clos_refl_trans nat (adj_no h jn).
Definition behind (h : Heap) (root : nat) (jn : string) (a : nat) : Prop :=
  conn h root a /\ ~ conn_no h jn root a.

(** The link leads to the parent of a body ([p], negative when it has none). *)
Definition to_parent (ord : list nat) (p : Z) (e : Arc) : bool :=
  if (p <? 0)%Z then false else (aNext e =? nth (Z.to_nat p) ord 0)%nat.
(** ** A multibody laid out from a graph.
    [ord] gives, in the order of the multibody, the bodies of the graph; [base] gives the frame
    used for each body, in the coordinates of the body of the graph: the anchor of the link that
    leads to the parent, the caller's X_b0_j0 for the root. The joints that leave body i, in
    order, are its links in the order they were made, without the one that leads to its parent. *)
Record mb_of_graph (s : GSt) (r : nat) (j0 : Joint) (X0 Xb : PT) (ord : list nat) (base : list PT) (mb : MultiBody) : Prop := {
  mg_root : hd_error ord = Some r;
  mg_once : NoDup ord;
  mg_all : forall b, In b ord <-> conn (fst s) r b;
  mg_base_len : length base = length ord;
  mg_bodies_len : length (mb_bodies mb) = length ord;
  mg_joints_len : length (mb_joints mb) = length ord;
  mg_parent_len : length (mb_parent mb) = length ord;
  mg_Xt_len : length (mb_Xt mb) = length ord;
  mg_pred : mb_pred mb = mb_parent mb;
  mg_succ : mb_succ mb = map Z.of_nat (seq 0 (length ord));
  mg_bodies : forall i, (i < length ord)%nat ->
    nth i (mb_bodies mb) bd = mkBody (ptdualI (nth i base ptid) (binertia (body_at (fst s) (nth i ord 0%nat)))) (bname (body_at (fst s) (nth i ord 0%nat)));
  mg_first : nth 0 (mb_joints mb) jd = j0 /\ nth 0 (mb_parent mb) 0%Z = (-1)%Z /\ nth 0 (mb_Xt mb) ptid = X0 /\ nth 0 base ptid = Xb;
  mg_next : forall i, (0 < i < length ord)%nat -> exists p e e', (p < i)%nat /\
    nth i (mb_parent mb) 0%Z = Z.of_nat p /\
    In e (arcs_at (fst s) (nth p ord 0%nat)) /\ aNext e = nth i ord 0%nat /\
    In e' (arcs_at (fst s) (nth i ord 0%nat)) /\ aNext e' = nth p ord 0%nat /\
    nth i (mb_joints mb) jd = aJoint e /\ nth i (mb_Xt mb) ptid = ptmul (aX e) (ptinv (nth p base ptid)) /\ nth i base ptid = aX e';
  mg_kids : forall i, (i < length ord)%nat ->
    map (fun k => (nth k ord 0%nat, nth k (mb_joints mb) jd)) (filter (fun k => (nth k (mb_parent mb) 0 =? Z.of_nat i)%Z) (seq 0 (length ord)))
    = map (fun e => (aNext e, aJoint e)) (filter (fun e => negb (to_parent ord (nth i (mb_parent mb) 0%Z) e)) (arcs_at (fst s) (nth i ord 0%nat)))
}.

(** ** Poses. *)
(** The transforms given to linkBodies have rotation matrices. *)
Definition graph_rigid (s : GSt) : Prop :=
  forall a e, In a (gNodes (snd s)) -> In e (arcs_at (fst s) a) -> SO3 (rotE (aX e)).
(** [P] places the bodies connected to [r] so that every link is respected at the joint
    positions [qn]: the frame of the joint seen from the far body is the frame of the joint
    seen from the near body, moved by the joint. *)
Definition placement (s : GSt) (r : nat) (qn : string -> list R) (P : nat -> PT) : Prop :=
  forall a e e', conn (fst s) r a -> In e (arcs_at (fst s) a) ->
    In e' (arcs_at (fst s) (aNext e)) -> aNext e' = a -> ajn e' = ajn e ->
    exists X, pose (aJoint e) (qn (ajn e)) = Ok X /\ ptmul (aX e') (P (aNext e)) = ptmul (ptmul X (aX e)) (P a).
(** The configuration gives the joints, but the root joint, these positions. *)
Definition joint_pos (mb : MultiBody) (m : MBC) (qn : string -> list R) : Prop :=
  forall i j, (0 < i)%nat -> nth_error (mb_joints mb) i = Some j -> nth_error (q m) i = Some (qn (jname j)).
(** Pose of the body of that name as it was added to the graph: bodyPosW, brought back to the
    body's own base with the transform of bodiesBaseTransform. *)
Definition body_pose (mb : MultiBody) (m : MBC) (tm : smap PT) (n : string) (X : PT) : Prop :=
  exists i W B, sBodyIndexByName mb n = Ok (Z.of_nat i) /\ nth_error (bodyPosW m) i = Some W /\ mfind tm n = Some B /\ X = ptmul B W.
(** Sum over a list. *)
Definition lsum {A} (f : A -> R) (l : list A) : R := fold_right (fun a x => f a + x) 0 l.
